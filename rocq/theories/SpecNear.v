(** Interpolation in doubles compared with exact interpolation. *)
From Coq Require Import Reals List Bool Floats ZArith.
From Verif Require Import Base Num FloatM MeshM SplineM InterpM SpecInterp SpecRound.
Import ListNotations.
Local Open Scope R_scope.

(** A multiple of 2^e. *)
Definition multiple (e : Z) (v : R) : Prop := exists z, v = IZR z * powerRZ 2 e.

(** The points of a grid, and the knots that belong to them, are multiples of
    a power of two, with some bits to spare.  [periodic]: the last point is the
    first one repeated.  Integers and binary fractions with a regular spacing
    are such grids. *)
Definition exact_grid (order : nat) (periodic : bool) (l : list float) : Prop :=
  let n := length l in
  let x := fun i => double_val (nth i l zero) in
  exists e X, (-1000 <= e <= 900)%Z /\ (forall a, In a l -> double_finite a /\ Rabs (double_val a) <= X) /\
    (INR order + 8) * X <= powerRZ 2 (53 + e) /\
    (forall i, (i < n)%nat -> multiple e (x i)) /\
    forall k, (k < n + 2 * order + 1)%nat ->
      multiple e (if periodic then per_knot order (n - 1) (x (n - 1)%nat - x 0%nat) x k else ap_knot order n x k).

(** The problem with grids [ls] and data [f] in doubles, and the same one in
    exact arithmetic with ranges [ranges] and data [fr]. *)
Record twin (nd : bool) (order : nat) (per : list bool) (dims : list nat) (ls : list (list float)) (f : mesh float)
  (ranges : list (xrange R)) (fr : mesh R) : Prop := {
  tw_input : good_input nd order per dims ranges;
  tw_points : forall d i, (d < length per)%nat -> (i < length (nth d ls []))%nat ->
    coordinate nd per dims ranges d i = double_val (nth i (nth d ls []) zero);
  tw_exact : forall d, (d < length per)%nat -> exact_grid order (nth d per false) (nth d ls []);
  tw_dims : m_dims fr = dims;
  tw_data : m_data fr = map double_val (m_data f);
}.

(** The coordinates [xs] are reduced to [xs'] in the periodic dimensions
    (BSpline.hpp:131-137) and lie within the data in the other ones. *)
Definition reduced (per : list bool) (ls : list (list float)) (g : interp float) (xs xs' : list float) : Prop :=
  length xs = length per /\ length xs' = length per /\
  forall d, (d < length per)%nat ->
    let l := nth d ls [] in
    let range := nth d (sp_range (if_spline g)) (zero, zero) in
    let r := if nth d per false then range else (nth 0 l zero, nth (length l - 1) l zero) in
    let v := double_val (nth d xs' zero) in
    wrap_coord Fops (nth d per false) range (nth d xs zero) = Ok (nth d xs' zero) /\ double_finite (nth d xs' zero) /\
    double_val (fst r) <= v <= double_val (snd r) /\ (nth d per false = true -> v < double_val (snd r)).
