(** What is assumed of grids and factors in statements about interpolation in
    doubles. *)
From Coq Require Import Reals List Bool Floats ZArith.
From Verif Require Import Base Num FloatM MeshM BandM SplineM InterpM SpecBand SpecSpline SpecRound.
Import ListNotations.
Local Open Scope R_scope.

(** A grid of points whose distances are well above the rounding errors of
    its coordinates.  [periodic]: the last point is the first one repeated; at
    odd orders the first point must survive the computation that moves the
    last one back by a period. *)
Record fit_grid (order : nat) (periodic : bool) (l : list float) : Prop := {
  fg_order : if periodic then (order + 2 <= length l)%nat else (1 <= order)%nat /\ (order + 1 <= length l)%nat;
  fg_size : INR (length l) <= powerRZ 2 40;
  fg_number : forall a, In a l -> double_finite a;
  fg_gap : exists X h, X <= powerRZ 2 900 /\ powerRZ 2 (-799) <= h /\ INR (length l) * powerRZ 2 (-46) * X <= h /\
    (forall a, In a l -> Rabs (double_val a) <= X) /\
    forall i, (i + 1 < length l)%nat -> h <= double_val (nth (i + 1) l zero) - double_val (nth i l zero);
  fg_back : periodic = true -> (order mod 2 = 1)%nat ->
    let x0 := nth 0 l zero in let xm := nth (length l - 1) l zero in
    double_val (xm - (xm - x0))%float = double_val x0;
}.

(** The entries of the factors held by a solver, zero outside of the stored
    cells (BandMatrix.hpp:36-52, 114-133). *)
Definition stored_factors (sv : solver float) (F : nat -> nat -> float) : Prop :=
  match sv with
  | Aperiodic b =>
      (forall i j, in_band (b_n b) (b_p b) (b_q b) i j -> band_get true b i j = Ok (F i j)) /\
      (forall i j, ~ in_band (b_n b) (b_p b) (b_q b) i j -> F i j = zero)
  | Periodic e =>
      (forall i j, in_ext (e_n e) (e_p e) (e_q e) i j -> eb_get true e i j = Ok (F i j)) /\
      (forall i j, ~ in_ext (e_n e) (e_p e) (e_q e) i j -> F i j = zero)
  end.

(** The factors of a system of [n] equations are numbers, and their product
    taken with absolute values has row sums of at most [G]. *)
Definition factors_within (n : nat) (F : nat -> nat -> float) (G : R) : Prop :=
  (forall i j, (i < n)%nat -> (j < n)%nat -> double_finite (F i j)) /\
  let L := lower (fun i j => double_val (F i j)) in
  let U := upper (fun i j => double_val (F i j)) in
  forall i, (i < n)%nat -> Rsum n (fun k => Rabs (L i k) * (1 + Rsum n (fun j => Rabs (U k j)))) <= G.

(** A template made for grids [ls] of points, one per dimension, in doubles:
    the grids are fit and match the numbers of data points; every dimension
    has at most [M] unknowns; the factors found by the constructor are within
    [G].  [nd] tells whether the repeated last point of a periodic dimension
    is left out of the data (Interpolation.hpp:20, InterpolationTemplate.hpp:20). *)
Record fit_template (on nd : bool) (order : nat) (per : list bool) (dims : list nat) (ls : list (list float))
  (t : templ float) (M : nat) (G : R) : Prop := {
  ft_made : templ_make Fops on nd order per dims (map (@Points float) ls) = Ok t;
  ft_dims : per <> [] /\ length dims = length per /\ length ls = length per;
  ft_grid : forall d, (d < length per)%nat -> fit_grid order (nth d per false) (nth d ls []);
  ft_size : forall d, (d < length per)%nat ->
    (nth d dims 0 + (if nd && nth d per false then 1 else 0) = length (nth d ls []))%nat;
  ft_unknowns : forall d, (d < length per)%nat ->
    (length (nth d ls []) - (if nth d per false then 1 else 0) <= M)%nat;
  ft_factors : forall d sv, nth_error (tp_solvers t) d = Some sv -> exists F, stored_factors sv F /\
    factors_within (length (nth d ls []) - (if nth d per false then 1 else 0)) F G;
  ft_small : INR (length per) * INR M * G <= powerRZ 2 40;
  ft_roundings : INR (roundings order (length per)) <= powerRZ 2 40;
}.

(** Data point [idx] of the grids. *)
Definition data_point (ls : list (list float)) (idx : list nat) : list float :=
  map (fun d => nth (nth d idx 0%nat) (nth d ls []) zero) (seq 0 (length ls)).
(** The indices of the distinct data points. *)
Definition data_index (per : list bool) (ls : list (list float)) (idx : list nat) : Prop :=
  length idx = length per /\
  forall d, (d < length per)%nat -> (nth d idx 0 < length (nth d ls []) - (if nth d per false then 1 else 0))%nat.
