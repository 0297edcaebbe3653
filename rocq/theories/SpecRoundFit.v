(** What is assumed of ranges of either kind in statements about
    interpolation in doubles. *)
From Coq Require Import Reals List Bool Floats ZArith.
From Verif Require Import Base Num FloatM MeshM BandM SplineM InterpM SpecBand SpecSpline SpecInterp SpecRound SpecRoundInterp.
Import ListNotations.
Local Open Scope R_scope.

(** A range argument (Interpolation.hpp:49-91) read as real numbers. *)
Definition real_range (r : xrange float) : xrange R :=
  match r with
  | Uniform a b => Uniform (double_val a) (double_val b)
  | Points l => Points (map double_val l)
  end.

(** The range of a dimension with [n] data points (the repeated end point of a
    periodic dimension included): its coordinates are at most [X] in absolute
    value and at least [h] apart.  A list of points must be fit in the sense of
    [fit_grid]. *)
Record fit_range (order : nat) (periodic : bool) (n : nat) (r : xrange float) (X h : R) : Prop := {
  fr_order : (1 <= order)%nat /\ (order + (if periodic then 2 else 1) <= n)%nat;
  fr_size : INR n <= powerRZ 2 40;
  fr_number : match r with
    | Uniform a b => double_finite a /\ double_finite b
    | Points l => length l = n /\ forall a, In a l -> double_finite a
    end;
  fr_reach : X <= powerRZ 2 900 /\ forall i, (i < n)%nat -> Rabs (grid_of (real_range r) n i) <= X;
  fr_step : powerRZ 2 (-798) <= h /\
    forall i, (i + 1 < n)%nat -> h <= grid_of (real_range r) n (i + 1) - grid_of (real_range r) n i;
  fr_points : match r with
    | Uniform _ _ => True
    | Points l => INR n * powerRZ 2 (-46) * X <= h /\
       (periodic = true -> (order mod 2 = 1)%nat ->
        let x0 := nth 0 l zero in let xm := nth (n - 1) l zero in
        double_val (xm - (xm - x0))%float = double_val x0)
    end;
}.

(** The number of grid points of dimension [d], the repeated end point of a
    periodic dimension included, and its range. *)
Definition grid_size (nd : bool) (per : list bool) (dims : list nat) (d : nat) : nat :=
  (nth d dims 0 + (if nd && nth d per false then 1 else 0))%nat.
Definition range_at (ranges : list (xrange float)) (d : nat) : xrange float := nth d ranges (Points []).
Definition grid_at (nd : bool) (per : list bool) (dims : list nat) (ranges : list (xrange float)) (d i : nat) : R :=
  grid_of (real_range (range_at ranges d)) (grid_size nd per dims d) i.
(** The number of unknowns of dimension [d]. *)
Definition unknowns (nd : bool) (per : list bool) (dims : list nat) (d : nat) : nat :=
  (grid_size nd per dims d - (if nth d per false then 1 else 0))%nat.

(** A template made in doubles for ranges of either kind.  [reach] bounds the
    coordinates of every dimension, [step] their distances from below, and
    [kappa] the quotients of the two. *)
Record fit_ranges (on nd : bool) (order : nat) (per : list bool) (dims : list nat) (ranges : list (xrange float))
  (t : templ float) (reach step : nat -> R) (kappa : R) (M : nat) (G : R) : Prop := {
  fs_made : templ_make Fops on nd order per dims ranges = Ok t;
  fs_dims : per <> [] /\ length dims = length per /\ length ranges = length per;
  fs_range : forall d, (d < length per)%nat ->
    fit_range order (nth d per false) (grid_size nd per dims d) (range_at ranges d) (reach d) (step d);
  fs_spread : 0 <= kappa /\ forall d, (d < length per)%nat -> reach d <= kappa * step d;
  fs_unknowns : forall d, (d < length per)%nat -> (unknowns nd per dims d <= M)%nat;
  fs_factors : forall d sv, nth_error (tp_solvers t) d = Some sv -> exists F, stored_factors sv F /\
    factors_within (unknowns nd per dims d) F G;
  fs_small : INR (length per) * INR M * G <= powerRZ 2 40 /\
    INR (length per) * (INR order * (1 + 128 * kappa)) <= powerRZ 2 40;
  fs_roundings : INR (roundings order (length per)) <= powerRZ 2 40;
}.

(** A place inside of the ranges that is data point [idx] up to rounding. *)
Definition near_data (nd : bool) (per : list bool) (dims : list nat) (ranges : list (xrange float)) (reach : nat -> R)
  (idx : list nat) (ys : list R) : Prop :=
  length idx = length per /\ length ys = length per /\
  forall d, (d < length per)%nat ->
    let x := grid_at nd per dims ranges d in
    (nth d idx 0 < unknowns nd per dims d)%nat /\
    x 0%nat <= nth d ys 0 <= x (grid_size nd per dims d - 1)%nat /\
    Rabs (nth d ys 0 - x (nth d idx 0%nat)) <= powerRZ 2 (-49) * reach d.
