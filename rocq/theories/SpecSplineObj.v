(** Preconditions on spline objects and the quantities the properties speak
    about, in terms of the fields of the class only. *)
From Coq Require Import List Arith ZArith Reals.
From Verif Require Import Base Num MeshM SplineM SpecMesh SpecBand SpecSpline.
From Verif Require Import MeshProofs.
Import ListNotations.
Open Scope nat_scope.

Section Generic.
Context {T : Type}.
(** Knots, periodicity and number of control points of dimension [d]. *)
Definition knot_of (s : spline T) d : list T := nth d (sp_knots s) [].
Definition per_of (s : spline T) d : bool := nth d (sp_per s) false.
Definition num_of (s : spline T) d : nat := nth d (m_dims (sp_ctrl s)) 0.
(** Index of the last segment. *)
Definition last_of (s : spline T) d : nat := length (knot_of s d) - sp_order s - 2.

(** Shapes as the constructors produce them. *)
Record wf_spline (s : spline T) : Prop := {
  wf_knots : length (sp_knots s) = sp_dim s;
  wf_range : length (sp_range s) = sp_dim s;
  wf_ctrl : wf_mesh (sp_ctrl s);
  wf_dims : length (m_dims (sp_ctrl s)) = sp_dim s;
  wf_len : forall d, d < sp_dim s -> 2 * sp_order s + 2 <= length (knot_of s d);
  wf_num : forall d, d < sp_dim s ->
    if per_of s d then 0 < num_of s d else num_of s d = length (knot_of s d) - sp_order s - 1
}.

(** The control point with multi-index [idx]. *)
Definition ctrl_at (o : ops T) (s : spline T) (idx : list nat) : T :=
  nth (row_major (m_dims (sp_ctrl s)) idx) (m_data (sp_ctrl s)) (o0 o).

End Generic.

Open Scope R_scope.
Notation rng s d := (nth d (sp_range s) (0, 0)).

(** Preconditions on a spline: shapes, sorted knots, non-empty first and last
    segment, positive period. *)
Record good_spline (s : spline R) : Prop := {
  gs_wf : wf_spline s;
  gs_sorted : forall d, (d < sp_dim s)%nat -> nondecreasing (knot_of s d);
  gs_first : forall d, (d < sp_dim s)%nat ->
    kn (knot_of s d) (sp_order s) < kn (knot_of s d) (sp_order s + 1);
  gs_last : forall d, (d < sp_dim s)%nat ->
    kn (knot_of s d) (last_of s d) < kn (knot_of s d) (last_of s d + 1);
  gs_range : forall d, (d < sp_dim s)%nat -> per_of s d = true -> fst (rng s d) < snd (rng s d);
  gs_ends : forall d, (d < sp_dim s)%nat ->
    fst (rng s d) = kn (knot_of s d) (sp_order s) /\
    (snd (rng s d) = kn (knot_of s d) (last_of s d + 1) \/
     snd (rng s d) = kn (knot_of s d) (last_of s d))
}.

(** The coordinate used for a periodic dimension with range [a, b]. *)
Definition wrapped (periodic : bool) (r : R * R) (x x' : R) : Prop :=
  if periodic then
    (exists m : Z, x' = x + IZR m * (snd r - fst r)) /\
    (if Rle_dec (fst r) x then fst r <= x' < snd r else fst r < x' <= snd r)
  else x' = x.

(** Number of basis functions of a dimension. *)
Definition nbasis (s : spline R) d : nat := (length (knot_of s d) - sp_order s - 1)%nat.

(** Index of the control point of basis function [i]. *)
Definition wrap_idx (s : spline R) (idx : list nat) : list nat :=
  map (fun d => if per_of s d then (nth d idx 0 mod num_of s d)%nat else nth d idx 0%nat) (seq 0 (sp_dim s)).

(** Knots that continue periodically; the lengths are those of the
    constructor and of the interpolation templates (one more for even order). *)
Record periodic_knots (s : spline R) (d : nat) : Prop := {
  pk_per : per_of s d = true;
  pk_shift : forall i, (i + num_of s d < length (knot_of s d))%nat ->
    kn (knot_of s d) (i + num_of s d) = kn (knot_of s d) i + (snd (rng s d) - fst (rng s d));
  pk_len : length (knot_of s d) = (num_of s d + 2 * sp_order s + 1)%nat \/
           length (knot_of s d) = (num_of s d + 2 * sp_order s + 2)%nat
}.

(** [x] is inside the range of the knots, or the dimension is periodic. *)
Definition in_range (s : spline R) d (x : R) : Prop :=
  per_of s d = true \/ kn (knot_of s d) (sp_order s) <= x <= kn (knot_of s d) (last_of s d + 1).

(** No repeated knots inside the range. *)
Definition strict_knots (s : spline R) d : Prop :=
  forall i, (sp_order s <= i <= last_of s d)%nat -> kn (knot_of s d) i < kn (knot_of s d) (i + 1).

(** [x] is not at (a periodic copy of) a knot of the range. *)
Definition off_knots (s : spline R) d x : Prop :=
  forall x', wrapped (per_of s d) (rng s d) x x' ->
  forall i, (sp_order s <= i <= last_of s d + 1)%nat -> x' <> kn (knot_of s d) i.

