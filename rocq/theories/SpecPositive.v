(** Splines in doubles with sorted knots, and points within their range. *)
From Coq Require Import Reals List Bool Floats ZArith.
From Verif Require Import Base Num FloatM MeshM SplineM SpecSpline SpecSplineObj SpecRound.
Import ListNotations.
Local Open Scope R_scope.

(** The knots are finite and nondecreasing, the last segment is not empty. *)
Definition sorted_doubles (s : spline float) : Prop :=
  forall d, (d < sp_dim s)%nat ->
    (forall a, In a (knot_of s d) -> double_finite a) /\ nondecreasing (map double_val (knot_of s d)) /\
    kn (map double_val (knot_of s d)) (last_of s d) < kn (map double_val (knot_of s d)) (last_of s d + 1).

(** The coordinates [xs], reduced to [xs'] in the periodic dimensions
    (BSpline.hpp:131-137), lie between the ends of the domain. *)
Definition in_domain (s : spline float) (xs xs' : list float) : Prop :=
  length xs = sp_dim s /\
  forall d, (d < sp_dim s)%nat ->
    let t := kn (map double_val (knot_of s d)) in
    wrap_coord Fops (per_of s d) (nth d (sp_range s) (zero, zero)) (nth d xs zero) = Ok (nth d xs' zero) /\
    double_finite (nth d xs' zero) /\
    t (sp_order s) <= double_val (nth d xs' zero) <= t (last_of s d + 1)%nat.

(** Not less than zero: zero, positive, or NaN. *)
Definition not_negative (a : float) : Prop := PrimFloat.ltb a zero = false.
(** Not greater than zero. *)
Definition not_positive (a : float) : Prop := PrimFloat.ltb zero a = false.
