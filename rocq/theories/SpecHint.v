(** Splines in doubles with finite, nondecreasing knots. *)
From Coq Require Import Reals List Floats.
From Verif Require Import Base Num FloatM MeshM SplineM SpecSpline SpecSplineObj SpecRound.

Definition sorted_finite (s : spline float) : Prop :=
  forall d, (d < sp_dim s)%nat -> (forall a, In a (knot_of s d) -> double_finite a) /\ nondecreasing (map double_val (knot_of s d)).
