(** Data of the examples in PropSmooth. *)
From Coq Require Import List Arith Lia Bool ZArith Reals Lra.
From Verif Require Import Base Num MeshM SplineM InterpM SpecMesh SpecSpline SpecSplineObj SpecInterp MeshProofs SplineProofs SplineCons PropSplineEx InterpFinal SpecInterp PropInterpEx.
Import ListNotations.
Open Scope R_scope.

Lemma ex_smooth :
  good_input false 3 [false; true] gdims (gx IZR) /\ wf_mesh (gdata IZR) /\
  (exists g, interp_make Rops true false 3 [false; true] (gdata IZR) (gx IZR) = Ok g) /\
  countable_point false [false; true] gdims (gx IZR) [7; -1/2].
Proof.
  split; [apply good_gx; lia|]. split; [reflexivity|]. split.
  - apply (make_ok true false 3 [false; true] gdims (gx IZR)); auto. apply good_gx; lia. apply solvable_gx; lia. reflexivity.
  - apply countable_gx. simpl. lra.
Qed.

Lemma ex_smooth_spline :
  good_spline (ex_spline IZR) /\
  (forall d, (d < 2)%nat -> strict_knots (ex_spline IZR) d /\ (per_of (ex_spline IZR) d = true -> periodic_knots (ex_spline IZR) d)).
Proof. exact (conj ex_good ex_strict_periodic). Qed.
