(** C91: monotone functions. Properties only; the proofs are in MonoTop. *)
From Coq Require Import List Arith Bool ZArith QArith Reals.
From Verif Require Import SplineCons.
From Verif Require Import Base Num MeshM SplineM InterpM SpecMesh SpecSpline SpecSplineObj SpecInterp SpecSmooth SpecCurve SpecMono MeshProofs SplineProofs MonoTop
  PropSplineEx PropInterpEx PropMonoEx SpecInterp.
Import ListNotations.
Open Scope R_scope.

(** C91: control points that do not decrease (increase) along a dimension
    without period give a function that does not decrease (increase) in that
    variable. *)
Theorem C91_spline_monotone : forall s d xs y,
  good_spline s -> (d < sp_dim s)%nat -> per_of s d = false -> strict_knots s d ->
  length xs = sp_dim s -> nth d xs 0 <= y ->
  (forall e, (e < sp_dim s)%nat -> in_range s e (nth e xs 0)) -> in_range s d y ->
  exists u v, spline_eval_plain Rops s xs = Ok u /\ spline_eval_plain Rops s (with_at xs d y) = Ok v /\
    (increasing_along (m_dims (sp_ctrl s)) (ctrl_at Rops s) d -> u <= v) /\
    (decreasing_along (m_dims (sp_ctrl s)) (ctrl_at Rops s) d -> v <= u).
Proof. exact spline_monotone. Qed.
Print Assumptions C91_spline_monotone.
Example C91_spline_example :
  good_spline (ex_spline IZR) /\ per_of (ex_spline IZR) 0 = false /\ strict_knots (ex_spline IZR) 0 /\
  (forall e, (e < 2)%nat -> in_range (ex_spline IZR) e (nth e [1/2; 7/2] 0)) /\ in_range (ex_spline IZR) 0 (3/2) /\
  increasing_along (m_dims (sp_ctrl (ex_spline IZR))) (ctrl_at Rops (ex_spline IZR)) 0.
Proof. exact ex_mono_spline. Qed.

(** C91: order 1 keeps monotone data monotone, also beyond the ends of the
    grid in that variable. *)
Theorem C91_linear_monotone : forall on nd per dims ranges f g,
  good_input nd 1 per dims ranges -> m_dims f = dims -> wf_mesh f ->
  interp_make Rops on nd 1 per f ranges = Ok g ->
  forall d xs y, (d < length per)%nat -> nth d per false = false ->
  length xs = length per -> nth d xs 0 <= y ->
  countable_point nd per dims ranges xs -> countable_point nd per dims ranges (with_at xs d y) ->
  (forall e, (e < length per)%nat -> e <> d -> nth e per false = true \/
     coordinate nd per dims ranges e 0 <= nth e xs 0 <= coordinate nd per dims ranges e (nth e dims 0%nat - 1)) ->
  exists u v, interp_eval Rops g xs = Ok u /\ interp_eval Rops g (with_at xs d y) = Ok v /\
    (increasing_along dims (val_at f) d -> u <= v) /\ (decreasing_along dims (val_at f) d -> v <= u).
Proof. exact linear_monotone. Qed.
Print Assumptions C91_linear_monotone.
Example C91_example :
  good_input false 1 [false; true] gdims (gx IZR) /\ wf_mesh (gmono IZR) /\
  (exists g, interp_make Rops true false 1 [false; true] (gmono IZR) (gx IZR) = Ok g) /\
  countable_point false [false; true] gdims (gx IZR) [2; -1/2] /\ countable_point false [false; true] gdims (gx IZR) (with_at [2; -1/2] 0 7) /\
  increasing_along gdims (val_at (gmono IZR)) 0.
Proof. exact ex_mono. Qed.
Example C91_example_run :
  evals (interp_make Qops true false 1 [false; true] (gmono inject_Z) (gx inject_Z)) [[2; -1#2]; [7; -1#2]]%Q = Ok [6; 21#2]%Q.
Proof. vm_compute. reflexivity. Qed.

(** C91: values of order 1 stay between the least and the greatest data value. *)
Theorem C91_linear_between : forall on nd per dims ranges f g,
  good_input nd 1 per dims ranges -> m_dims f = dims -> wf_mesh f ->
  interp_make Rops on nd 1 per f ranges = Ok g ->
  forall xs lo hi, length xs = length per -> countable_point nd per dims ranges xs -> in_grid nd per dims ranges xs ->
  (forall idx, valid dims idx -> lo <= val_at f idx <= hi) ->
  exists u, interp_eval Rops g xs = Ok u /\ lo <= u <= hi.
Proof. exact linear_between. Qed.
Print Assumptions C91_linear_between.
Example C91_between_example :
  good_input false 1 [false; true] gdims (gx IZR) /\
  (exists g, interp_make Rops true false 1 [false; true] (gmono IZR) (gx IZR) = Ok g) /\
  countable_point false [false; true] gdims (gx IZR) [2; -1/2] /\ in_grid false [false; true] gdims (gx IZR) [2; -1/2] /\
  (forall idx, valid gdims idx -> 1 <= val_at (gmono IZR) idx <= 10).
Proof. exact ex_between. Qed.
