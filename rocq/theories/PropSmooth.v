(** C90: smoothness. Properties only; the proofs are in SmoothTop. *)
From Coq Require Import List Arith Bool ZArith QArith Reals.
From Verif Require Import SplineCons.
From Verif Require Import Base Num MeshM SplineM InterpM SpecMesh SpecSpline SpecSplineObj SpecInterp SpecSmooth MeshProofs SplineProofs SmoothTop
  PropSplineEx PropInterpEx PropSmoothEx SpecInterp.
Import ListNotations.
Open Scope R_scope.

(** C90: an interpolation of order p >= 1 and its derivatives of orders up to
    p - 1 in each variable are continuous everywhere (at knots, at the ends of
    periods, outside the grid), and [derivative] gives the derivatives. *)
Theorem C90_interpolation_smooth : forall on nd p per dims ranges f g,
  good_input nd p per dims ranges -> (1 <= p)%nat -> m_dims f = dims -> wf_mesh f ->
  interp_make Rops on nd p per f ranges = Ok g ->
  exists F, smooth_family (length per) (p - 1) F /\
    forall xs, length xs = length per -> countable_point nd per dims ranges xs ->
      interp_eval Rops g xs = Ok (F (repeat 0%nat (length per)) xs) /\
      forall orders, length orders = length per -> interp_derivative Rops on g xs orders = Ok (F orders xs).
Proof. exact interp_smooth. Qed.
Print Assumptions C90_interpolation_smooth.
Example C90_example :
  good_input false 3 [false; true] gdims (gx IZR) /\ wf_mesh (gdata IZR) /\
  (exists g, interp_make Rops true false 3 [false; true] (gdata IZR) (gx IZR) = Ok g) /\
  countable_point false [false; true] gdims (gx IZR) [7; -1/2].
Proof. exact ex_smooth. Qed.
Example C90_example_run : (* second derivatives at the two ends of the period *)
  bind (interp_make Qops true false 3 [false; true] (gdata inject_Z) (gx inject_Z)) (fun g =>
  bind (interp_derivative Qops true g [2; 0]%Q [1; 2]%nat) (fun a => bind (interp_derivative Qops true g [2; 4]%Q [1; 2]%nat) (fun b => Ok (a, b)))) =
  Ok (-1#4, -1#4)%Q.
Proof. vm_compute. reflexivity. Qed.

(** C90: the same for splines with given knots, none of them repeated inside
    the range. *)
Theorem C90_spline_smooth : forall on s,
  good_spline s -> (1 <= sp_order s)%nat ->
  (forall d, (d < sp_dim s)%nat -> strict_knots s d /\ (per_of s d = true -> periodic_knots s d)) ->
  exists F, smooth_family (sp_dim s) (sp_order s - 1) F /\
    forall xs, length xs = sp_dim s ->
      spline_eval_plain Rops s xs = Ok (F (repeat 0%nat (sp_dim s)) xs) /\
      forall orders, length orders = sp_dim s ->
        spline_derivative_plain Rops on s (combine xs orders) = Ok (F orders xs).
Proof. exact spline_smooth. Qed.
Print Assumptions C90_spline_smooth.
Example C90_spline_example :
  good_spline (ex_spline IZR) /\
  (forall d, (d < 2)%nat -> strict_knots (ex_spline IZR) d /\ (per_of (ex_spline IZR) d = true -> periodic_knots (ex_spline IZR) d)).
Proof. exact ex_smooth_spline. Qed.
