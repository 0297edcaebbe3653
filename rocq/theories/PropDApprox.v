(** C98: approximation of derivatives. Properties only; the proofs are in
    DApproxTop. *)
From Coq Require Import List Arith Bool ZArith QArith Reals.
From Verif Require Import Base Num MeshM SplineM InterpM SpecMesh SpecSpline SpecInterp SpecCurve SpecStab SpecApprox SpecSmooth SpecDApprox
  MeshProofs DApproxTop PropInterpEx PropApproxEx PropDApproxEx SpecInterp.
Import ListNotations.
Open Scope R_scope.

(** C98: interpolate the values of a function on equally spaced periodic
    points; [derivative] of the interpolation stays near the same mixed
    derivative of the function everywhere, whatever variables are
    differentiated, up to the order of the splines in each: if that derivative
    varies by at most w over order+1/2 grid steps, the error is at most a fixed
    multiple of w. *)
Theorem C98_error : forall on nd p per dims ranges vars F G f g h w,
  good_input nd p per dims ranges -> (1 <= p <= 6)%nat -> uniform_periodic per ranges ->
  m_dims f = dims -> wf_mesh f -> interp_make Rops on nd p per f ranges = Ok g ->
  sampled nd per dims ranges F f -> periodic_function nd per dims ranges F ->
  (forall d, In d vars -> (d < length per)%nat) -> (forall d, (d < length per)%nat -> (order_of vars d <= p)%nat) ->
  differentiates (length per) vars F G ->
  mesh_width nd per dims ranges h -> varies nd per dims ranges G (INR (2 * p + 1) / 2 * h) w ->
  forall xs, length xs = length per -> countable_point nd per dims ranges xs ->
  exists v, interp_derivative Rops on g xs (orders_of (length per) vars) = Ok v /\ Rabs (v - G xs) <= (1 + amplification p ^ length per) * w.
Proof. exact uniform_dapprox. Qed.
Print Assumptions C98_error.
Example C98_example :
  good_input true 3 [true; true] wdims (wx IZR) /\ uniform_periodic [true; true] (wx IZR) /\ wf_mesh (wdata IZR) /\
  (exists g, interp_make Rops true true 3 [true; true] (wdata IZR) (wx IZR) = Ok g) /\
  sampled true [true; true] wdims (wx IZR) wave (wdata IZR) /\ periodic_function true [true; true] wdims (wx IZR) wave /\
  (forall d, (d < 2)%nat -> (order_of [1; 1] d <= 3)%nat) /\ orders_of 2 [1; 1]%nat = [0; 2]%nat /\ differentiates 2 [1; 1]%nat wave wave2 /\
  mesh_width true [true; true] wdims (wx IZR) 1 /\
  varies true [true; true] wdims (wx IZR) wave2 (INR (2 * 3 + 1) / 2 * 1) (PI / 2 * (PI / 2) * (PI / 2) * (INR (2 * 3 + 1) / 2 * 1)) /\
  countable_point true [true; true] wdims (wx IZR) [1/2; -7/2].
Proof. exact ex_dwave. Qed.
Example C98_example_run : (* -(pi/2)^2 sin(pi/2) = -2.46..., -(pi/2)^2 sin(pi/4) = -1.74... *)
  bind (interp_make Qops true true 3 [true; true] (wdata inject_Z) (wx inject_Z)) (fun g =>
  bind (interp_derivative Qops true g [1#2; 1]%Q [0; 2]%nat) (fun a => bind (interp_derivative Qops true g [1#2; -7#2]%Q [0; 2]%nat) (fun b => Ok (a, b)))) =
  Ok (-3, -3#2)%Q.
Proof. vm_compute. reflexivity. Qed.

(** C98: on finer and finer grids the derivatives of the interpolations
    converge uniformly to the derivative of the function, if that is uniformly
    continuous. *)
Theorem C98_converges : forall p n vars F G, (1 <= p <= 6)%nat ->
  (forall d, In d vars -> (d < n)%nat) -> (forall d, (d < n)%nat -> (order_of vars d <= p)%nat) ->
  differentiates n vars F G -> uniformly_continuous n G ->
  forall eps, 0 < eps -> exists delta, 0 < delta /\
  forall on nd per dims ranges f g, length per = n ->
    good_input nd p per dims ranges -> uniform_periodic per ranges ->
    m_dims f = dims -> wf_mesh f -> interp_make Rops on nd p per f ranges = Ok g ->
    sampled nd per dims ranges F f -> periodic_function nd per dims ranges F -> mesh_width nd per dims ranges delta ->
  forall xs, length xs = n -> countable_point nd per dims ranges xs ->
  exists v, interp_derivative Rops on g xs (orders_of n vars) = Ok v /\ Rabs (v - G xs) <= eps.
Proof. exact dapprox_converges. Qed.
Print Assumptions C98_converges.
Example C98_converges_example : differentiates 2 [1; 1]%nat wave wave2 /\ uniformly_continuous 2 wave2 /\ (forall d, (d < 2)%nat -> (order_of [1; 1] d <= 3)%nat).
Proof. exact ex_dconverge. Qed.
