(** C93: approximation. Properties only; the proofs are in ApproxTop. *)
From Coq Require Import List Arith Bool ZArith QArith Reals.
From Verif Require Import Base Num MeshM SplineM InterpM SpecMesh SpecSpline SpecInterp SpecCurve SpecStab SpecApprox MeshProofs ApproxTop PropInterpEx PropApproxEx SpecInterp.
Import ListNotations.
Open Scope R_scope.

(** C93: interpolation of the values of a function on equally spaced periodic
    points stays near the function everywhere: if the function varies by at
    most w over (order+1)/2 grid steps, the error is at most a fixed multiple
    of w. *)
Theorem C93_error : forall on nd p per dims ranges F f g h w,
  good_input nd p per dims ranges -> (1 <= p <= 6)%nat -> uniform_periodic per ranges ->
  m_dims f = dims -> wf_mesh f -> interp_make Rops on nd p per f ranges = Ok g ->
  sampled nd per dims ranges F f -> periodic_function nd per dims ranges F ->
  mesh_width nd per dims ranges h -> varies nd per dims ranges F (INR (p + 1) / 2 * h) w ->
  forall xs, length xs = length per -> countable_point nd per dims ranges xs ->
  exists v, interp_eval Rops g xs = Ok v /\ Rabs (v - F xs) <= (1 + amplification p ^ length per) * w.
Proof. exact uniform_approx. Qed.
Print Assumptions C93_error.
Example C93_example :
  good_input true 3 [true; true] wdims (wx IZR) /\ uniform_periodic [true; true] (wx IZR) /\ wf_mesh (wdata IZR) /\
  (exists g, interp_make Rops true true 3 [true; true] (wdata IZR) (wx IZR) = Ok g) /\
  sampled true [true; true] wdims (wx IZR) wave (wdata IZR) /\ periodic_function true [true; true] wdims (wx IZR) wave /\
  mesh_width true [true; true] wdims (wx IZR) 1 /\ varies true [true; true] wdims (wx IZR) wave (INR (3 + 1) / 2 * 1) (PI * (INR (3 + 1) / 2 * 1)) /\
  countable_point true [true; true] wdims (wx IZR) [1/2; -7/2].
Proof. exact ex_wave. Qed.
Example C93_example_run : (* cos(pi/4) + sin(pi/4) = 1.41..., cos(pi/2) + sin(pi/6) = 0.5 *)
  evals (interp_make Qops true true 3 [true; true] (wdata inject_Z) (wx inject_Z)) [[1#2; -7#2]; [1; 1#3]]%Q = Ok [11#8; 13#27]%Q.
Proof. vm_compute. reflexivity. Qed.

(** C93: order 1, any grid. *)
Theorem C93_linear_error : forall on nd per dims ranges F f g h w,
  good_input nd 1 per dims ranges -> m_dims f = dims -> wf_mesh f -> interp_make Rops on nd 1 per f ranges = Ok g ->
  sampled nd per dims ranges F f -> periodic_function nd per dims ranges F ->
  mesh_width nd per dims ranges h -> varies nd per dims ranges F h w ->
  forall xs, length xs = length per -> countable_point nd per dims ranges xs -> in_grid nd per dims ranges xs ->
  exists v, interp_eval Rops g xs = Ok v /\ Rabs (v - F xs) <= w.
Proof. exact linear_approx. Qed.
Print Assumptions C93_linear_error.
Example C93_linear_example :
  good_input true 1 [true; true] wdims (wx IZR) /\ wf_mesh (wdata IZR) /\
  (exists g, interp_make Rops true true 1 [true; true] (wdata IZR) (wx IZR) = Ok g) /\
  sampled true [true; true] wdims (wx IZR) wave (wdata IZR) /\ periodic_function true [true; true] wdims (wx IZR) wave /\
  mesh_width true [true; true] wdims (wx IZR) 1 /\ varies true [true; true] wdims (wx IZR) wave 1 (PI * 1) /\
  countable_point true [true; true] wdims (wx IZR) [1/2; -7/2] /\ in_grid true [true; true] wdims (wx IZR) [1/2; -7/2].
Proof. exact ex_wave1. Qed.

(** C93: interpolations of a uniformly continuous function on finer and finer
    grids converge to it uniformly. *)
Theorem C93_converges : forall p n F, (1 <= p <= 6)%nat -> uniformly_continuous n F ->
  forall eps, 0 < eps -> exists delta, 0 < delta /\
  forall on nd per dims ranges f g, length per = n ->
    good_input nd p per dims ranges -> (uniform_periodic per ranges \/ p = 1%nat) ->
    m_dims f = dims -> wf_mesh f -> interp_make Rops on nd p per f ranges = Ok g ->
    sampled nd per dims ranges F f -> periodic_function nd per dims ranges F -> mesh_width nd per dims ranges delta ->
  forall xs, length xs = n -> countable_point nd per dims ranges xs -> in_grid nd per dims ranges xs ->
  exists v, interp_eval Rops g xs = Ok v /\ Rabs (v - F xs) <= eps.
Proof. exact approx_converges. Qed.
Print Assumptions C93_converges.
Example C93_converges_example : uniformly_continuous 2 wave /\ periodic_function true [true; true] wdims (wx IZR) wave.
Proof. exact (conj wave_continuous wave_periodic). Qed.
