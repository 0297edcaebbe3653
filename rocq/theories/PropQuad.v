(** C94: rate of approximation. Properties only; the proofs are in QuadTop. *)
From Coq Require Import List Arith Bool ZArith QArith Reals.
From Verif Require Import Base Num MeshM SplineM InterpM SpecMesh SpecSpline SpecInterp SpecCurve SpecStab SpecApprox SumR MeshProofs QuadTop PropInterpEx PropApproxEx PropQuadEx SpecInterp.
Import ListNotations.
Open Scope R_scope.

(** C94: on equally spaced periodic points the error of interpolating a
    function with bounded second derivatives is at most a fixed multiple of
    the square of the grid step. *)
Theorem C94_quadratic : forall on nd p per dims ranges F f g h M,
  good_input nd p per dims ranges -> (1 <= p <= 6)%nat -> uniform_periodic per ranges ->
  m_dims f = dims -> wf_mesh f -> interp_make Rops on nd p per f ranges = Ok g ->
  sampled nd per dims ranges F f -> periodic_function nd per dims ranges F ->
  mesh_width nd per dims ranges h -> curvature nd per dims ranges F M ->
  forall xs, length xs = length per -> countable_point nd per dims ranges xs ->
  exists v, interp_eval Rops g xs = Ok v /\
    Rabs (v - F xs) <= (1 + amplification p ^ length per) * (sum (length per) M / 2 * (INR (p + 1) / 2 * h) ^ 2).
Proof. exact uniform_quad. Qed.
Print Assumptions C94_quadratic.
Example C94_example :
  good_input true 3 [true; true] wdims (wx IZR) /\ uniform_periodic [true; true] (wx IZR) /\ wf_mesh (wdata IZR) /\
  (exists g, interp_make Rops true true 3 [true; true] (wdata IZR) (wx IZR) = Ok g) /\
  sampled true [true; true] wdims (wx IZR) wave (wdata IZR) /\ periodic_function true [true; true] wdims (wx IZR) wave /\
  mesh_width true [true; true] wdims (wx IZR) 1 /\ curvature true [true; true] wdims (wx IZR) wave (fun _ => (PI / 2) ^ 2) /\
  countable_point true [true; true] wdims (wx IZR) [1/2; -7/2].
Proof. exact ex_quad. Qed.

(** C94: order 1, any grid; the classical constant. *)
Theorem C94_linear : forall on nd per dims ranges F f g h M,
  good_input nd 1 per dims ranges -> m_dims f = dims -> wf_mesh f -> interp_make Rops on nd 1 per f ranges = Ok g ->
  sampled nd per dims ranges F f -> periodic_function nd per dims ranges F ->
  mesh_width nd per dims ranges h -> curvature nd per dims ranges F M ->
  forall xs, length xs = length per -> countable_point nd per dims ranges xs -> in_grid nd per dims ranges xs ->
  exists v, interp_eval Rops g xs = Ok v /\ Rabs (v - F xs) <= sum (length per) M * h ^ 2 / 8.
Proof. exact linear_quad. Qed.
Print Assumptions C94_linear.
Example C94_linear_example :
  good_input true 1 [false] [3]%nat (sqx IZR) /\ wf_mesh (sqdata IZR) /\
  (exists g, interp_make Rops true true 1 [false] (sqdata IZR) (sqx IZR) = Ok g) /\
  sampled true [false] [3]%nat (sqx IZR) square (sqdata IZR) /\ periodic_function true [false] [3]%nat (sqx IZR) square /\
  mesh_width true [false] [3]%nat (sqx IZR) 2 /\ curvature true [false] [3]%nat (sqx IZR) square (fun _ => 2) /\
  countable_point true [false] [3]%nat (sqx IZR) [2] /\ in_grid true [false] [3]%nat (sqx IZR) [2] /\
  square [2] = 4 /\ sum 1 (fun _ => 2) * 2 ^ 2 / 8 = 1.
Proof. exact ex_square. Qed.
Example C94_linear_run : (* 5 at 2, whose square is 4: the bound 1 is attained *)
  evals (interp_make Qops true true 1 [false] (sqdata inject_Z) (sqx inject_Z)) [[2]]%Q = Ok [5]%Q.
Proof. vm_compute. reflexivity. Qed.
