(** C95: grids that are nearly uniform or have no period. Properties only; the proofs are in TameTop. *)
From Coq Require Import List Arith Bool ZArith QArith Reals.
From Verif Require Import Base Num MeshM SplineM InterpM SpecMesh SpecSpline SpecInterp SpecCurve SpecStab SpecApprox SpecTame SumR MeshProofs TameTop PropInterpEx PropTameEx SpecInterp.
Import ListNotations.
Open Scope R_scope.

(** C95: interpolating slightly different data on such a grid changes the
    values by at most a fixed multiple of the difference. *)
Theorem C95_noise : forall on nd p per dims ranges f1 f2 g1 g2 eps,
  good_input nd p per dims ranges -> (p = 2 \/ p = 3)%nat -> tame nd p per dims ranges ->
  m_dims f1 = dims -> wf_mesh f1 -> m_dims f2 = dims -> wf_mesh f2 ->
  interp_make Rops on nd p per f1 ranges = Ok g1 -> interp_make Rops on nd p per f2 ranges = Ok g2 ->
  (forall idx, valid dims idx -> Rabs (val_at f1 idx - val_at f2 idx) <= eps) ->
  forall xs, length xs = length per -> countable_point nd per dims ranges xs -> in_grid nd per dims ranges xs ->
  exists u v, interp_eval Rops g1 xs = Ok u /\ interp_eval Rops g2 xs = Ok v /\ Rabs (u - v) <= tame_factor p ^ length per * eps.
Proof. exact tame_noise. Qed.
Print Assumptions C95_noise.
Example C95_noise_example :
  good_input true 3 hper hdims (hx IZR) /\ tame true 3 hper hdims (hx IZR) /\ wf_mesh (hdata IZR) /\ wf_mesh (hdata' IZR) /\
  (exists g, interp_make Rops true true 3 hper (hdata IZR) (hx IZR) = Ok g) /\
  (exists g, interp_make Rops true true 3 hper (hdata' IZR) (hx IZR) = Ok g) /\
  (forall idx, valid hdims idx -> Rabs (val_at (hdata IZR) idx - val_at (hdata' IZR) idx) <= 1) /\
  countable_point true hper hdims (hx IZR) [2; 5 / 2] /\ in_grid true hper hdims (hx IZR) [2; 5 / 2].
Proof. exact ex_noise. Qed.

(** C95: interpolation of the values of a function stays near the function. *)
Theorem C95_error : forall on nd p per dims ranges F f g h w,
  good_input nd p per dims ranges -> (p = 2 \/ p = 3)%nat -> tame nd p per dims ranges ->
  m_dims f = dims -> wf_mesh f -> interp_make Rops on nd p per f ranges = Ok g ->
  sampled nd per dims ranges F f -> periodic_function nd per dims ranges F ->
  mesh_width nd per dims ranges h -> varies nd per dims ranges F (INR p * h) w ->
  forall xs, length xs = length per -> countable_point nd per dims ranges xs -> in_grid nd per dims ranges xs ->
  exists v, interp_eval Rops g xs = Ok v /\ Rabs (v - F xs) <= (1 + tame_factor p ^ length per) * w.
Proof. exact tame_approx. Qed.
Print Assumptions C95_error.

(** C95: second order in the grid step. *)
Theorem C95_quadratic : forall on nd p per dims ranges F f g h M,
  good_input nd p per dims ranges -> (p = 2 \/ p = 3)%nat -> tame nd p per dims ranges ->
  m_dims f = dims -> wf_mesh f -> interp_make Rops on nd p per f ranges = Ok g ->
  sampled nd per dims ranges F f -> periodic_function nd per dims ranges F ->
  mesh_width nd per dims ranges h -> curvature nd per dims ranges F M ->
  forall xs, length xs = length per -> countable_point nd per dims ranges xs -> in_grid nd per dims ranges xs ->
  exists v, interp_eval Rops g xs = Ok v /\
    Rabs (v - F xs) <= (1 + tame_factor p ^ length per) * (sum (length per) M / 2 * (INR p * h) ^ 2).
Proof. exact tame_quad. Qed.
Print Assumptions C95_quadratic.
Example C95_example :
  good_input true 3 hper hdims (hx IZR) /\ tame true 3 hper hdims (hx IZR) /\ wf_mesh (hdata IZR) /\
  (exists g, interp_make Rops true true 3 hper (hdata IZR) (hx IZR) = Ok g) /\
  sampled true hper hdims (hx IZR) hill (hdata IZR) /\ periodic_function true hper hdims (hx IZR) hill /\
  mesh_width true hper hdims (hx IZR) 2 /\ varies true hper hdims (hx IZR) hill (INR 3 * 2) (2 * PI / 3 * 6 + 36) /\
  curvature true hper hdims (hx IZR) hill (fun d => match d with 0%nat => 2 * (PI / 3) ^ 2 | _ => 2 end) /\
  countable_point true hper hdims (hx IZR) [2; 5 / 2] /\ in_grid true hper hdims (hx IZR) [2; 5 / 2].
Proof. exact ex_hill. Qed.
Example C95_example_run : (* 2 cos(2 pi/3) + (5/2)^2 = 5.25 *)
  evals (interp_make Qops true true 3 hper (hdata inject_Z) (hx inject_Z)) [[2; 5#2]]%Q = Ok [149#28]%Q.
Proof. vm_compute. reflexivity. Qed.

(** C95: convergence on finer and finer such grids. *)
Theorem C95_converges : forall p n F, (p = 2 \/ p = 3)%nat -> uniformly_continuous n F ->
  forall eps, 0 < eps -> exists delta, 0 < delta /\
  forall on nd per dims ranges f g, length per = n ->
    good_input nd p per dims ranges -> tame nd p per dims ranges ->
    m_dims f = dims -> wf_mesh f -> interp_make Rops on nd p per f ranges = Ok g ->
    sampled nd per dims ranges F f -> periodic_function nd per dims ranges F -> mesh_width nd per dims ranges delta ->
  forall xs, length xs = n -> countable_point nd per dims ranges xs -> in_grid nd per dims ranges xs ->
  exists v, interp_eval Rops g xs = Ok v /\ Rabs (v - F xs) <= eps.
Proof. exact tame_converges. Qed.
Print Assumptions C95_converges.
Example C95_converges_example : uniformly_continuous 2 ripple /\ periodic_function true hper hdims (hx IZR) ripple.
Proof. exact (conj ripple_continuous ripple_periodic). Qed.
