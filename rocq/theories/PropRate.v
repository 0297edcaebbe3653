(** C99: order of approximation. Properties only; the proofs are in RateFinal. *)
From Coq Require Import List Arith Bool ZArith QArith Reals.
From Verif Require Import Base Num MeshM SplineM InterpM SpecMesh SpecSpline SpecInterp SpecCurve SpecStab SpecApprox SpecSmooth SpecRate SumR
  MeshProofs RateFinal PropInterpEx PropApproxEx PropRateEx SpecInterp.
Import ListNotations.
Open Scope R_scope.

(** C99: interpolate, with splines of order p, the values of a function that
    is p+1 times differentiable in each variable on equally spaced periodic
    points: the error is at most a fixed multiple, depending on p, the number
    of dimensions and the bounds of the (p+1)-th derivatives, of the (p+1)-th
    power of the distance of the points. *)
Theorem C99_values : forall on nd p per dims ranges F f g h M,
  good_input nd p per dims ranges -> (1 <= p <= 6)%nat -> uniform_periodic per ranges ->
  m_dims f = dims -> wf_mesh f -> interp_make Rops on nd p per f ranges = Ok g ->
  sampled nd per dims ranges F f -> periodic_function nd per dims ranges F ->
  mesh_width nd per dims ranges h -> smooth_along (length per) (p + 1) F M ->
  forall xs, length xs = length per -> countable_point nd per dims ranges xs ->
  exists v, interp_eval Rops g xs = Ok v /\
    Rabs (v - F xs) <= (1 + amplification p ^ length per) *
      (spread p ^ (length per + 1) * sum (length per) (fun d => M d / INR (fact (p + 1)) * (INR (2 * p + 1) / 2 * h) ^ (p + 1))).
Proof. exact uniform_order. Qed.
Print Assumptions C99_values.
Example C99_values_example :
  good_input true 3 [true; true] wdims (wx IZR) /\ uniform_periodic [true; true] (wx IZR) /\ wf_mesh (wdata IZR) /\
  (exists g, interp_make Rops true true 3 [true; true] (wdata IZR) (wx IZR) = Ok g) /\
  sampled true [true; true] wdims (wx IZR) wave (wdata IZR) /\ periodic_function true [true; true] wdims (wx IZR) wave /\
  mesh_width true [true; true] wdims (wx IZR) 1 /\ smooth_along 2 (3 + 1) wave (fun _ => 16) /\
  countable_point true [true; true] wdims (wx IZR) [1/2; -7/2].
Proof. exact ex_order. Qed.
Example C99_values_run : (* cos(pi/4) + sin(pi/2) = 1.7071..., cos(pi/4) + sin(pi/4) = 1.4142... *)
  bind (interp_make Qops true true 3 [true; true] (wdata inject_Z) (wx inject_Z)) (fun g =>
  bind (interp_eval Qops g [1#2; 1]%Q) (fun a => bind (interp_eval Qops g [1#2; -7#2]%Q) (fun b => Ok (a, b)))) =
  Ok (27#16, 11#8)%Q.
Proof. vm_compute. reflexivity. Qed.

(** C99: if the mixed derivatives of the function up to order p+1 in each
    variable are bounded, the derivatives of the interpolation are near those
    of the function as well; each differentiation costs one power of the
    distance of the points. *)
Theorem C99_derivatives : forall on nd p per dims ranges F f g h h0 M orders,
  good_input nd p per dims ranges -> (1 <= p <= 6)%nat -> uniform_periodic per ranges ->
  m_dims f = dims -> wf_mesh f -> interp_make Rops on nd p per f ranges = Ok g ->
  sampled nd per dims ranges (F (repeat 0%nat (length per))) f -> periodic_function nd per dims ranges (F (repeat 0%nat (length per))) ->
  mesh_width nd per dims ranges h -> 0 < h0 -> mesh_gap nd per dims ranges h0 ->
  derivative_family (length per) (p + 1) F ->
  (forall o xs, length o = length per -> length xs = length per -> (forall d, (d < length per)%nat -> (nth d o 0 <= p + 1)%nat) -> Rabs (F o xs) <= M) ->
  length orders = length per -> (forall d, (d < length per)%nat -> (nth d orders 0 <= p)%nat) ->
  forall xs, length xs = length per -> countable_point nd per dims ranges xs ->
  exists v, interp_derivative Rops on g xs orders = Ok v /\
    Rabs (v - F orders xs) <= (1 + amplification p ^ length per) *
      (spread p ^ (length per + 1) * (1 + 2 / h0) ^ fold_right Nat.add 0%nat orders *
        (INR (length per) * (M / INR (fact (p + 1)) * (INR (2 * p + 1) / 2 * h) ^ (p + 1)))).
Proof. exact uniform_dorder. Qed.
Print Assumptions C99_derivatives.
Example C99_derivatives_example :
  good_input true 3 [true; true] wdims (wx IZR) /\ uniform_periodic [true; true] (wx IZR) /\ wf_mesh (wdata IZR) /\
  (exists g, interp_make Rops true true 3 [true; true] (wdata IZR) (wx IZR) = Ok g) /\
  sampled true [true; true] wdims (wx IZR) (waves [0; 0]%nat) (wdata IZR) /\ periodic_function true [true; true] wdims (wx IZR) (waves [0; 0]%nat) /\
  mesh_width true [true; true] wdims (wx IZR) 1 /\ mesh_gap true [true; true] wdims (wx IZR) 1 /\ derivative_family 2 (3 + 1) waves /\
  (forall o xs, length o = 2%nat -> length xs = 2%nat -> (forall d, (d < 2)%nat -> (nth d o 0 <= 3 + 1)%nat) -> Rabs (waves o xs) <= 32) /\
  countable_point true [true; true] wdims (wx IZR) [1/2; -7/2].
Proof. exact ex_dorder. Qed.
