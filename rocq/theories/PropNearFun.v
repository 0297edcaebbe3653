(** Properties: interpolation in doubles and the function behind the data. *)
From Coq Require Import Reals List Bool Floats ZArith Lia Lra.
From Verif Require Import Base Num FloatM MeshM SpecMesh MeshProofs SplineM InterpM SpecInterp SpecCurve SpecStab SpecApprox SpecTame SpecRate SpecRound SpecRoundInterp SpecNear SpecNearFun
  SumR NearFun PropApproxEx PropRateEx PropDualEx PropNearFunEx SpecInterp.
Import ListNotations.
Open Scope R_scope.

(** C104: values computed in doubles differ from the function by an error of
    full order in the grid step, plus the amplified errors of the data, plus
    rounding.  The constant depends only on the order, the number of
    dimensions and the bound of the derivatives. *)
Theorem C104_values p n M : (p = 2 \/ p = 3)%nat -> exists C, 0 < C /\
  forall on nd per dims ls t U G B f g ranges F eps h xs xs', length per = n ->
  computed on nd p per dims ls t U G (tame_factor p) B f g ranges -> tame nd p per dims ranges ->
  nearly_sampled nd per dims ranges (F (repeat 0%nat n)) f eps -> periodic_function nd per dims ranges (F (repeat 0%nat n)) ->
  mesh_width nd per dims ranges h -> h <= 1 -> derivative_family n (p + 1) F ->
  (forall o xs, length o = n -> length xs = n -> (forall d, (d < n)%nat -> (nth d o 0 <= p + 1)%nat) ->
    in_grid nd per dims ranges xs -> Rabs (F o xs) <= M) ->
  reduced per ls g xs xs' -> countable_point nd per dims ranges (map double_val xs') ->
  exists v, interp_eval Fops g xs = Ok v /\ double_finite v /\
    Rabs (double_val v - F (repeat 0%nat n) (map double_val xs')) <= C * h ^ (p + 1) + tame_factor p ^ n * eps + rounding_part p n U G (tame_factor p) B.
Proof. exact (tame_fun p n M). Qed.
Print Assumptions C104_values.
Example C104_values_example : exists C v, 0 < C /\ interp_eval Fops nq_g [2.25%float] = Ok v /\ double_finite v /\
  Rabs (double_val v - quads [0%nat] (map double_val [2.25%float])) <= C * 1 ^ (3 + 1) + tame_factor 3 ^ 1 * 1 + rounding_part 3 1 7 315 (tame_factor 3) 36.
Proof.
  destruct (C104_values 3 1 36 (or_intror eq_refl)) as (C & HC & H). exists C.
  destruct ex_values as (_ & T & _ & _ & _ & P & W & D & B & _).
  destruct (H true true [false] [7%nat] nq_ls nq_t 7%nat 315 36 nq_f nq_g [Uniform 0 6] quads 1 1 [2.25%float] [2.25%float]
    eq_refl nq_computed T nq_sampled P W (Rle_refl 1) D B nq_reduced nq_countable) as (v & K). exists v. auto.
Qed.

(** C104, orders up to 6, all dimensions periodic with equally spaced points;
    the constant is explicit. *)
Theorem C104_values_uniform on nd p per dims ls t U G B f g ranges F eps h M xs xs' : (1 <= p <= 6)%nat ->
  computed on nd p per dims ls t U G (amplification p) B f g ranges -> uniform_periodic per ranges ->
  nearly_sampled nd per dims ranges F f eps -> periodic_function nd per dims ranges F ->
  mesh_width nd per dims ranges h -> smooth_along (length per) (p + 1) F M ->
  reduced per ls g xs xs' -> countable_point nd per dims ranges (map double_val xs') ->
  exists v, interp_eval Fops g xs = Ok v /\ double_finite v /\
    Rabs (double_val v - F (map double_val xs')) <=
      (1 + amplification p ^ length per) * (spread p ^ (length per + 1) * sum (length per) (fun d => M d / INR (fact (p + 1)) * (INR (2 * p + 1) / 2 * h) ^ (p + 1))) +
      amplification p ^ length per * eps + rounding_part p (length per) U G (amplification p) B.
Proof. exact (uniform_fun on nd p per dims ls t U G B f g ranges F eps h M xs xs').  Qed.
Print Assumptions C104_values_uniform.
Example C104_values_uniform_example : exists v, interp_eval Fops nw_g [-1.75; 5.5]%float = Ok v /\ double_finite v /\
  Rabs (double_val v - wave (map double_val [2.25; 1.5]%float)) <=
    (1 + amplification 3 ^ 2) * (spread 3 ^ 3 * sum 2 (fun _ => 16 / INR (fact 4) * (INR 7 / 2 * 1) ^ 4)) + amplification 3 ^ 2 * 1 + rounding_part 3 2 4 315 (amplification 3) 2.
Proof.
  destruct ex_order as (_ & U & _ & _ & _ & P & W & S & _).
  exact (C104_values_uniform true true 3 [true; true] wdims nw_ls nw_t 4 315 2 nw_f nw_g (wx IZR) wave 1 1 (fun _ => 16) [-1.75; 5.5]%float [2.25; 1.5]%float
    ltac:(lia) nw_computed U nw_sampled P W S nw_reduced nw_countable).
Qed.
