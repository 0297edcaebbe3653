(** Properties: derivatives in doubles and the function behind the data. *)
From Coq Require Import Reals List Bool Floats ZArith Lia Lra.
From Verif Require Import Base Num FloatM MeshM SpecMesh MeshProofs SplineM InterpM SpecInterp SpecCurve SpecStab SpecApprox SpecTame SpecRate SpecRound SpecRoundD SpecRoundInterp SpecNear SpecNearFun SpecNearDFun
  SumR NearDFun PropApproxEx PropRateEx PropTameEx PropDualEx PropNearFunEx PropNearDFunEx SpecInterp.
Import ListNotations.
Open Scope R_scope.

(** C106: errors of the data reach a derivative of exact interpolation
    multiplied by at most [tame_factor order] per dimension and by
    1 + 2 order / h0 per differentiation; [h0]: smallest grid step. *)
Theorem C106_noise on nd p per dims ranges f1 f2 g1 g2 eps h0 orders :
  good_input nd p per dims ranges -> (p = 2 \/ p = 3)%nat -> tame nd p per dims ranges ->
  0 < h0 -> mesh_gap nd per dims ranges h0 -> length orders = length per -> (forall d, (d < length per)%nat -> (nth d orders 0 <= p)%nat) ->
  m_dims f1 = dims -> wf_mesh f1 -> m_dims f2 = dims -> wf_mesh f2 ->
  interp_make Rops on nd p per f1 ranges = Ok g1 -> interp_make Rops on nd p per f2 ranges = Ok g2 ->
  (forall idx, valid dims idx -> Rabs (val_at f1 idx - val_at f2 idx) <= eps) ->
  forall xs, length xs = length per -> countable_point nd per dims ranges xs -> in_grid nd per dims ranges xs ->
  exists u v, interp_derivative Rops on g1 xs orders = Ok u /\ interp_derivative Rops on g2 xs orders = Ok v /\
    Rabs (u - v) <= (1 + 2 * INR p / h0) ^ order_sum orders * (tame_factor p ^ length per * eps).
Proof. exact (tame_dnoise on nd p per dims ranges f1 f2 g1 g2 eps h0 orders). Qed.
Print Assumptions C106_noise.
Example C106_noise_example : exists g1 g2 u v, interp_make Rops true true 3 hper (hdata IZR) (hx IZR) = Ok g1 /\ interp_make Rops true true 3 hper (hdata' IZR) (hx IZR) = Ok g2 /\
  interp_derivative Rops true g1 [2; 5 / 2] [1; 1]%nat = Ok u /\ interp_derivative Rops true g2 [2; 5 / 2] [1; 1]%nat = Ok v /\
  Rabs (u - v) <= (1 + 2 * INR 3 / 1) ^ 2 * (tame_factor 3 ^ 2 * 1).
Proof.
  destruct ex_noise as (GI & T & W1 & W2 & (g1 & M1) & (g2 & M2) & HC & CT & IG).
  destruct (C106_noise true true 3 hper hdims (hx IZR) (hdata IZR) (hdata' IZR) g1 g2 1 1 [1; 1]%nat GI (or_intror eq_refl) T Rlt_0_1 gap_hx eq_refl hx_orders
    eq_refl W1 eq_refl W2 M1 M2 HC [2; 5 / 2] eq_refl CT IG) as (u & v & H). exists g1, g2, u, v. auto.
Qed.

(** C106, orders up to 6, all dimensions periodic with equally spaced points. *)
Theorem C106_noise_uniform on nd p per dims ranges f1 f2 g1 g2 eps h0 orders :
  good_input nd p per dims ranges -> (1 <= p <= 6)%nat -> uniform_periodic per ranges ->
  0 < h0 -> mesh_gap nd per dims ranges h0 -> length orders = length per -> (forall d, (d < length per)%nat -> (nth d orders 0 <= p)%nat) ->
  m_dims f1 = dims -> wf_mesh f1 -> m_dims f2 = dims -> wf_mesh f2 ->
  interp_make Rops on nd p per f1 ranges = Ok g1 -> interp_make Rops on nd p per f2 ranges = Ok g2 ->
  (forall idx, valid dims idx -> Rabs (val_at f1 idx - val_at f2 idx) <= eps) ->
  forall xs, length xs = length per -> countable_point nd per dims ranges xs ->
  exists u v, interp_derivative Rops on g1 xs orders = Ok u /\ interp_derivative Rops on g2 xs orders = Ok v /\
    Rabs (u - v) <= (1 + 2 * INR p / h0) ^ order_sum orders * (amplification p ^ length per * eps).
Proof. exact (uniform_dnoise on nd p per dims ranges f1 f2 g1 g2 eps h0 orders). Qed.
Print Assumptions C106_noise_uniform.
Example C106_noise_uniform_example : exists g1 g2 u v, interp_make Rops true true 3 [true; true] (real_data nw_f) (wx IZR) = Ok g1 /\ interp_make Rops true true 3 [true; true] (wdata IZR) (wx IZR) = Ok g2 /\
  interp_derivative Rops true g1 [1/2; -7/2] [1; 0]%nat = Ok u /\ interp_derivative Rops true g2 [1/2; -7/2] [1; 0]%nat = Ok v /\
  Rabs (u - v) <= (1 + 2 * INR 3 / 1) ^ 1 * (amplification 3 ^ 2 * 1).
Proof.
  destruct ex_dorder as (GI & U & W & (g2 & M2) & _ & _ & _ & MG & _ & _ & CT). destruct nw_real as (g1 & M1).
  destruct (C106_noise_uniform true true 3 [true; true] wdims (wx IZR) (real_data nw_f) (wdata IZR) g1 g2 1 1 [1; 0]%nat GI ltac:(lia) U Rlt_0_1 MG eq_refl nw_orders
    eq_refl eq_refl eq_refl W M1 M2 nw_close [1/2; -7/2] eq_refl CT) as (u & v & H). exists g1, g2, u, v. auto.
Qed.

(** C106: derivatives computed in doubles differ from the derivatives of the
    function by an error of the order h^(order + 1 - m) when h/h0 is bounded
    ([m]: total order of differentiation), by the error [eps] of the data
    multiplied as above, and by a rounding part. *)
Theorem C106_derivatives on nd p per dims ls t U G B f g ranges F eps h h0 M orders xs xs' : (p = 2 \/ p = 3)%nat ->
  computed on nd p per dims ls t U G (tame_factor p) B f g ranges -> tame nd p per dims ranges ->
  nearly_sampled nd per dims ranges (F (repeat 0%nat (length per))) f eps -> periodic_function nd per dims ranges (F (repeat 0%nat (length per))) ->
  mesh_width nd per dims ranges h -> 0 < h0 -> mesh_gap nd per dims ranges h0 -> derivative_family (length per) (p + 1) F ->
  (forall o xs, length o = length per -> length xs = length per -> (forall d, (d < length per)%nat -> (nth d o 0 <= p + 1)%nat) ->
    in_grid nd per dims ranges xs -> Rabs (F o xs) <= M) ->
  length orders = length per -> (forall d, (d < length per)%nat -> (nth d orders 0 <= p)%nat) ->
  let L := 1 + 2 * INR p / h0 in let m := order_sum orders in
  2 * tame_factor p ^ length per * (B + powerRZ 2 (-1031)) * L ^ m <= powerRZ 2 900 -> L ^ m <= powerRZ 2 900 ->
  reduced per ls g xs xs' -> countable_point nd per dims ranges (map double_val xs') ->
  exists v, interp_derivative Fops on g xs orders = Ok v /\ double_finite v /\
    Rabs (double_val v - F orders (map double_val xs')) <=
      (1 + tame_factor p ^ length per) * (L ^ m * (sum (p + 1) (fun i => (2 * INR p * h) ^ i / INR (fact i)) ^ length per *
          (INR (length per) * (M / INR (fact p) * (2 * INR p * h) ^ (p + 1))))) +
      L ^ m * (tame_factor p ^ length per * eps) + derivative_rounding p (length per) U G (tame_factor p) B L m.
Proof. exact (tame_dfun on nd p per dims ls t U G B f g ranges F eps h h0 M orders xs xs'). Qed.
Print Assumptions C106_derivatives.
Example C106_derivatives_example : exists v, interp_derivative Fops true nq_g [2.25%float] [1%nat] = Ok v /\ double_finite v /\
  Rabs (double_val v - quads [1%nat] (map double_val [2.25%float])) <=
    (1 + tame_factor 3 ^ 1) * ((1 + 2 * INR 3 / 1) ^ 1 * (sum 4 (fun i => (2 * INR 3 * 1) ^ i / INR (fact i)) ^ 1 * (INR 1 * (36 / INR (fact 3) * (2 * INR 3 * 1) ^ 4)))) +
    (1 + 2 * INR 3 / 1) ^ 1 * (tame_factor 3 ^ 1 * 1) + derivative_rounding 3 1 7 315 (tame_factor 3) 36 (1 + 2 * INR 3 / 1) 1.
Proof.
  destruct ex_values as (_ & T & _ & _ & _ & P & W & D & B & _).
  exact (C106_derivatives true true 3 [false] [7%nat] nq_ls nq_t 7%nat 315 36 nq_f nq_g [Uniform 0 6] quads 1 1 1 36 [1%nat] [2.25%float] [2.25%float]
    (or_intror eq_refl) nq_computed T nq_sampled P W Rlt_0_1 nq_gap D B eq_refl nq_orders (proj1 nq_growth) (proj2 nq_growth) nq_reduced nq_countable).
Qed.

(** C106, orders up to 6, all dimensions periodic with equally spaced points. *)
Theorem C106_derivatives_uniform on nd p per dims ls t U G B f g ranges F eps h h0 M orders xs xs' : (1 <= p <= 6)%nat ->
  computed on nd p per dims ls t U G (amplification p) B f g ranges -> uniform_periodic per ranges ->
  nearly_sampled nd per dims ranges (F (repeat 0%nat (length per))) f eps -> periodic_function nd per dims ranges (F (repeat 0%nat (length per))) ->
  mesh_width nd per dims ranges h -> 0 < h0 -> mesh_gap nd per dims ranges h0 -> derivative_family (length per) (p + 1) F ->
  (forall o xs, length o = length per -> length xs = length per -> (forall d, (d < length per)%nat -> (nth d o 0 <= p + 1)%nat) -> Rabs (F o xs) <= M) ->
  length orders = length per -> (forall d, (d < length per)%nat -> (nth d orders 0 <= p)%nat) ->
  let L := 1 + 2 * INR p / h0 in let m := order_sum orders in
  2 * amplification p ^ length per * (B + powerRZ 2 (-1031)) * L ^ m <= powerRZ 2 900 -> L ^ m <= powerRZ 2 900 ->
  reduced per ls g xs xs' -> countable_point nd per dims ranges (map double_val xs') ->
  exists v, interp_derivative Fops on g xs orders = Ok v /\ double_finite v /\
    Rabs (double_val v - F orders (map double_val xs')) <=
      (1 + amplification p ^ length per) * (spread p ^ (length per + 1) * (1 + 2 / h0) ^ m *
        (INR (length per) * (M / INR (fact (p + 1)) * (INR (2 * p + 1) / 2 * h) ^ (p + 1)))) +
      L ^ m * (amplification p ^ length per * eps) + derivative_rounding p (length per) U G (amplification p) B L m.
Proof. exact (uniform_dfun on nd p per dims ls t U G B f g ranges F eps h h0 M orders xs xs'). Qed.
Print Assumptions C106_derivatives_uniform.
Example C106_derivatives_uniform_example : exists v, interp_derivative Fops true nw_g [-1.75; 5.5]%float [1; 0]%nat = Ok v /\ double_finite v /\
  Rabs (double_val v - waves [1; 0]%nat (map double_val [2.25; 1.5]%float)) <=
    (1 + amplification 3 ^ 2) * (spread 3 ^ 3 * (1 + 2 / 1) ^ 1 * (INR 2 * (32 / INR (fact 4) * (INR 7 / 2 * 1) ^ 4))) +
    (1 + 2 * INR 3 / 1) ^ 1 * (amplification 3 ^ 2 * 1) + derivative_rounding 3 2 4 315 (amplification 3) 2 (1 + 2 * INR 3 / 1) 1.
Proof.
  destruct ex_dorder as (_ & U & _ & _ & _ & P & W & MG & D & B & _).
  exact (C106_derivatives_uniform true true 3 [true; true] wdims nw_ls nw_t 4%nat 315 2 nw_f nw_g (wx IZR) waves 1 1 1 32 [1; 0]%nat [-1.75; 5.5]%float [2.25; 1.5]%float
    ltac:(lia) nw_computed U nw_waves P W Rlt_0_1 MG D B eq_refl nw_orders (proj1 nw_growth) (proj2 nw_growth) nw_reduced nw_countable).
Qed.
