(** Properties: derivatives in doubles stay close to derivatives of the exact interpolation. *)
From Coq Require Import Reals List Bool Floats ZArith Lia Lra.
From Verif Require Import Base Num FloatM MeshM SplineM InterpM SpecMesh MeshProofs SpecInterp SpecStab SpecTame SpecRate SpecRound SpecRoundD SpecRoundInterp SpecNear NearDeriv PropTameEx PropDualEx PropNearEx PropNearDEx.
Import ListNotations.
Open Scope R_scope.

(** C105: on grids that doubles represent exactly, a (mixed) partial derivative
    computed in doubles differs from the one of exact interpolation by a bounded
    amount.  [h0]: smallest distance of neighbouring grid points; [L] is the
    factor by which one differentiation can enlarge the control points and
    their errors. *)
Theorem C105_derivatives on nd p per dims ls t M G C f g ranges fr gr h0 orders xs xs' :
  fit_template on nd p per dims ls t M G -> m_dims f = dims -> wf_mesh f ->
  interpolate Fops on nd t f = Ok g \/ interp_make Fops on nd p per f (map (@Points float) ls) = Ok g ->
  twin nd p per dims ls f ranges fr -> (p = 2 \/ p = 3)%nat -> tame nd p per dims ranges -> interp_make Rops on nd p per fr ranges = Ok gr ->
  0 < h0 -> mesh_gap nd per dims ranges h0 -> length orders = length per -> (forall d, (d < length per)%nat -> (nth d orders 0 <= p)%nat) ->
  let L := 1 + 2 * INR p / h0 in let m := order_sum orders in
  0 <= C -> C * L ^ m <= powerRZ 2 900 -> L ^ m <= powerRZ 2 900 -> (forall a, In a (m_data (sp_ctrl (if_spline g))) -> double_finite a /\ Rabs (double_val a) <= C) ->
  reduced per ls g xs xs' -> countable_point nd per dims ranges (map double_val xs') ->
  exists v w, interp_derivative Fops on g xs orders = Ok v /\ double_finite v /\ interp_derivative Rops on gr (map double_val xs') orders = Ok w /\
    Rabs (double_val v - w) <= L ^ m * (INR (roundings p (length per) + 3 * m) * powerRZ 2 (-52) * C +
      tame_factor p ^ length per * (INR (length per) * (INR p + INR M * G) * powerRZ 2 (-49) * C + powerRZ 2 (-1031)) + INR m * powerRZ 2 (-273)) + powerRZ 2 (-1034).
Proof. exact (tame_derivative on nd p per dims ls t M G C f g ranges fr gr h0 orders xs xs'). Qed.
Print Assumptions C105_derivatives.
Example C105_derivatives_example : exists gr v w, interp_make Rops true true 3 hper (hdata IZR) (hx IZR) = Ok gr /\
  interp_derivative Fops true ne_g ne_xs [1; 1]%nat = Ok v /\ double_finite v /\ interp_derivative Rops true gr (map double_val ne_xs') [1; 1]%nat = Ok w /\
  Rabs (double_val v - w) <= (1 + 2 * INR 3 / 1) ^ order_sum [1; 1]%nat * (INR (roundings 3 (length hper) + 3 * order_sum [1; 1]%nat) * powerRZ 2 (-52) * 64 +
    tame_factor 3 ^ length hper * (INR (length hper) * (INR 3 + INR 7 * 315) * powerRZ 2 (-49) * 64 + powerRZ 2 (-1031)) + INR (order_sum [1; 1]%nat) * powerRZ 2 (-273)) + powerRZ 2 (-1034).
Proof.
  destruct ne_real as [gr E].
  destruct (C105_derivatives true true 3 hper hdims ne_ls ne_t 7 315 64 ne_f ne_g (hx IZR) (hdata IZR) gr 1 [1; 1]%nat ne_xs ne_xs' ne_fit eq_refl eq_refl
    (or_introl (proj1 (proj2 ne_made))) ne_twin (or_intror eq_refl) tame_hx E Rlt_0_1 gap_hx eq_refl ne_orders (proj1 ne_64) (proj1 ne_growth) (proj2 ne_growth)
    ne_ctrl ne_reduced ne_countable) as (v & w & H).
  exists gr, v, w. auto.
Qed.

(** C105, orders up to 6, all dimensions periodic with equally spaced points. *)
Theorem C105_derivatives_uniform on nd p per dims ls t M G C f g ranges fr gr h0 orders xs xs' :
  fit_template on nd p per dims ls t M G -> m_dims f = dims -> wf_mesh f ->
  interpolate Fops on nd t f = Ok g \/ interp_make Fops on nd p per f (map (@Points float) ls) = Ok g ->
  twin nd p per dims ls f ranges fr -> (1 <= p <= 6)%nat -> uniform_periodic per ranges -> interp_make Rops on nd p per fr ranges = Ok gr ->
  0 < h0 -> mesh_gap nd per dims ranges h0 -> length orders = length per -> (forall d, (d < length per)%nat -> (nth d orders 0 <= p)%nat) ->
  let L := 1 + 2 * INR p / h0 in let m := order_sum orders in
  0 <= C -> C * L ^ m <= powerRZ 2 900 -> L ^ m <= powerRZ 2 900 -> (forall a, In a (m_data (sp_ctrl (if_spline g))) -> double_finite a /\ Rabs (double_val a) <= C) ->
  reduced per ls g xs xs' -> countable_point nd per dims ranges (map double_val xs') ->
  exists v w, interp_derivative Fops on g xs orders = Ok v /\ double_finite v /\ interp_derivative Rops on gr (map double_val xs') orders = Ok w /\
    Rabs (double_val v - w) <= L ^ m * (INR (roundings p (length per) + 3 * m) * powerRZ 2 (-52) * C +
      amplification p ^ length per * (INR (length per) * (INR p + INR M * G) * powerRZ 2 (-49) * C + powerRZ 2 (-1031)) + INR m * powerRZ 2 (-273)) + powerRZ 2 (-1034).
Proof. exact (uniform_derivative on nd p per dims ls t M G C f g ranges fr gr h0 orders xs xs'). Qed.
Print Assumptions C105_derivatives_uniform.
Example C105_derivatives_uniform_example : exists gr v w, interp_make Rops true true 4 [true] (nu_data IZR) nu_ranges = Ok gr /\
  interp_derivative Fops true nu_g [7.5%float] [2%nat] = Ok v /\ double_finite v /\ interp_derivative Rops true gr (map double_val [1.5%float]) [2%nat] = Ok w /\
  Rabs (double_val v - w) <= (1 + 2 * INR 4 / 1) ^ order_sum [2%nat] * (INR (roundings 4 (length [true]) + 3 * order_sum [2%nat]) * powerRZ 2 (-52) * 64 +
    amplification 4 ^ length [true] * (INR (length [true]) * (INR 4 + INR 6 * 315) * powerRZ 2 (-49) * 64 + powerRZ 2 (-1031)) + INR (order_sum [2%nat]) * powerRZ 2 (-273)) + powerRZ 2 (-1034).
Proof.
  destruct nu_real as [gr E].
  destruct (C105_derivatives_uniform true true 4 [true] [6%nat] nu_ls nu_t 6 315 64 nu_f nu_g nu_ranges (nu_data IZR) gr 1 [2%nat] [7.5%float] [1.5%float] nu_fit eq_refl eq_refl
    (or_intror (proj2 (proj2 nu_made))) nu_twin ltac:(lia) nu_uniform E Rlt_0_1 nu_gap eq_refl nu_orders (proj1 ne_64) (proj1 nu_growth) (proj2 nu_growth)
    nu_ctrl nu_reduced nu_countable) as (v & w & H).
  exists gr, v, w. auto.
Qed.
