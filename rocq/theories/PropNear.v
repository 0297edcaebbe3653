(** Properties: interpolation in doubles stays close to exact interpolation. *)
From Coq Require Import Reals List Bool Floats ZArith Lia.
From Verif Require Import Base Num FloatM MeshM SplineM InterpM SpecMesh MeshProofs SpecInterp SpecStab SpecTame SpecRound SpecRoundInterp SpecNear NearTop PropTameEx PropNearEx.
Import ListNotations.
Open Scope R_scope.

(** C103: on grids that doubles represent exactly, the value computed in doubles
    differs from the value of exact interpolation by a bounded amount.  The
    factor [tame_factor order] per dimension is the one of C95. *)
Theorem C103_values on nd p per dims ls t M G C f g ranges fr gr xs xs' :
  fit_template on nd p per dims ls t M G -> m_dims f = dims -> wf_mesh f ->
  interpolate Fops on nd t f = Ok g \/ interp_make Fops on nd p per f (map (@Points float) ls) = Ok g ->
  twin nd p per dims ls f ranges fr -> (p = 2 \/ p = 3)%nat -> tame nd p per dims ranges -> interp_make Rops on nd p per fr ranges = Ok gr ->
  0 <= C <= powerRZ 2 1000 -> (forall a, In a (m_data (sp_ctrl (if_spline g))) -> double_finite a /\ Rabs (double_val a) <= C) ->
  reduced per ls g xs xs' -> countable_point nd per dims ranges (map double_val xs') ->
  exists v w, interp_eval Fops g xs = Ok v /\ double_finite v /\ interp_eval Rops gr (map double_val xs') = Ok w /\
    Rabs (double_val v - w) <= INR (roundings p (length per)) * powerRZ 2 (-52) * C +
      tame_factor p ^ length per * (INR (length per) * (INR p + INR M * G) * powerRZ 2 (-49) * C + powerRZ 2 (-1031)) + powerRZ 2 (-1034).
Proof. exact (tame_value on nd p per dims ls t M G C f g ranges fr gr xs xs'). Qed.
Print Assumptions C103_values.
Example C103_values_example : exists gr v w, interp_make Rops true true 3 hper (hdata IZR) (hx IZR) = Ok gr /\
  interp_eval Fops ne_g ne_xs = Ok v /\ double_finite v /\ interp_eval Rops gr (map double_val ne_xs') = Ok w /\
  Rabs (double_val v - w) <= INR (roundings 3 (length hper)) * powerRZ 2 (-52) * 64 +
    tame_factor 3 ^ length hper * (INR (length hper) * (INR 3 + INR 7 * 315) * powerRZ 2 (-49) * 64 + powerRZ 2 (-1031)) + powerRZ 2 (-1034).
Proof.
  destruct ne_real as [gr E].
  destruct (C103_values true true 3 hper hdims ne_ls ne_t 7 315 64 ne_f ne_g (hx IZR) (hdata IZR) gr ne_xs ne_xs' ne_fit eq_refl eq_refl
    (or_introl (proj1 (proj2 ne_made))) ne_twin (or_intror eq_refl) tame_hx E ne_64 ne_ctrl ne_reduced ne_countable) as (v & w & H).
  exists gr, v, w. auto.
Qed.

(** C103, orders up to 6, all dimensions periodic with equally spaced points. *)
Theorem C103_values_uniform on nd p per dims ls t M G C f g ranges fr gr xs xs' :
  fit_template on nd p per dims ls t M G -> m_dims f = dims -> wf_mesh f ->
  interpolate Fops on nd t f = Ok g \/ interp_make Fops on nd p per f (map (@Points float) ls) = Ok g ->
  twin nd p per dims ls f ranges fr -> (p <= 6)%nat -> uniform_periodic per ranges -> interp_make Rops on nd p per fr ranges = Ok gr ->
  0 <= C <= powerRZ 2 1000 -> (forall a, In a (m_data (sp_ctrl (if_spline g))) -> double_finite a /\ Rabs (double_val a) <= C) ->
  reduced per ls g xs xs' -> countable_point nd per dims ranges (map double_val xs') ->
  exists v w, interp_eval Fops g xs = Ok v /\ double_finite v /\ interp_eval Rops gr (map double_val xs') = Ok w /\
    Rabs (double_val v - w) <= INR (roundings p (length per)) * powerRZ 2 (-52) * C +
      amplification p ^ length per * (INR (length per) * (INR p + INR M * G) * powerRZ 2 (-49) * C + powerRZ 2 (-1031)) + powerRZ 2 (-1034).
Proof. exact (uniform_value on nd p per dims ls t M G C f g ranges fr gr xs xs'). Qed.
Print Assumptions C103_values_uniform.
Example C103_values_uniform_example : exists gr v w, interp_make Rops true true 4 [true] (nu_data IZR) nu_ranges = Ok gr /\
  interp_eval Fops nu_g [7.5%float] = Ok v /\ double_finite v /\ interp_eval Rops gr (map double_val [1.5%float]) = Ok w /\
  Rabs (double_val v - w) <= INR (roundings 4 (length [true])) * powerRZ 2 (-52) * 64 +
    amplification 4 ^ length [true] * (INR (length [true]) * (INR 4 + INR 6 * 315) * powerRZ 2 (-49) * 64 + powerRZ 2 (-1031)) + powerRZ 2 (-1034).
Proof.
  destruct nu_real as [gr E].
  destruct (C103_values_uniform true true 4 [true] [6%nat] nu_ls nu_t 6 315 64 nu_f nu_g nu_ranges (nu_data IZR) gr [7.5%float] [1.5%float] nu_fit eq_refl eq_refl
    (or_intror (proj2 (proj2 nu_made))) nu_twin ltac:(lia) nu_uniform E ne_64 nu_ctrl nu_reduced nu_countable) as (v & w & H).
  exists gr, v, w. auto.
Qed.

(** C103, the control points: they do not grow beyond a multiple of the data. *)
Theorem C103_control on nd p per dims ls t M G B f g ranges fr gr :
  fit_template on nd p per dims ls t M G -> m_dims f = dims -> wf_mesh f ->
  interpolate Fops on nd t f = Ok g \/ interp_make Fops on nd p per f (map (@Points float) ls) = Ok g ->
  twin nd p per dims ls f ranges fr -> (p = 2 \/ p = 3)%nat -> tame nd p per dims ranges -> interp_make Rops on nd p per fr ranges = Ok gr ->
  (forall a, In a (m_data f) -> Rabs (double_val a) <= B) -> (forall a, In a (m_data (sp_ctrl (if_spline g))) -> double_finite a) ->
  tame_factor p ^ length per * (INR (length per) * (INR p + INR M * G) * powerRZ 2 (-49)) <= / 2 ->
  forall a, In a (m_data (sp_ctrl (if_spline g))) -> Rabs (double_val a) <= 2 * tame_factor p ^ length per * (B + powerRZ 2 (-1031)).
Proof. exact (tame_control on nd p per dims ls t M G B f g ranges fr gr). Qed.
Print Assumptions C103_control.
Example C103_control_example : forall a, In a (m_data (sp_ctrl (if_spline ne_g))) -> Rabs (double_val a) <= 2 * tame_factor 3 ^ length hper * (38 + powerRZ 2 (-1031)).
Proof.
  destruct ne_real as [gr E].
  exact (C103_control true true 3 hper hdims ne_ls ne_t 7 315 38 ne_f ne_g (hx IZR) (hdata IZR) gr ne_fit eq_refl eq_refl
    (or_introl (proj1 (proj2 ne_made))) ne_twin (or_intror eq_refl) tame_hx E ne_data (fun a H => proj1 (ne_ctrl a H)) ne_small).
Qed.

(** C103, the control points on equally spaced periodic points. *)
Theorem C103_control_uniform on nd p per dims ls t M G B f g ranges fr gr :
  fit_template on nd p per dims ls t M G -> m_dims f = dims -> wf_mesh f ->
  interpolate Fops on nd t f = Ok g \/ interp_make Fops on nd p per f (map (@Points float) ls) = Ok g ->
  twin nd p per dims ls f ranges fr -> (p <= 6)%nat -> uniform_periodic per ranges -> interp_make Rops on nd p per fr ranges = Ok gr ->
  (forall a, In a (m_data f) -> Rabs (double_val a) <= B) -> (forall a, In a (m_data (sp_ctrl (if_spline g))) -> double_finite a) ->
  amplification p ^ length per * (INR (length per) * (INR p + INR M * G) * powerRZ 2 (-49)) <= / 2 ->
  forall a, In a (m_data (sp_ctrl (if_spline g))) -> Rabs (double_val a) <= 2 * amplification p ^ length per * (B + powerRZ 2 (-1031)).
Proof. exact (uniform_control on nd p per dims ls t M G B f g ranges fr gr). Qed.
Print Assumptions C103_control_uniform.
Example C103_control_uniform_example : forall a, In a (m_data (sp_ctrl (if_spline nu_g))) -> Rabs (double_val a) <= 2 * amplification 4 ^ length [true] * (5 + powerRZ 2 (-1031)).
Proof.
  destruct nu_real as [gr E].
  exact (C103_control_uniform true true 4 [true] [6%nat] nu_ls nu_t 6 315 5 nu_f nu_g nu_ranges (nu_data IZR) gr nu_fit eq_refl eq_refl
    (or_introl (proj1 (proj2 nu_made))) nu_twin ltac:(lia) nu_uniform E nu_data_5 (fun a H => proj1 (nu_ctrl a H)) nu_small).
Qed.

(** C103, the knots: on such a grid they are computed without rounding. *)
Theorem C103_knots on nd p per f ranges g d l :
  interp_make Fops on nd p per f ranges = Ok g -> nth_error ranges d = Some (Points l) ->
  let periodic := nth d per false in
  exact_grid p periodic l -> (if periodic then (p + 2 <= length l)%nat else (1 <= p)%nat /\ (p + 1 <= length l)%nat) -> (Z.of_nat p <= 2 ^ 53)%Z ->
  let x := fun i => double_val (nth i l zero) in let n := length l in
  map double_val (nth d (sp_knots (if_spline g)) []) =
    if periodic then map (per_knot p (n - 1) (x (n - 1)%nat - x 0%nat) x) (seq 0 (n + 2 * p + (1 - p mod 2))) else map (ap_knot p n x) (seq 0 (n + p + 1)).
Proof. exact (exact_knots on nd p per f ranges g d l). Qed.
Print Assumptions C103_knots.
Example C103_knots_example : map double_val (nth 0 (sp_knots (if_spline nu_g)) []) =
  let x := fun i => double_val (nth i (nth 0 nu_ls []) zero) in map (per_knot 4 6 (x 6%nat - x 0%nat) x) (seq 0 16).
Proof.
  exact (C103_knots true true 4 [true] nu_f (map (@Points float) nu_ls) nu_g 0 (nth 0 nu_ls []) (proj2 (proj2 nu_made)) eq_refl nu_exact ltac:(cbn; lia) ltac:(lia)).
Qed.

