(** Rounding errors of derivative_at in doubles. *)
From Coq Require Import List Arith Lia Bool ZArith Reals Lra Psatz Floats.
From Flocq Require Import Core.
From Verif Require Import Base Num FloatM MeshM SplineM SpecMesh SpecBand SpecSpline SpecSplineObj SpecRound SpecRoundD SumR
  SplineProofs SplineFinal FloatProofs FloatWrap RoundSpline RoundEval RoundDouble RoundDerivTop.
Import ListNotations.
Local Open Scope R_scope.

Lemma derivative_error {T} (o : ops T) val good u eta big on s g C Lam gap ns xs xs' hints :
  rounding o val good u eta big -> number_spline val good big g C s -> small_exact o val good (sp_order s) ->
  0 < g -> eta <= g -> 0 <= C ->
  gaps val s gap -> 1 <= Lam -> (forall d, (d < sp_dim s)%nat -> 0 < gap d /\ 2 * INR (sp_order s) / gap d <= Lam) ->
  length ns = sp_dim s -> (forall d, (d < sp_dim s)%nat -> (nth d ns 0 <= sp_order s)%nat) ->
  basis_growth u eta g (sp_order s) <= 2 -> coef_growth u eta g (sp_order s) (sp_dim s) <= big ->
  INR (sp_order s + 1) * (4 * derived_bound u eta g Lam (order_sum ns) (C * Lam ^ order_sum ns)) <= big ->
  value_bound u eta g (sp_order s) (sp_dim s) (derived_bound u eta g Lam (order_sum ns) (C * Lam ^ order_sum ns)) <= big ->
  length xs = sp_dim s -> length xs' = sp_dim s -> hints_ok s hints ->
  (forall d, (d < sp_dim s)%nat ->
     wrap_coord o (per_of s d) (nth d (sp_range s) (o0 o, o0 o)) (nth d xs (o0 o)) = Ok (nth d xs' (o0 o)) /\
     good (nth d xs' (o0 o)) /\
     kn (map val (knot_of s d)) (sp_order s) <= val (nth d xs' (o0 o)) <= kn (map val (knot_of s d)) (last_of s d + 1) /\
     (per_of s d = true -> fst (rng (real_spline val s) d) <= val (nth d xs' (o0 o)) < snd (rng (real_spline val s) d))) ->
  exists v w, spline_derivative_at o on s (combine (combine xs hints) ns) = Ok v /\
    spline_derivative_at Rops on (real_spline val s) (combine (combine (map val xs') hints) ns) = Ok w /\ good v /\
    Rabs (val v - w) <=
      value_bound u eta g (sp_order s) (sp_dim s) (derived_bound u eta g Lam (order_sum ns) (C * slope (sp_order s) gap ns)) - C * slope (sp_order s) gap ns.
Proof.
  intros RD NS SE Hg He HC HG HL HGL Ln Hn Hb HQ HM HV Lx Lx' [Lh Hh] H.
  apply (deriv_round o val good u eta big RD s g C Lam gap ns NS SE Hg He HC HG (fun d Hd => proj1 (HGL d Hd)) HL (fun d Hd => proj2 (HGL d Hd)) Ln Hn Hb HQ HM HV xs xs' hints Lx Lx' Lh Hh);
    intros d Hd; destruct (H d Hd) as (H1 & H2 & H3 & H4); auto.
  replace (knot_of (real_spline val s) d) with (map val (knot_of s d)); auto. unfold knot_of, real_spline. cbn [sp_knots]. change (@nil R) with (map val []). symmetry. apply map_nth.
Qed.

Section Mono.
Variables (u eta g g' : R) (order D : nat).
Hypothesis Hu : 0 <= u.
Hypothesis He : 0 <= eta.
Hypothesis Hg : 0 < g.
Hypothesis Hgg : g <= g'.
Lemma inv_mono : 0 <= eta * (17/15) / g' <= eta * (17/15) / g.
Proof using All.
  split; [apply Rmult_le_pos; [lra|apply Rlt_le, Rinv_0_lt_compat; lra]|]. apply Rmult_le_compat_l; [lra|]. apply Rinv_le_contravar; lra.
Qed.
Lemma basis_mono : 0 <= basis_growth u eta g' order <= basis_growth u eta g order.
Proof using All.
  pose proof inv_mono as Hi. unfold basis_growth. pose proof (pos_INR order). pose proof (pos_INR (order + 1)). pose proof (pow_le (1 + 7 * u) order ltac:(lra)).
  assert (A : 0 <= 2 * (1 + u) * (eta * (17/15) / g' + eta) <= 2 * (1 + u) * (eta * (17/15) / g + eta)) by (split; [apply Rmult_le_pos; lra|apply Rmult_le_compat_l; lra]).
  assert (B : 0 <= INR (order + 1) * (2 * (1 + u) * (eta * (17/15) / g' + eta)) <= INR (order + 1) * (2 * (1 + u) * (eta * (17/15) / g + eta))) by (split; [apply Rmult_le_pos; lra|apply Rmult_le_compat_l; lra]).
  assert (C : 0 <= INR order * (INR (order + 1) * (2 * (1 + u) * (eta * (17/15) / g' + eta))) <= INR order * (INR (order + 1) * (2 * (1 + u) * (eta * (17/15) / g + eta)))) by (split; [apply Rmult_le_pos; lra|apply Rmult_le_compat_l; lra]).
  split; [apply Rmult_le_pos; lra|apply Rmult_le_compat_l; lra].
Qed.
Lemma coef_mono : 0 <= coef_growth u eta g' order D <= coef_growth u eta g order D.
Proof using All.
  pose proof basis_mono as Hb. unfold coef_growth.
  assert (A : 0 <= (1 + u) * basis_growth u eta g' order <= (1 + u) * basis_growth u eta g order) by (split; [apply Rmult_le_pos; lra|apply Rmult_le_compat_l; lra]).
  assert (0 <= INR ((order + 1) ^ D) * (INR D * eta)) by (apply Rmult_le_pos; [apply pos_INR|apply Rmult_le_pos; auto using pos_INR]).
  pose proof (pow_le _ D (proj1 A)). split; [apply Rmult_le_pos; lra|]. apply Rmult_le_compat_r; [lra|]. apply pow_incr. auto.
Qed.
Lemma value_mono c : 0 <= c -> value_bound u eta g' order D c <= value_bound u eta g order D c.
Proof using All.
  intros Hc. pose proof coef_mono as Hb. unfold value_bound. apply Rmult_le_compat_l; [apply pow_le; lra|]. apply Rplus_le_compat_r. apply Rmult_le_compat_l; [lra|]. apply Rmult_le_compat_l; lra.
Qed.
End Mono.

Lemma order_sum_le ns order : (forall d, (d < length ns)%nat -> (nth d ns 0 <= order)%nat) -> (order_sum ns <= order * length ns)%nat.
Proof.
  induction ns as [|a l IH]; intros H; cbn [order_sum length]; [unfold order_sum; cbn; lia|].
  assert (H0 := H 0%nat ltac:(cbn; lia)). cbn in H0. assert (order_sum l <= order * length l)%nat by (apply IH; intros d Hd; apply (H (S d)); cbn; lia).
  unfold order_sum in *. cbn [fold_right]. lia.
Qed.

Lemma double_small n : (Z.of_nat n <= 2 ^ 53)%Z -> small_exact Fops double_val double_finite n.
Proof.
  intros Hn. split.
  - intros k Hk. apply Fnat_exact. lia.
  - intros a b Ga Gb Z. destruct (Fmul_val a b Ga Gb) as [G E].
    { replace (double_val a * double_val b) with 0 by (destruct Z as [->| ->]; ring). rewrite Rabs_R0. unfold Fbig. apply bpow_ge_0. }
    replace (double_val a * double_val b) with 0 in E by (destruct Z as [->| ->]; ring). split; [exact G|]. eapply eq_trans; [exact E|]. apply round_0. auto with typeclass_instances.
Qed.

Lemma double_derived order D m g Lam C : (1 <= D)%nat -> INR (roundings order D) <= bpow radix2 40 -> (m <= order * D)%nat ->
  bpow radix2 (-800) <= g -> 1 <= Lam -> 0 <= C -> C * Lam ^ m <= bpow radix2 900 -> Lam ^ m <= bpow radix2 900 ->
  let M := derived_bound Fu Feta g Lam m (C * Lam ^ m) in
  INR (order + 1) * (4 * M) <= Fbig /\ 0 <= M <= bpow radix2 1000 /\
  forall B, 0 <= B <= C * Lam ^ m ->
    let Cm := derived_bound Fu Feta g Lam m B in
    0 <= Cm <= bpow radix2 1000 /\
    INR (roundings order D) * bpow radix2 (-52) * Cm + (Cm - B) <=
      INR (roundings order D + 3 * m) * bpow radix2 (-52) * B + INR m * bpow radix2 (-1074) * (/ g + 1) * Lam ^ m.
Proof.
  intros HD HR Hm Hg HL HC HCL HLm. cbv zeta. pose proof (count_bounds order D HD HR) as (H1 & H2 & H3 & H4 & EM).
  set (R0 := INR (roundings order D)) in *.
  assert (UU : Fu = bpow radix2 (-53)). { unfold Fu. change (-52)%Z with (1 + -53)%Z. rewrite bpow_plus. change (bpow radix2 1) with 2. field. }
  assert (U2 : bpow radix2 (-52) = 2 * Fu). { unfold Fu. field. }
  assert (EE : bpow radix2 (-1074) = 2 * Feta) by (unfold Feta; field).
  assert (G0 : 0 < bpow radix2 (-800)) by apply bpow_gt_0. assert (Hg0 : 0 < g) by lra.
  assert (U0 : 0 < Fu) by (rewrite UU; apply bpow_gt_0). assert (E0 : 0 < Feta) by (unfold Feta; pose proof (bpow_gt_0 radix2 (-1074)); lra).
  assert (Im : INR m <= INR order * INR D) by (rewrite <- mult_INR; apply le_INR; auto). pose proof (pos_INR m) as Pm.
  assert (P0 : 0 <= INR order * INR D) by (apply Rmult_le_pos; lra).
  assert (Hm7 : 7 * INR m <= R0) by (rewrite EM; lra).
  assert (R1 : R0 * Fu <= bpow radix2 (-13)). { rewrite UU. change (-13)%Z with (40 + -53)%Z. rewrite bpow_plus. apply Rmult_le_compat_r; auto. apply bpow_ge_0. }
  assert (S13 : bpow radix2 (-13) = / 8192) by reflexivity. rewrite S13 in R1.
  set (t := INR m * (5 * Fu)). assert (Ht : 0 <= t <= / 8192). { unfold t. split; [apply Rmult_le_pos; lra|]. assert (7 * INR m * Fu <= R0 * Fu) by (apply Rmult_le_compat_r; lra). assert (0 <= INR m * Fu) by (apply Rmult_le_pos; lra). lra. }
  pose proof (exp_pow (5 * Fu) m ltac:(lra)) as X1. fold t in X1. pose proof (exp_small t ltac:(lra)) as X2.
  set (gm := (1 + 5 * Fu) ^ m - 1). assert (Hgm : 0 <= gm <= 10031/10000 * t). { unfold gm. pose proof (pow_R1_Rle (1 + 5 * Fu) m ltac:(lra)). lra. }
  assert (Hgm2 : gm <= / 8000) by lra.
  set (h := Feta * (17/15) / g + Feta). set (L := Lam ^ m) in *.
  assert (L1 : 1 <= L) by (apply pow_R1_Rle; auto).
  assert (Eom : forall b, derived_bound Fu Feta g Lam m b = (1 + gm) * b + INR m * h * ((1 + gm) * L)) by (intros b; unfold derived_bound, gm, h, L; rewrite Rpow_mult_distr; ring).
  assert (Ig : 0 < / g) by (apply Rinv_0_lt_compat; auto).
  assert (Hh : 0 < h <= 17/15 * Feta * (/ g + 1)). { unfold h, Rdiv. rewrite (Rmult_assoc Feta). split; nra. }
  assert (Hom : 0 <= INR m * h * ((1 + gm) * L) <= (17/15) * (1 + / 8000) * (INR m * Feta * (/ g + 1) * L)).
  { assert (0 <= INR m * h <= INR m * (17/15 * Feta * (/ g + 1))) by (split; [apply Rmult_le_pos; lra|apply Rmult_le_compat_l; lra]).
    assert (0 <= (1 + gm) * L <= (1 + / 8000) * L) by (split; [apply Rmult_le_pos; lra|apply Rmult_le_compat_r; lra]).
    split; [apply Rmult_le_pos; lra|]. eapply Rle_trans; [apply Rmult_le_compat; [| |apply H|apply H0]; lra|]. right. ring. }
  set (om := INR m * h * ((1 + gm) * L)) in *. set (w := INR m * Feta * (/ g + 1) * L) in *.
  assert (Hw : 0 <= w <= bpow radix2 900).
  { assert (W1 : 0 <= INR m * Feta * (/ g + 1) <= 1).
    { assert (/ g <= bpow radix2 800). { replace (bpow radix2 800) with (/ bpow radix2 (-800)). apply Rinv_le_contravar; auto. rewrite <- bpow_opp. reflexivity. }
      assert (1 <= bpow radix2 800) by (change 1 with (bpow radix2 0); apply bpow_le; lia).
      assert (/ g + 1 <= bpow radix2 801). { change 801%Z with (1 + 800)%Z. rewrite bpow_plus. change (bpow radix2 1) with 2. lra. }
      assert (Feta <= bpow radix2 (-1074)) by lra. assert (INR m <= bpow radix2 40) by lra.
      assert (0 <= INR m * Feta <= bpow radix2 40 * bpow radix2 (-1074)) by (split; [apply Rmult_le_pos; lra|apply Rmult_le_compat; lra]).
      split; [apply Rmult_le_pos; lra|]. apply Rle_trans with (bpow radix2 40 * bpow radix2 (-1074) * bpow radix2 801). { apply Rmult_le_compat; lra. }
      rewrite !bpow_mul. change 1 with (bpow radix2 0). apply bpow_le. lia. }
    unfold w. split; [apply Rmult_le_pos; lra|]. apply Rle_trans with (1 * L); [apply Rmult_le_compat_r; lra|lra]. }
  set (p9 := bpow radix2 900) in *.
  assert (B10 : p9 * 8 <= bpow radix2 1000). { unfold p9. change 8 with (bpow radix2 3). rewrite bpow_mul. apply bpow_le. lia. }
  assert (P9 : 0 < p9) by apply bpow_gt_0.
  assert (Hbd : forall B, 0 <= B <= C * L -> 0 <= derived_bound Fu Feta g Lam m B <= 4 * p9).
  { intros B HB. rewrite Eom. assert (0 <= gm * B <= / 8000 * B) by (split; [apply Rmult_le_pos; lra|apply Rmult_le_compat_r; lra]). lra. }
  assert (HCL0 : 0 <= C * L) by (apply Rmult_le_pos; lra).
  split; [|split].
  - specialize (Hbd (C * L) ltac:(lra)). rewrite plus_INR. change (INR 1) with 1. assert (O1 : INR order + 1 <= bpow radix2 41).
    { change 41%Z with (1 + 40)%Z. rewrite bpow_plus. change (bpow radix2 1) with 2. assert (1 <= bpow radix2 40) by (change 1 with (bpow radix2 0); apply bpow_le; lia).
      assert (INR order <= R0). { rewrite EM. assert (INR order * 1 <= INR order * INR D) by (apply Rmult_le_compat_l; lra). lra. } lra. }
    apply Rle_trans with (bpow radix2 41 * (16 * p9)). { apply Rmult_le_compat; lra. }
    unfold p9, Fbig. change 16 with (bpow radix2 4). rewrite !bpow_mul. apply bpow_le. lia.
  - specialize (Hbd (C * L) ltac:(lra)). lra.
  - intros B HB. specialize (Hbd B HB). split; [lra|]. rewrite Eom in *. fold om in Hbd |- *.
    replace (INR (roundings order D + 3 * m)) with (R0 + 3 * INR m) by (rewrite plus_INR, mult_INR; unfold R0; change (INR 3) with (1 + 1 + 1); ring).
    rewrite U2, EE.
    assert (E1 : INR m * (2 * Feta) * (/ g + 1) * L = 2 * w) by (unfold w; ring). rewrite E1.
    assert (T : t = 5 * (INR m * Fu)) by (unfold t; ring).
    assert (A1 : 0 <= gm * B <= 10031/10000 * t * B) by (split; [apply Rmult_le_pos; lra|apply Rmult_le_compat_r; lra]).
    set (mb := INR m * Fu * B). assert (0 <= mb) by (unfold mb; apply Rmult_le_pos; [apply Rmult_le_pos; lra|lra]).
    assert (A1' : gm * B <= 10031/10000 * 5 * mb) by (rewrite T in A1; unfold mb; lra).
    assert (A2 : R0 * Fu * (gm * B + om) <= / 8192 * (gm * B + om)) by (apply Rmult_le_compat_r; lra).
    replace (R0 * (2 * Fu) * ((1 + gm) * B + om)) with (R0 * (2 * Fu) * B + 2 * (R0 * Fu * (gm * B + om))) by ring.
    replace ((R0 + 3 * INR m) * (2 * Fu) * B) with (R0 * (2 * Fu) * B + 6 * mb) by (unfold mb; ring). lra.
Qed.

Lemma double_derivative on s g C Lam gap ns xs xs' hints :
  number_spline double_val double_finite (powerRZ 2 1023) g C s -> powerRZ 2 (-800) <= g ->
  (1 <= sp_dim s)%nat -> (Z.of_nat (roundings (sp_order s) (sp_dim s)) <= 2 ^ 40)%Z ->
  gaps double_val s gap -> 1 <= Lam -> (forall d, (d < sp_dim s)%nat -> 0 < gap d /\ 2 * INR (sp_order s) / gap d <= Lam) ->
  length ns = sp_dim s -> (forall d, (d < sp_dim s)%nat -> (nth d ns 0 <= sp_order s)%nat) ->
  0 <= C -> C * Lam ^ order_sum ns <= powerRZ 2 900 -> Lam ^ order_sum ns <= powerRZ 2 900 ->
  length xs = sp_dim s -> length xs' = sp_dim s -> hints_ok s hints ->
  (forall d, (d < sp_dim s)%nat ->
     wrap_coord Fops (per_of s d) (nth d (sp_range s) (zero, zero)) (nth d xs zero) = Ok (nth d xs' zero) /\
     double_finite (nth d xs' zero) /\
     kn (map double_val (knot_of s d)) (sp_order s) <= double_val (nth d xs' zero) <= kn (map double_val (knot_of s d)) (last_of s d + 1) /\
     (per_of s d = true -> fst (rng (real_spline double_val s) d) <= double_val (nth d xs' zero) < snd (rng (real_spline double_val s) d))) ->
  exists v w, spline_derivative_at Fops on s (combine (combine xs hints) ns) = Ok v /\
    spline_derivative_at Rops on (real_spline double_val s) (combine (combine (map double_val xs') hints) ns) = Ok w /\ double_finite v /\
    Rabs (double_val v - w) <=
      INR (roundings (sp_order s) (sp_dim s) + 3 * order_sum ns) * powerRZ 2 (-52) * (C * slope (sp_order s) gap ns) +
      INR ((sp_order s + 1) ^ sp_dim s) * powerRZ 2 (-1074) +
      INR (order_sum ns) * powerRZ 2 (-1074) * (/ g + 1) * Lam ^ order_sum ns.
Proof.
  intros NS Hg HD HM HG HL HGL Ln Hn HC H9 H9' Lx Lx' Hh H. rewrite <- !(bpow_powerRZ radix2) in *.
  assert (HM' : INR (roundings (sp_order s) (sp_dim s)) <= bpow radix2 40). { rewrite INR_IZR_INZ. change (bpow radix2 40) with (IZR (2 ^ 40)). apply IZR_le. auto. }
  assert (Hm : (order_sum ns <= sp_order s * sp_dim s)%nat) by (rewrite <- Ln; apply order_sum_le; intros d Hd; apply Hn; lia).
  assert (G0 : 0 < bpow radix2 (-800)) by apply bpow_gt_0. assert (Hg0 : 0 < g) by lra.
  destruct (double_derived (sp_order s) (sp_dim s) (order_sum ns) g Lam C HD HM' Hm Hg HL HC H9 H9') as (D1 & D2 & D3).
  assert (Hord : (Z.of_nat (sp_order s) <= 2 ^ 53)%Z). { unfold roundings in HM. assert (sp_order s * 1 <= sp_order s * sp_dim s)%nat by (apply Nat.mul_le_mono_l; auto). lia. }
  assert (U0 : 0 <= Fu) by (unfold Fu; pose proof (bpow_ge_0 radix2 (-52)); lra). assert (E0 : 0 <= Feta) by (unfold Feta; pose proof (bpow_ge_0 radix2 (-1074)); lra).
  destruct (double_growth (sp_order s) (sp_dim s) _ HD HM' D2) as (G1 & G2 & G3 & _).
  assert (He : Feta <= g). { unfold Feta. assert (bpow radix2 (-1074) <= bpow radix2 (-800)) by (apply bpow_le; lia). pose proof (bpow_ge_0 radix2 (-1074)). lra. }
  pose proof (basis_mono Fu Feta (bpow radix2 (-800)) g (sp_order s) (sp_dim s) U0 E0 G0 Hg) as M1.
  pose proof (coef_mono Fu Feta (bpow radix2 (-800)) g (sp_order s) (sp_dim s) U0 E0 G0 Hg) as M2.
  pose proof (fun c => value_mono Fu Feta (bpow radix2 (-800)) g (sp_order s) (sp_dim s) U0 E0 G0 Hg c) as M3.
  assert (HB : 0 <= C * slope (sp_order s) gap ns <= C * Lam ^ order_sum ns).
  { assert (0 <= slope (sp_order s) gap ns <= Lam ^ order_sum ns); [|split; [apply Rmult_le_pos; lra|apply Rmult_le_compat_l; lra]].
    apply (slope_range (sp_order s) gap Lam ns). intros d Hd. rewrite Ln in Hd. auto. }
  destruct (D3 _ HB) as (D4 & D5).
  destruct (double_growth (sp_order s) (sp_dim s) _ HD HM' D4) as (_ & _ & _ & G4).
  destruct (derivative_error Fops double_val double_finite Fu Feta Fbig on s g C Lam gap ns xs xs' hints) as (v & w & E1 & E2 & Gv & Hv); auto using F_rounding, double_small; try lra.
  - eapply Rle_trans; [apply M3|apply G3]. lra.
  - exists v, w. split; auto. split; auto. split; auto. eapply Rle_trans; [apply Hv|]. specialize (M3 _ (proj1 D4)). lra.
Qed.
