(** Rounding errors of evaluation in doubles. *)
From Coq Require Import List Arith Lia Bool ZArith Reals Lra Psatz Floats.
From Flocq Require Import Core.
From Verif Require Import Base Num FloatM MeshM SplineM SpecMesh SpecBand SpecSpline SpecSplineObj SpecRound MeshProofs SumR SplineProofs TensorR EvalProofs EvalR SplineFinal SplineCons RoundSpline RoundEval FloatProofs.
Import ListNotations.
Local Open Scope R_scope.

Lemma evaluation_error {T} (o : ops T) val good u eta big s g C xs xs' hints :
  rounding o val good u eta big -> number_spline val good big g C s -> 0 < g -> eta <= g -> 0 <= C ->
  basis_growth u eta g (sp_order s) <= 2 -> coef_growth u eta g (sp_order s) (sp_dim s) <= big ->
  value_bound u eta g (sp_order s) (sp_dim s) C <= big ->
  length xs = sp_dim s -> length xs' = sp_dim s -> hints_ok s hints ->
  (forall d, (d < sp_dim s)%nat ->
     wrap_coord o (per_of s d) (nth d (sp_range s) (o0 o, o0 o)) (nth d xs (o0 o)) = Ok (nth d xs' (o0 o)) /\
     good (nth d xs' (o0 o)) /\
     kn (map val (knot_of s d)) (sp_order s) <= val (nth d xs' (o0 o)) <= kn (map val (knot_of s d)) (last_of s d + 1) /\
     (per_of s d = true -> fst (rng (real_spline val s) d) <= val (nth d xs' (o0 o)) < snd (rng (real_spline val s) d))) ->
  exists v w, spline_eval o s (combine xs hints) = Ok v /\
    spline_eval Rops (real_spline val s) (combine (map val xs') hints) = Ok w /\ good v /\
    Rabs (val v - w) <= value_bound u eta g (sp_order s) (sp_dim s) C - C.
Proof.
  intros RD NS Hg He HC Hb HQ HV Lx Lx' [Lh Hh] H.
  apply (eval_round o val good u eta big RD s g C NS Hg He HC Hb HQ HV xs xs' hints Lx Lx' Lh Hh); intros d Hd; destruct (H d Hd) as (H1 & H2 & H3 & H4); auto.
  replace (knot_of (real_spline val s) d) with (map val (knot_of s d)); auto. unfold knot_of, real_spline. cbn [sp_knots]. change (@nil R) with (map val []). symmetry. apply map_nth.
Qed.

Lemma exp_pow a n : 0 <= a -> (1 + a) ^ n <= exp (INR n * a).
Proof.
  intros Ha. induction n; [cbn; rewrite Rmult_0_l, exp_0; lra|]. rewrite S_INR, Rmult_plus_distr_r, Rmult_1_l, exp_plus, Rmult_comm. cbn [pow]. 
  apply Rmult_le_compat; try lra. apply pow_le; lra. destruct (Req_dec a 0) as [->|N]; [rewrite exp_0; lra|]. pose proof (exp_ineq1 a N). lra.
Qed.
Lemma exp_1 a : 0 <= a -> 1 + a <= exp a.
Proof. intros. pose proof (exp_pow a 1 H) as E. cbn in E. rewrite !Rmult_1_l, !Rmult_1_r in E. auto. Qed.
Lemma exp_small t : 0 <= t <= / 1000 -> exp t - 1 <= 1001 / 1000 * t + t * / 500.
Proof.
  intros Ht. assert (E : exp t * exp (- t) = 1) by (rewrite <- exp_plus; replace (t + - t) with 0 by ring; apply exp_0).
  assert (1 - t <= exp (- t)). { destruct (Req_dec t 0) as [->|N]; [rewrite Ropp_0, exp_0; lra|]. pose proof (exp_ineq1 (- t) ltac:(lra)). lra. }
  pose proof (exp_pos t). assert (exp t * (1 - t) <= 1) by nra. nra.
Qed.


Section Bound.
Variables (u eta g C : R) (order D : nat).
Hypothesis Hu : 0 <= u.
Hypothesis He : 0 <= eta.
Hypothesis Hg : 0 < g.
Hypothesis HC : 0 <= C.
Let N := ((order + 1) ^ D)%nat.
Let e1 := INR order * (INR (order + 1) * (2 * (1 + u) * (eta * (17/15) / g + eta))).
Let t := INR N * u + u + INR D * u + 7 * INR order * INR D * u + INR D * e1 + INR N * (INR D * eta).

Lemma e1_pos : 0 <= e1.
Proof using All.
  assert (0 <= eta * (17/15) / g) by (apply Rmult_le_pos; [lra|apply Rlt_le, Rinv_0_lt_compat; auto]).
  unfold e1. repeat apply Rmult_le_pos; auto using pos_INR; lra.
Qed.
Lemma basis_exp : basis_growth u eta g order <= exp (7 * INR order * u + e1).
Proof using All.
  unfold basis_growth. fold e1. rewrite exp_plus. pose proof e1_pos. apply Rmult_le_compat; try lra.
  - apply pow_le. lra.
  - replace (7 * INR order * u) with (INR order * (7 * u)) by ring. apply exp_pow. lra.
  - apply exp_1; auto.
Qed.
Lemma exp_INR n a : exp a ^ n = exp (INR n * a).
Proof. induction n; [cbn; rewrite Rmult_0_l, exp_0; auto|]. rewrite S_INR, Rmult_plus_distr_r, Rmult_1_l, exp_plus, <- IHn. cbn [pow]. ring. Qed.
Lemma basis_pos : 0 <= basis_growth u eta g order.
Proof using All. unfold basis_growth. fold e1. pose proof e1_pos. apply Rmult_le_pos; [apply pow_le; lra|lra]. Qed.
Lemma coef_exp : coef_growth u eta g order D <= exp (INR D * u + 7 * INR order * INR D * u + INR D * e1 + INR N * (INR D * eta)).
Proof using All.
  unfold coef_growth. fold N. pose proof basis_pos as B0. pose proof basis_exp as B1. rewrite exp_plus. apply Rmult_le_compat.
  - apply pow_le. apply Rmult_le_pos; lra.
  - assert (0 <= INR N * (INR D * eta)) by (apply Rmult_le_pos; [apply pos_INR|apply Rmult_le_pos; auto using pos_INR]). lra.
  - replace (INR D * u + 7 * INR order * INR D * u + INR D * e1) with (INR D * (u + (7 * INR order * u + e1))) by ring. rewrite <- exp_INR, exp_plus. apply pow_incr. split; [apply Rmult_le_pos; lra|].
    apply Rmult_le_compat; try lra. apply exp_1; auto.
  - apply exp_1. apply Rmult_le_pos; [apply pos_INR|apply Rmult_le_pos; auto using pos_INR].
Qed.
Lemma value_exp : value_bound u eta g order D C <= C * exp t + exp (INR N * u) * (INR N * eta).
Proof using All.
  unfold value_bound. fold N. pose proof coef_exp as Q1. pose proof (exp_pow u N Hu) as E1. pose proof (exp_1 u Hu) as E2.
  assert (Q0 : 0 <= coef_growth u eta g order D).
  { unfold coef_growth. pose proof basis_pos. apply Rmult_le_pos; [apply pow_le; apply Rmult_le_pos; lra|]. assert (0 <= INR ((order + 1) ^ D) * (INR D * eta)) by (apply Rmult_le_pos; [apply pos_INR|apply Rmult_le_pos; auto using pos_INR]). lra. }
  set (q := coef_growth u eta g order D) in *. set (a := INR D * u + 7 * INR order * INR D * u + INR D * e1 + INR N * (INR D * eta)) in *.
  replace t with (INR N * u + (u + a)) by (unfold t, a; ring). rewrite !exp_plus.
  assert (0 <= INR N * eta) by (apply Rmult_le_pos; auto using pos_INR). pose proof (exp_pos u).
  assert (X : (1 + u) * (C * q) <= exp u * (C * exp a)) by (apply Rmult_le_compat; try lra; [apply Rmult_le_pos; auto|apply Rmult_le_compat_l; auto]).
  apply Rle_trans with (exp (INR N * u) * (exp u * (C * exp a) + INR N * eta)).
  - apply Rmult_le_compat; auto. apply pow_le; lra. assert (0 <= (1 + u) * (C * q)) by (apply Rmult_le_pos; [lra|apply Rmult_le_pos; auto]). lra. lra.
  - right. ring.
Qed.
End Bound.

(** Numbers of roundings. *)
Lemma count_bounds order D : (1 <= D)%nat -> INR (roundings order D) <= bpow radix2 40 ->
  let N := ((order + 1) ^ D)%nat in
  0 <= INR order <= bpow radix2 40 /\ 0 <= INR (order + 1) <= bpow radix2 40 /\ 1 <= INR D <= bpow radix2 40 /\ 1 <= INR N <= bpow radix2 40 /\
  INR (roundings order D) = INR N + 1 + INR D + 7 * INR order * INR D.
Proof.
  intros HD H N. assert (E : INR (roundings order D) = INR N + 1 + INR D + 7 * INR order * INR D).
  { unfold roundings. fold N. rewrite !plus_INR, !mult_INR. cbn [INR]. ring. }
  assert (L : (order + 1 <= N)%nat). { unfold N. rewrite <- (Nat.pow_1_r (order + 1)) at 1. apply Nat.pow_le_mono_r; lia. }
  apply le_INR in L as L'. rewrite E in H. assert (1 <= INR D) by (apply (le_INR 1); auto). pose proof (pos_INR order). pose proof (pos_INR (order + 1)).
  assert (0 <= 7 * INR order * INR D) by (apply Rmult_le_pos; lra). assert (INR order <= INR (order + 1)) by (apply le_INR; lia). assert (1 <= INR N) by (apply (le_INR 1); lia).
  repeat split; auto; lra.
Qed.

Lemma bpow_mul a b : bpow radix2 a * bpow radix2 b = bpow radix2 (a + b).
Proof. symmetry. apply bpow_plus. Qed.

Lemma tiny_bound order D : (1 <= D)%nat -> INR (roundings order D) <= bpow radix2 40 ->
  let N := ((order + 1) ^ D)%nat in
  let e1 := INR order * (INR (order + 1) * (2 * (1 + Fu) * (Feta * (17/15) / bpow radix2 (-800) + Feta))) in
  0 <= INR D * e1 + INR N * (INR D * Feta) <= bpow radix2 (-150) /\ 0 <= e1 <= bpow radix2 (-190).
Proof.
  intros HD H N e1. destruct (count_bounds order D HD H) as (H1 & H2 & H3 & H4 & _). fold N in H4.
  assert (U : 0 <= Fu <= 1). { unfold Fu. pose proof (bpow_ge_0 radix2 (-52)). assert (bpow radix2 (-52) <= bpow radix2 0) by (apply bpow_le; lia). cbn [bpow] in *. lra. }
  assert (EE : Feta = bpow radix2 (-1075)). { unfold Feta. change (-1074)%Z with (1 + -1075)%Z. rewrite bpow_plus. change (bpow radix2 1) with 2. field. }
  assert (E0 : Feta / bpow radix2 (-800) = bpow radix2 (-275)).
  { rewrite EE. change (-1075)%Z with (-275 + -800)%Z. rewrite bpow_plus. field. pose proof (bpow_gt_0 radix2 (-800)). lra. }
  assert (X : 0 <= 2 * (1 + Fu) * (Feta * (17/15) / bpow radix2 (-800) + Feta) <= bpow radix2 (-271)).
  { replace (Feta * (17/15) / bpow radix2 (-800)) with (17/15 * (Feta / bpow radix2 (-800))) by (unfold Rdiv; ring). rewrite E0, EE.
    assert (bpow radix2 (-1075) <= bpow radix2 (-275)) by (apply bpow_le; lia). pose proof (bpow_gt_0 radix2 (-1075)). 
    change (-271)%Z with (4 + -275)%Z. rewrite bpow_plus. change (bpow radix2 4) with 16. split; [apply Rmult_le_pos; lra|]. nra. }
  assert (Y : 0 <= INR (order + 1) * (2 * (1 + Fu) * (Feta * (17/15) / bpow radix2 (-800) + Feta)) <= bpow radix2 (-231)).
  { split; [apply Rmult_le_pos; lra|]. change (-231)%Z with (40 + -271)%Z. rewrite bpow_plus. apply Rmult_le_compat; lra. }
  assert (Z : 0 <= e1 <= bpow radix2 (-191)).
  { unfold e1. split; [apply Rmult_le_pos; lra|]. change (-191)%Z with (40 + -231)%Z. rewrite bpow_plus. apply Rmult_le_compat; lra. }
  assert (Z1 : 0 <= INR D * e1 <= bpow radix2 (-151)).
  { split; [apply Rmult_le_pos; lra|]. change (-151)%Z with (40 + -191)%Z. rewrite bpow_plus. apply Rmult_le_compat; lra. }
  assert (Z2 : 0 <= INR N * (INR D * Feta) <= bpow radix2 (-995)).
  { rewrite EE. pose proof (bpow_gt_0 radix2 (-1075)). split; [apply Rmult_le_pos; [lra|apply Rmult_le_pos; lra]|]. change (-995)%Z with (40 + (40 + -1075))%Z. rewrite !bpow_plus. apply Rmult_le_compat; try lra. apply Rmult_le_pos; lra. apply Rmult_le_compat; lra. }
  assert (bpow radix2 (-995) <= bpow radix2 (-151)) by (apply bpow_le; lia). 
  assert (bpow radix2 (-150) = 2 * bpow radix2 (-151)) by (change (-150)%Z with (1 + -151)%Z; rewrite bpow_plus; reflexivity).
  assert (bpow radix2 (-191) <= bpow radix2 (-190)) by (apply bpow_le; lia). split; lra.
Qed.

Lemma double_growth order D C : (1 <= D)%nat -> INR (roundings order D) <= bpow radix2 40 -> 0 <= C <= bpow radix2 1000 ->
  basis_growth Fu Feta (bpow radix2 (-800)) order <= 2 /\
  coef_growth Fu Feta (bpow radix2 (-800)) order D <= Fbig /\
  value_bound Fu Feta (bpow radix2 (-800)) order D C <= Fbig /\
  value_bound Fu Feta (bpow radix2 (-800)) order D C - C <= INR (roundings order D) * bpow radix2 (-52) * C + INR ((order + 1) ^ D) * bpow radix2 (-1074).
Proof.
  intros HD H HC. pose proof (count_bounds order D HD H) as (H1 & H2 & H3 & H4 & EM). pose proof (tiny_bound order D HD H) as (T1 & T2).
  set (N := ((order + 1) ^ D)%nat) in *. set (M := INR (roundings order D)) in *.
  set (e1 := INR order * (INR (order + 1) * (2 * (1 + Fu) * (Feta * (17/15) / bpow radix2 (-800) + Feta)))) in *.
  assert (G0 : 0 < bpow radix2 (-800)) by apply bpow_gt_0.
  assert (U0 : 0 <= Fu) by (unfold Fu; pose proof (bpow_ge_0 radix2 (-52)); lra). assert (E0 : 0 <= Feta) by (unfold Feta; pose proof (bpow_ge_0 radix2 (-1074)); lra).
  pose proof (basis_exp Fu Feta (bpow radix2 (-800)) C order D U0 E0 G0 (proj1 HC)) as B1. pose proof (coef_exp Fu Feta (bpow radix2 (-800)) C order D U0 E0 G0 (proj1 HC)) as B2. pose proof (value_exp Fu Feta (bpow radix2 (-800)) C order D U0 E0 G0 (proj1 HC)) as B3.
  fold e1 N in B1, B2, B3.
  assert (UU : Fu = bpow radix2 (-53)). { unfold Fu. change (-52)%Z with (1 + -53)%Z. rewrite bpow_plus. change (bpow radix2 1) with 2. field. }
  assert (P0 : 0 <= 7 * INR order * INR D) by (apply Rmult_le_pos; lra).
  assert (M1 : 1 <= M) by lra.
  assert (MU : bpow radix2 (-53) <= M * Fu <= bpow radix2 (-13)).
  { rewrite UU. pose proof (bpow_gt_0 radix2 (-53)). split; [nra|]. change (-13)%Z with (40 + -53)%Z. rewrite bpow_plus. apply Rmult_le_compat_r; lra. }
  assert (S13 : bpow radix2 (-13) = / 8192) by reflexivity.
  assert (S150 : bpow radix2 (-150) <= / 8192 * bpow radix2 (-53)). { rewrite <- S13, bpow_mul. apply bpow_le; lia. }
  set (t := INR N * Fu + Fu + INR D * Fu + 7 * INR order * INR D * Fu + INR D * e1 + INR N * (INR D * Feta)) in *.
  assert (Et : t = M * Fu + (INR D * e1 + INR N * (INR D * Feta))) by (unfold t; rewrite EM; ring).
  assert (Ht : 0 <= t <= 8193 / 8192 * (M * Fu)). { rewrite Et. lra. }
  assert (Ht2 : t <= / 1000) by lra.
  pose proof (exp_small t (conj (proj1 Ht) Ht2)) as X1.
  assert (HNu : INR N * Fu <= t). { rewrite Et, EM. assert (0 <= 7 * INR order * INR D * Fu) by (apply Rmult_le_pos; lra). assert (0 <= INR D * Fu) by (apply Rmult_le_pos; lra). lra. }
  assert (X2 : exp t <= 2) by lra.
  assert (mono : forall a, a <= t -> exp a <= exp t). { intros a Ha. destruct (Req_dec a t) as [->|]; [lra|]. left. apply exp_increasing. lra. }
  assert (ON : 7 * INR order * Fu <= 7 * INR order * INR D * Fu). { apply Rmult_le_compat_r; auto. assert (0 <= 7 * INR order) by lra. rewrite <- (Rmult_1_r (7 * INR order)) at 1. apply Rmult_le_compat_l; lra. }
  assert (F2 : 2 <= Fbig). { unfold Fbig. change 2 with (bpow radix2 1). apply bpow_le. lia. }
  assert (N0 : 0 <= INR N * Fu) by (apply Rmult_le_pos; lra). assert (D0 : 0 <= INR D * Fu) by (apply Rmult_le_pos; lra).
  assert (De1 : e1 <= INR D * e1). { rewrite <- (Rmult_1_l e1) at 1. apply Rmult_le_compat_r; lra. }
  assert (Ne : 0 <= INR N * (INR D * Feta)) by (apply Rmult_le_pos; [lra|apply Rmult_le_pos; lra]).
  assert (EE : Feta * 2 = bpow radix2 (-1074)) by (unfold Feta; field).
  assert (X3 : exp (INR N * Fu) * (INR N * Feta) <= INR N * bpow radix2 (-1074)).
  { rewrite <- EE. assert (exp (INR N * Fu) <= 2) by (eapply Rle_trans; [apply mono|]; auto). assert (0 <= INR N * Feta) by (apply Rmult_le_pos; lra). nra. }
  assert (S2 : M * Fu * 2 = M * bpow radix2 (-52)) by (unfold Fu; field).
  assert (X4 : C * exp t - C <= M * bpow radix2 (-52) * C). { rewrite <- S2. assert (exp t - 1 <= M * Fu * 2) by lra. nra. }
  assert (X5 : INR N * bpow radix2 (-1074) <= 1). { replace 1 with (bpow radix2 1074 * bpow radix2 (-1074)) by (rewrite bpow_mul; reflexivity). apply Rmult_le_compat_r; [apply bpow_ge_0|]. eapply Rle_trans; [apply H4|]. apply bpow_le. lia. }
  repeat split.
  - eapply Rle_trans; [apply B1|]. eapply Rle_trans; [apply mono|apply X2]. unfold t. lra.
  - eapply Rle_trans; [apply B2|]. eapply Rle_trans; [apply mono|lra]. unfold t. lra.
  - eapply Rle_trans; [apply B3|]. assert (C * exp t <= bpow radix2 1000 * 2) by (apply Rmult_le_compat; try lra; left; apply exp_pos).
    assert (bpow radix2 1000 * 4 <= Fbig). { unfold Fbig. change 4 with (bpow radix2 2). rewrite bpow_mul. apply bpow_le. lia. }
    assert (1 <= bpow radix2 1000) by (change 1 with (bpow radix2 0); apply bpow_le; lia). lra.
  - lra.
Qed.

Lemma double_evaluation s C xs xs' hints :
  number_spline double_val double_finite (powerRZ 2 1023) (powerRZ 2 (-800)) C s ->
  (1 <= sp_dim s)%nat -> (Z.of_nat (roundings (sp_order s) (sp_dim s)) <= 2 ^ 40)%Z -> 0 <= C <= powerRZ 2 1000 ->
  length xs = sp_dim s -> length xs' = sp_dim s -> hints_ok s hints ->
  (forall d, (d < sp_dim s)%nat ->
     wrap_coord Fops (per_of s d) (nth d (sp_range s) (zero, zero)) (nth d xs zero) = Ok (nth d xs' zero) /\
     double_finite (nth d xs' zero) /\
     kn (map double_val (knot_of s d)) (sp_order s) <= double_val (nth d xs' zero) <= kn (map double_val (knot_of s d)) (last_of s d + 1) /\
     (per_of s d = true -> fst (rng (real_spline double_val s) d) <= double_val (nth d xs' zero) < snd (rng (real_spline double_val s) d))) ->
  exists v w, spline_eval Fops s (combine xs hints) = Ok v /\
    spline_eval Rops (real_spline double_val s) (combine (map double_val xs') hints) = Ok w /\ double_finite v /\
    Rabs (double_val v - w) <= INR (roundings (sp_order s) (sp_dim s)) * powerRZ 2 (-52) * C + INR ((sp_order s + 1) ^ sp_dim s) * powerRZ 2 (-1074).
Proof.
  intros NS HD HM HC Lx Lx' Hh H. rewrite <- !(bpow_powerRZ radix2) in *.
  assert (HM' : INR (roundings (sp_order s) (sp_dim s)) <= bpow radix2 40). { rewrite INR_IZR_INZ. change (bpow radix2 40) with (IZR (2 ^ 40)). apply IZR_le. auto. }
  destruct (double_growth (sp_order s) (sp_dim s) C HD HM' HC) as (G1 & G2 & G3 & G4).
  destruct (evaluation_error Fops double_val double_finite Fu Feta Fbig s (bpow radix2 (-800)) C xs xs' hints) as (v & w & E1 & E2 & Gv & Hv); auto using F_rounding, bpow_gt_0; try tauto.
  - unfold Feta. assert (bpow radix2 (-1074) <= bpow radix2 (-800)) by (apply bpow_le; lia). pose proof (bpow_ge_0 radix2 (-1074)). lra.
  - exists v, w. split; auto. split; auto. split; auto. eapply Rle_trans; [apply Hv|auto].
Qed.
