(** Interpolation in doubles: what follows from facts about each dimension. *)
From Coq Require Import List Arith Lia Bool ZArith Reals Floats Lra Psatz.
From Flocq Require Import Core BinarySingleNaN PrimFloat Relative Plus_error.
From Verif Require Import Base Num MeshM SpecMesh MeshProofs ProgM BandM LUM SplineM InterpM FloatM SpecBand SpecSpline SpecSplineObj SpecInterp SpecRound SpecRoundInterp.
From Verif Require Import SumR BandProofs MulProofs DenseLU LUProofs SplineProofs BetaProofs BasisProofs TensorR KnotProofs CoefProofs SolveProofs BuildProofs WeightProofs LUConv.
From Verif Require Import SplineFinal FloatProofs RoundDouble GenLU RoundLU RoundLUTop RoundProofs GenKnots GenSolve RoundTensor RoundColl RoundTempl RoundUniform RoundGrid RoundInterp PiecePerturb FloatWrap RoundUGrid.
Import ListNotations.
Local Open Scope R_scope.
Local Notation float := PrimFloat.float.

(** Reducing a coordinate that is inside of the range already. *)
Lemma wrap_inside (a b x : float) X :
  double_finite a -> double_finite b -> double_finite x -> X <= powerRZ 2 1000 ->
  Rabs (double_val a) <= 4 * X -> Rabs (double_val b) <= 4 * X -> Rabs (double_val x) <= 2 * X ->
  double_val a <= double_val x -> double_val x + powerRZ 2 (-47) * X < double_val b ->
  exists x', wrap_coord Fops true (a, b) x = Ok x' /\ double_finite x' /\ double_val a <= double_val x' /\
    Rabs (double_val x' - double_val x) <= powerRZ 2 (-49) * X.
Proof.
  intros Fa Fb Fx HX Ba Bb Bx Hax Hxb.
  set (va := double_val a) in *. set (vb := double_val b) in *. set (vx := double_val x) in *.
  destruct Fu_val as [Eu [U0 U1]].
  assert (E47 : powerRZ 2 (-47) = 64 * Fu) by (rewrite Eu, <- !(bpow_powerRZ radix2); change (-47)%Z with (6 + -53)%Z; rewrite bpow_plus; reflexivity).
  assert (E49 : powerRZ 2 (-49) = 16 * Fu) by (rewrite Eu, <- !(bpow_powerRZ radix2); change (-49)%Z with (4 + -53)%Z; rewrite bpow_plus; reflexivity).
  rewrite E47 in Hxb. rewrite E49.
  assert (Hbig : 16 * X <= Fbig).
  { unfold Fbig. apply Rle_trans with (16 * powerRZ 2 1000); [lra|]. rewrite <- (bpow_powerRZ radix2). change 16 with (bpow radix2 4). rewrite <- bpow_plus. apply bpow_le. lia. }
  apply Rabs_le_inv in Ba. apply Rabs_le_inv in Bb. apply Rabs_le_inv in Bx.
  assert (X0 : 0 <= X) by lra. assert (FX : 0 <= Fu * X <= X / 1000000) by (split; [apply Rmult_le_pos; lra|unfold Rdiv; rewrite (Rmult_comm X); apply Rmult_le_compat_r; lra]).
  destruct (Fsub_val b a Fb Fa) as [Gp Vp]. { fold va vb. apply Rabs_le. lra. }
  destruct (Fsub_val x a Fx Fa) as [Gd Vd]. { fold va vx. apply Rabs_le. lra. }
  destruct (rd_sub _ _ _ _ _ _ F_rounding b a Fb Fa) as [_ Ep]. { fold va vb. apply Rabs_le. lra. }
  destruct (rd_sub _ _ _ _ _ _ F_rounding x a Fx Fa) as [_ Ed]. { fold va vx. apply Rabs_le. lra. }
  cbn [osub Fops] in Ep, Ed. fold va vb vx in Ep, Ed, Vp, Vd. rewrite (Rabs_pos_eq (vx - va)) in Ed by lra. rewrite (Rabs_pos_eq (vb - va)) in Ep by lra.
  assert (E1 : Fu * (vx - va) <= 6 * (Fu * X)) by (replace (6 * (Fu * X)) with (Fu * (6 * X)) by ring; apply Rmult_le_compat_l; lra).
  assert (E2 : Fu * (vb - va) <= 8 * (Fu * X)) by (replace (8 * (Fu * X)) with (Fu * (8 * X)) by ring; apply Rmult_le_compat_l; lra).
  apply Rabs_le_inv in Ep. apply Rabs_le_inv in Ed.
  unfold wrap_coord. cbn [fst snd osub ofmod oadd olt o0 Fops bind].
  set (p := (b - a)%float) in *. set (dd := (x - a)%float) in *.
  assert (D0 : 0 <= double_val dd). { rewrite Vd. rewrite <- (rnd_exact 0) by apply generic_format_0. apply rnd_mono. lra. }
  assert (DP : double_val dd < double_val p) by lra.
  destruct (Ffmod_exact dd p Gd Gp ltac:(lra)) as [Gf Vf].
  assert (Q0 : Ztrunc (double_val dd / double_val p) = 0%Z).
  { assert (R : 0 <= double_val dd / double_val p < 1).
    { split; [apply Rmult_le_pos; [lra|apply Rlt_le, Rinv_0_lt_compat; lra]|]. apply Rmult_lt_reg_r with (double_val p); [lra|]. unfold Rdiv. rewrite Rmult_assoc, Rinv_l by lra. lra. }
    rewrite Ztrunc_floor by lra. apply Zfloor_imp. simpl. lra. }
  rewrite Q0, Rmult_0_l, Rminus_0_r in Vf.
  assert (Lt : olt Fops x a = false).
  { destruct (olt Fops x a) eqn:E; auto. apply (rd_lt _ _ _ _ _ _ F_rounding x a Fx Fa) in E. fold va vx in E. lra. }
  cbn [olt Fops] in Lt. rewrite Lt.
  set (f := Ffmod dd p) in *.
  destruct (Fadd_val a f Fa Gf) as [G1 V1]. { rewrite Vf. fold va. apply Rabs_le. lra. }
  destruct (rd_add _ _ _ _ _ _ F_rounding a f Fa Gf) as [_ E3]. { rewrite Vf. fold va. apply Rabs_le. lra. }
  cbn [oadd Fops] in E3. fold va in E3, V1. rewrite Vf in E3, V1.
  assert (B3 : Rabs (va + double_val dd) <= 3 * X) by (apply Rabs_le; lra).
  assert (E4 : Fu * Rabs (va + double_val dd) <= 3 * (Fu * X)) by (replace (3 * (Fu * X)) with (Fu * (3 * X)) by ring; apply Rmult_le_compat_l; lra).
  assert (L1 : va <= double_val (a + f)%float). { rewrite V1. rewrite <- (rnd_exact va) at 1 by apply val_format. apply rnd_mono. lra. }
  destruct (rd_0 _ _ _ _ _ _ F_rounding) as [Z1 Z2]. cbn [o0 Fops] in Z1, Z2.
  apply Rabs_le_inv in E3. set (w := double_val (a + f)%float) in *.
  destruct (Fadd_val (a + f)%float zero G1 Z1) as [G2 V2]. { rewrite Z2, Rplus_0_r. fold w. apply Rabs_le. lra. }
  rewrite Z2, Rplus_0_r in V2. rewrite rnd_exact in V2 by apply val_format. fold w in V2.
  eexists. split; [reflexivity|]. split; [exact G2|]. rewrite V2. split; auto. apply Rabs_le. lra.
Qed.

Section Top.
Context (on nd : bool) (p : nat) (per : list bool) (dims : list nat) (ranges : list (xrange float)) (t : templ float).
Let D := length per.
Let W := ddims nd per dims.
Local Notation pd d := (nth d per false).
Local Notation N d := (nth d W 0%nat).
Local Notation s0 := (if_spline (tp_base t)).
Local Notation K d := (nth d (sp_knots s0) []).
Local Notation tk d := (kn (map double_val (K d))).
Local Notation g0 := (powerRZ 2 (-800)).
(** The grids, bounds of their coordinates and lower bounds of their
    distances. *)
Context (xi : nat -> nat -> R) (reach sp : nat -> R) (kap : R).
Local Notation de d := (powerRZ 2 (-48) * reach d).
Let beta := basis_growth Fu Feta g0 p.

Definition flen d := if pd d then (N d + 2 * p + 1 + (1 - p mod 2))%nat else (N d + p + 1)%nat.
Local Notation last d := (flen d - p - 2)%nat.
Local Notation send d := (flen d - p - (2 - p mod 2))%nat.

Record dimfit (d : nat) : Prop := {
  di_size : (p + 1 <= N d)%nat;
  di_per : vget (sp_per s0) d = Ok (pd d);
  di_knots : vget (sp_knots s0) d = Ok (K d);
  di_range : vget (sp_range s0) d = Ok (nth p (K d) 0%float, nth (send d) (K d) 0%float);
  di_fin : forall a, In a (K d) -> double_finite a;
  di_sorted : nondecreasing (map double_val (K d));
  di_wide : forall a b, In a (K d) -> In b (K d) -> double_val b - double_val a <= Fbig / 4;
  di_len : length (K d) = flen d;
  di_gap : forall i, (p <= i <= last d)%nat -> g0 <= tk d (i + 1)%nat - tk d i /\ sp d / 2 <= tk d (i + 1)%nat - tk d i;
  di_matrix : exists m, coef_matrix Fops on (tp_base t) (tp_coords t) W d = Ok m /\ gsinv (pd d) (N d) (bw_of p (pd d)) m /\ coef_factor Fops on m = Ok (gsv_at Fops (tp_solvers t) d) /\
    forall i, (i < N d)%nat -> exists k y0, (p <= k <= last d)%nat /\ tk d k <= y0 <= tk d (k + 1)%nat /\ Rabs (y0 - xi d i) <= de d /\
      sum (N d) (fun j => Rabs (double_val (gsabs Fops m (rowof p (pd d) (N d) i) j) - Bmat (tk d) p (N d) k y0 j)) <= (beta - 1) + 2 * INR p * (4 * de d / (sp d / 2));
  di_sp : 0 < sp d /\ 0 <= reach d <= powerRZ 2 1000 /\ powerRZ 2 (-44) * reach d <= sp d;
  di_first : tk d p <= xi d 0%nat /\ forall i, (i < N d)%nat -> xi d 0%nat <= xi d i;
  di_last : if pd d then forall i, (i < N d)%nat -> xi d i + sp d / 4 <= tk d (send d) else tk d (last d + 1)%nat = xi d (N d - 1)%nat /\ forall i, (i < N d)%nat -> xi d i <= xi d (N d - 1)%nat;
  di_abs : (forall i, (i < N d)%nat -> Rabs (xi d i) <= reach d) /\ Rabs (tk d p) <= 4 * reach d /\ Rabs (tk d (send d)) <= 4 * reach d;
  di_hint : forall x i, double_finite x -> (i < N d)%nat -> xi d 0%nat <= double_val x -> Rabs (double_val x - xi d i) <= powerRZ 2 (-49) * reach d ->
    exists hi, hint_for Fops (tp_base t) d x = Ok hi /\ (p <= hi <= last d)%nat;
}.

Hypothesis Ht : templ_make Fops on nd p per dims ranges = Ok t.
Hypothesis Ld : length dims = length per.
Hypothesis HD : (1 <= length per)%nat.
Hypothesis P1 : (1 <= p)%nat.
Hypothesis HR : INR (roundings p (length per)) <= powerRZ 2 40.
Hypothesis Hdim : forall d, (d < length per)%nat -> dimfit d.
Hypothesis Hk0 : 0 <= kap.
Hypothesis Hk1 : forall d, (d < length per)%nat -> reach d <= kap * sp d.
Hypothesis Hk2 : INR (length per) * (INR p * (1 + 128 * kap)) <= powerRZ 2 40.

Lemma fit_order : sp_order s0 = p /\ sp_per s0 = per /\ interp_base Fops on nd p per dims ranges = Ok (tp_base t, tp_coords t).
Proof using All.
  destruct (templ_inv Fops on nd p per dims ranges t Ht Ld) as (Eb & _). pose proof (base_knots Fops on nd _ _ _ _ _ _ Eb) as (H1 & H2 & _). auto.
Qed.
Lemma flen_big d : (d < D)%nat -> (2 * p + 2 <= flen d)%nat /\ (p mod 2 = 0 \/ p mod 2 = 1)%nat /\ (p <= last d)%nat.
Proof using All. intros Hd. pose proof (di_size d (Hdim d Hd)). unfold flen. pose proof (half_cases p). destruct (pd d); lia. Qed.

Let eps := INR p * (1 + 128 * kap) * powerRZ 2 (-50).
Lemma beta_bound : 1 <= beta <= 1 + INR p * powerRZ 2 (-50).
Proof using All.
  pose proof HR as HR'. unfold beta. rewrite <- !(bpow_powerRZ radix2) in *. 
  destruct (count_bounds p (length per) HD HR') as ((Q0 & Q1) & (Q2 & Q3) & _). 
  destruct (tiny_bound p (length per) HD HR') as (_ & T0 & T1).
  assert (U0 : 0 <= Fu) by apply F_rounding. assert (E0 : 0 <= Feta) by apply F_rounding.
  assert (Gp : 0 < bpow radix2 (-800)) by apply bpow_gt_0.
  pose proof (basis_exp Fu Feta (bpow radix2 (-800)) 0 p 0 U0 E0 Gp (Rle_refl 0)) as B.
  set (e1 := INR p * (INR (p + 1) * _)) in *.
  assert (L : 1 <= basis_growth Fu Feta (bpow radix2 (-800)) p).
  { unfold basis_growth. fold e1. rewrite <- (Rmult_1_l 1) at 1. apply Rmult_le_compat; try lra. apply pow_R1_Rle. lra. }
  split; [lra|].
  assert (T2 : e1 <= INR p * bpow radix2 (-190)).
  { pose proof (le_INR 1 p P1) as P. change (INR 1) with 1 in P. pose proof (bpow_ge_0 radix2 (-190)).
    eapply Rle_trans; [exact T1|]. rewrite <- (Rmult_1_l (bpow radix2 (-190))) at 1. apply Rmult_le_compat_r; auto. }
  assert (B1 : bpow radix2 (-190) <= bpow radix2 (-60)) by (apply bpow_le; lia).
  assert (V1 : bpow radix2 (-50) = 8 * Fu) by (unfold Fu; change (-50)%Z with (2 + -52)%Z; rewrite <- bpow_mul; change (bpow radix2 2) with 4; lra).
  assert (V2 : Fu = 128 * bpow radix2 (-60)) by (unfold Fu; change (-52)%Z with (8 + -60)%Z; rewrite <- bpow_mul; change (bpow radix2 8) with 256; lra).
  assert (V3 : INR p * bpow radix2 (-50) <= / 1024).
  { apply Rle_trans with (bpow radix2 40 * bpow radix2 (-50)); [apply Rmult_le_compat_r; auto; apply bpow_ge_0|]. rewrite bpow_mul. cbn. lra. }
  assert (T3 : e1 <= INR p * bpow radix2 (-60)) by (eapply Rle_trans; [exact T2|]; apply Rmult_le_compat_l; auto).
  set (t0 := 7 * INR p * Fu + e1) in *.
  assert (0 <= t0) by (unfold t0; assert (0 <= 7 * INR p * Fu) by (apply Rmult_le_pos; lra); lra).
  assert (T4 : t0 <= (7 / 8 + / 1024) * (INR p * bpow radix2 (-50))) by (unfold t0; rewrite V1; rewrite V2 in *; lra).
  pose proof (exp_small t0 ltac:(lra)). lra.
Qed.
Lemma eps_pos : 0 <= eps.
Proof using All. unfold eps. rewrite <- (bpow_powerRZ radix2). apply Rmult_le_pos; [apply Rmult_le_pos; [apply pos_INR|lra]|apply bpow_ge_0]. Qed.

(** Positions near data point [i]. *)
Definition at_pos d i y := tk d p <= y <= tk d (last d + 1)%nat /\ Rabs (y - xi d i) <= de d.
Lemma moved d e : (d < D)%nat -> 0 <= e <= 6 * de d -> 2 * INR p * (e / (sp d / 2)) <= eps - INR p * powerRZ 2 (-50).
Proof using All.
  intros Hd He. destruct (di_sp d (Hdim d Hd)) as (S0 & _ & _). pose proof (Hk1 d Hd) as X. unfold eps.
  assert (E : powerRZ 2 (-48) = 4 * powerRZ 2 (-50)) by (rewrite <- !(bpow_powerRZ radix2); change (-48)%Z with (2 + -50)%Z; rewrite bpow_plus; reflexivity).
  rewrite E in He. pose proof (pos_INR p) as Q. assert (B : 0 <= powerRZ 2 (-50)) by (rewrite <- (bpow_powerRZ radix2); apply bpow_ge_0). set (b := powerRZ 2 (-50)) in *.
  assert (Y : e / (sp d / 2) <= 48 * b * kap).
  { apply Rmult_le_reg_r with (sp d / 2); [lra|]. unfold Rdiv at 1. rewrite Rmult_assoc, Rinv_l, Rmult_1_r by lra.
    apply (Rmult_le_compat_l b) in X; lra. }
  assert (0 <= b * kap) by (apply Rmult_le_pos; lra). 
  apply (Rmult_le_compat_l (2 * INR p)) in Y; [|lra]. assert (0 <= INR p * (b * kap)) by (apply Rmult_le_pos; lra). lra.
Qed.

Let md d := match coef_matrix Fops on (tp_base t) (tp_coords t) W d with Ok m => m | _ => Aperiodic (band_make Fops 0 0 0) end.
Lemma tk_up d i : (d < D)%nat -> (p <= i <= last d)%nat -> tk d i < tk d (i + 1)%nat.
Proof using All. intros Hd Hi. destruct (di_gap d (Hdim d Hd) i Hi) as [H _]. rewrite <- (bpow_powerRZ radix2) in H. pose proof (bpow_gt_0 radix2 (-800)). lra. Qed.

Lemma md_rows d : (d < D)%nat -> gsinv (pd d) (N d) (bw_of p (pd d)) (md d) /\ coef_factor Fops on (md d) = Ok (gsv_at Fops (tp_solvers t) d) /\
  forall i y, (i < N d)%nat -> at_pos d i y -> exists k, segment (tk d) p (last d) y k /\ tk d k <= y <= tk d (k + 1)%nat /\
    sum (N d) (fun j => Rabs (double_val (gsabs Fops (md d) (rowof p (pd d) (N d) i) j) - Bmat (tk d) p (N d) k y j)) <= eps.
Proof using All.
  intros Hd. pose proof (Hdim d Hd) as DF. destruct (di_matrix d DF) as (m & Em & I & F & R). assert (E : md d = m) by (unfold md; rewrite Em; auto). rewrite E.
  split; auto. split; auto. intros i y Hi [Hy1 Hy2]. destruct (R i Hi) as (k0 & y0 & Hk & Hy0 & Ny & Hs). destruct (flen_big d Hd) as (FB & _ & Lp).
  destruct (segment_exists (tk d) p (last d) y) as (k & Sk & Ik); auto. { intros j Hj. apply tk_up; auto. }
  exists k. split; auto. split; auto. destruct (di_sp d DF) as (S0 & R0 & _). pose proof (di_size d DF) as NB.
  assert (SD : forall i j, (i <= j < flen d)%nat -> tk d i <= tk d j). { pose proof (di_sorted d DF) as Q. unfold nondecreasing in Q. rewrite map_length, (di_len d DF) in Q. auto. }
  pose proof (Bmat_lipschitz (tk d) (flen d) p (N d) (last d) (sp d / 2) SD ltac:(lia) P1 ltac:(unfold flen in *; destruct (pd d); lia) ltac:(lra)
    (fun j Hj => proj2 (di_gap d DF j Hj)) k0 y0 k y Hk (proj1 Sk) Hy0 Ik) as L.
  assert (De : 0 <= de d) by (apply Rmult_le_pos; [rewrite <- (bpow_powerRZ radix2); apply bpow_ge_0|lra]).
  assert (Yy : Rabs (y - y0) <= 2 * de d).
  { replace (y - y0) with ((y - xi d i) - (y0 - xi d i)) by ring. unfold Rminus at 1. eapply Rle_trans; [apply Rabs_triang|]. rewrite Rabs_Ropp. lra. }
  pose proof (Rabs_pos (y - y0)).
  pose proof (moved d (4 * de d + Rabs (y - y0)) Hd ltac:(lra)) as Mv. pose proof beta_bound as [_ BB].
  replace (2 * INR p * ((4 * de d + Rabs (y - y0)) / (sp d / 2))) with (2 * INR p * (4 * de d / (sp d / 2)) + 2 * INR p * (Rabs (y - y0) / (sp d / 2))) in Mv by (field; lra).
  apply Rle_trans with (sum (N d) (fun j => Rabs (double_val (gsabs Fops m (rowof p (pd d) (N d) i) j) - Bmat (tk d) p (N d) k0 y0 j)) + sum (N d) (fun j => Rabs (Bmat (tk d) p (N d) k0 y0 j - Bmat (tk d) p (N d) k y j))).
  - rewrite <- sum_plus. apply sum_le. intros j _. set (u := double_val _). 
    replace (u - Bmat (tk d) p (N d) k y j) with ((u - Bmat (tk d) p (N d) k0 y0 j) + (Bmat (tk d) p (N d) k0 y0 j - Bmat (tk d) p (N d) k y j)) by ring. apply Rabs_triang.
  - lra.
Qed.
Lemma xi_pos d i : (d < D)%nat -> (i < N d)%nat -> at_pos d i (xi d i).
Proof using All.
  intros Hd Hi. pose proof (Hdim d Hd) as DF. destruct (di_first d DF) as [F1 F2]. pose proof (di_last d DF) as L. destruct (di_sp d DF) as (S0 & R0 & _).
  assert (De : 0 <= de d) by (apply Rmult_le_pos; [rewrite <- (bpow_powerRZ radix2); apply bpow_ge_0|lra]).
  split; [|rewrite Rminus_eq_0, Rabs_R0; lra]. specialize (F2 i Hi). split; [lra|]. destruct (flen_big d Hd) as (FB & HC & Lp). destruct (pd d) eqn:E.
  - pose proof (L i Hi) as Q. pose proof (di_sorted d DF) as Sd. unfold nondecreasing in Sd. rewrite map_length, (di_len d DF) in Sd.
    pose proof (Sd (send d) (last d + 1)%nat ltac:(lia)). lra.
  - destruct L as [-> L]. apply L. auto.
Qed.

(** ** The function *)
Context (f : mesh float) (c : mesh float) (G C : R) (M : nat).
Hypothesis Hc : solve_ctrl Fops on nd t f = Ok c.
Hypothesis Hfd : m_dims f = dims.
Hypothesis Wf : wf_mesh f.
Hypothesis HM : forall d, (d < length per)%nat -> (N d <= M)%nat.
Hypothesis HF : forall d sv, nth_error (tp_solvers t) d = Some sv -> exists F, stored_factors sv F /\ factors_within (N d) F G.
Hypothesis HS : INR (length per) * INR M * G <= powerRZ 2 40.
Hypothesis HC : 0 <= C.
Hypothesis HV : forall a, In a (m_data c) -> double_finite a /\ Rabs (double_val a) <= C.

Let nu := INR M * G * powerRZ 2 (-50).
Let tau := INR M * G * powerRZ 2 (-1072).
Let mats : list mat := map (fun d => fun i j => double_val (gsabs Fops (md d) i j)) (seq 0 D).

Lemma fit_factor d : (d < D)%nat -> exists F, stored_factors (gsv_at Fops (tp_solvers t) d) F /\ factors_within (N d) F G.
Proof using All.
  intros Hd. destruct (templ_inv Fops on nd p per dims ranges t Ht Ld) as (_ & _ & Ls & _).
  apply (HF d). unfold gsv_at. apply nth_error_nth'. unfold D in Hd. lia.
Qed.
Lemma fit_G : 1 <= G.
Proof using All.
  destruct (fit_factor 0 HD) as (F & _ & _ & H). pose proof (di_size 0 (Hdim 0%nat HD)) as NB. change Rsum with sum in H.
  pose proof (diag_G (N 0) _ G H 0%nat ltac:(lia)) as Q. pose proof (Rabs_pos (double_val (F 0%nat 0%nat))). lra.
Qed.
Lemma fit_M : INR M <= powerRZ 2 40.
Proof using All.
  pose proof fit_G as G1. pose proof (pos_INR M) as M0. pose proof (le_INR 1 _ HD) as D1. change (INR 1) with 1 in D1.
  eapply Rle_trans; [|exact HS]. rewrite <- (Rmult_1_l (INR M)) at 1. rewrite <- (Rmult_1_r (1 * INR M)).
  apply Rmult_le_compat; try lra. apply Rmult_le_compat; lra.
Qed.
Lemma fit_mat d : (d < D)%nat -> mat_at mats d = (fun i j => double_val (gsabs Fops (md d) i j)).
Proof using Type. intros Hd. unfold mats, mat_at. rewrite map_seq_nth by auto. auto. Qed.
Lemma fit_nu : 0 <= nu /\ 0 <= tau.
Proof using All.
  pose proof fit_G. pose proof (pos_INR M). unfold nu, tau. rewrite <- !(bpow_powerRZ radix2).
  split; (apply Rmult_le_pos; [apply Rmult_le_pos; lra|apply bpow_ge_0]).
Qed.

Lemma fit_solves d : (d < D)%nat -> solves Fops on (N d) (bounded_rel double_val double_finite nu tau (N d) (mat_at mats d)) (gsv_at Fops (tp_solvers t) d).
Proof using All.
  intros Hd. destruct (md_rows d Hd) as (I & Ef & _). rewrite fit_mat by auto. pose proof (di_size d (Hdim d Hd)) as NB. pose proof (HM d Hd) as NM.
  destruct (fit_factor d Hd) as (F & HF1 & HF2 & HF3). cbv zeta in HF3. change Rsum with sum in HF3.
  assert (Hb : pd d = true -> (2 * bw_of p (pd d) <= N d)%nat).
  { intros ->. unfold bw_of. pose proof (half_cases p). lia. }
  destruct (factor_solves Fops double_val double_finite Fu Feta F_strict on (pd d) (N d) (bw_of p (pd d)) (md d) _ I ltac:(lia) Hb Ef) as (If & Hs).
  revert Hs. apply solves_mono. intros b y Hl C0 HC0 Hy i Hi.
  pose proof (stored_abs _ _ _ _ _ If HF1) as EF.
  destruct (Hl ltac:(intros; rewrite EF; auto) ltac:(intros; apply Hy; auto) i Hi) as (G1 & G2 & G3). split; auto.
  eapply Rle_trans; [exact G3|].
  pose proof fit_M as MS. pose proof (le_INR _ _ NM) as NM'. pose proof (pos_INR (N d)) as N0. pose proof fit_G as GG.
  eapply Rle_trans; [apply residual_double; lra|].
  replace (double_residual (N d) (fun i j => double_val (gsabs Fops (gsv_at Fops (tp_solvers t) d) i j)) (fun j => double_val (y j)) i)
    with (double_residual (N d) (fun i j => double_val (F i j)) (fun j => double_val (y j)) i).
  2:{ f_equal. apply FunctionalExtensionality.functional_extensionality. intros a. apply FunctionalExtensionality.functional_extensionality. intros e. rewrite EF. auto. }
  eapply Rle_trans; [apply (growth_residual (N d) _ G HF3 C0); auto; [lra|]|].
  { intros j Hj. apply Hy. auto. }
  unfold nu, tau. rewrite <- !(bpow_powerRZ radix2). pose proof (bpow_ge_0 radix2 (-50)). pose proof (bpow_ge_0 radix2 (-1072)).
  assert (Q : INR (N d) * G <= INR M * G) by (apply Rmult_le_compat_r; lra).
  apply Rplus_le_compat.
  - apply Rmult_le_compat_r; auto. apply Rmult_le_compat_r; auto.
  - apply Rmult_le_compat_r; auto.
Qed.

Lemma fit_rowsum d i : (d < D)%nat -> (i < N d)%nat -> sum (N d) (fun j => Rabs (mat_at mats d i j)) <= 1 + eps.
Proof using All.
  intros Hd Hi. destruct (md_rows d Hd) as (I & Ef & Hr). pose proof (Hdim d Hd) as DF. pose proof (di_size d DF) as NB. pose proof (half_cases p) as HCp.
  destruct (rowof_onto p [false] [0%nat] [[]] eq_refl eq_refl (le_n 1) (pd d) (N d) i ltac:(lia) Hi) as (i' & Hi' & E). destruct (Hr i' _ Hi' (xi_pos d i' Hd Hi')) as (k & Hk & Hin & Hs). rewrite E in Hs. rewrite fit_mat by auto.
  assert (LK : length (map double_val (K d)) = flen d) by (rewrite map_length; apply (di_len d DF)).
  assert (HB : sum (N d) (fun j => Rabs (Bmat (tk d) p (N d) k (xi d i') j)) <= 1).
  { destruct Hk as (K1 & K2 & K3).
    apply (Bmat_abs _ (flen d)); auto; try lia.
    rewrite <- LK. apply (di_sorted d DF). }
  apply Rle_trans with (sum (N d) (fun j => Rabs (double_val (gsabs Fops (md d) i j) - Bmat (tk d) p (N d) k (xi d i') j) + Rabs (Bmat (tk d) p (N d) k (xi d i') j))).
  - apply sum_le. intros j Hj. set (bb := Bmat _ _ _ _ _ _). replace (double_val (gsabs Fops (md d) i j)) with ((double_val (gsabs Fops (md d) i j) - bb) + bb) at 1 by ring. apply Rabs_triang.
  - rewrite sum_plus. lra.
Qed.

Lemma fit_mats_length : length mats = length per.
Proof using Type. unfold mats. rewrite map_length, seq_length. reflexivity. Qed.
Lemma fit_distinct d : (d < length per)%nat -> (0 < distinct nd (pd d) (nth d dims 0))%nat.
Proof using All. intros Hd. pose proof (di_size d (Hdim d Hd)) as H. unfold W in H. rewrite ddims_nth in H by auto. lia. Qed.

Let g := set_ctrl (tp_base t) c.
Let rs := real_spline double_val (if_spline g).

Lemma fit_ctrl_shape : m_dims c = W /\ wf_mesh c.
Proof using All.
  destruct fit_order as (Ho & Hp & _). destruct fit_nu as [Hnu Htau]. pose proof eps_pos as He.
  assert (Hne : per <> []) by (intros E; pose proof HD as X; rewrite E in X; cbn in X; lia).
  destruct (ctrl_error Fops double_val double_finite on nd p per dims ranges t f c) with (mats := mats) (nu := nu) (tau := tau) (eps := eps) as (H1 & H2 & _);
   auto using fit_mats_length, fit_distinct, fit_solves, fit_rowsum.
Qed.

Lemma frs_knot d : knot_of rs d = map double_val (K d).
Proof using Type. unfold knot_of, rs, real_spline. cbn [sp_knots]. change (@nil R) with (map double_val []). apply map_nth. Qed.
Lemma frs_order : sp_order rs = p /\ sp_per rs = per /\ sp_dim rs = length per.
Proof using All. destruct fit_order as (Ho & Hp & _). unfold sp_dim. change (sp_order rs) with (sp_order s0). change (sp_per rs) with (sp_per s0). rewrite Ho, Hp. auto. Qed.
Lemma frs_num d : num_of rs d = N d.
Proof using All. unfold num_of, rs, real_spline. cbn [sp_ctrl m_dims set_ctrl if_spline load_ctrl g]. rewrite (proj1 fit_ctrl_shape). auto. Qed.
Lemma frs_len d : (d < D)%nat -> length (knot_of rs d) = flen d.
Proof using All. intros Hd. rewrite frs_knot, map_length. apply (di_len d (Hdim d Hd)). Qed.
Lemma frs_last d : (d < D)%nat -> last_of rs d = last d.
Proof using All. intros Hd. unfold last_of. rewrite frs_len by auto. rewrite (proj1 frs_order). auto. Qed.
Lemma fit_lengths : length (sp_knots s0) = D /\ length (sp_range s0) = D.
Proof using All.
  destruct fit_order as (_ & _ & Eb). pose proof (base_shape Fops on nd _ _ _ _ _ _ Eb) as (S1 & S2 & _). auto.
Qed.
Lemma fit_range_at d : (d < D)%nat -> nth d (sp_range s0) (0%float, 0%float) = (nth p (K d) 0%float, nth (send d) (K d) 0%float).
Proof using All.
  intros Hd. pose proof (di_range d (Hdim d Hd)) as H. unfold vget in H. destruct (nth_error (sp_range s0) d) as [r|] eqn:E; [|discriminate]. injection H as ->.
  apply nth_error_nth. exact E.
Qed.
Lemma frs_rng d : (d < D)%nat -> rng rs d = (tk d p, tk d (send d)).
Proof using All.
  intros Hd. pose proof (fit_range_at d Hd) as H. rewrite !kn_vals.
  change (sp_range rs) with (map (fun r => (double_val (fst r), double_val (snd r))) (sp_range s0)).
  rewrite (nth_indep _ _ ((fun r => (double_val (fst r), double_val (snd r))) (0%float, 0%float))).
  - rewrite (map_nth (fun r => (double_val (fst r), double_val (snd r)))), H. reflexivity.
  - rewrite map_length. destruct fit_lengths as [_ ->]. exact Hd.
Qed.
Lemma frs_good : good_spline rs.
Proof using All.
  destruct frs_order as (Ro & Rp & Rd). destruct fit_lengths as [L1 L2]. destruct fit_ctrl_shape as [Dc Wc].
  constructor.
  - constructor; rewrite ?Rd, ?Ro.
    + unfold rs, real_spline. cbn [sp_knots]. rewrite map_length. exact L1.
    + unfold rs, real_spline. cbn [sp_range]. rewrite map_length. exact L2.
    + unfold wf_mesh, rs, real_spline. cbn [sp_ctrl m_dims m_data]. rewrite map_length. apply Wc.
    + change (m_dims (sp_ctrl rs)) with (m_dims c). rewrite Dc. apply ddims_length.
    + intros d Hd. rewrite frs_len by auto. apply (flen_big d Hd).
    + intros d Hd. rewrite frs_num, frs_len by auto. unfold per_of. rewrite Rp. pose proof (di_size d (Hdim d Hd)). unfold flen.
      destruct (pd d) eqn:E; [lia|]. fold W. lia.
  - rewrite Rd. intros d Hd. rewrite frs_knot. apply (di_sorted d (Hdim d Hd)).
  - rewrite Rd, Ro. intros d Hd. rewrite frs_knot. apply tk_up; auto. pose proof (flen_big d Hd). lia.
  - rewrite Rd. intros d Hd. rewrite frs_last, frs_knot by auto. apply tk_up; auto. pose proof (flen_big d Hd). lia.
  - rewrite Rd. intros d Hd E. unfold per_of in E. rewrite Rp in E. rewrite frs_rng by auto. cbn [fst snd].
    pose proof (flen_big d Hd) as (KL & HP & _). pose proof (di_size d (Hdim d Hd)). 
    apply Rlt_le_trans with (tk d (p + 1)%nat); [apply tk_up; auto; lia|].
    apply (di_sorted d (Hdim d Hd)). rewrite map_length, (di_len d (Hdim d Hd)). unfold flen in *. rewrite E in *. lia.
  - rewrite Rd. intros d Hd. rewrite frs_rng, frs_knot, frs_last, Ro by auto. cbn [fst snd]. split; auto.
    pose proof (flen_big d Hd) as (KL & HP & _). destruct HP as [E|E]; [right|left]; f_equal; lia.
Qed.
Lemma frs_in_knots l : In l (sp_knots (if_spline g)) -> exists d, (d < D)%nat /\ l = K d.
Proof using All.
  intros H. apply (In_nth _ _ []) in H as (d & Hd & <-). exists d. split; auto. destruct fit_lengths as [L _]. rewrite <- L. exact Hd.
Qed.
Lemma frs_number : number_spline double_val double_finite (powerRZ 2 1023) g0 C (if_spline g).
Proof using All.
  destruct frs_order as (Ro & Rp & Rd). constructor.
  - apply frs_good.
  - intros l a Hl Ha. apply frs_in_knots in Hl as (d & Hd & ->). apply (di_fin d (Hdim d Hd) a Ha).
  - exact HV.
  - intros l i Hl Hi _. apply frs_in_knots in Hl as (d & Hd & ->). change (sp_order (if_spline g)) with (sp_order rs) in Hi. rewrite Ro in Hi.
    apply (di_gap d (Hdim d Hd) i). rewrite <- (di_len d (Hdim d Hd)). exact Hi.
  - intros l a b Hl Ha Hb. apply frs_in_knots in Hl as (d & Hd & ->). rewrite <- (bpow_powerRZ radix2). apply (di_wide d (Hdim d Hd) a b Ha Hb).
Qed.

Lemma pos_in d i y : (d < D)%nat -> (i < N d)%nat -> at_pos d i y -> pd d = true -> fst (rng rs d) <= y < snd (rng rs d).
Proof using All.
  intros Hd Hi [Y1 Y2] E. rewrite frs_rng by auto. cbn [fst snd]. split; [lra|]. pose proof (Hdim d Hd) as DF. pose proof (di_last d DF) as L. rewrite E in L. specialize (L i Hi).
  destruct (di_sp d DF) as (S0 & R0 & R1). apply Rabs_le_inv in Y2.
  assert (E44 : powerRZ 2 (-44) = 16 * powerRZ 2 (-48)) by (rewrite <- !(bpow_powerRZ radix2); change (-44)%Z with (4 + -48)%Z; rewrite bpow_plus; reflexivity).
  rewrite E44 in R1. lra.
Qed.

Lemma fit_bound : ((1 + eps) ^ length per - 1) * C + err nu tau (1 + eps) (length per) C <=
  INR (length per) * (INR p * (1 + 128 * kap) + INR M * G) * powerRZ 2 (-49) * C + powerRZ 2 (-1031).
Proof using All.
  pose proof eps_pos as He0. pose proof fit_nu as [Hn0 Ht0]. pose proof fit_G as GG. pose proof (pos_INR M) as M0.
  pose proof HS as HS'. pose proof Hk2 as HK'. pose proof (le_INR 1 _ HD) as D1. change (INR 1) with 1 in D1.
  assert (Ee : eps = INR p * (1 + 128 * kap) * powerRZ 2 (-50)) by reflexivity. clearbody eps.
  unfold nu, tau in *. rewrite <- !(bpow_powerRZ radix2) in *.
  set (dd := INR (length per)) in *. set (mg := INR M * G) in *. set (pk := INR p * (1 + 128 * kap)) in *.
  assert (MG : 0 <= mg) by (apply Rmult_le_pos; lra).
  assert (DM : dd * mg <= bpow radix2 40) by (unfold mg; lra).
  pose proof (bpow_gt_0 radix2 (-50)) as B0.
  assert (E49 : bpow radix2 (-49) = 2 * bpow radix2 (-50)) by (change (-49)%Z with (1 + -50)%Z; rewrite <- bpow_mul; reflexivity).
  assert (E40 : bpow radix2 40 * bpow radix2 (-50) = / 1024) by (rewrite bpow_mul; cbn; lra).
  assert (D3 : dd * pk * bpow radix2 (-50) <= / 1024) by (rewrite <- E40; apply Rmult_le_compat_r; lra).
  assert (D2 : dd * eps = dd * pk * bpow radix2 (-50)) by (rewrite Ee; ring).
  assert (D4 : dd * (mg * bpow radix2 (-50)) <= / 1024) by (rewrite <- Rmult_assoc, <- E40; apply Rmult_le_compat_r; lra).
  assert (D5 : 0 <= dd * eps) by (apply Rmult_le_pos; lra).
  assert (N1 : 0 <= mg * bpow radix2 (-50)) by (apply Rmult_le_pos; lra).
  set (nn := mg * bpow radix2 (-50)) in *. set (tt := mg * bpow radix2 (-1072)) in *.
  assert (A1 : (1 + eps) ^ length per - 1 <= 2 * (dd * eps)).
  { pose proof (exp_pow eps (length per) He0) as E. fold dd in E. pose proof (exp_small (dd * eps) ltac:(lra)). lra. }
  assert (A2 : (1 + eps + nn) ^ length per <= 2).
  { rewrite Rplus_assoc. pose proof (exp_pow (eps + nn) (length per) ltac:(lra)) as E. fold dd in E.
    pose proof (exp_2 (dd * (eps + nn))) as E2. eapply Rle_trans; [exact E|]. apply E2. rewrite Rmult_plus_distr_l. assert (0 <= dd * nn) by (apply Rmult_le_pos; lra). lra. }
  assert (T1 : dd * tt <= bpow radix2 (-1032)).
  { unfold tt. rewrite <- Rmult_assoc. apply Rle_trans with (bpow radix2 40 * bpow radix2 (-1072)); [apply Rmult_le_compat_r; [apply bpow_ge_0|auto]|]. rewrite bpow_mul. apply Rle_refl. }
  assert (E31 : bpow radix2 (-1031) = 2 * bpow radix2 (-1032)) by (change (-1031)%Z with (1 + -1032)%Z; rewrite <- bpow_mul; reflexivity).
  unfold err. fold dd.
  assert (A3 : dd * (1 + eps + nn) ^ length per * (nn * C + tt) <= dd * 2 * (nn * C + tt)).
  { apply Rmult_le_compat_r; [assert (0 <= nn * C) by (apply Rmult_le_pos; lra); lra|]. apply Rmult_le_compat_l; lra. }
  assert (A4 : ((1 + eps) ^ length per - 1) * C <= 2 * (dd * eps) * C) by (apply Rmult_le_compat_r; auto).
  rewrite D2 in A4.
  rewrite E49, E31. replace (dd * (pk + mg) * (2 * bpow radix2 (-50)) * C) with (2 * (dd * pk * bpow radix2 (-50)) * C + dd * 2 * (nn * C)) by (unfold nn; ring). lra.
Qed.

(** The exact value of the computed spline near a data point. *)
Lemma fit_exact_value idx ys : valid W idx -> length ys = length per -> (forall d, (d < length per)%nat -> at_pos d (nth d idx 0%nat) (nth d ys 0)) ->
  double_finite (nth (row_major dims idx) (m_data f) 0%float) /\
  Rabs (sval rs ys - double_val (nth (row_major dims idx) (m_data f) 0%float)) <=
    INR (length per) * (INR p * (1 + 128 * kap) + INR M * G) * powerRZ 2 (-49) * C + powerRZ 2 (-1031).
Proof using All.
  intros Vi Ly Hy. destruct fit_order as (Ho & Hp & _). destruct fit_nu as [Hnu Htau]. pose proof eps_pos as He.
  assert (Hne : per <> []) by (intros E; pose proof HD as X; rewrite E in X; cbn in X; lia).
  set (crd := fun d i => if (i =? nth d idx 0)%nat then nth d ys 0 else xi d i).
  assert (Hcr : forall d i, (d < length per)%nat -> (i < N d)%nat -> at_pos d i (crd d i)).
  { intros d i Hd Hi. unfold crd. destruct (Nat.eqb_spec i (nth d idx 0%nat)) as [->|Ne]; [apply Hy; auto|apply xi_pos; auto]. }
  assert (Hnear : forall d i, (d < length per)%nat -> (i < N d)%nat ->
    (pd d = true -> fst (rng rs d) <= crd d i < snd (rng rs d)) /\
    exists k, segment (kn (knot_of rs d)) p (last_of rs d) (crd d i) k /\ kn (knot_of rs d) k <= crd d i <= kn (knot_of rs d) (k + 1)%nat /\
    sum (N d) (fun j => Rabs (mat_at mats d (rowof p (pd d) (N d) i) j - Bmat (kn (knot_of rs d)) p (N d) k (crd d i) j)) <= eps).
  { intros d i Hd Hi. split; [apply (pos_in d i); auto|].
    destruct (md_rows d Hd) as (_ & _ & Hr). destruct (Hr i (crd d i) Hi (Hcr d i Hd Hi)) as (k & Hk & Hin & Hs). exists k.
    rewrite frs_knot, frs_last, fit_mat by auto. split; auto. }
  destruct (value_error Fops double_val double_finite on nd p per dims ranges t f c) with (mats := mats) (nu := nu) (tau := tau) (eps := eps) (crd := crd) (C := C) (idx := idx) as (H1 & H2);
   auto using fit_mats_length, fit_distinct, fit_solves, fit_rowsum, frs_good.
  split; auto. replace (map (fun d => crd d (nth d idx 0%nat)) (seq 0 (length per))) with ys in H2.
  - eapply Rle_trans; [exact H2|]. apply fit_bound.
  - apply (nth_ext _ _ 0 0); [rewrite map_length, seq_length; auto|]. intros d Hd. rewrite map_seq_nth by lia. unfold crd. rewrite Nat.eqb_refl. auto.
Qed.

Lemma fit_wrap d i x : (d < D)%nat -> (i < N d)%nat -> double_finite x -> xi d 0%nat <= double_val x -> (pd d = false -> double_val x <= xi d (N d - 1)%nat) ->
  Rabs (double_val x - xi d i) <= powerRZ 2 (-49) * reach d ->
  exists x', wrap_coord Fops (pd d) (nth d (sp_range s0) (0%float, 0%float)) x = Ok x' /\ double_finite x' /\ at_pos d i (double_val x').
Proof using All.
  intros Hd Hi Gx Hx Hx2 Hn. pose proof (Hdim d Hd) as DF. destruct (di_sp d DF) as (S0 & R0 & R1). destruct (di_first d DF) as [F1 F2].
  assert (E48 : powerRZ 2 (-48) = 2 * powerRZ 2 (-49)) by (rewrite <- !(bpow_powerRZ radix2); change (-48)%Z with (1 + -49)%Z; rewrite bpow_plus; reflexivity).
  assert (E44 : powerRZ 2 (-44) = 32 * powerRZ 2 (-49)) by (rewrite <- !(bpow_powerRZ radix2); change (-44)%Z with (5 + -49)%Z; rewrite bpow_plus; reflexivity).
  assert (E47 : powerRZ 2 (-47) = 4 * powerRZ 2 (-49)) by (rewrite <- !(bpow_powerRZ radix2); change (-47)%Z with (2 + -49)%Z; rewrite bpow_plus; reflexivity).
  assert (B : 0 <= powerRZ 2 (-49) * reach d) by (apply Rmult_le_pos; [rewrite <- (bpow_powerRZ radix2); apply bpow_ge_0|lra]).
  rewrite E44 in R1. pose proof (di_last d DF) as L. unfold at_pos. rewrite E48. destruct (pd d) eqn:E.
  - specialize (L i Hi). destruct (di_abs d DF) as (A0 & A1 & A2). specialize (A0 i Hi). rewrite (fit_range_at d Hd). pose proof (flen_big d Hd) as (FB & HP & _).
    rewrite !kn_vals in A1, A2. 
    assert (Bx : Rabs (double_val x) <= 2 * reach d).
    { replace (double_val x) with ((double_val x - xi d i) + xi d i) by ring. eapply Rle_trans; [apply Rabs_triang|].
      assert (powerRZ 2 (-49) * reach d <= 1 * reach d) by (apply Rmult_le_compat_r; [lra|]; rewrite <- (bpow_powerRZ radix2); change 1 with (bpow radix2 0); apply bpow_le; lia). lra. }
    apply Rabs_le_inv in Hn.
    destruct (wrap_inside (nth p (K d) 0%float) (nth (send d) (K d) 0%float) x (reach d)) as (x' & Ew & Gx' & Lx & Nx); auto; try lra.
    + apply (di_fin d DF), nth_In. rewrite (di_len d DF). lia.
    + apply (di_fin d DF), nth_In. rewrite (di_len d DF). lia.
    + rewrite <- kn_vals. lra.
    + rewrite <- kn_vals, E47. lra.
    + exists x'. split; auto. split; auto. apply Rabs_le_inv in Nx. rewrite kn_vals. split; [|apply Rabs_le; lra]. split; [lra|].
      pose proof (di_sorted d DF) as Sd. unfold nondecreasing in Sd. rewrite map_length, (di_len d DF) in Sd.
      pose proof (Sd (send d) (last d + 1)%nat ltac:(lia)) as Q. lra.
  - destruct L as [L1 L2]. exists x. split; [reflexivity|]. split; auto. specialize (Hx2 eq_refl). split; [lra|]. apply Rabs_le_inv in Hn. apply Rabs_le. lra.
Qed.

Lemma fit_computed_value idx xs : valid W idx -> C <= powerRZ 2 1000 -> length xs = length per ->
  (forall d, (d < length per)%nat -> let x := nth d xs 0%float in let i := nth d idx 0%nat in double_finite x /\
     xi d 0%nat <= double_val x /\ (pd d = false -> double_val x <= xi d (N d - 1)%nat) /\ Rabs (double_val x - xi d i) <= powerRZ 2 (-49) * reach d) ->
  exists v, interp_eval Fops g xs = Ok v /\ double_finite v /\
  Rabs (double_val v - double_val (nth (row_major dims idx) (m_data f) 0%float)) <=
    (INR (roundings p (length per)) * powerRZ 2 (-52) + INR (length per) * (INR p * (1 + 128 * kap) + INR M * G) * powerRZ 2 (-49)) * C + powerRZ 2 (-1030).
Proof using All.
  intros Vi HC1 Lx Hx. destruct frs_order as (Ro & Rp & Rd).
  assert (Sd : sp_dim (if_spline g) = length per) by exact Rd. assert (So : sp_order (if_spline g) = p) by exact Ro.
  assert (LW : length W = length per) by apply ddims_length.
  pose proof (valid_length _ _ Vi) as Li. rewrite LW in Li. pose proof Vi as Vn. rewrite valid_nth in Vn by lia.
  assert (Lk : forall d, last_of (if_spline g) d = last_of rs d).
  { intros d. unfold last_of. rewrite frs_knot, map_length. reflexivity. }
  (* hints and reduced coordinates *)
  assert (Q : exists hints, length hints = length per /\ forall d, (d < length per)%nat -> hint_for Fops (tp_base t) d (nth d xs 0%float) = Ok (nth d hints 0%nat) /\ (p <= nth d hints 0%nat <= last d)%nat).
  { set (hint := fun d => match hint_for Fops (tp_base t) d (nth d xs 0%float) with Ok k => k | _ => 0%nat end). exists (map hint (seq 0 (length per))).
    split; [rewrite map_length, seq_length; auto|]. intros d Hd. rewrite map_seq_nth by auto. destruct (Hx d Hd) as (G1 & G2 & G3 & G4).
    destruct (di_hint d (Hdim d Hd) (nth d xs 0%float) (nth d idx 0%nat) G1 (Vn d ltac:(lia)) G2 G4) as (hi & E & Hh). unfold hint. rewrite E. auto. }
  destruct Q as (hints & Lh & Hh').
  assert (Q : exists xs', length xs' = length per /\ forall d, (d < length per)%nat -> wrap_coord Fops (pd d) (nth d (sp_range s0) (0%float, 0%float)) (nth d xs 0%float) = Ok (nth d xs' 0%float) /\
     double_finite (nth d xs' 0%float) /\ at_pos d (nth d idx 0%nat) (double_val (nth d xs' 0%float))).
  { set (w := fun d => match wrap_coord Fops (pd d) (nth d (sp_range s0) (0%float, 0%float)) (nth d xs 0%float) with Ok k => k | _ => 0%float end). exists (map w (seq 0 (length per))).
    split; [rewrite map_length, seq_length; auto|]. intros d Hd. rewrite map_seq_nth by auto. destruct (Hx d Hd) as (G1 & G2 & G3 & G4).
    destruct (fit_wrap d (nth d idx 0%nat) (nth d xs 0%float) Hd (Vn d ltac:(lia)) G1 G2 G3 G4) as (x' & E & Gx & Hp). unfold w. rewrite E. auto. }
  destruct Q as (xs' & Lx' & Hw).
  assert (Hh : hints_ok (if_spline g) hints).
  { split; [rewrite Lh; auto|]. rewrite Sd. intros d Hd. rewrite So, Lk, frs_last by auto. apply Hh'. auto. }
  assert (Eh : add_hints Fops g xs = Ok (combine xs hints)).
  { unfold add_hints. rewrite Sd. apply (mapM_ok_nth _ _ _ 0%nat (0%float, 0%nat)).
    - rewrite combine_length, seq_length, Lx. lia.
    - intros d Hd. rewrite seq_length in Hd. rewrite seq_nth by auto. cbn [Nat.add]. rewrite (vget_ok xs d 0%float) by lia. cbn [bind].
      change (hint_for Fops g d (nth d xs 0%float)) with (hint_for Fops (tp_base t) d (nth d xs 0%float)). rewrite (proj1 (Hh' d Hd)). cbn [bind].
      rewrite combine_nth by lia. reflexivity. }
  unfold interp_eval. rewrite Eh. cbn [bind].
  pose proof (frs_number) as NS.
  destruct (double_evaluation (if_spline g) C xs xs' hints NS) as (v & w & E1 & E2 & Gv & Hv); auto; try (rewrite ?Sd, ?So; auto; fail).
  { rewrite Sd, So. apply le_IZR. rewrite <- INR_IZR_INZ. eapply Rle_trans; [exact HR|]. rewrite <- (bpow_powerRZ radix2). apply Rle_refl. }
  { rewrite Sd. intros d Hd. change zero with 0%float. destruct (Hw d Hd) as (W1 & W2 & W3). unfold per_of. change (sp_per (if_spline g)) with (sp_per rs). rewrite Rp, So.
    split; [exact W1|]. split; auto. split.
    - change (knot_of (if_spline g) d) with (K d). rewrite Lk, frs_last by auto. apply W3.
    - intros E. fold rs. apply (pos_in d (nth d idx 0%nat)); auto. apply Vn. lia. }
  exists v. split; auto. split; auto.
  destruct (fit_exact_value idx (map double_val xs') Vi) as [_ EV].
  { rewrite map_length. auto. }
  { intros d Hd. rewrite (nth_indep _ 0 (double_val 0%float)) by (rewrite map_length; lia). rewrite map_nth. apply Hw. auto. }
  assert (Ew : w = sval rs (map double_val xs')).
  { assert (Lv : length (map double_val xs') = length hints) by (rewrite map_length; lia).
    rewrite (eval_sval_hint rs) in E2.
    - injection E2 as <-. f_equal. rewrite combine_map_fst by auto. reflexivity.
    - apply frs_good.
    - rewrite combine_length, Lv, Nat.min_id, Rd. auto.
    - rewrite Rd. intros d Hd. rewrite combine_nth by auto. cbn [snd]. destruct Hh as [_ Hh]. specialize (Hh d). rewrite Sd in Hh. rewrite Lk in Hh. apply (Hh Hd). }
  rewrite Sd, So in Hv. subst w. set (w := sval _ _) in *. set (fv := double_val (nth (row_major dims idx) (m_data f) 0%float)) in *.
  assert (T : INR ((p + 1) ^ length per) * powerRZ 2 (-1074) <= powerRZ 2 (-1034)).
  { pose proof HR as HR'. rewrite <- !(bpow_powerRZ radix2) in *. destruct (count_bounds p (length per) HD HR') as (_ & _ & _ & (Q0 & Q1) & _).
    apply Rle_trans with (bpow radix2 40 * bpow radix2 (-1074)); [apply Rmult_le_compat_r; auto; apply bpow_ge_0|]. rewrite bpow_mul. apply Rle_refl. }
  assert (E30 : powerRZ 2 (-1034) + powerRZ 2 (-1031) <= powerRZ 2 (-1030)).
  { rewrite <- !(bpow_powerRZ radix2). assert (bpow radix2 (-1034) <= bpow radix2 (-1031)) by (apply bpow_le; lia).
    assert (bpow radix2 (-1030) = 2 * bpow radix2 (-1031)) by (change (-1030)%Z with (1 + -1031)%Z; rewrite <- bpow_mul; reflexivity). lra. }
  replace (double_val v - fv) with ((double_val v - w) + (w - fv)) by ring. eapply Rle_trans; [apply Rabs_triang|]. lra.
Qed.
End Top.
