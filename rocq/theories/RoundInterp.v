(** Interpolation on grids of points in doubles. *)
From Coq Require Import List Arith Lia Bool ZArith Reals Floats Lra Psatz.
From Flocq Require Import Core BinarySingleNaN PrimFloat Relative Plus_error.
From Verif Require Import Base Num MeshM SpecMesh MeshProofs ProgM BandM LUM SplineM InterpM FloatM SpecBand SpecSpline SpecSplineObj SpecInterp SpecRound SpecRoundInterp.
From Verif Require Import SumR BandProofs MulProofs DenseLU LUProofs SplineProofs BetaProofs BasisProofs TensorR KnotProofs CoefProofs SolveProofs BuildProofs WeightProofs LUConv.
From Verif Require Import SplineFinal FloatProofs RoundDouble GenLU RoundLU RoundLUTop RoundProofs GenKnots GenSolve RoundTensor RoundColl RoundTempl RoundGrid.
Import ListNotations.
Local Open Scope R_scope.
Local Notation float := PrimFloat.float.

(** ** Factors *)
Lemma stored_abs per n bw sv F : gsinv per n bw sv -> stored_factors sv F -> forall i j, gsabs Fops sv i j = F i j.
Proof.
  destruct sv as [b|e]; cbn [gsinv stored_factors gsabs]; intros [-> H] [H1 H2] i j.
  - destruct H as (En & Ep & Eq & Hw). rewrite En, Ep, Eq in H1, H2.
    assert (Hw' : wfb n bw bw b) by (unfold wfb; auto).
    destruct (classic_band n bw i j) as [I|I].
    + specialize (H1 i j I). rewrite (band_get_ok (o0 Fops) true n bw bw) in H1 by auto. congruence.
    + rewrite (babs_out (o0 Fops) n bw bw) by auto. rewrite H2 by auto. reflexivity.
  - destruct (wfe_npq _ _ _ _ H) as (En & Ep & Eq). rewrite En, Ep, Eq in H1, H2.
    destruct (classic_ext n bw i j) as [I|I].
    + specialize (H1 i j I). rewrite (eb_get_ok (o0 Fops) true n bw bw) in H1 by auto. congruence.
    + rewrite (eabs_out (o0 Fops) n bw bw) by auto. rewrite H2 by auto. reflexivity.
Qed.

Lemma sum_term_le n f k : (k < n)%nat -> (forall i, (i < n)%nat -> 0 <= f i) -> f k <= sum n f.
Proof.
  induction n as [|n IH]; intros Hk Hf; [lia|]. cbn [sum]. destruct (Nat.eq_dec k n) as [->|N].
  - assert (0 <= sum n f) by (apply sum_pos; intros; apply Hf; lia). lra.
  - pose proof (IH ltac:(lia) ltac:(intros; apply Hf; lia)). pose proof (Hf n ltac:(lia)). lra.
Qed.

Section Growth.
Context (n : nat) (F : nat -> nat -> R) (G : R).
Hypothesis HG : forall i, (i < n)%nat -> sum n (fun k => Rabs (lower F i k) * (1 + sum n (fun j => Rabs (upper F k j)))) <= G.

Lemma row_nonneg k : 0 <= sum n (fun j => Rabs (upper F k j)).
Proof. apply sum_pos. intros; apply Rabs_pos. Qed.
Lemma diag_le k : (k < n)%nat -> Rabs (F k k) <= sum n (fun j => Rabs (upper F k j)).
Proof.
  intros Hk. replace (Rabs (F k k)) with (Rabs (upper F k k)) by (unfold upper; rewrite Nat.leb_refl; auto).
  apply (sum_term_le n (fun j => Rabs (upper F k j)) k Hk). intros; apply Rabs_pos.
Qed.
Lemma diag_G k : (k < n)%nat -> 1 + Rabs (F k k) <= G.
Proof using All.
  intros Hk. eapply Rle_trans; [|apply (HG k Hk)]. pose proof (diag_le k Hk) as D.
  eapply Rle_trans; [|apply (sum_term_le n (fun j => Rabs (lower F k j) * (1 + sum n (fun i => Rabs (upper F j i)))) k Hk)].
  - unfold lower. rewrite Nat.ltb_irrefl, Nat.eqb_refl, Rabs_R1. lra.
  - intros i Hi. apply Rmult_le_pos; [apply Rabs_pos|]. pose proof (row_nonneg i). lra.
Qed.

Lemma growth_residual C x i : INR n <= powerRZ 2 40 -> 0 <= C -> (i < n)%nat -> (forall j, (j < n)%nat -> Rabs (x j) <= C) ->
  double_residual n F x i <= INR n * G * powerRZ 2 (-50) * C + INR n * G * powerRZ 2 (-1072).
Proof using All.
  intros Hn HC Hi Hx. unfold double_residual. change Rsum with sum. pose proof (diag_G i Hi) as G1. pose proof (Rabs_pos (F i i)) as A0.
  pose proof (pos_INR n) as N0.
  assert (S1 : sum n (fun k => Rabs (lower F i k) * sum n (fun j => Rabs (upper F k j) * Rabs (x j))) <= G * C).
  { apply Rle_trans with (sum n (fun k => Rabs (lower F i k) * (1 + sum n (fun j => Rabs (upper F k j))) * C)).
    - apply sum_le. intros k Hk. rewrite Rmult_assoc. apply Rmult_le_compat_l; [apply Rabs_pos|].
      apply Rle_trans with (sum n (fun j => Rabs (upper F k j)) * C).
      + rewrite <- sum_scal_r. apply sum_le. intros j Hj. apply Rmult_le_compat_l; [apply Rabs_pos|auto].
      + apply Rmult_le_compat_r; lra.
    - rewrite sum_scal_r. apply Rmult_le_compat_r; auto. }
  assert (S2 : sum n (fun k => Rabs (lower F i k) * (1 + Rabs (F k k))) <= G).
  { eapply Rle_trans; [|apply (HG i Hi)]. apply sum_le. intros k Hk. apply Rmult_le_compat_l; [apply Rabs_pos|]. pose proof (diag_le k Hk). lra. }
  assert (S3 : sum n (fun j => Rabs (x j) * (1 + Rabs (F j j))) <= INR n * (C * G)).
  { rewrite <- sum_const. apply sum_le. intros j Hj. pose proof (diag_G j Hj). pose proof (Rabs_pos (F j j)). pose proof (Rabs_pos (x j)). apply Rmult_le_compat; auto; lra. }
  set (s1 := sum n (fun k => Rabs (lower F i k) * sum n (fun j => Rabs (upper F k j) * Rabs (x j)))) in *. set (s2 := sum n (fun k => Rabs (lower F i k) * (1 + Rabs (F k k)))) in *. set (s3 := sum n (fun j => Rabs (x j) * (1 + Rabs (F j j)))) in *.
  rewrite <- !(bpow_powerRZ radix2) in *.
  pose proof (bpow_gt_0 radix2 (-51)) as B1. pose proof (bpow_gt_0 radix2 (-1074)) as B2.
  assert (E1 : bpow radix2 (-50) = 2 * bpow radix2 (-51)) by (change (-50)%Z with (1 + -51)%Z; rewrite bpow_plus; reflexivity).
  assert (E2 : bpow radix2 (-1072) = 4 * bpow radix2 (-1074)) by (change (-1072)%Z with (2 + -1074)%Z; rewrite bpow_plus; reflexivity).
  assert (E3 : INR n * bpow radix2 (-1074) <= bpow radix2 (-51)).
  { apply Rle_trans with (bpow radix2 40 * bpow radix2 (-1074)); [apply Rmult_le_compat_r; lra|]. rewrite bpow_mul. apply bpow_le. lia. }
  assert (GC : 0 <= G * C) by (apply Rmult_le_pos; lra).
  assert (T1 : INR n * bpow radix2 (-51) * s1 <= INR n * bpow radix2 (-51) * (G * C)) by (apply Rmult_le_compat_l; auto; apply Rmult_le_pos; lra).
  assert (T2 : INR n * bpow radix2 (-1074) * (1 + 2 * s2 + s3) <= INR n * bpow radix2 (-1074) * (4 * G + INR n * (C * G))).
  { apply Rmult_le_compat_l; [apply Rmult_le_pos; lra|]. lra. }
  assert (T3 : INR n * (G * C) * (INR n * bpow radix2 (-1074)) <= INR n * (G * C) * bpow radix2 (-51)).
  { apply Rmult_le_compat_l; auto. apply Rmult_le_pos; auto. }
  rewrite E1, E2. lra.
Qed.
End Growth.

Lemma solves_mono {T} (o : ops T) on n (Q Q' : (nat -> T) -> (nat -> T) -> Prop) sv :
  (forall b x, Q b x -> Q' b x) -> solves o on n Q sv -> solves o on n Q' sv.
Proof. intros H S iter m0 A B. destruct (S iter m0 A B) as (m1 & x & H1 & H2 & H3). exists m1, x. auto. Qed.

(** ** One dimension *)
Section Top.
Context (on nd : bool) (p : nat) (per : list bool) (dims : list nat) (ls : list (list float)) (t : templ float).
Let D := length per.
Let W := ddims nd per dims.
Let ranges := map (@Points float) ls.
Local Notation ld d := (nth d ls []).
Local Notation pd d := (nth d per false).
Local Notation N d := (nth d W 0%nat).
Local Notation s0 := (if_spline (tp_base t)).
Local Notation K d := (nth d (sp_knots s0) []).
Local Notation tk d := (kn (map double_val (K d))).
Local Notation x d i := (double_val (nth i (ld d) 0%float)).
Local Notation g0 := (powerRZ 2 (-800)).
Hypothesis Ht : templ_make Fops on nd p per dims ranges = Ok t.
Hypothesis Ld : length dims = length per.
Hypothesis Lls : length ls = length per.
Hypothesis Hfit : forall d, (d < length per)%nat -> fit_grid p (pd d) (ld d).
Hypothesis Hsz : forall d, (d < length per)%nat -> (nth d dims 0 + (if nd && pd d then 1 else 0) = length (ld d))%nat.
Hypothesis HD : (1 <= length per)%nat.
Hypothesis HR : INR (roundings p (length per)) <= powerRZ 2 40.

Lemma N_len d : (d < D)%nat -> N d = if pd d then (length (ld d) - 1)%nat else length (ld d).
Proof using All.
  intros Hd. unfold W. rewrite ddims_nth by auto. pose proof (Hsz d Hd) as H. unfold distinct. destruct nd, (pd d); cbn [andb negb] in *; lia.
Qed.
Lemma N_big d : (d < D)%nat -> (p + 1 <= N d)%nat.
Proof using All. intros Hd. rewrite (N_len d Hd). pose proof (fg_order _ _ _ (Hfit d Hd)) as H. destruct (pd d); lia. Qed.

Definition klen d := if pd d then (N d + 2 * p + 1 + (1 - p mod 2))%nat else (N d + p + 1)%nat.

Record dimfacts (d : nat) : Prop := {
  df_per : vget (sp_per s0) d = Ok (pd d);
  df_knots : vget (sp_knots s0) d = Ok (K d);
  df_range : vget (sp_range s0) d = Ok (nth p (K d) 0%float, nth (length (K d) - p - (2 - p mod 2)) (K d) 0%float);
  df_coords : vget (tp_coords t) d = Ok (ld d);
  df_uniform : vget (if_uniform (tp_base t)) d = Ok false;
  df_dx : exists dx, vget (if_dx (tp_base t)) d = Ok dx;
  df_fin : forall a, In a (K d) -> double_finite a;
  df_sorted : nondecreasing (map double_val (K d));
  df_wide : forall a b, In a (K d) -> In b (K d) -> double_val b - double_val a <= Fbig / 4;
  df_len : length (K d) = klen d;
  df_gap : forall i, (p <= i <= length (K d) - p - 2)%nat -> g0 <= tk d (i + 1)%nat - tk d i;
  df_rows : if pd d then
      (forall i, (i < N d)%nat -> tk d (i + p)%nat <= x d i < tk d (i + p + 1)%nat) /\
      ((p mod 2 = 1)%nat -> forall i, (i < N d)%nat -> x d i = tk d (i + p)%nat)
    else (forall i, (i <= p)%nat -> tk d i = x d 0%nat) /\ (forall i, (N d <= i <= N d + p)%nat -> tk d i = x d (N d - 1)%nat) /\
      (forall i, (1 <= i)%nat -> (i + 1 < N d)%nat -> x d 0%nat <= x d i < x d (N d - 1)%nat) /\
      (p = 1%nat -> forall i, (1 <= i)%nat -> (i + 1 < N d)%nat -> x d i = tk d (i + 1)%nat) /\
      ((2 <= p)%nat -> forall i, (1 <= i)%nat -> (i + 1 < N d)%nat -> tk d (i + 1)%nat <= x d i < tk d (i + p)%nat)
}.

Lemma base_order : sp_order s0 = p /\ sp_per s0 = per /\ interp_base Fops on nd p per dims ranges = Ok (tp_base t, tp_coords t).
Proof using All.
  destruct (templ_inv Fops on nd p per dims ranges t Ht Ld) as (Eb & _). pose proof (base_knots Fops on nd _ _ _ _ _ _ Eb) as (H1 & H2 & _). auto.
Qed.

Lemma dim_facts d : (d < D)%nat -> dimfacts d.
Proof using All.
  intros Hd. destruct base_order as (Ho & Hp & Eb).
  pose proof (base_knots Fops on nd _ _ _ _ _ _ Eb) as (_ & _ & HK).
  pose proof (base_shape Fops on nd _ _ _ _ _ _ Eb) as (S1 & S2 & S3 & S4 & S5 & S6 & S7). cbv zeta in *.
  assert (Lr : length ranges = length per) by (unfold ranges; rewrite map_length; auto).
  destruct (HK d ltac:(unfold D in Hd; lia)) as (r & b & n & R1 & R2 & R3 & R4).
  assert (Er : nth_error ranges d = Some (Points (ld d))).
  { unfold ranges. rewrite nth_error_map. rewrite (nth_error_nth' ls []) by (unfold D in Hd; lia). reflexivity. }
  rewrite Er in R1. inversion R1; subst r. clear R1.
  assert (Ep : nth_error per d = Some (pd d)) by (apply nth_error_nth'; auto). rewrite Ep in R2. inversion R2; subst b. clear R2.
  destruct R4 as [R4 R5]. apply points_inv in R4. pose proof (Hfit d Hd) as Ff. pose proof (N_len d Hd) as NL. pose proof (N_big d Hd) as NB.
  assert (X1 : vget (sp_per s0) d = Ok (pd d)) by (unfold vget; rewrite Hp, Ep; auto).
  assert (X2 : vget (sp_knots s0) d = Ok (K d)) by (apply vget_ok; unfold D in Hd; lia).
  assert (X3 : vget (sp_range s0) d = Ok (nth p (K d) 0%float, nth (length (K d) - p - (2 - p mod 2)) (K d) 0%float)).
  { rewrite (vget_ok _ d (0%float, 0%float)) by (unfold D in Hd; lia). f_equal. apply (S7 d). unfold D in Hd; lia. }
  assert (X4 : vget (tp_coords t) d = Ok (nth d (tp_coords t) [])) by (apply vget_ok; unfold D in Hd; lia).
  assert (X5 : vget (if_uniform (tp_base t)) d = Ok false).
  { rewrite (vget_ok _ d true) by (unfold D in Hd; lia). f_equal. auto. }
  assert (X6 : exists dx, vget (if_dx (tp_base t)) d = Ok dx) by (eexists; apply (vget_ok _ d 0%float); unfold D in Hd; lia).
  set (kd := K d) in *. set (cd := nth d (tp_coords t) []) in *. set (l := ld d) in *. pose proof (half_cases p) as HC.
  destruct (pd d) eqn:Epd.
  - destruct (per_facts p l kd cd Ff R4) as (F1 & F2 & F3 & F4 & F5 & F6 & F7 & F8). rewrite <- NL in *. 
    constructor; rewrite ?Epd; auto.
    + rewrite X4. f_equal. auto.
    + unfold klen. rewrite Epd. auto.
    + intros i Hi. fold kd in Hi |- *. apply F6. lia.
  - destruct (ap_facts p l kd cd Ff R4) as (F1 & F2 & F3 & F4 & F5 & F6 & F7 & F8 & F9 & F10 & F11). rewrite <- NL in *. 
    constructor; rewrite ?Epd; auto.
    + rewrite X4. f_equal. auto.
    + unfold klen. rewrite Epd. auto.
    + intros i Hi. fold kd in Hi |- *. apply F6. lia.
Qed.

Lemma growth_2 : basis_growth Fu Feta g0 p <= 2.
Proof using All.
  pose proof HR as HR'. rewrite <- !(bpow_powerRZ radix2) in *. destruct (double_growth p (length per) 0 HD HR') as [H _]; auto. split; [lra|apply bpow_ge_0].
Qed.
Lemma g0_pos : 0 < g0 /\ Feta <= g0.
Proof.
  rewrite <- !(bpow_powerRZ radix2). split; [apply bpow_gt_0|]. unfold Feta.
  assert (bpow radix2 (-1074) <= bpow radix2 (-800)) by (apply bpow_le; lia). pose proof (bpow_ge_0 radix2 (-1074)). lra.
Qed.

(** The matrix of a dimension. *)
Lemma dim_matrix d : (d < D)%nat ->
  exists m, coef_matrix Fops on (tp_base t) (tp_coords t) W d = Ok m /\ gsinv (pd d) (N d) (bw_of p (pd d)) m /\ coef_factor Fops on m = Ok (gsv_at Fops (tp_solvers t) d) /\
   forall i, (i < N d)%nat -> near_row Fops double_val Fu Feta p (N d) (K d) g0 m (rowof p (pd d) (N d) i) (klen d - p - 2) (x d i).
Proof using All.
  intros Hd. destruct (templ_inv Fops on nd p per dims ranges t Ht Ld) as (Eb & Td & Ls & Hm).
  destruct (Hm d Hd) as (m & Em & Ef). exists m. split; [exact Em|]. destruct base_order as (Ho & Hp & _).
  destruct (dim_facts d Hd) as [A1 A2 A3 A4 A5 (dx & A6) A7 A8 A9 A10 A11 A12]. pose proof (N_big d Hd) as NB. pose proof (N_len d Hd) as NL.
  destruct g0_pos as [G0 G1]. pose proof growth_2 as G2. pose proof (half_cases p) as HC.
  unfold coef_matrix in Em. cbv zeta in Em. rewrite A1, A5, A6, A4 in Em. cbn [bind] in Em. fold W in Em.
  rewrite (vget_ok W d 0%nat) in Em by (unfold W; rewrite ddims_length; auto). cbn [bind] in Em.
  unfold coef_cache in Em. cbv zeta in Em. rewrite A1 in Em. cbn [bind] in Em. rewrite andb_false_r in Em. cbn [bind] in Em. rewrite Ho in Em.
  destruct (gcoef_make_ok Fops p (pd d) (N d)) as (m0 & Em0 & I0 & Z0); [intros _; lia|]. rewrite Em0 in Em. cbn [bind] in Em.
  apply bind_Ok in Em as ([m' cc] & Em & Ex). inversion Ex; subst m'; clear Ex.
  assert (Gc : forall a, In a (ld d) -> double_finite a) by (apply (fg_number _ _ _ (Hfit d Hd))).
  assert (LN : forall i, (i < N d)%nat -> (i < length (ld d))%nat) by (intros i Hi; rewrite NL in Hi; destruct (pd d); lia).
  pose proof (fg_order _ _ _ (Hfit d Hd)) as Fo.
  unfold klen in *. destruct (pd d) eqn:Epd.
  - destruct A12 as [B1 B2].
    destruct (per_coll Fops double_val double_finite Fu Feta Fbig F_rounding on s0 d p (N d) dx (K d) (ld d) _ g0 Ho A2 A3 NB A7 Gc A8 A9 G0 G1 G2 A1 A10) with (sv := m0) (cache := @nil float) as (st & E & I & R); auto.
    + lia.
    + intros i Hi. apply A11. lia.
    + rewrite E in Em. inversion Em; subst st. cbn [fst] in *. split; auto. split; auto.
      intros i Hi. unfold rowof. replace (N d + 2 * p + 1 + (1 - p mod 2) - p - 2)%nat with (N d + p - 1 + (1 - p mod 2))%nat by lia. apply (R i Hi).
  - destruct A12 as (B1 & B2 & B3 & B4 & B5). destruct Fo as [Fo _].
    destruct (ap_coll Fops double_val double_finite Fu Feta Fbig F_rounding on s0 d p (N d) dx (K d) (ld d) _ g0 Ho A2 A3 NB A7 Gc A8 A9 G0 G1 G2 A1 Fo A10) with (sv := m0) (cache := @nil float) as (st & E & I & R); auto.
    + intros i Hi. apply A11. lia.
    + rewrite E in Em. inversion Em; subst st. cbn [fst] in *. split; auto. split; auto.
      intros i Hi. unfold rowof. replace (N d + p + 1 - p - 2)%nat with (N d - 1)%nat by lia. apply (R i Hi).
Qed.

Lemma rowof_onto b n r : (0 < n)%nat -> (r < n)%nat -> exists i, (i < n)%nat /\ rowof p b n i = r.
Proof.
  intros Hn Hr. unfold rowof. destruct b; [|exists r; auto].
  pose proof (Nat.mod_upper_bound (p / 2) n ltac:(lia)) as M. pose proof (Nat.div_mod (p / 2) n ltac:(lia)) as Q.
  exists ((r + n - (p / 2) mod n) mod n)%nat. split; [apply Nat.mod_upper_bound; lia|].
  rewrite Nat.add_mod_idemp_l by lia. replace (r + n - (p / 2) mod n + p / 2)%nat with (r + (1 + (p / 2) / n) * n)%nat by lia.
  rewrite Nat.mod_add by lia. apply Nat.mod_small. auto.
Qed.

(** ** The function *)
Context (f : mesh float) (c : mesh float) (G C : R) (M : nat).
Hypothesis Hc : solve_ctrl Fops on nd t f = Ok c.
Hypothesis Hfd : m_dims f = dims.
Hypothesis Wf : wf_mesh f.
Hypothesis HM : forall d, (d < length per)%nat -> (N d <= M)%nat.
Hypothesis HF : forall d sv, nth_error (tp_solvers t) d = Some sv -> exists F, stored_factors sv F /\ factors_within (N d) F G.
Hypothesis HS : INR (length per) * INR M * G <= powerRZ 2 40.
Hypothesis HC : 0 <= C.
Hypothesis HV : forall a, In a (m_data c) -> double_finite a /\ Rabs (double_val a) <= C.

Let nu := INR M * G * powerRZ 2 (-50).
Let tau := INR M * G * powerRZ 2 (-1072).
Let eps := basis_growth Fu Feta g0 p - 1.
Let md d := match coef_matrix Fops on (tp_base t) (tp_coords t) W d with Ok m => m | _ => Aperiodic (band_make Fops 0 0 0) end.
Let mats : list mat := map (fun d => fun i j => double_val (gsabs Fops (md d) i j)) (seq 0 D).

Lemma factor_at d : (d < D)%nat -> exists F, stored_factors (gsv_at Fops (tp_solvers t) d) F /\ factors_within (N d) F G.
Proof using All.
  intros Hd. destruct (templ_inv Fops on nd p per dims ranges t Ht Ld) as (_ & _ & Ls & _).
  apply (HF d). unfold gsv_at. apply nth_error_nth'. unfold D in Hd. lia.
Qed.
Lemma G_1 : 1 <= G.
Proof using All.
  destruct (factor_at 0 HD) as (F & _ & _ & H). pose proof (N_big 0 HD) as NB. change Rsum with sum in H.
  pose proof (diag_G (N 0) _ G H 0%nat ltac:(lia)) as Q. pose proof (Rabs_pos (double_val (F 0%nat 0%nat))). lra.
Qed.
Lemma M_size : INR M <= powerRZ 2 40.
Proof using All.
  pose proof G_1 as G1. pose proof (pos_INR M) as M0. pose proof (le_INR 1 _ HD) as D1. change (INR 1) with 1 in D1.
  eapply Rle_trans; [|exact HS]. rewrite <- (Rmult_1_l (INR M)) at 1. rewrite <- (Rmult_1_r (1 * INR M)).
  apply Rmult_le_compat; try lra. apply Rmult_le_compat; lra.
Qed.


Lemma md_spec d : (d < D)%nat -> mat_at mats d = (fun i j => double_val (gsabs Fops (md d) i j)) /\
  gsinv (pd d) (N d) (bw_of p (pd d)) (md d) /\ coef_factor Fops on (md d) = Ok (gsv_at Fops (tp_solvers t) d) /\
   forall i, (i < N d)%nat -> near_row Fops double_val Fu Feta p (N d) (K d) g0 (md d) (rowof p (pd d) (N d) i) (klen d - p - 2) (x d i).
Proof using All.
  intros Hd. destruct (dim_matrix d Hd) as (m & Em & I & F & R).
  assert (E : md d = m) by (unfold md; rewrite Em; auto). rewrite E. split; auto.
  unfold mats, mat_at. rewrite map_seq_nth by auto. rewrite E. auto.
Qed.

Lemma nu_tau : 0 <= nu /\ 0 <= tau.
Proof using All.
  pose proof G_1. pose proof (pos_INR M). unfold nu, tau. rewrite <- !(bpow_powerRZ radix2).
  split; (apply Rmult_le_pos; [apply Rmult_le_pos; lra|apply bpow_ge_0]).
Qed.

Lemma dim_solves d : (d < D)%nat -> solves Fops on (N d) (bounded_rel double_val double_finite nu tau (N d) (mat_at mats d)) (gsv_at Fops (tp_solvers t) d).
Proof using All.
  intros Hd. destruct (md_spec d Hd) as (Em & I & Ef & _). rewrite Em. pose proof (N_big d Hd) as NB. pose proof (HM d Hd) as NM.
  destruct (factor_at d Hd) as (F & HF1 & HF2 & HF3). cbv zeta in HF3. change Rsum with sum in HF3.
  assert (Hb : pd d = true -> (2 * bw_of p (pd d) <= N d)%nat).
  { intros ->. unfold bw_of. pose proof (half_cases p). lia. }
  destruct (factor_solves Fops double_val double_finite Fu Feta F_strict on (pd d) (N d) (bw_of p (pd d)) (md d) _ I ltac:(lia) Hb Ef) as (If & Hs).
  revert Hs. apply solves_mono. intros b y Hl C0 HC0 Hy i Hi.
  pose proof (stored_abs _ _ _ _ _ If HF1) as EF.
  destruct (Hl ltac:(intros; rewrite EF; auto) ltac:(intros; apply Hy; auto) i Hi) as (G1 & G2 & G3). split; auto.
  eapply Rle_trans; [exact G3|].
  pose proof M_size as MS. pose proof (le_INR _ _ NM) as NM'. pose proof (pos_INR (N d)) as N0. pose proof G_1 as GG.
  eapply Rle_trans; [apply residual_double; lra|].
  replace (double_residual (N d) (fun i j => double_val (gsabs Fops (gsv_at Fops (tp_solvers t) d) i j)) (fun j => double_val (y j)) i)
    with (double_residual (N d) (fun i j => double_val (F i j)) (fun j => double_val (y j)) i).
  2:{ f_equal. apply FunctionalExtensionality.functional_extensionality. intros a. apply FunctionalExtensionality.functional_extensionality. intros e. rewrite EF. auto. }
  eapply Rle_trans; [apply (growth_residual (N d) _ G HF3 C0); auto; [lra|]|].
  { intros j Hj. apply Hy. auto. }
  unfold nu, tau. rewrite <- !(bpow_powerRZ radix2). pose proof (bpow_ge_0 radix2 (-50)). pose proof (bpow_ge_0 radix2 (-1072)).
  assert (Q : INR (N d) * G <= INR M * G) by (apply Rmult_le_compat_r; lra).
  apply Rplus_le_compat.
  - apply Rmult_le_compat_r; auto. apply Rmult_le_compat_r; auto.
  - apply Rmult_le_compat_r; auto.
Qed.

Lemma eps_bound : 0 <= eps <= INR p * powerRZ 2 (-50).
Proof using All.
  pose proof HR as HR'. unfold eps. rewrite <- !(bpow_powerRZ radix2) in *. 
  destruct (count_bounds p (length per) HD HR') as ((P0 & P1) & (P2 & P3) & _). 
  destruct (tiny_bound p (length per) HD HR') as (_ & T0 & T1).
  assert (U0 : 0 <= Fu) by apply F_rounding. assert (E0 : 0 <= Feta) by apply F_rounding.
  assert (Gp : 0 < bpow radix2 (-800)) by apply bpow_gt_0.
  pose proof (basis_exp Fu Feta (bpow radix2 (-800)) 0 p 0 U0 E0 Gp (Rle_refl 0)) as B.
  set (e1 := INR p * _) in *.
  assert (L : 1 <= basis_growth Fu Feta (bpow radix2 (-800)) p).
  { unfold basis_growth. fold e1. rewrite <- (Rmult_1_l 1) at 1. apply Rmult_le_compat; try lra. apply pow_R1_Rle. lra. }
  split; [lra|].
  assert (T2 : e1 <= INR p * bpow radix2 (-190)).
  { destruct (Nat.eq_dec p 0) as [->|Np]; [unfold e1; cbn [INR]; lra|].
    pose proof (le_INR 1 p ltac:(lia)) as P. change (INR 1) with 1 in P. pose proof (bpow_ge_0 radix2 (-190)).
    eapply Rle_trans; [exact T1|]. rewrite <- (Rmult_1_l (bpow radix2 (-190))) at 1. apply Rmult_le_compat_r; auto. }
  assert (B1 : bpow radix2 (-190) <= bpow radix2 (-60)) by (apply bpow_le; lia).
  assert (V1 : bpow radix2 (-50) = 8 * Fu) by (unfold Fu; change (-50)%Z with (2 + -52)%Z; rewrite <- bpow_mul; change (bpow radix2 2) with 4; lra).
  assert (V2 : Fu = 128 * bpow radix2 (-60)) by (unfold Fu; change (-52)%Z with (8 + -60)%Z; rewrite <- bpow_mul; change (bpow radix2 8) with 256; lra).
  assert (V3 : INR p * bpow radix2 (-50) <= / 1024).
  { apply Rle_trans with (bpow radix2 40 * bpow radix2 (-50)); [apply Rmult_le_compat_r; auto; apply bpow_ge_0|]. rewrite bpow_mul. cbn. lra. }
  assert (T3 : e1 <= INR p * bpow radix2 (-60)) by (eapply Rle_trans; [exact T2|]; apply Rmult_le_compat_l; auto).
  set (t0 := 7 * INR p * Fu + e1) in *.
  assert (0 <= t0) by (unfold t0; assert (0 <= 7 * INR p * Fu) by (apply Rmult_le_pos; lra); lra).
  assert (T4 : t0 <= (7 / 8 + / 1024) * (INR p * bpow radix2 (-50))) by (unfold t0; rewrite V1; rewrite V2 in *; lra).
  pose proof (exp_small t0 ltac:(lra)). lra.
Qed.

Lemma dim_rows d i : (d < D)%nat -> (i < N d)%nat -> sum (N d) (fun j => Rabs (mat_at mats d i j)) <= 1 + eps.
Proof using All.
  intros Hd Hi. destruct (md_spec d Hd) as (Em & I & Ef & Hr). pose proof (N_big d Hd) as NB. pose proof (half_cases p) as HCp.
  destruct (rowof_onto (pd d) (N d) i ltac:(lia) Hi) as (i' & Hi' & E). destruct (Hr i' Hi') as (k & Hk & Hin & Hs). rewrite E in Hs. rewrite Em.
  destruct (dim_facts d Hd) as [_ _ _ _ _ _ _ A8 _ A10 _ _]. fold eps in Hs.
  assert (LK : length (map double_val (K d)) = klen d) by (rewrite map_length; auto).
  assert (HB : sum (N d) (fun j => Rabs (Bmat (tk d) p (N d) k (x d i') j)) <= 1).
  { destruct Hk as (K1 & K2 & K3).
    apply (Bmat_abs _ (klen d)); auto; try lia.
    - rewrite <- LK. apply A8.
    - unfold klen in *. destruct (pd d); lia. }
  apply Rle_trans with (sum (N d) (fun j => Rabs (double_val (gsabs Fops (md d) i j) - Bmat (tk d) p (N d) k (x d i') j) + Rabs (Bmat (tk d) p (N d) k (x d i') j))).
  - apply sum_le. intros j Hj. set (bb := Bmat _ _ _ _ _ _). replace (double_val (gsabs Fops (md d) i j)) with ((double_val (gsabs Fops (md d) i j) - bb) + bb) at 1 by ring. apply Rabs_triang.
  - rewrite sum_plus. lra.
Qed.

Lemma mats_length : length mats = length per.
Proof using Type. unfold mats. rewrite map_length, seq_length. reflexivity. Qed.
Lemma N_distinct d : (d < length per)%nat -> (0 < distinct nd (pd d) (nth d dims 0))%nat.
Proof using All. intros Hd. pose proof (N_big d Hd) as H. unfold W in H. rewrite ddims_nth in H by auto. lia. Qed.

Let g := set_ctrl (tp_base t) c.
Let rs := real_spline double_val (if_spline g).

Lemma ctrl_shape : m_dims c = W /\ wf_mesh c.
Proof using All.
  destruct base_order as (Ho & Hp & _). destruct nu_tau as [Hnu Htau]. destruct eps_bound as [He _].
  assert (Hne : per <> []) by (intros E; pose proof HD as X; rewrite E in X; cbn in X; lia).
  destruct (ctrl_error Fops double_val double_finite on nd p per dims ranges t f c) with (mats := mats) (nu := nu) (tau := tau) (eps := eps) as (H1 & H2 & _);
   auto using mats_length, N_distinct, dim_solves, dim_rows.
Qed.

Lemma rs_knot d : knot_of rs d = map double_val (K d).
Proof using Type. unfold knot_of, rs, real_spline. cbn [sp_knots]. change (@nil R) with (map double_val []). apply map_nth. Qed.

Lemma rs_order : sp_order rs = p /\ sp_per rs = per /\ sp_dim rs = length per.
Proof using All. destruct base_order as (Ho & Hp & _). unfold sp_dim. change (sp_order rs) with (sp_order s0). change (sp_per rs) with (sp_per s0). rewrite Ho, Hp. auto. Qed.
Lemma rs_num d : num_of rs d = N d.
Proof using All. unfold num_of, rs, real_spline. cbn [sp_ctrl m_dims set_ctrl if_spline load_ctrl g]. rewrite (proj1 ctrl_shape). auto. Qed.
Lemma rs_len d : (d < D)%nat -> length (knot_of rs d) = klen d.
Proof using All. intros Hd. rewrite rs_knot, map_length. apply (df_len _ (dim_facts d Hd)). Qed.
Lemma rs_last d : (d < D)%nat -> last_of rs d = (klen d - p - 2)%nat.
Proof using All. intros Hd. unfold last_of. rewrite rs_len by auto. rewrite (proj1 rs_order). auto. Qed.
Lemma klen_big d : (d < D)%nat -> (2 * p + 2 <= klen d)%nat /\ (p mod 2 = 0 \/ p mod 2 = 1)%nat.
Proof using All. intros Hd. pose proof (N_big d Hd). unfold klen. pose proof (half_cases p). destruct (pd d); lia. Qed.
Lemma base_lengths : length (sp_knots s0) = D /\ length (sp_range s0) = D.
Proof using All.
  destruct base_order as (_ & _ & Eb). pose proof (base_shape Fops on nd _ _ _ _ _ _ Eb) as (S1 & S2 & _). auto.
Qed.
Lemma rs_rng d : (d < D)%nat -> rng rs d = (tk d p, tk d (klen d - p - (2 - p mod 2))%nat).
Proof using All.
  intros Hd. destruct (klen_big d Hd) as [KL HP]. pose proof (df_range _ (dim_facts d Hd)) as H. pose proof (df_len _ (dim_facts d Hd)) as L.
  unfold vget in H. destruct (nth_error (sp_range s0) d) as [r|] eqn:E; [|discriminate]. injection H as ->.
  change (sp_range rs) with (map (fun r => (double_val (fst r), double_val (snd r))) (sp_range s0)).
  assert (E' : nth_error (map (fun r => (double_val (fst r), double_val (snd r))) (sp_range s0)) d = Some (double_val (nth p (K d) 0%float), double_val (nth (length (K d) - p - (2 - p mod 2)) (K d) 0%float))) by (rewrite nth_error_map, E; reflexivity).
  rewrite (nth_error_nth _ _ (0, 0) E'). rewrite <- L. unfold kn.
  f_equal; rewrite (nth_indep _ _ (double_val 0%float)) by (rewrite map_length; lia); rewrite map_nth; auto.
Qed.
Lemma tk_strict d i : (d < D)%nat -> (p <= i <= klen d - p - 2)%nat -> tk d i < tk d (i + 1)%nat.
Proof using All.
  intros Hd Hi. pose proof (df_gap _ (dim_facts d Hd) i) as H. rewrite (df_len _ (dim_facts d Hd)) in H. specialize (H Hi). destruct g0_pos. lra.
Qed.
Lemma rs_good : good_spline rs.
Proof using All.
  destruct rs_order as (Ro & Rp & Rd). destruct base_lengths as [L1 L2]. destruct ctrl_shape as [Dc Wc].
  constructor.
  - constructor; rewrite ?Rd, ?Ro.
    + unfold rs, real_spline. cbn [sp_knots]. rewrite map_length. exact L1.
    + unfold rs, real_spline. cbn [sp_range]. rewrite map_length. exact L2.
    + unfold wf_mesh, rs, real_spline. cbn [sp_ctrl m_dims m_data]. rewrite map_length. apply Wc.
    + change (m_dims (sp_ctrl rs)) with (m_dims c). rewrite Dc. apply ddims_length.
    + intros d Hd. rewrite rs_len by auto. apply (klen_big d Hd).
    + intros d Hd. rewrite rs_num, rs_len by auto. unfold per_of. rewrite Rp. pose proof (N_big d Hd). unfold klen.
      destruct (pd d) eqn:E; [lia|]. fold W. lia.
  - rewrite Rd. intros d Hd. rewrite rs_knot. apply (df_sorted _ (dim_facts d Hd)).
  - rewrite Rd, Ro. intros d Hd. rewrite rs_knot. apply tk_strict; auto. pose proof (klen_big d Hd). lia.
  - rewrite Rd. intros d Hd. rewrite rs_last, rs_knot by auto. apply tk_strict; auto. pose proof (klen_big d Hd). lia.
  - rewrite Rd. intros d Hd E. unfold per_of in E. rewrite Rp in E. rewrite rs_rng by auto. cbn [fst snd].
    pose proof (klen_big d Hd) as [KL HP]. pose proof (N_big d Hd). 
    apply Rlt_le_trans with (tk d (p + 1)%nat); [apply tk_strict; auto; lia|].
    apply (df_sorted _ (dim_facts d Hd)). rewrite map_length, (df_len _ (dim_facts d Hd)). unfold klen in *. rewrite E in *. lia.
  - rewrite Rd. intros d Hd. rewrite rs_rng, rs_knot, rs_last, Ro by auto. cbn [fst snd]. split; auto.
    pose proof (klen_big d Hd) as [KL HP]. destruct HP as [E|E]; [right|left]; f_equal; lia.
Qed.

Lemma in_knots l : In l (sp_knots (if_spline g)) -> exists d, (d < D)%nat /\ l = K d.
Proof using All.
  intros H. apply (In_nth _ _ []) in H as (d & Hd & <-). exists d. split; auto. destruct base_lengths as [L _]. rewrite <- L. exact Hd.
Qed.
Lemma rs_number : number_spline double_val double_finite (powerRZ 2 1023) g0 C (if_spline g).
Proof using All.
  destruct rs_order as (Ro & Rp & Rd). constructor.
  - apply rs_good.
  - intros l a Hl Ha. apply in_knots in Hl as (d & Hd & ->). apply (df_fin _ (dim_facts d Hd) a Ha).
  - exact HV.
  - intros l i Hl Hi _. apply in_knots in Hl as (d & Hd & ->). change (sp_order (if_spline g)) with (sp_order rs) in Hi. rewrite Ro in Hi.
    apply (df_gap _ (dim_facts d Hd) i Hi).
  - intros l a b Hl Ha Hb. apply in_knots in Hl as (d & Hd & ->). rewrite <- (bpow_powerRZ radix2). apply (df_wide _ (dim_facts d Hd) a b Ha Hb).
Qed.

Lemma x_in d i : (d < D)%nat -> (i < N d)%nat ->
  tk d p <= x d i <= tk d (klen d - p - 1)%nat /\ (pd d = true -> x d i < snd (rng rs d)).
Proof using All.
  intros Hd Hi. pose proof (dim_facts d Hd) as DF. pose proof (df_rows _ DF) as R. pose proof (klen_big d Hd) as [KL HP]. pose proof (N_big d Hd) as NB.
  pose proof (df_sorted _ DF) as S. unfold nondecreasing in S. rewrite map_length, (df_len _ DF) in S. rewrite rs_rng by auto. cbn [snd].
  unfold klen in *. destruct (pd d) eqn:E.
  - destruct R as [R1 _]. specialize (R1 i Hi).
    pose proof (S p (i + p)%nat ltac:(lia)). pose proof (S (i + p + 1)%nat (N d + p)%nat ltac:(lia)).
    pose proof (S (N d + p)%nat (N d + 2 * p + 1 + (1 - p mod 2) - p - 1)%nat ltac:(lia)).
    replace (N d + 2 * p + 1 + (1 - p mod 2) - p - (2 - p mod 2))%nat with (N d + p)%nat by lia.
    split; [lra|intros _; lra].
  - destruct R as (R1 & R2 & R3 & _). split; [|discriminate]. replace (N d + p + 1 - p - 1)%nat with (N d) by lia.
    pose proof (R1 p ltac:(lia)) as Q1. pose proof (R2 (N d) ltac:(lia)) as Q2. pose proof (S p (N d) ltac:(lia)).
    destruct (Nat.eq_dec i 0) as [->|N0]; [lra|]. destruct (Nat.eq_dec i (N d - 1)) as [->|N1]; [lra|].
    pose proof (R3 i ltac:(lia) ltac:(lia)). lra.
Qed.

Lemma exp_2 y : 0 <= y <= / 2 -> exp y <= 2.
Proof.
  intros Hy. assert (E : exp y * exp (- y) = 1) by (rewrite <- exp_plus; replace (y + - y) with 0 by ring; apply exp_0).
  assert (1 - y <= exp (- y)). { destruct (Req_dec y 0) as [->|Ny]; [rewrite Ropp_0, exp_0; lra|]. pose proof (exp_ineq1 (- y) ltac:(lra)). lra. }
  pose proof (exp_pos y). nra.
Qed.

Lemma final_bound : ((1 + eps) ^ length per - 1) * C + err nu tau (1 + eps) (length per) C <=
  INR (length per) * (INR p + INR M * G) * powerRZ 2 (-49) * C + powerRZ 2 (-1031).
Proof using All.
  pose proof eps_bound as [He0 He1]. pose proof nu_tau as [Hn0 Ht0]. pose proof G_1 as GG. pose proof (pos_INR M) as M0.
  pose proof HR as HR'. pose proof HS as HS'. pose proof (le_INR 1 _ HD) as D1. change (INR 1) with 1 in D1.
  unfold nu, tau in *. rewrite <- !(bpow_powerRZ radix2) in *.
  destruct (count_bounds p (length per) HD HR') as ((P0 & P1) & _ & _ & (Q0 & _) & RE).
  set (dd := INR (length per)) in *. set (mg := INR M * G) in *.
  assert (MG : 0 <= mg) by (apply Rmult_le_pos; lra).
  assert (DM : dd * mg <= bpow radix2 40) by (unfold mg; lra).
  assert (DP : dd * INR p <= bpow radix2 40) by (assert (0 <= INR p * dd) by (apply Rmult_le_pos; lra); lra).
  pose proof (bpow_gt_0 radix2 (-50)) as B0.
  assert (E49 : bpow radix2 (-49) = 2 * bpow radix2 (-50)) by (change (-49)%Z with (1 + -50)%Z; rewrite <- bpow_mul; reflexivity).
  assert (E40 : bpow radix2 40 * bpow radix2 (-50) = / 1024) by (rewrite bpow_mul; cbn; lra).
  assert (D2 : dd * eps <= dd * INR p * bpow radix2 (-50)) by (rewrite Rmult_assoc; apply Rmult_le_compat_l; lra).
  assert (D3 : dd * INR p * bpow radix2 (-50) <= / 1024) by (rewrite <- E40; apply Rmult_le_compat_r; lra).
  assert (D4 : dd * (mg * bpow radix2 (-50)) <= / 1024) by (rewrite <- Rmult_assoc, <- E40; apply Rmult_le_compat_r; lra).
  assert (D5 : 0 <= dd * eps) by (apply Rmult_le_pos; lra).
  assert (N1 : 0 <= mg * bpow radix2 (-50)) by (apply Rmult_le_pos; lra).
  set (nn := mg * bpow radix2 (-50)) in *. set (tt := mg * bpow radix2 (-1072)) in *.
  assert (A1 : (1 + eps) ^ length per - 1 <= 2 * (dd * eps)).
  { pose proof (exp_pow eps (length per) He0) as E. fold dd in E. pose proof (exp_small (dd * eps) ltac:(lra)). lra. }
  assert (A2 : (1 + eps + nn) ^ length per <= 2).
  { rewrite Rplus_assoc. pose proof (exp_pow (eps + nn) (length per) ltac:(lra)) as E. fold dd in E.
    pose proof (exp_2 (dd * (eps + nn))) as E2. eapply Rle_trans; [exact E|]. apply E2. rewrite Rmult_plus_distr_l. assert (0 <= dd * nn) by (apply Rmult_le_pos; lra). lra. }
  assert (T1 : dd * tt <= bpow radix2 (-1032)).
  { unfold tt. rewrite <- Rmult_assoc. apply Rle_trans with (bpow radix2 40 * bpow radix2 (-1072)); [apply Rmult_le_compat_r; [apply bpow_ge_0|auto]|]. rewrite bpow_mul. apply Rle_refl. }
  assert (E31 : bpow radix2 (-1031) = 2 * bpow radix2 (-1032)) by (change (-1031)%Z with (1 + -1032)%Z; rewrite <- bpow_mul; reflexivity).
  unfold err. fold dd.
  assert (A3 : dd * (1 + eps + nn) ^ length per * (nn * C + tt) <= dd * 2 * (nn * C + tt)).
  { apply Rmult_le_compat_r; [assert (0 <= nn * C) by (apply Rmult_le_pos; lra); lra|]. apply Rmult_le_compat_l; lra. }
  assert (A4 : ((1 + eps) ^ length per - 1) * C <= 2 * (dd * eps) * C) by (apply Rmult_le_compat_r; auto).
  assert (A5 : 2 * (dd * eps) * C <= 2 * (dd * INR p * bpow radix2 (-50)) * C) by (apply Rmult_le_compat_r; auto; lra).
  rewrite E49, E31. replace (dd * (INR p + mg) * (2 * bpow radix2 (-50)) * C) with (2 * (dd * INR p * bpow radix2 (-50)) * C + dd * 2 * (nn * C)) by (unfold nn; ring). lra.
Qed.

(** The exact value of the computed spline at a data point. *)
Lemma exact_value idx : valid W idx ->
  double_finite (nth (row_major dims idx) (m_data f) 0%float) /\
  Rabs (sval rs (map (fun d => x d (nth d idx 0%nat)) (seq 0 (length per))) - double_val (nth (row_major dims idx) (m_data f) 0%float)) <=
    INR (length per) * (INR p + INR M * G) * powerRZ 2 (-49) * C + powerRZ 2 (-1031).
Proof using All.
  intros Vi. destruct base_order as (Ho & Hp & _). destruct nu_tau as [Hnu Htau]. destruct eps_bound as [He _].
  assert (Hne : per <> []) by (intros E; pose proof HD as X; rewrite E in X; cbn in X; lia).
  assert (Hnear : forall d i, (d < length per)%nat -> (i < N d)%nat ->
    (pd d = true -> fst (rng rs d) <= x d i < snd (rng rs d)) /\
    exists k, segment (kn (knot_of rs d)) p (last_of rs d) (x d i) k /\ kn (knot_of rs d) k <= x d i <= kn (knot_of rs d) (k + 1)%nat /\
    sum (N d) (fun j => Rabs (mat_at mats d (rowof p (pd d) (N d) i) j - Bmat (kn (knot_of rs d)) p (N d) k (x d i) j)) <= eps).
  { intros d i Hd Hi. split.
    - intros E. destruct (x_in d i Hd Hi) as [X1 X2]. specialize (X2 E). split; auto. rewrite rs_rng by auto. cbn [fst]. lra.
    - destruct (md_spec d Hd) as (Em & _ & _ & Hr). destruct (Hr i Hi) as (k & Hk & Hin & Hs). exists k.
      rewrite rs_knot, rs_last, Em by auto. split; auto. }
  destruct (value_error Fops double_val double_finite on nd p per dims ranges t f c) with (mats := mats) (nu := nu) (tau := tau) (eps := eps) (crd := fun d i => x d i) (C := C) (idx := idx) as (H1 & H2);
   auto using mats_length, N_distinct, dim_solves, dim_rows, rs_good.
  split; auto. eapply Rle_trans; [exact H2|]. apply final_bound.
Qed.

Lemma computed_value idx xs' : valid W idx -> C <= powerRZ 2 1000 -> length xs' = length per ->
  (forall d, (d < length per)%nat -> wrap_coord Fops (pd d) (nth d (sp_range (if_spline g)) (0%float, 0%float)) (nth (nth d idx 0%nat) (ld d) 0%float) = Ok (nth d xs' 0%float) /\
     double_finite (nth d xs' 0%float) /\ double_val (nth d xs' 0%float) = x d (nth d idx 0%nat)) ->
  exists v, interp_eval Fops g (map (fun d => nth (nth d idx 0%nat) (ld d) 0%float) (seq 0 (length per))) = Ok v /\ double_finite v /\
  Rabs (double_val v - double_val (nth (row_major dims idx) (m_data f) 0%float)) <=
    (INR (roundings p (length per)) * powerRZ 2 (-52) + INR (length per) * (INR p + INR M * G) * powerRZ 2 (-49)) * C + powerRZ 2 (-1030).
Proof using All.
  intros Vi HC1 Lx' Hw. set (xs := map _ (seq 0 (length per))).
  destruct rs_order as (Ro & Rp & Rd). destruct (exact_value idx Vi) as [_ EV].
  assert (Lx : length xs = length per) by (unfold xs; rewrite map_length, seq_length; auto).
  assert (Sd : sp_dim (if_spline g) = length per) by exact Rd. assert (So : sp_order (if_spline g) = p) by exact Ro.
  assert (LW : length W = length per) by apply ddims_length.
  pose proof (valid_length _ _ Vi) as Li. rewrite LW in Li. pose proof Vi as Vn. rewrite valid_nth in Vn by lia.
  set (hints := repeat p (length per)).
  assert (Nh : forall d, (d < length per)%nat -> nth d hints 0%nat = p).
  { intros d Hd. unfold hints. rewrite (nth_indep _ 0%nat p) by (rewrite repeat_length; auto). apply nth_repeat. }
  assert (Lk : forall d, last_of (if_spline g) d = last_of rs d).
  { intros d. unfold last_of. rewrite rs_knot, map_length. reflexivity. }
  assert (Hh : hints_ok (if_spline g) hints).
  { split; [unfold hints; rewrite repeat_length; auto|]. rewrite Sd. intros d Hd. rewrite Nh by auto. rewrite So, Lk, rs_last by auto. pose proof (klen_big d Hd). lia. }
  assert (Nx : forall d, (d < length per)%nat -> nth d xs 0%float = nth (nth d idx 0%nat) (ld d) 0%float).
  { intros d Hd. unfold xs. rewrite map_seq_nth by auto. auto. }
  assert (Eh : add_hints Fops g xs = Ok (combine xs hints)).
  { unfold add_hints. rewrite Sd. apply (mapM_ok_nth _ _ _ 0%nat (0%float, 0%nat)).
    - rewrite combine_length, seq_length, Lx. unfold hints. rewrite repeat_length. lia.
    - intros d Hd. rewrite seq_length in Hd. rewrite seq_nth by auto. cbn [Nat.add]. rewrite (vget_ok xs d 0%float) by lia. cbn [bind].
      unfold hint_for. change (if_uniform g) with (if_uniform (tp_base t)). rewrite (df_uniform _ (dim_facts d Hd)). cbn [bind].
      rewrite combine_nth by (unfold hints; rewrite repeat_length; auto). rewrite Nh, So by auto. reflexivity. }
  unfold interp_eval. rewrite Eh. cbn [bind].
  pose proof (rs_number) as NS.
  destruct (double_evaluation (if_spline g) C xs xs' hints NS) as (v & w & E1 & E2 & Gv & Hv); auto; try (rewrite ?Sd, ?So; auto; fail).
  { rewrite Sd, So. apply le_IZR. rewrite <- INR_IZR_INZ. eapply Rle_trans; [exact HR|]. rewrite <- (bpow_powerRZ radix2). apply Rle_refl. }
  { rewrite Sd. intros d Hd. change zero with 0%float. destruct (Hw d Hd) as (W1 & W2 & W3). rewrite Nx by auto. unfold per_of. change (sp_per (if_spline g)) with (sp_per rs). rewrite Rp, So.
    split; auto. split; auto. destruct (x_in d (nth d idx 0%nat) Hd (Vn d ltac:(lia))) as [X1 X2]. rewrite W3. split.
    - change (knot_of (if_spline g) d) with (K d). rewrite Lk, rs_last by auto. pose proof (klen_big d Hd). replace (klen d - p - 2 + 1)%nat with (klen d - p - 1)%nat by lia. auto.
    - intros E. fold rs. split; [rewrite rs_rng by auto; cbn [fst]; lra|auto]. }
  exists v. split; auto. split; auto.
  assert (Ew : w = sval rs (map (fun d => x d (nth d idx 0%nat)) (seq 0 (length per)))).
  { assert (Lv : length (map double_val xs') = length hints) by (unfold hints; rewrite map_length, repeat_length; auto).
    rewrite (eval_sval_hint rs) in E2.
    - injection E2 as <-. f_equal. rewrite combine_map_fst by auto.
      apply (nth_ext _ _ 0 0); [rewrite !map_length, seq_length; auto|]. intros d Hd. rewrite map_length in Hd.
      rewrite map_seq_nth by lia. rewrite (nth_indep _ 0 (double_val 0%float)) by (rewrite map_length; auto). rewrite map_nth. apply Hw. lia.
    - apply rs_good.
    - rewrite combine_length, Lv, Nat.min_id, Rd. unfold hints. apply repeat_length.
    - rewrite Rd. intros d Hd. rewrite combine_nth by auto. cbn [snd]. destruct Hh as [_ Hh]. specialize (Hh d). rewrite Sd in Hh. rewrite Lk in Hh. apply (Hh Hd). }
  rewrite Sd, So in Hv. subst w. set (w := sval _ _) in *. set (fv := double_val (nth (row_major dims idx) (m_data f) 0%float)) in *.
  assert (T : INR ((p + 1) ^ length per) * powerRZ 2 (-1074) <= powerRZ 2 (-1034)).
  { pose proof HR as HR'. rewrite <- !(bpow_powerRZ radix2) in *. destruct (count_bounds p (length per) HD HR') as (_ & _ & _ & (Q0 & Q1) & _).
    apply Rle_trans with (bpow radix2 40 * bpow radix2 (-1074)); [apply Rmult_le_compat_r; auto; apply bpow_ge_0|]. rewrite bpow_mul. apply Rle_refl. }
  assert (E30 : powerRZ 2 (-1034) + powerRZ 2 (-1031) <= powerRZ 2 (-1030)).
  { rewrite <- !(bpow_powerRZ radix2). assert (bpow radix2 (-1034) <= bpow radix2 (-1031)) by (apply bpow_le; lia).
    assert (bpow radix2 (-1030) = 2 * bpow radix2 (-1031)) by (change (-1030)%Z with (1 + -1031)%Z; rewrite <- bpow_mul; reflexivity). lra. }
  replace (double_val v - fv) with ((double_val v - w) + (w - fv)) by ring. eapply Rle_trans; [apply Rabs_triang|]. lra.
Qed.
End Top.

(** ** Statements *)
Section Statements.
Context (on nd : bool) (p : nat) (per : list bool) (dims : list nat) (ls : list (list float)) (t : templ float) (M : nat) (G C : R) (f : mesh float) (g : interp float).
Hypothesis FT : fit_template on nd p per dims ls t M G.
Lemma ft_N d : (d < length per)%nat -> nth d (ddims nd per dims) 0%nat = (length (nth d ls []) - (if nth d per false then 1 else 0))%nat.
Proof using FT.
  intros Hd. destruct FT as [_ (_ & Ld & _) _ Hs _ _ _ _]. rewrite ddims_nth by auto. specialize (Hs d Hd). unfold distinct.
  destruct nd, (nth d per false); cbn [andb negb] in *; lia.
Qed.
Lemma ft_valid idx : data_index per ls idx -> valid (ddims nd per dims) idx.
Proof using FT.
  intros [L H]. apply valid_nth; [rewrite ddims_length; auto|]. rewrite ddims_length. intros d Hd. rewrite ft_N by auto. auto.
Qed.
Lemma ft_one : (1 <= length per)%nat.
Proof using FT. destruct FT as [_ (Hne & _) _ _ _ _ _ _]. destruct per; [congruence|cbn; lia]. Qed.

Hypothesis Hf : m_dims f = dims /\ wf_mesh f.
Hypothesis Hg : interpolate Fops on nd t f = Ok g.
Hypothesis HC : 0 <= C.
Hypothesis HV : forall a, In a (m_data (sp_ctrl (if_spline g))) -> double_finite a /\ Rabs (double_val a) <= C.

Lemma ft_ctrl : exists c, solve_ctrl Fops on nd t f = Ok c /\ g = set_ctrl (tp_base t) c.
Proof using Hg. pose proof Hg as H. unfold interpolate in H. apply bind_Ok in H as (c & H1 & H2). exists c. split; auto. congruence. Qed.
Lemma top_exact idx : data_index per ls idx ->
  exists w, spline_eval_plain Rops (real_spline double_val (if_spline g)) (map double_val (data_point ls idx)) = Ok w /\
    double_finite (nth (row_major dims idx) (m_data f) 0%float) /\
    Rabs (w - double_val (nth (row_major dims idx) (m_data f) 0%float)) <=
      INR (length per) * (INR p + INR M * G) * powerRZ 2 (-49) * C + powerRZ 2 (-1031).
Proof using All.
  intros Hi. destruct ft_ctrl as (c & Hc & Eg). pose proof FT as [F1 (F2 & F3 & F4) F5 F6 F7 F8 F9 F10]. rewrite Eg in HV |- *. destruct Hf as [Hf1 Hf2].
  assert (F7' : forall d, (d < length per)%nat -> (nth d (ddims nd per dims) 0 <= M)%nat) by (intros d Hd; rewrite ft_N; auto).
  assert (F8' : forall d sv, nth_error (tp_solvers t) d = Some sv -> exists F, stored_factors sv F /\ factors_within (nth d (ddims nd per dims) 0%nat) F G).
  { intros d sv Hs. destruct (F8 d sv Hs) as (F & A & B). exists F. split; auto. rewrite ft_N; auto.
    destruct (templ_inv Fops on nd p per dims _ t F1 F3) as (_ & _ & Ls & _). rewrite <- Ls. apply nth_error_Some. congruence. }
  destruct (exact_value on nd p per dims ls t F1 F3 F4 F5 F6 ft_one F10 f c G C M Hc Hf1 Hf2 F7' F8' F9 HC HV idx (ft_valid idx Hi)) as [E1 E2].
  eexists. split; [apply eval_sval|].
  - apply (rs_good on nd p per dims ls t F1 F3 F4 F5 F6 ft_one F10 f c G C M Hc Hf1 Hf2 F7' F8' F9 HC HV).
  - unfold data_point. rewrite !map_length, seq_length, F4. symmetry.
    apply (rs_order on nd p per dims ls t F1 F3 F4 F5 F6 ft_one F10 f c G C M Hc Hf1 Hf2 F7' F8' F9 HC HV).
  - split; auto. unfold data_point. rewrite map_map, F4. exact E2.
Qed.

Lemma top_computed idx xs' : data_index per ls idx -> C <= powerRZ 2 1000 -> length xs' = length per ->
  (forall d, (d < length per)%nat ->
     wrap_coord Fops (nth d per false) (nth d (sp_range (if_spline g)) (0%float, 0%float)) (nth d (data_point ls idx) 0%float) = Ok (nth d xs' 0%float) /\
     double_finite (nth d xs' 0%float) /\ double_val (nth d xs' 0%float) = double_val (nth d (data_point ls idx) 0%float)) ->
  exists v, interp_eval Fops g (data_point ls idx) = Ok v /\ double_finite v /\
    Rabs (double_val v - double_val (nth (row_major dims idx) (m_data f) 0%float)) <=
      (INR (roundings p (length per)) * powerRZ 2 (-52) + INR (length per) * (INR p + INR M * G) * powerRZ 2 (-49)) * C + powerRZ 2 (-1030).
Proof using All.
  intros Hi HC1 Lx Hw. destruct ft_ctrl as (c & Hc & Eg). pose proof FT as [F1 (F2 & F3 & F4) F5 F6 F7 F8 F9 F10]. rewrite Eg in HV, Hw |- *. destruct Hf as [Hf1 Hf2].
  assert (F7' : forall d, (d < length per)%nat -> (nth d (ddims nd per dims) 0 <= M)%nat) by (intros d Hd; rewrite ft_N; auto).
  assert (F8' : forall d sv, nth_error (tp_solvers t) d = Some sv -> exists F, stored_factors sv F /\ factors_within (nth d (ddims nd per dims) 0%nat) F G).
  { intros d sv Hs. destruct (F8 d sv Hs) as (F & A & B). exists F. split; auto. rewrite ft_N; auto.
    destruct (templ_inv Fops on nd p per dims _ t F1 F3) as (_ & _ & Ls & _). rewrite <- Ls. apply nth_error_Some. congruence. }
  unfold data_point. rewrite F4.
  apply (computed_value on nd p per dims ls t F1 F3 F4 F5 F6 ft_one F10 f c G C M Hc Hf1 Hf2 F7' F8' F9 HC HV idx xs' (ft_valid idx Hi) HC1 Lx).
  intros d Hd. specialize (Hw d Hd). unfold data_point in Hw. rewrite F4, map_seq_nth in Hw by auto. exact Hw.
Qed.
End Statements.

(** Both ways to make the function. *)
Lemma make_templ on nd p per f ranges g t : interp_make Fops on nd p per f ranges = Ok g -> templ_make Fops on nd p per (m_dims f) ranges = Ok t ->
  interpolate Fops on nd t f = Ok g.
Proof.
  intros E Et. unfold interp_make in E. rewrite Et in E. cbn [bind] in E. unfold interpolate_move in E. unfold interpolate.
  destruct (solve_ctrl Fops on nd t f); cbn [bind fst] in *; congruence.
Qed.
Lemma fit_exact on nd p per dims ls t M G C f g idx :
  fit_template on nd p per dims ls t M G -> m_dims f = dims -> wf_mesh f ->
  interpolate Fops on nd t f = Ok g \/ interp_make Fops on nd p per f (map (@Points float) ls) = Ok g ->
  0 <= C -> (forall a, In a (m_data (sp_ctrl (if_spline g))) -> double_finite a /\ Rabs (double_val a) <= C) -> data_index per ls idx ->
  exists w, spline_eval_plain Rops (real_spline double_val (if_spline g)) (map double_val (data_point ls idx)) = Ok w /\
    double_finite (nth (row_major dims idx) (m_data f) 0%float) /\
    Rabs (w - double_val (nth (row_major dims idx) (m_data f) 0%float)) <=
      INR (length per) * (INR p + INR M * G) * powerRZ 2 (-49) * C + powerRZ 2 (-1031).
Proof.
  intros FT H1 H2 H3 HC HV Hi. assert (H3' : interpolate Fops on nd t f = Ok g).
  { destruct H3 as [|H3]; auto. eapply make_templ; [exact H3|]. rewrite H1. apply (ft_made _ _ _ _ _ _ _ _ _ FT). }
  exact (top_exact on nd p per dims ls t M G C f g FT (conj H1 H2) H3' HC HV idx Hi).
Qed.
Lemma fit_computed on nd p per dims ls t M G C f g idx xs' :
  fit_template on nd p per dims ls t M G -> m_dims f = dims -> wf_mesh f ->
  interpolate Fops on nd t f = Ok g \/ interp_make Fops on nd p per f (map (@Points float) ls) = Ok g ->
  0 <= C <= powerRZ 2 1000 -> (forall a, In a (m_data (sp_ctrl (if_spline g))) -> double_finite a /\ Rabs (double_val a) <= C) -> data_index per ls idx ->
  length xs' = length per ->
  (forall d, (d < length per)%nat ->
     wrap_coord Fops (nth d per false) (nth d (sp_range (if_spline g)) (0%float, 0%float)) (nth d (data_point ls idx) 0%float) = Ok (nth d xs' 0%float) /\
     double_finite (nth d xs' 0%float) /\ double_val (nth d xs' 0%float) = double_val (nth d (data_point ls idx) 0%float)) ->
  exists v, interp_eval Fops g (data_point ls idx) = Ok v /\ double_finite v /\
    Rabs (double_val v - double_val (nth (row_major dims idx) (m_data f) 0%float)) <=
      (INR (roundings p (length per)) * powerRZ 2 (-52) + INR (length per) * (INR p + INR M * G) * powerRZ 2 (-49)) * C + powerRZ 2 (-1030).
Proof.
  intros FT H1 H2 H3 [HC HC1] HV Hi Lx Hw. assert (H3' : interpolate Fops on nd t f = Ok g).
  { destruct H3 as [|H3]; auto. eapply make_templ; [exact H3|]. rewrite H1. apply (ft_made _ _ _ _ _ _ _ _ _ FT). }
  exact (top_computed on nd p per dims ls t M G C f g FT (conj H1 H2) H3' HC HV idx xs' Hi HC1 Lx Hw).
Qed.
