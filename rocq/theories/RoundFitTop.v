(** Interpolation in doubles with ranges of either kind: the statements. *)
From Coq Require Import List Arith Lia Bool ZArith Reals Floats Lra Psatz.
From Flocq Require Import Core BinarySingleNaN PrimFloat Relative Plus_error.
From Verif Require Import Base Num MeshM SpecMesh MeshProofs ProgM BandM LUM SplineM InterpM FloatM SpecBand SpecSpline SpecSplineObj SpecInterp SpecRound SpecRoundInterp SpecRoundFit.
From Verif Require Import SumR BandProofs MulProofs DenseLU LUProofs SplineProofs BetaProofs BasisProofs TensorR KnotProofs CoefProofs SolveProofs BuildProofs WeightProofs LUConv.
From Verif Require Import KnotShape SWProofs SplineFinal FloatProofs RoundDouble GenLU RoundLU RoundLUTop RoundProofs GenKnots GenSolve RoundTensor RoundColl RoundTempl RoundUniform RoundUColl RoundGrid RoundInterp PiecePerturb FloatWrap RoundUGrid RoundFit RoundFitInst SafeTop.
Import ListNotations.
Local Open Scope R_scope.
Local Notation float := PrimFloat.float.


Section State.
Context (on nd : bool) (p : nat) (per : list bool) (dims : list nat) (ranges : list (xrange float)) (t : templ float) (reach sp : nat -> R) (kap : R) (M : nat) (G : R).
Hypothesis FS : fit_ranges on nd p per dims ranges t reach sp kap M G.
Local Notation W := (ddims nd per dims).
Local Notation pd d := (nth d per false).
Local Notation xi := (grid_at nd per dims ranges).

Lemma fs_one : (1 <= length per)%nat.
Proof using FS. destruct (fs_dims _ _ _ _ _ _ _ _ _ _ _ _ FS) as (Hne & _). destruct per; [congruence|cbn; lia]. Qed.
Lemma fs_P1 : (1 <= p)%nat.
Proof using FS. pose proof fs_one. apply (fr_order _ _ _ _ _ _ (fs_range _ _ _ _ _ _ _ _ _ _ _ _ FS 0%nat ltac:(lia))). Qed.
Lemma fs_near d : (d < length per)%nat -> powerRZ 2 (-44) * reach d <= sp d.
Proof using FS.
  intros Hd. pose proof FS as [_ _ Hr (K0 & K1) _ _ (_ & S2) _]. pose proof (le_INR _ _ fs_one) as D1. pose proof (le_INR _ _ fs_P1) as P1. change (INR 1) with 1 in *.
  destruct (Hr d Hd) as [_ _ _ _ (H0 & _) _]. assert (H1 : 0 < sp d) by (rewrite <- (bpow_powerRZ radix2) in H0; pose proof (bpow_gt_0 radix2 (-798)); lra).
  assert (K2 : 128 * kap <= powerRZ 2 40).
  { assert (A : 1 * (1 * (1 + 128 * kap)) <= INR (length per) * (INR p * (1 + 128 * kap))) by (repeat apply Rmult_le_compat; lra). lra. }
  assert (K3 : kap <= powerRZ 2 33).
  { assert (E : powerRZ 2 40 = 128 * powerRZ 2 33) by (rewrite <- !(bpow_powerRZ radix2); change 40%Z with (7 + 33)%Z; rewrite bpow_plus; reflexivity). lra. }
  apply Rle_trans with (powerRZ 2 (-44) * (powerRZ 2 33 * sp d)).
  - apply Rmult_le_compat_l; [apply powerRZ_le; lra|]. eapply Rle_trans; [apply (K1 d Hd)|]. apply Rmult_le_compat_r; lra.
  - rewrite <- Rmult_assoc, <- !(bpow_powerRZ radix2), <- bpow_plus. rewrite <- (Rmult_1_l (sp d)) at 2. apply Rmult_le_compat_r; [lra|].
    change 1 with (bpow radix2 0). apply bpow_le. lia.
Qed.
Lemma fs_dimfit d : (d < length per)%nat -> dimfit on nd p per dims t xi reach sp d.
Proof using FS.
  intros Hd. pose proof FS as [F1 (F2 & F3 & F4) F5 F6 F7 F8 F9 F10]. apply (dim_fit on nd p per dims ranges t reach sp kap F1 F3 F4 fs_one fs_P1 F10 F5 fs_near d Hd).
Qed.
Lemma fs_N d : (d < length per)%nat -> nth d W 0%nat = unknowns nd per dims d /\ (p + 1 <= nth d W 0%nat)%nat /\ grid_size nd per dims d = (nth d W 0 + (if pd d then 1 else 0))%nat.
Proof using FS.
  intros Hd. pose proof FS as [F1 (F2 & F3 & F4) F5 F6 F7 F8 F9 F10]. apply (gN on nd p per dims ranges t reach sp kap F1 F3 F4 fs_one fs_P1 F10 F5 fs_near d Hd).
Qed.
Lemma fs_M : forall d, (d < length per)%nat -> (nth d W 0 <= M)%nat.
Proof using FS. intros d Hd. rewrite (proj1 (fs_N d Hd)). apply (fs_unknowns _ _ _ _ _ _ _ _ _ _ _ _ FS d Hd). Qed.
Lemma fs_F : forall d sv, nth_error (tp_solvers t) d = Some sv -> exists F, stored_factors sv F /\ factors_within (nth d W 0%nat) F G.
Proof using FS.
  intros d sv Hs. pose proof FS as [F1 (F2 & F3 & F4) F5 F6 F7 F8 F9 F10]. destruct (F8 d sv Hs) as (F & A & B). 
  assert (Hd : (d < length per)%nat); [|exists F; split; auto; rewrite (proj1 (fs_N d Hd)); auto].
  destruct (templ_inv Fops on nd p per dims _ t F1 F3) as (_ & _ & Ls & _). rewrite <- Ls. apply nth_error_Some. congruence.
Qed.
Lemma near_valid idx ys : near_data nd per dims ranges reach idx ys -> valid W idx.
Proof using FS.
  intros (L & _ & H). apply valid_nth; [rewrite ddims_length; auto|]. rewrite ddims_length. intros d Hd. destruct (H d Hd) as (A & _). rewrite (proj1 (fs_N d Hd)). exact A.
Qed.
Lemma near_pos idx ys d : near_data nd per dims ranges reach idx ys -> (d < length per)%nat -> at_pos nd p per dims t xi reach d (nth d idx 0%nat) (nth d ys 0).
Proof using FS.
  intros (_ & _ & H) Hd. specialize (H d Hd). cbv zeta in H. destruct H as (Hi & (B1 & B2) & B3). destruct (fs_N d Hd) as (E1 & E2 & E3). pose proof (fs_dimfit d Hd) as DF.
  pose proof (fs_near d Hd) as Nr. pose proof (half_cases p) as HC. destruct DF as [D1 _ _ _ _ Ds _ Dl _ _ (S1 & S2 & S3) D2 D3 D4 _]. rewrite <- E1 in Hi.
  assert (E48 : powerRZ 2 (-48) = 2 * powerRZ 2 (-49)) by (rewrite <- !(bpow_powerRZ radix2); change (-48)%Z with (1 + -49)%Z; rewrite bpow_plus; reflexivity).
  assert (E44 : powerRZ 2 (-44) = 32 * powerRZ 2 (-49)) by (rewrite <- !(bpow_powerRZ radix2); change (-44)%Z with (5 + -49)%Z; rewrite bpow_plus; reflexivity).
  assert (B49 : 0 <= powerRZ 2 (-49) * reach d) by (apply Rmult_le_pos; [apply powerRZ_le|]; lra). rewrite E44 in Nr.
  unfold at_pos. split; [|rewrite E48; lra]. split; [lra|].
  destruct (pd d) eqn:Ep.
  - specialize (D3 _ Hi). apply Rabs_le_inv in B3. apply Rle_trans with (kn (map double_val (nth d (sp_knots (if_spline (tp_base t))) [])) (flen nd p per dims d - p - (2 - p mod 2))%nat); [lra|].
    apply Ds; rewrite ?map_length, ?Dl; unfold flen; rewrite Ep; lia.
  - destruct D3 as [-> _]. rewrite E3, Nat.add_0_r in B2. exact B2.
Qed.

Context (C : R) (f : mesh float) (g : interp float).
Hypothesis Hf : m_dims f = dims /\ wf_mesh f.
Hypothesis Hg : interpolate Fops on nd t f = Ok g.
Hypothesis HC : 0 <= C.
Hypothesis HV : forall a, In a (m_data (sp_ctrl (if_spline g))) -> double_finite a /\ Rabs (double_val a) <= C.

Lemma fs_exact idx ys : near_data nd per dims ranges reach idx ys ->
  exists w, spline_eval_plain Rops (real_spline double_val (if_spline g)) ys = Ok w /\
    double_finite (nth (row_major dims idx) (m_data f) 0%float) /\
    Rabs (w - double_val (nth (row_major dims idx) (m_data f) 0%float)) <=
      INR (length per) * (INR p * (1 + 128 * kap) + INR M * G) * powerRZ 2 (-49) * C + powerRZ 2 (-1031).
Proof using All.
  intros Hi. destruct (ft_ctrl on nd t f g Hg) as (c & Hc & Eg). pose proof FS as [F1 (F2 & F3 & F4) F5 (F6 & F6') F7 F8 (F9 & F9') F10]. rewrite Eg in HV |- *. destruct Hf as [Hf1 Hf2].
  destruct (fit_exact_value on nd p per dims ranges t xi reach sp kap F1 F3 fs_one fs_P1 F10 fs_dimfit F6 F6' F9' f c G C M Hc Hf1 Hf2 fs_M fs_F F9 HC HV idx ys) as [E1 E2].
  - eapply near_valid; eauto.
  - apply Hi.
  - intros d Hd. eapply near_pos; eauto.
  - eexists. split; [apply eval_sval|].
    + apply (frs_good on nd p per dims ranges t xi reach sp kap F1 F3 fs_one fs_P1 F10 fs_dimfit F6 F6' F9' f c G C M Hc Hf1 Hf2 fs_M fs_F F9 HC HV).
    + rewrite (proj1 (proj2 Hi)). symmetry.
      apply (frs_order on nd p per dims ranges t xi reach sp kap F1 F3 fs_one fs_P1 F10 fs_dimfit F6 F6' F9' f c G C M Hc Hf1 Hf2 fs_M fs_F F9 HC HV).
    + split; [exact E1|exact E2].
Qed.

Lemma fs_computed idx xs : near_data nd per dims ranges reach idx (map double_val xs) -> (forall a, In a xs -> double_finite a) -> C <= powerRZ 2 1000 ->
  exists v, interp_eval Fops g xs = Ok v /\ double_finite v /\
    Rabs (double_val v - double_val (nth (row_major dims idx) (m_data f) 0%float)) <=
      (INR (roundings p (length per)) * powerRZ 2 (-52) + INR (length per) * (INR p * (1 + 128 * kap) + INR M * G) * powerRZ 2 (-49)) * C + powerRZ 2 (-1030).
Proof using All.
  intros Hi Hx HC1. destruct (ft_ctrl on nd t f g Hg) as (c & Hc & Eg). pose proof FS as [F1 (F2 & F3 & F4) F5 (F6 & F6') F7 F8 (F9 & F9') F10]. rewrite Eg in HV |- *. destruct Hf as [Hf1 Hf2].
  pose proof Hi as (_ & Lx & H). rewrite map_length in Lx.
  apply (fit_computed_value on nd p per dims ranges t xi reach sp kap F1 F3 fs_one fs_P1 F10 fs_dimfit F6 F6' F9' f c G C M Hc Hf1 Hf2 fs_M fs_F F9 HC HV idx xs); auto.
  - eapply near_valid; eauto.
  - intros d Hd. cbv zeta. specialize (H d Hd). cbv zeta in H. destruct H as (A1 & (A2 & A3) & A4).
    assert (Ev : nth d (map double_val xs) 0 = double_val (nth d xs 0%float)) by (rewrite (nth_indep _ 0 (double_val 0%float)) by (rewrite map_length; lia); apply map_nth).
    rewrite Ev in *. split; [apply Hx, nth_In; lia|]. split; [exact A2|]. split; [|exact A4]. intros Ep. destruct (fs_N d Hd) as (_ & _ & E3). rewrite Ep, Nat.add_0_r in E3. rewrite E3 in A3. exact A3.
Qed.
End State.

Lemma ranges_exact on nd p per dims ranges t reach sp kap M G C f g idx ys :
  fit_ranges on nd p per dims ranges t reach sp kap M G -> m_dims f = dims -> wf_mesh f ->
  interpolate Fops on nd t f = Ok g \/ interp_make Fops on nd p per f ranges = Ok g ->
  0 <= C -> (forall a, In a (m_data (sp_ctrl (if_spline g))) -> double_finite a /\ Rabs (double_val a) <= C) ->
  near_data nd per dims ranges reach idx ys ->
  exists w, spline_eval_plain Rops (real_spline double_val (if_spline g)) ys = Ok w /\
    double_finite (nth (row_major dims idx) (m_data f) 0%float) /\
    Rabs (w - double_val (nth (row_major dims idx) (m_data f) 0%float)) <=
      INR (length per) * (INR p * (1 + 128 * kap) + INR M * G) * powerRZ 2 (-49) * C + powerRZ 2 (-1031).
Proof.
  intros FS H1 H2 H3 HC HV Hi. assert (H3' : interpolate Fops on nd t f = Ok g).
  { destruct H3 as [|H3]; auto. eapply make_templ; [exact H3|]. rewrite H1. apply (fs_made _ _ _ _ _ _ _ _ _ _ _ _ FS). }
  exact (fs_exact on nd p per dims ranges t reach sp kap M G FS C f g (conj H1 H2) H3' HC HV idx ys Hi).
Qed.
Lemma ranges_computed on nd p per dims ranges t reach sp kap M G C f g idx xs :
  fit_ranges on nd p per dims ranges t reach sp kap M G -> m_dims f = dims -> wf_mesh f ->
  interpolate Fops on nd t f = Ok g \/ interp_make Fops on nd p per f ranges = Ok g ->
  0 <= C <= powerRZ 2 1000 -> (forall a, In a (m_data (sp_ctrl (if_spline g))) -> double_finite a /\ Rabs (double_val a) <= C) ->
  near_data nd per dims ranges reach idx (map double_val xs) -> (forall a, In a xs -> double_finite a) ->
  exists v, interp_eval Fops g xs = Ok v /\ double_finite v /\
    Rabs (double_val v - double_val (nth (row_major dims idx) (m_data f) 0%float)) <=
      (INR (roundings p (length per)) * powerRZ 2 (-52) + INR (length per) * (INR p * (1 + 128 * kap) + INR M * G) * powerRZ 2 (-49)) * C + powerRZ 2 (-1030).
Proof.
  intros FS H1 H2 H3 [HC HC1] HV Hi Hx. assert (H3' : interpolate Fops on nd t f = Ok g).
  { destruct H3 as [|H3]; auto. eapply make_templ; [exact H3|]. rewrite H1. apply (fs_made _ _ _ _ _ _ _ _ _ _ _ _ FS). }
  exact (fs_computed on nd p per dims ranges t reach sp kap M G FS C f g (conj H1 H2) H3' HC HV idx xs Hi Hx HC1).
Qed.
