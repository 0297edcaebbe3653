(** Interpolation in doubles and the exact interpolation of the same data. *)
From Coq Require Import List Arith Lia Bool ZArith Reals Floats Lra.
From Flocq Require Import Core BinarySingleNaN PrimFloat.
From Verif Require Import Base Num MeshM SpecMesh MeshProofs ProgM BandM LUM SplineM InterpM FloatM SpecBand SpecSpline SpecSplineObj SpecInterp SpecCurve SpecStab SpecTame SpecRound SpecRoundInterp SpecNear.
From Verif Require Import SumR BandProofs MulProofs DenseLU LUProofs SplineProofs BetaProofs BasisProofs TensorR KnotProofs CoefProofs SolveProofs BuildProofs WeightProofs InterpProofs LUConv.
From Verif Require Import InterpTop InterpFinal InterpProofs SplineFinal FloatProofs RoundDouble GenLU RoundLU RoundLUTop RoundProofs GenKnots GenSolve RoundTensor RoundColl RoundTempl RoundGrid RoundInterp KnotExact StabProofs StabTop TameTop NearProofs SpecInterp.
Import ListNotations.
Local Open Scope R_scope.
Local Notation float := PrimFloat.float.

Lemma ap_ext p n x y k : (p + 1 <= n)%nat -> (forall i, (i < n)%nat -> x i = y i) -> ap_knot p n x k = ap_knot p n y k.
Proof.
  intros Hn H. unfold ap_knot. destruct (Nat.leb_spec k p); [apply H; lia|]. destruct (Nat.ltb_spec k n); [|apply H; lia].
  destruct (Nat.eqb_spec p 0); [rewrite !H by lia; reflexivity|]. unfold mean. f_equal. apply sum_ext. intros j Hj. apply H. lia.
Qed.
Lemma per_ext p m x y k : (1 <= m)%nat -> (forall i, (i < m + 1)%nat -> x i = y i) ->
  per_knot p m (x m - x 0%nat) x k = per_knot p m (y m - y 0%nat) y k.
Proof.
  intros Hm H. rewrite (H m), (H 0%nat) by lia. unfold per_knot. rewrite !(pext_ext m _ x y) by (try lia; intros; apply H; lia). reflexivity.
Qed.

Section NR.
Context (on nd : bool) (p : nat) (per : list bool) (dims : list nat) (ls : list (list float)) (t : templ float).
Let W := ddims nd per dims.
Local Notation ld d := (nth d ls []).
Local Notation pd d := (nth d per false).
Local Notation N d := (nth d (ddims nd per dims) 0%nat).
Local Notation x d i := (double_val (nth i (ld d) 0%float)).
Hypothesis Ht : templ_make Fops on nd p per dims (map (@Points float) ls) = Ok t.
Hypothesis Ld : length dims = length per.
Hypothesis Lls : length ls = length per.
Hypothesis Hfit : forall d, (d < length per)%nat -> fit_grid p (pd d) (ld d).
Hypothesis Hsz : forall d, (d < length per)%nat -> (nth d dims 0 + (if nd && pd d then 1 else 0) = length (ld d))%nat.
Hypothesis HD : (1 <= length per)%nat.
Hypothesis HR : INR (roundings p (length per)) <= powerRZ 2 40.
Context (f : mesh float) (c : mesh float) (G C : R) (M : nat).
Hypothesis Hc : solve_ctrl Fops on nd t f = Ok c.
Hypothesis Hfd : m_dims f = dims.
Hypothesis Wf : wf_mesh f.
Hypothesis HM : forall d, (d < length per)%nat -> (N d <= M)%nat.
Hypothesis HF : forall d sv, nth_error (tp_solvers t) d = Some sv -> exists F, stored_factors sv F /\ factors_within (N d) F G.
Hypothesis HS : INR (length per) * INR M * G <= powerRZ 2 40.
Hypothesis HC : 0 <= C.
Hypothesis HV : forall a, In a (m_data c) -> double_finite a /\ Rabs (double_val a) <= C.
Let g := set_ctrl (tp_base t) c.
Let rs := real_spline double_val (if_spline g).

(** The exact side. *)
Context (ranges : list (xrange R)) (fr : mesh R) (gr : interp R) (K : R).
Hypothesis GI : good_input nd p per dims ranges.
Hypothesis ST : forall d A, (d < length per)%nat ->
  col_good p (pd d) (N d) (gridx nd (pd d) (nth d dims 0%nat) (nth d ranges (Points []))) A -> stable (N d) A K.
Hypothesis HX : forall d, (d < length per)%nat -> exact_grid p (pd d) (ld d).
Hypothesis HP : forall d i, (d < length per)%nat -> (i < length (ld d))%nat -> coordinate nd per dims ranges d i = x d i.
Hypothesis Er : m_dims fr = dims.
Hypothesis Ed : m_data fr = map double_val (m_data f).
Hypothesis EG : interp_make Rops on nd p per fr ranges = Ok gr.

Lemma nr_wf : wf_mesh fr.
Proof using Er Ed Hfd Wf. unfold wf_mesh in *. rewrite Er, Ed, map_length. congruence. Qed.
Lemma nr_ip : exists mats, interpolant nd p per dims ranges fr gr mats.
Proof using GI Er Ed Hfd Wf EG.
  destruct (InterpProofs.interp_make_spec on nd p per dims ranges fr GI Er nr_wf) as (mats & _ & _ & HG & _). exists mats. auto.
Qed.
Lemma nr_order : (Z.of_nat p <= 2 ^ 53)%Z.
Proof using All.
  apply le_IZR. rewrite <- INR_IZR_INZ. apply Rle_trans with (powerRZ 2 40).
  - eapply Rle_trans; [|exact HR]. apply le_INR. unfold roundings. nia.
  - rewrite <- (bpow_powerRZ radix2). change (IZR (2 ^ 53)) with (bpow radix2 53). apply bpow_le. lia.
Qed.
Lemma nr_N d : (d < length per)%nat -> N d = if pd d then (length (ld d) - 1)%nat else length (ld d).
Proof using All. apply (N_len on nd p per dims ls t Ht Ld Lls Hfit Hsz HD HR). Qed.

Lemma nr_knots d : (d < length per)%nat -> knot_of rs d = knot_of (if_spline gr) d.
Proof using All.
  intros Hd. destruct nr_ip as [mats IP]. rewrite (s_knots _ _ _ _ _ _ _ _ IP d Hd).
  unfold rs, g. rewrite (rs_knot t c d).
  destruct (base_order on nd p per dims ls t Ht Ld Lls Hfit Hsz HD HR) as (_ & _ & Eb).
  pose proof (base_knots Fops on nd _ _ _ _ _ _ Eb) as (_ & _ & HK).
  destruct (HK d ltac:(rewrite map_length; lia)) as (r & b & n & R1 & R2 & _ & R4).
  rewrite nth_error_map, (nth_error_nth' ls (n := d) [] ltac:(lia)) in R1. cbn [option_map] in R1. injection R1 as <-.
  rewrite (nth_error_nth' per false Hd) in R2. injection R2 as <-. destruct R4 as [R4 _]. apply points_inv in R4.
  destruct (exact_points p (pd d) (ld d) (HX d Hd) (fg_order _ _ _ (Hfit d Hd)) nr_order) as (xs & E1 & E2).
  assert (E : xs = nth d (sp_knots (if_spline (tp_base t))) []) by (destruct (pd d); congruence). rewrite <- E, E2.
  pose proof (nr_N d Hd) as HN. pose proof (fg_order _ _ _ (Hfit d Hd)) as Ho. unfold knots_for.
  assert (EX : forall i, (i < length (ld d))%nat -> xs_of nd per dims ranges d i = x d i) by (intros i Hi; apply HP; auto).
  destruct (pd d) eqn:Ep.
  - rewrite HN. replace (length (ld d) - 1 + 2 * p + 1 + (1 - p mod 2))%nat with (length (ld d) + 2 * p + (1 - p mod 2))%nat by lia.
    apply map_ext. intros k. symmetry. apply (per_ext p (length (ld d) - 1) (xs_of nd per dims ranges d)); [lia|]. intros i Hi. apply EX. lia.
  - rewrite HN. apply map_ext. intros k. symmetry. apply ap_ext; [lia|]. auto.
Qed.

Lemma nr_shape : sp_order rs = sp_order (if_spline gr) /\ sp_per rs = sp_per (if_spline gr) /\ sp_knots rs = sp_knots (if_spline gr) /\
  sp_range rs = sp_range (if_spline gr) /\ m_dims (sp_ctrl rs) = m_dims (sp_ctrl (if_spline gr)) /\ wf_mesh (sp_ctrl rs).
Proof using All.
  destruct nr_ip as [mats IP].
  destruct (rs_order on nd p per dims ls t Ht Ld Lls Hfit Hsz HD HR f c G C M Hc Hfd Wf HM HF HS HC HV) as (Ro & Rp & Rd). fold g rs in Ro, Rp, Rd.
  pose proof (rs_good on nd p per dims ls t Ht Ld Lls Hfit Hsz HD HR f c G C M Hc Hfd Wf HM HF HS HC HV) as RG. fold g rs in RG.
  pose proof (s_good _ _ _ _ _ _ _ _ GI IP) as SG. pose proof (s_dim _ _ _ _ _ _ _ _ IP) as SD.
  destruct (gs_wf _ RG) as [K1 K2 K3 _ _ _]. destruct (gs_wf _ SG) as [S1 S2 _ _ _ _]. rewrite Rd in K1, K2. rewrite SD in S1, S2.
  split; [rewrite Ro; symmetry; apply (s_order _ _ _ _ _ _ _ _ IP)|].
  split; [rewrite Rp; symmetry; apply (s_per _ _ _ _ _ _ _ _ IP)|].
  split; [|split; [|split; [|exact K3]]].
  - apply (nth_ext _ _ [] []); [congruence|]. intros d Hd. rewrite K1 in Hd. apply nr_knots. auto.
  - apply (nth_ext _ _ (0, 0) (0, 0)); [congruence|]. intros d Hd. rewrite K2 in Hd.
    change (rng rs d = rng (if_spline gr) d). rewrite (s_rng _ _ _ _ _ _ _ _ IP d Hd).
    unfold rs, g. rewrite (rs_rng on nd p per dims ls t Ht Ld Lls Hfit Hsz HD HR f c G C M Hc Hfd Wf HM HF HS HC HV d Hd).
    rewrite <- (rs_knot t c d). fold g rs. rewrite <- (nr_knots d Hd).
    pose proof (rs_len on nd p per dims ls t Ht Ld Lls Hfit Hsz HD HR f c G C M Hc Hfd Wf HM HF HS HC HV d Hd) as L. fold g rs in L. rewrite L. reflexivity.
  - rewrite (ip_ctrl _ _ _ _ _ _ _ _ IP). apply (ctrl_shape on nd p per dims ls t Ht Ld Lls Hfit Hsz HD HR f c G C M Hc Hfd Wf HM HF HS HC HV).
Qed.

Let eps := INR (length per) * (INR p + INR M * G) * powerRZ 2 (-49) * C + powerRZ 2 (-1031).

Lemma nr_residual idx : valid (ddims nd per dims) idx -> exists w, spline_eval_plain Rops rs (grid_point nd per dims ranges idx) = Ok w /\ Rabs (w - val_at fr idx) <= eps.
Proof using All.
  intros V. destruct (rs_order on nd p per dims ls t Ht Ld Lls Hfit Hsz HD HR f c G C M Hc Hfd Wf HM HF HS HC HV) as (Ro & Rp & Rd). fold g rs in Ro, Rp, Rd.
  pose proof (rs_good on nd p per dims ls t Ht Ld Lls Hfit Hsz HD HR f c G C M Hc Hfd Wf HM HF HS HC HV) as RG. fold g rs in RG.
  assert (LW : length (ddims nd per dims) = length per) by apply ddims_length.
  pose proof (valid_length _ _ V) as Li. rewrite LW in Li. pose proof V as Vn. rewrite valid_nth in Vn by lia. rewrite LW in Vn.
  destruct (exact_value on nd p per dims ls t Ht Ld Lls Hfit Hsz HD HR f c G C M Hc Hfd Wf HM HF HS HC HV idx V) as [_ E2].
  eexists. split; [apply eval_sval; auto; unfold grid_point; rewrite map_length, seq_length; auto|].
  replace (grid_point nd per dims ranges idx) with (map (fun d => x d (nth d idx 0%nat)) (seq 0 (length per))).
  - unfold val_at. rewrite Er, Ed. rewrite (map_nth double_val (m_data f) 0%float (row_major dims idx) : nth _ (map double_val (m_data f)) 0 = _). exact E2.
  - unfold grid_point. apply map_ext_in. intros d Hd. rewrite in_seq in Hd. symmetry. apply HP; [lia|]. pose proof (Vn d ltac:(lia)) as Q. rewrite nr_N in Q by lia. destruct (pd d); lia.
Qed.

Lemma nr_value xs xs' : C <= powerRZ 2 1000 -> length xs = length per -> length xs' = length per ->
  (forall d, (d < length per)%nat ->
     wrap_coord Fops (pd d) (nth d (sp_range (if_spline g)) (0%float, 0%float)) (nth d xs 0%float) = Ok (nth d xs' 0%float) /\
     double_finite (nth d xs' 0%float) /\
     let r := if pd d then nth d (sp_range (if_spline g)) (0%float, 0%float) else (nth 0 (ld d) 0%float, nth (length (ld d) - 1) (ld d) 0%float) in
     double_val (fst r) <= double_val (nth d xs' 0%float) <= double_val (snd r) /\
     (pd d = true -> double_val (nth d xs' 0%float) < double_val (snd r))) ->
  countable_point nd per dims ranges (map double_val xs') ->
  exists v w, interp_eval Fops g xs = Ok v /\ double_finite v /\ interp_eval Rops gr (map double_val xs') = Ok w /\
    Rabs (double_val v - w) <= INR (roundings p (length per)) * powerRZ 2 (-52) * C + K ^ length per * eps + powerRZ 2 (-1034).
Proof using All.
  intros HC1 Lx Lx' Hw CP.
  destruct (rs_order on nd p per dims ls t Ht Ld Lls Hfit Hsz HD HR f c G C M Hc Hfd Wf HM HF HS HC HV) as (Ro & Rp & Rd). fold g rs in Ro, Rp, Rd.
  pose proof (rs_good on nd p per dims ls t Ht Ld Lls Hfit Hsz HD HR f c G C M Hc Hfd Wf HM HF HS HC HV) as RG. fold g rs in RG.
  pose proof (rs_number on nd p per dims ls t Ht Ld Lls Hfit Hsz HD HR f c G C M Hc Hfd Wf HM HF HS HC HV) as NS. fold g in NS.
  pose proof (dim_facts on nd p per dims ls t Ht Ld Lls Hfit Hsz HD HR) as DF.
  pose proof (klen_big on nd p per dims ls t Ht Ld Lls Hfit Hsz HD HR f c G C M Hc Hfd Wf HM HF HS HC HV) as KB.
  pose proof (rs_last on nd p per dims ls t Ht Ld Lls Hfit Hsz HD HR f c G C M Hc Hfd Wf HM HF HS HC HV) as RL. fold g rs in RL.
  pose proof (rs_rng on nd p per dims ls t Ht Ld Lls Hfit Hsz HD HR f c G C M Hc Hfd Wf HM HF HS HC HV) as RR. fold g rs in RR.
  assert (Sd : sp_dim (if_spline g) = length per) by exact Rd. assert (So : sp_order (if_spline g) = p) by exact Ro.
  set (hints := repeat p (length per)).
  assert (Nh : forall d, (d < length per)%nat -> nth d hints 0%nat = p).
  { intros d Hd. unfold hints. rewrite (nth_indep _ 0%nat p) by (rewrite repeat_length; auto). apply nth_repeat. }
  assert (RK : forall d, knot_of rs d = map double_val (nth d (sp_knots (if_spline (tp_base t))) [])) by (intros d; apply (rs_knot t c d)).
  assert (Lk : forall d, last_of (if_spline g) d = last_of rs d).
  { intros d. unfold last_of. rewrite RK, map_length. reflexivity. }
  assert (Hh : hints_ok (if_spline g) hints).
  { split; [unfold hints; rewrite repeat_length; auto|]. rewrite Sd. intros d Hd. rewrite Nh by auto. rewrite So, Lk, RL by auto. pose proof (KB d Hd). lia. }
  assert (Eh : add_hints Fops g xs = Ok (combine xs hints)).
  { unfold add_hints. rewrite Sd. apply (mapM_ok_nth _ _ _ 0%nat (0%float, 0%nat)).
    - rewrite combine_length, seq_length, Lx. unfold hints. rewrite repeat_length. lia.
    - intros d Hd. rewrite seq_length in Hd. rewrite seq_nth by auto. cbn [Nat.add]. rewrite (vget_ok xs d 0%float) by lia. cbn [bind].
      unfold hint_for. change (if_uniform g) with (if_uniform (tp_base t)). rewrite (df_uniform _ _ _ _ _ _ _ (DF d Hd)). cbn [bind].
      rewrite combine_nth by (unfold hints; rewrite repeat_length; auto). rewrite Nh, So by auto. reflexivity. }
  assert (Rg : forall d, (d < length per)%nat -> rng rs d = (double_val (fst (nth d (sp_range (if_spline g)) (0%float, 0%float))), double_val (snd (nth d (sp_range (if_spline g)) (0%float, 0%float))))).
  { intros d Hd. unfold rng, rs, real_spline. cbn [sp_range].
    exact (map_nth (fun r : float * float => (double_val (fst r), double_val (snd r))) (sp_range (if_spline g)) (0%float, 0%float) d). }
  destruct (double_evaluation (if_spline g) C xs xs' hints NS) as (v & w & E1 & E2 & Gv & Hv); auto; try (rewrite ?Sd, ?So; auto; fail).
  { rewrite Sd, So. apply le_IZR. rewrite <- INR_IZR_INZ. eapply Rle_trans; [exact HR|]. rewrite <- (bpow_powerRZ radix2). apply Rle_refl. }
  { rewrite Sd. intros d Hd. change zero with 0%float. destruct (Hw d Hd) as (W1 & W2 & W3 & W4). unfold per_of. change (sp_per (if_spline g)) with (sp_per rs). rewrite Rp, So.
    split; auto. split; auto. change (map double_val (knot_of (if_spline g) d)) with (map double_val (nth d (sp_knots (if_spline (tp_base t))) [])).
    rewrite <- RK. fold rs. rewrite Lk, RL by auto. destruct (KB d Hd) as [B1 B2]. rewrite Rg by auto. cbn [fst snd].
    pose proof (RR d Hd) as RR1. rewrite Rg, <- RK in RR1 by auto. pose proof (f_equal fst RR1) as RA. pose proof (f_equal snd RR1) as RB. cbn [fst snd] in RA, RB. clear RR1.
    pose proof (gs_sorted _ RG d ltac:(lia)) as S. unfold nondecreasing in S. pose proof (rs_len on nd p per dims ls t Ht Ld Lls Hfit Hsz HD HR f c G C M Hc Hfd Wf HM HF HS HC HV d Hd) as L. fold g rs in L. rewrite L in S.
    destruct (pd d) eqn:Ep.
    - specialize (W4 eq_refl). split; [|intros _; lra]. rewrite RA, RB in W3. split; [lra|].
      pose proof (S (klen nd p per dims d - p - (2 - p mod 2))%nat (klen nd p per dims d - p - 2 + 1)%nat ltac:(lia)). lra.
    - split; [|discriminate]. cbn [fst snd] in W3. pose proof (df_rows _ _ _ _ _ _ _ (DF d Hd)) as DR. rewrite Ep in DR. destruct DR as (D1 & D2 & _).
      pose proof (nr_N d Hd) as HN. rewrite Ep in HN. unfold klen in *. rewrite Ep in *. rewrite RK, D1, D2 by lia. rewrite HN. exact W3. }
  exists v. rewrite Sd, So in Hv.
  assert (Lv : length (map double_val xs') = length hints) by (unfold hints; rewrite map_length, repeat_length; auto).
  assert (Ew : w = sval rs (map double_val xs')).
  { rewrite (eval_sval_hint rs) in E2.
    - injection E2 as <-. f_equal. apply combine_map_fst. auto.
    - exact RG.
    - rewrite combine_length, Lv, Nat.min_id, Rd. unfold hints. apply repeat_length.
    - rewrite Rd. intros d Hd. rewrite combine_nth by auto. cbn [snd]. destruct Hh as [_ Hh]. specialize (Hh d). rewrite Sd in Hh. rewrite Lk in Hh. apply (Hh Hd). }
  destruct nr_shape as (A1 & A2 & A3 & A4 & A5 & A6).
  destruct (near_value on nd p per dims ranges K fr gr rs GI ST Er nr_wf EG A1 A2 A3 A4 A5 A6 eps nr_residual (map double_val xs')) as (w' & Ew' & Hw'); auto.
  { rewrite map_length. auto. }
  { intros d Hd. destruct (pd d) eqn:Ep; [left; auto|right]. destruct (Hw d Hd) as (_ & _ & W3 & _). rewrite Ep in W3. cbn [fst snd] in W3.
    pose proof (Hsz d Hd) as Q. rewrite Ep, andb_false_r in Q. pose proof (fg_order _ _ _ (Hfit d Hd)) as Fo. rewrite Ep in Fo.
    rewrite !HP by lia. rewrite (map_nth double_val xs' 0%float d : nth d (map double_val xs') 0 = _). replace (nth d dims 0 - 1)%nat with (length (ld d) - 1)%nat by lia. exact W3. }
  exists w'. split; [unfold interp_eval; rewrite Eh; exact E1|]. split; auto. split; auto.
  assert (T : INR ((p + 1) ^ length per) * powerRZ 2 (-1074) <= powerRZ 2 (-1034)).
  { pose proof HR as HR'. rewrite <- !(bpow_powerRZ radix2) in *. destruct (count_bounds p (length per) HD HR') as (_ & _ & _ & (Q0 & Q1) & _).
    apply Rle_trans with (bpow radix2 40 * bpow radix2 (-1074)); [apply Rmult_le_compat_r; auto; apply bpow_ge_0|]. rewrite bpow_mul. apply Rle_refl. }
  subst w. replace (double_val v - w') with ((double_val v - sval rs (map double_val xs')) + (sval rs (map double_val xs') - w')) by ring.
  eapply Rle_trans; [apply Rabs_triang|]. lra.
Qed.
End NR.
