(** Derivatives in doubles and derivatives of the exact interpolation. *)
From Coq Require Import List Arith Lia Bool ZArith Reals Floats Lra.
From Flocq Require Import Core BinarySingleNaN PrimFloat.
From Verif Require Import Base Num MeshM SpecMesh MeshProofs ProgM BandM LUM SplineM InterpM FloatM SpecBand SpecSpline SpecSplineObj SpecInterp SpecCurve SpecStab SpecTame SpecRate SpecRound SpecRoundD SpecRoundInterp SpecNear.
From Verif Require Import SumR BandProofs MulProofs DenseLU LUProofs SplineProofs BetaProofs BasisProofs TensorR KnotProofs CoefProofs SolveProofs BuildProofs WeightProofs InterpProofs LUConv EvalR SplineCalc DualTop.
From Verif Require Import InterpTop InterpFinal InterpProofs SplineFinal FloatProofs RoundDouble RoundDerivTop RoundDerivDouble GenLU RoundLU RoundLUTop RoundProofs GenKnots GenSolve RoundTensor RoundColl RoundTempl RoundGrid RoundInterp KnotExact StabProofs StabTop TameTop NearProofs NearRound NearTop SpecInterp.
Import ListNotations.
Local Open Scope R_scope.
Local Notation float := PrimFloat.float.

Section ND.
Context (on nd : bool) (p : nat) (per : list bool) (dims : list nat) (ls : list (list float)) (t : templ float).
Let W := ddims nd per dims.
Local Notation ld d := (nth d ls []).
Local Notation pd d := (nth d per false).
Local Notation N d := (nth d (ddims nd per dims) 0%nat).
Local Notation x d i := (double_val (nth i (ld d) 0%float)).
Hypothesis Ht : templ_make Fops on nd p per dims (map (@Points float) ls) = Ok t.
Hypothesis Ld : length dims = length per.
Hypothesis Lls : length ls = length per.
Hypothesis Hfit : forall d, (d < length per)%nat -> fit_grid p (pd d) (ld d).
Hypothesis Hsz : forall d, (d < length per)%nat -> (nth d dims 0 + (if nd && pd d then 1 else 0) = length (ld d))%nat.
Hypothesis HD : (1 <= length per)%nat.
Hypothesis HR : INR (roundings p (length per)) <= powerRZ 2 40.
Context (f : mesh float) (c : mesh float) (G C : R) (M : nat).
Hypothesis Hc : solve_ctrl Fops on nd t f = Ok c.
Hypothesis Hfd : m_dims f = dims.
Hypothesis Wf : wf_mesh f.
Hypothesis HM : forall d, (d < length per)%nat -> (N d <= M)%nat.
Hypothesis HF : forall d sv, nth_error (tp_solvers t) d = Some sv -> exists F, stored_factors sv F /\ factors_within (N d) F G.
Hypothesis HS : INR (length per) * INR M * G <= powerRZ 2 40.
Hypothesis HC : 0 <= C.
Hypothesis HV : forall a, In a (m_data c) -> double_finite a /\ Rabs (double_val a) <= C.
Let g := set_ctrl (tp_base t) c.
Let rs := real_spline double_val (if_spline g).

(** The exact side. *)
Context (ranges : list (xrange R)) (fr : mesh R) (gr : interp R) (K : R).
Hypothesis GI : good_input nd p per dims ranges.
Hypothesis ST : forall d A, (d < length per)%nat ->
  col_good p (pd d) (N d) (gridx nd (pd d) (nth d dims 0%nat) (nth d ranges (Points []))) A -> stable (N d) A K.
Hypothesis HX : forall d, (d < length per)%nat -> exact_grid p (pd d) (ld d).
Hypothesis HP : forall d i, (d < length per)%nat -> (i < length (ld d))%nat -> coordinate nd per dims ranges d i = x d i.
Hypothesis Er : m_dims fr = dims.
Hypothesis Ed : m_data fr = map double_val (m_data f).
Hypothesis EG : interp_make Rops on nd p per fr ranges = Ok gr.

Let eps := INR (length per) * (INR p + INR M * G) * powerRZ 2 (-49) * C + powerRZ 2 (-1031).

Lemma nd_gap h0 : (forall d k, (d < length per)%nat -> (p <= k)%nat -> (pd d = true \/ k < N d)%nat -> h0 <= kf nd p per dims ranges d (k + 1)%nat - kf nd p per dims ranges d k) ->
  gaps double_val (if_spline g) (fun _ => h0).
Proof using All.
  intros HG d i Hd Hi. destruct (rs_order on nd p per dims ls t Ht Ld Lls Hfit Hsz HD HR f c G C M Hc Hfd Wf HM HF HS HC HV) as (Ro & Rp & Rd). fold g rs in Ro, Rp, Rd.
  assert (Hd' : (d < length per)%nat) by (rewrite <- Rd; exact Hd). cbv zeta. intros _.
  change (map double_val (knot_of (if_spline g) d)) with (map double_val (nth d (sp_knots (if_spline (tp_base t))) [])). rewrite <- (rs_knot t c d). fold g rs.
  pose proof (nr_knots on nd p per dims ls t Ht Ld Lls Hfit Hsz HD HR f c G C M Hc Hfd Wf HM HF HS HC HV ranges fr gr K GI ST HX HP Er Ed EG d Hd') as NK. fold g rs in NK. rewrite NK.
  destruct (nr_ip on nd p per dims f Hfd Wf ranges fr gr GI Er Ed EG) as [mats IP].
  pose proof (rs_last on nd p per dims ls t Ht Ld Lls Hfit Hsz HD HR f c G C M Hc Hfd Wf HM HF HS HC HV d Hd') as RL. fold g rs in RL.
  pose proof (klen_big on nd p per dims ls t Ht Ld Lls Hfit Hsz HD HR f c G C M Hc Hfd Wf HM HF HS HC HV d Hd') as KB.
  assert (Hi' : (p <= i <= klen nd p per dims d - p - 2)%nat).
  { rewrite <- RL. change (last_of rs d) with (length (knot_of rs d) - sp_order rs - 2)%nat. unfold last_of in Hi. rewrite <- Ro.
    replace (length (knot_of rs d)) with (length (knot_of (if_spline g) d)); [exact Hi|]. unfold rs, g. rewrite (rs_knot t c d), map_length. reflexivity. }
  specialize (HG d i Hd' ltac:(lia)). rewrite (s_knots _ _ _ _ _ _ _ _ IP d Hd'). unfold knots_for, klen, kf, kn in *.
  destruct (pd d).
  - rewrite !map_seq_nth by lia. apply HG. auto.
  - rewrite !map_seq_nth by lia. apply HG. right. lia.
Qed.

Lemma nd_derivative h0 orders xs xs' : (1 <= p)%nat -> 0 < h0 ->
  (forall d k, (d < length per)%nat -> (p <= k)%nat -> (pd d = true \/ k < N d)%nat -> h0 <= kf nd p per dims ranges d (k + 1)%nat - kf nd p per dims ranges d k) ->
  length orders = length per -> (forall d, (d < length per)%nat -> (nth d orders 0 <= p)%nat) ->
  let L := 1 + 2 * INR p / h0 in let m := fold_right Nat.add 0%nat orders in
  C * L ^ m <= powerRZ 2 900 -> L ^ m <= powerRZ 2 900 -> length xs = length per -> length xs' = length per ->
  (forall d, (d < length per)%nat ->
     wrap_coord Fops (pd d) (nth d (sp_range (if_spline g)) (0%float, 0%float)) (nth d xs 0%float) = Ok (nth d xs' 0%float) /\
     double_finite (nth d xs' 0%float) /\
     let r := if pd d then nth d (sp_range (if_spline g)) (0%float, 0%float) else (nth 0 (ld d) 0%float, nth (length (ld d) - 1) (ld d) 0%float) in
     double_val (fst r) <= double_val (nth d xs' 0%float) <= double_val (snd r) /\
     (pd d = true -> double_val (nth d xs' 0%float) < double_val (snd r))) ->
  countable_point nd per dims ranges (map double_val xs') ->
  exists v w, interp_derivative Fops on g xs orders = Ok v /\ double_finite v /\ interp_derivative Rops on gr (map double_val xs') orders = Ok w /\
    Rabs (double_val v - w) <= L ^ m * (INR (roundings p (length per) + 3 * m) * powerRZ 2 (-52) * C + K ^ length per * eps + INR m * powerRZ 2 (-273)) + powerRZ 2 (-1034).
Proof using All.
  intros P1 H0 HG Lo Ho L m HC1 HC2 Lx Lx' Hw CP.
  destruct (rs_order on nd p per dims ls t Ht Ld Lls Hfit Hsz HD HR f c G C M Hc Hfd Wf HM HF HS HC HV) as (Ro & Rp & Rd). fold g rs in Ro, Rp, Rd.
  pose proof (rs_good on nd p per dims ls t Ht Ld Lls Hfit Hsz HD HR f c G C M Hc Hfd Wf HM HF HS HC HV) as RG. fold g rs in RG.
  pose proof (rs_number on nd p per dims ls t Ht Ld Lls Hfit Hsz HD HR f c G C M Hc Hfd Wf HM HF HS HC HV) as NS. fold g in NS.
  pose proof (dim_facts on nd p per dims ls t Ht Ld Lls Hfit Hsz HD HR) as DF.
  pose proof (klen_big on nd p per dims ls t Ht Ld Lls Hfit Hsz HD HR f c G C M Hc Hfd Wf HM HF HS HC HV) as KB.
  pose proof (rs_last on nd p per dims ls t Ht Ld Lls Hfit Hsz HD HR f c G C M Hc Hfd Wf HM HF HS HC HV) as RL. fold g rs in RL.
  pose proof (rs_rng on nd p per dims ls t Ht Ld Lls Hfit Hsz HD HR f c G C M Hc Hfd Wf HM HF HS HC HV) as RR. fold g rs in RR.
  assert (Sd : sp_dim (if_spline g) = length per) by exact Rd. assert (So : sp_order (if_spline g) = p) by exact Ro.
  set (hints := repeat p (length per)).
  assert (Nh : forall d, (d < length per)%nat -> nth d hints 0%nat = p).
  { intros d Hd. unfold hints. rewrite (nth_indep _ 0%nat p) by (rewrite repeat_length; auto). apply nth_repeat. }
  assert (RK : forall d, knot_of rs d = map double_val (nth d (sp_knots (if_spline (tp_base t))) [])) by (intros d; apply (rs_knot t c d)).
  assert (Lk : forall d, last_of (if_spline g) d = last_of rs d).
  { intros d. unfold last_of. rewrite RK, map_length. reflexivity. }
  assert (Hh : hints_ok (if_spline g) hints).
  { split; [unfold hints; rewrite repeat_length; auto|]. rewrite Sd. intros d Hd. rewrite Nh by auto. rewrite So, Lk, RL by auto. pose proof (KB d Hd). lia. }
  assert (Eh : mapM (fun d => x <- vget xs d ;; h <- hint_for Fops g d x ;; q <- vget orders d ;; Ok (x, h, q)) (seq 0 (sp_dim (if_spline g))) = Ok (combine (combine xs hints) orders)).
  { rewrite Sd. apply (mapM_ok_nth _ _ _ 0%nat (0%float, 0%nat, 0%nat)).
    - rewrite !combine_length, seq_length, Lx, Lo. unfold hints. rewrite repeat_length. lia.
    - intros d Hd. rewrite seq_length in Hd. rewrite seq_nth by auto. cbn [Nat.add]. rewrite (vget_ok xs d 0%float) by lia. cbn [bind].
      unfold hint_for. change (if_uniform g) with (if_uniform (tp_base t)). rewrite (df_uniform _ _ _ _ _ _ _ (DF d Hd)). cbn [bind].
      rewrite (vget_ok orders d 0%nat) by lia. cbn [bind].
      rewrite combine_nth by (rewrite combine_length; unfold hints; rewrite repeat_length; lia).
      rewrite combine_nth by (unfold hints; rewrite repeat_length; auto). rewrite Nh, So by auto. reflexivity. }
  assert (Rg : forall d, (d < length per)%nat -> rng rs d = (double_val (fst (nth d (sp_range (if_spline g)) (0%float, 0%float))), double_val (snd (nth d (sp_range (if_spline g)) (0%float, 0%float))))).
  { intros d Hd. unfold rng, rs, real_spline. cbn [sp_range].
    exact (map_nth (fun r : float * float => (double_val (fst r), double_val (snd r))) (sp_range (if_spline g)) (0%float, 0%float) d). }
  assert (Pp : 0 < INR p) by (apply lt_0_INR; lia).
  assert (Q0 : 0 < 2 * INR p / h0) by (apply Rdiv_lt_0_compat; lra).
  assert (HL1 : 1 <= L) by (unfold L; lra).
  assert (HGL : forall d, (d < sp_dim (if_spline g))%nat -> 0 < h0 /\ 2 * INR (sp_order (if_spline g)) / h0 <= L) by (intros d _; rewrite So; unfold L; lra).
  destruct (double_derivative on (if_spline g) (powerRZ 2 (-800)) C L (fun _ => h0) orders xs xs' hints NS (Rle_refl _)) as (v & w & E1 & E2 & Gv & Hv);
    auto; try (rewrite ?Sd, ?So; auto; fail).
  { rewrite Sd, So. apply le_IZR. rewrite <- INR_IZR_INZ. eapply Rle_trans; [exact HR|]. rewrite <- (bpow_powerRZ radix2). apply Rle_refl. }
  { apply nd_gap. exact HG. }
  { rewrite Sd. intros d Hd. change zero with 0%float. destruct (Hw d Hd) as (W1 & W2 & W3 & W4). unfold per_of. change (sp_per (if_spline g)) with (sp_per rs). rewrite Rp, So.
    split; auto. split; auto. change (map double_val (knot_of (if_spline g) d)) with (map double_val (nth d (sp_knots (if_spline (tp_base t))) [])).
    rewrite <- RK. fold rs. rewrite Lk, RL by auto. destruct (KB d Hd) as [B1 B2]. rewrite Rg by auto. cbn [fst snd].
    pose proof (RR d Hd) as RR1. rewrite Rg, <- RK in RR1 by auto. pose proof (f_equal fst RR1) as RA. pose proof (f_equal snd RR1) as RB. cbn [fst snd] in RA, RB. clear RR1.
    pose proof (gs_sorted _ RG d ltac:(lia)) as S. unfold nondecreasing in S. pose proof (rs_len on nd p per dims ls t Ht Ld Lls Hfit Hsz HD HR f c G C M Hc Hfd Wf HM HF HS HC HV d Hd) as Lq. fold g rs in Lq. rewrite Lq in S.
    destruct (pd d) eqn:Ep.
    - specialize (W4 eq_refl). split; [|intros _; lra]. rewrite RA, RB in W3. split; [lra|].
      pose proof (S (klen nd p per dims d - p - (2 - p mod 2))%nat (klen nd p per dims d - p - 2 + 1)%nat ltac:(lia)). lra.
    - split; [|discriminate]. cbn [fst snd] in W3. pose proof (df_rows _ _ _ _ _ _ _ (DF d Hd)) as DR. rewrite Ep in DR. destruct DR as (D1 & D2 & _).
      pose proof (N_len on nd p per dims ls t Ht Ld Lls Hfit Hsz HD HR d Hd) as HN. rewrite Ep in HN. unfold klen in *. rewrite Ep in *. rewrite RK, D1, D2 by lia. rewrite HN. exact W3. }
  exists v. rewrite Sd, So in Hv.
  assert (Lv : length (map double_val xs') = length hints) by (unfold hints; rewrite map_length, repeat_length; auto).
  assert (Lh : length hints = length per) by (unfold hints; apply repeat_length).
  destruct (nr_shape on nd p per dims ls t Ht Ld Lls Hfit Hsz HD HR f c G C M Hc Hfd Wf HM HF HS HC HV ranges fr gr K GI ST HX HP Er Ed EG) as (A1 & A2 & A3 & A4 & A5 & A6). fold g rs in A1, A2, A3, A4, A5, A6.
  destruct (nr_ip on nd p per dims f Hfd Wf ranges fr gr GI Er Ed EG) as [mats IP].
  pose proof (nr_wf dims f Hfd Wf fr Er Ed) as Wfr.
  assert (Ew : w = tensor (dbas (if_spline gr) (map double_val xs') orders) (ctrl_at Rops rs)).
  { fold rs in E2. rewrite (derivative_sval_hint on rs) in E2.
    - injection E2 as <-. rewrite <- (dbas_shape rs (if_spline gr)) by auto. unfold dbas. f_equal. rewrite Rd. apply map_ext_seq. intros d Hd.
      rewrite combine_nth by (rewrite combine_length; lia). rewrite combine_nth by auto. reflexivity.
    - exact RG.
    - rewrite !combine_length, Lv, Rd. lia.
    - rewrite Rd. intros d Hd. rewrite combine_nth by (rewrite combine_length; lia). rewrite combine_nth by auto. cbn [fst snd]. destruct Hh as [_ Hh]. specialize (Hh d). rewrite Sd in Hh. rewrite Lk in Hh. apply (Hh Hd). }
  exists (tensor (dbas (if_spline gr) (map double_val xs') orders) (ctrl_at Rops (if_spline gr))).
  split; [unfold interp_derivative; rewrite Eh; exact E1|]. split; auto.
  split; [apply (s_derivative nd p per dims ranges fr gr mats GI IP on); auto; rewrite map_length; auto|].
  pose proof (near_ctrl on nd p per dims ranges K fr gr rs GI ST Er Wfr EG A1 A2 A3 A4 A5 A6 eps (nr_residual on nd p per dims ls t Ht Ld Lls Hfit Hsz HD HR f c G C M Hc Hfd Wf HM HF HS HC HV ranges fr gr K GI ST HX HP Er Ed EG)) as NC.
  assert (Ig : in_grid nd per dims ranges (map double_val xs')).
  { intros d Hd. destruct (pd d) eqn:Ep; [left; auto|right]. destruct (Hw d Hd) as (_ & _ & W3 & _). rewrite Ep in W3. cbn [fst snd] in W3.
    pose proof (Hsz d Hd) as Q. rewrite Ep, andb_false_r in Q. pose proof (fg_order _ _ _ (Hfit d Hd)) as Fo. rewrite Ep in Fo.
    rewrite !HP by lia. rewrite (map_nth double_val xs' 0%float d : nth d (map double_val xs') 0 = _). replace (nth d dims 0 - 1)%nat with (length (ld d) - 1)%nat by lia. exact W3. }
  assert (P0 : 0 <= K ^ length per * eps).
  { destruct (row_major_surj (ddims nd per dims) 0) as (idx & V & _).
    - apply prod_pos. apply Forall_forall. intros q Hq. apply (In_nth _ _ 0%nat) in Hq as (d & Hd & <-). rewrite ddims_length in Hd. pose proof (s_N nd p per dims ranges GI d Hd). lia.
    - pose proof (NC idx V). pose proof (Rabs_pos (ctrl_at Rops rs idx - ctrl_at Rops (if_spline gr) idx)). lra. }
  pose proof (wts_bound on nd p per dims ranges fr gr mats GI Er Wfr EG IP P1 h0 H0 HG (map double_val xs') ltac:(rewrite map_length; auto) Ig orders Lo Ho
    (fun idx => ctrl_at Rops rs idx - ctrl_at Rops (if_spline gr) idx) (K ^ length per * eps) NC P0) as WB. fold L m in WB. rewrite <- tensor_minus in WB. rewrite <- Ew in WB.
  set (w' := tensor (dbas (if_spline gr) (map double_val xs') orders) (ctrl_at Rops (if_spline gr))) in *.
  assert (T : INR ((p + 1) ^ length per) * powerRZ 2 (-1074) <= powerRZ 2 (-1034)).
  { pose proof HR as HR'. rewrite <- !(bpow_powerRZ radix2) in *. destruct (count_bounds p (length per) HD HR') as (_ & _ & _ & (Q1 & Q2) & _).
    apply Rle_trans with (bpow radix2 40 * bpow radix2 (-1074)); [apply Rmult_le_compat_r; auto; apply bpow_ge_0|]. rewrite bpow_mul. apply Rle_refl. }
  change (order_sum orders) with m in Hv.
  assert (LM : 0 <= L ^ m) by (apply pow_le; lra).
  assert (SL : 0 <= slope p (fun _ => h0) orders <= L ^ m).
  { apply (slope_range p (fun _ => h0) L orders). intros d _. split; auto. unfold L. lra. }
  assert (T2 : INR m * powerRZ 2 (-1074) * (/ powerRZ 2 (-800) + 1) * L ^ m <= L ^ m * (INR m * powerRZ 2 (-273))).
  { assert (T3 : powerRZ 2 (-1074) * (/ powerRZ 2 (-800) + 1) <= powerRZ 2 (-273)).
    { rewrite <- !(bpow_powerRZ radix2). rewrite <- (bpow_opp radix2 (-800)). rewrite Rmult_plus_distr_l, <- bpow_plus, Rmult_1_r.
      change (-1074 + - (-800))%Z with (-274)%Z. replace (bpow radix2 (-273)) with (2 * bpow radix2 (-274)) by (change (-273)%Z with (1 + (-274))%Z; rewrite bpow_plus; reflexivity).
      assert (bpow radix2 (-1074) <= bpow radix2 (-274)) by (apply bpow_le; lia). lra. }
    replace (INR m * powerRZ 2 (-1074) * (/ powerRZ 2 (-800) + 1) * L ^ m) with (L ^ m * (INR m * (powerRZ 2 (-1074) * (/ powerRZ 2 (-800) + 1)))) by ring.
    apply Rmult_le_compat_l; auto. apply Rmult_le_compat_l; auto. apply pos_INR. }
  assert (T4 : INR (roundings p (length per) + 3 * m) * powerRZ 2 (-52) * (C * slope p (fun _ => h0) orders) <= L ^ m * (INR (roundings p (length per) + 3 * m) * powerRZ 2 (-52) * C)).
  { replace (INR (roundings p (length per) + 3 * m) * powerRZ 2 (-52) * (C * slope p (fun _ => h0) orders)) with (slope p (fun _ => h0) orders * (INR (roundings p (length per) + 3 * m) * powerRZ 2 (-52) * C)) by ring.
    apply Rmult_le_compat_r; [|apply SL]. apply Rmult_le_pos; auto. apply Rmult_le_pos; [apply pos_INR|apply powerRZ_le; lra]. }
  replace (double_val v - w') with ((double_val v - w) + (w - w')) by ring.
  eapply Rle_trans; [apply Rabs_triang|]. rewrite !Rmult_plus_distr_l. lra.
Qed.
End ND.

(** The knots of these grids are at least as far apart as the grid points. *)
Lemma plain_gap nd p per dims ranges h0 : good_input nd p per dims ranges -> (1 <= p)%nat -> mesh_gap nd per dims ranges h0 ->
  (forall d, (d < length per)%nat -> nth d per false = true \/ (2 * p + 1 <= nth d dims 0)%nat /\ exists a b, nth d ranges (Points []) = Uniform a b) ->
  forall d k, (d < length per)%nat -> (p <= k)%nat -> (nth d per false = true \/ k < nth d (ddims nd per dims) 0)%nat ->
  h0 <= kf nd p per dims ranges d (k + 1)%nat - kf nd p per dims ranges d k.
Proof.
  intros GI Hp MG T d k Hd. pose proof (s_N nd p per dims ranges GI d Hd) as HN. pose proof (s_incr nd p per dims ranges GI d Hd) as Hx.
  assert (EN : nth d (ddims nd per dims) 0%nat = distinct nd (nth d per false) (nth d dims 0%nat)) by (apply ddims_nth; auto).
  pose proof (fun i => MG d i Hd) as MGd. pose proof (T d Hd) as Td. unfold coords_num in MGd. rewrite <- EN in MGd.
  unfold kf. set (N := nth d (ddims nd per dims) 0%nat) in *. change (coordinate nd per dims ranges d) with (xs_of nd per dims ranges d) in *. set (x := xs_of nd per dims ranges d) in *.
  destruct (nth d per false) eqn:Ep.
  - intros Hk _. apply per_knot_gap; auto. intros u Hu. apply MGd. lia.
  - destruct Td as [Td|(T1 & a & b & Er)]; [discriminate|]. unfold distinct in EN. cbn [andb] in EN. rewrite <- EN in T1.
    pose proof (uniform_coord nd per dims ranges d a b Ep Er) as Ex. change (coordinate nd per dims ranges d) with x in Ex. rewrite <- EN in Ex.
    set (hh := (b - a) / INR (N - 1)) in *. intros Hk [Q|Q]; [discriminate|].
    assert (A0 : 0 < hh). { pose proof (Hx 0%nat 1%nat ltac:(lia)) as Q1. rewrite !Ex in Q1. simpl in Q1. lra. }
    assert (A1 : h0 <= hh). { pose proof (MGd 0%nat ltac:(lia)) as Q2. rewrite !Ex in Q2. simpl in Q2. lra. }
    pose proof (u_gap_low N a hh x p k ltac:(lra) Ex Hp T1 ltac:(lia)). lra.
Qed.

Section Top.
Context (on nd : bool) (p : nat) (per : list bool) (dims : list nat) (ls : list (list float)) (t : templ float) (M : nat) (G : R) (f : mesh float) (g : interp float).
Context (ranges : list (xrange R)) (fr : mesh R) (gr : interp R) (K : R).
Hypothesis FT : fit_template on nd p per dims ls t M G.
Hypothesis Hf1 : m_dims f = dims.
Hypothesis Hf2 : wf_mesh f.
Hypothesis Hg : interpolate Fops on nd t f = Ok g \/ interp_make Fops on nd p per f (map (@Points float) ls) = Ok g.
Hypothesis TW : twin nd p per dims ls f ranges fr.
Hypothesis ST : forall d A, (d < length per)%nat ->
  col_good p (nth d per false) (nth d (ddims nd per dims) 0%nat) (gridx nd (nth d per false) (nth d dims 0%nat) (nth d ranges (Points []))) A ->
  stable (nth d (ddims nd per dims) 0%nat) A K.
Hypothesis EG : interp_make Rops on nd p per fr ranges = Ok gr.

Lemma nt_derivative C h0 orders xs xs' : (1 <= p)%nat -> 0 < h0 ->
  (forall d k, (d < length per)%nat -> (p <= k)%nat -> (nth d per false = true \/ k < nth d (ddims nd per dims) 0)%nat -> h0 <= kf nd p per dims ranges d (k + 1)%nat - kf nd p per dims ranges d k) ->
  length orders = length per -> (forall d, (d < length per)%nat -> (nth d orders 0 <= p)%nat) ->
  let L := 1 + 2 * INR p / h0 in let m := order_sum orders in
  0 <= C -> C * L ^ m <= powerRZ 2 900 -> L ^ m <= powerRZ 2 900 -> (forall a, In a (m_data (sp_ctrl (if_spline g))) -> double_finite a /\ Rabs (double_val a) <= C) ->
  reduced per ls g xs xs' -> countable_point nd per dims ranges (map double_val xs') ->
  exists v w, interp_derivative Fops on g xs orders = Ok v /\ double_finite v /\ interp_derivative Rops on gr (map double_val xs') orders = Ok w /\
    Rabs (double_val v - w) <= L ^ m * (INR (roundings p (length per) + 3 * m) * powerRZ 2 (-52) * C +
      K ^ length per * (INR (length per) * (INR p + INR M * G) * powerRZ 2 (-49) * C + powerRZ 2 (-1031)) + INR m * powerRZ 2 (-273)) + powerRZ 2 (-1034).
Proof using All.
  intros P1 H0 HG Lo Ho L m HC HC1 HC2 HV (Lx & Lx' & Hw) CP. destruct (nt_ctrl on nd p per dims ls t M G f g ranges fr gr K FT Hf1 Hf2 Hg TW ST EG) as (c & Hc & Eg).
  pose proof FT as [F1 (F2 & F3 & F4) F5 F6 F7 F8 F9 F10]. rewrite Eg in HV, Hw |- *.
  assert (F7' : forall d, (d < length per)%nat -> (nth d (ddims nd per dims) 0 <= M)%nat) by (intros d Hd; rewrite (ft_N on nd p per dims ls t M G FT); auto).
  assert (F8' : forall d sv, nth_error (tp_solvers t) d = Some sv -> exists F, stored_factors sv F /\ factors_within (nth d (ddims nd per dims) 0%nat) F G).
  { intros d sv Hs. destruct (F8 d sv Hs) as (F & A & B). exists F. split; auto. rewrite (ft_N on nd p per dims ls t M G FT); auto.
    destruct (templ_inv Fops on nd p per dims _ t F1 F3) as (_ & _ & Ls & _). rewrite <- Ls. apply nth_error_Some. congruence. }
  destruct TW as [T1 T2 T3 T4 T5].
  exact (nd_derivative on nd p per dims ls t F1 F3 F4 F5 F6 (ft_one on nd p per dims ls t M G FT) F10 f c G C M Hc Hf1 Hf2 F7' F8' F9 HC HV
    ranges fr gr K T1 ST T3 T2 T4 T5 EG h0 orders xs xs' P1 H0 HG Lo Ho HC1 HC2 Lx Lx' Hw CP).
Qed.
End Top.

Lemma tame_derivative on nd p per dims ls t M G C f g ranges fr gr h0 orders xs xs' :
  fit_template on nd p per dims ls t M G -> m_dims f = dims -> wf_mesh f ->
  interpolate Fops on nd t f = Ok g \/ interp_make Fops on nd p per f (map (@Points float) ls) = Ok g ->
  twin nd p per dims ls f ranges fr -> (p = 2 \/ p = 3)%nat -> tame nd p per dims ranges -> interp_make Rops on nd p per fr ranges = Ok gr ->
  0 < h0 -> mesh_gap nd per dims ranges h0 -> length orders = length per -> (forall d, (d < length per)%nat -> (nth d orders 0 <= p)%nat) ->
  let L := 1 + 2 * INR p / h0 in let m := order_sum orders in
  0 <= C -> C * L ^ m <= powerRZ 2 900 -> L ^ m <= powerRZ 2 900 -> (forall a, In a (m_data (sp_ctrl (if_spline g))) -> double_finite a /\ Rabs (double_val a) <= C) ->
  reduced per ls g xs xs' -> countable_point nd per dims ranges (map double_val xs') ->
  exists v w, interp_derivative Fops on g xs orders = Ok v /\ double_finite v /\ interp_derivative Rops on gr (map double_val xs') orders = Ok w /\
    Rabs (double_val v - w) <= L ^ m * (INR (roundings p (length per) + 3 * m) * powerRZ 2 (-52) * C +
      tame_factor p ^ length per * (INR (length per) * (INR p + INR M * G) * powerRZ 2 (-49) * C + powerRZ 2 (-1031)) + INR m * powerRZ 2 (-273)) + powerRZ 2 (-1034).
Proof.
  intros FT H1 H2 H3 TW P23 HT EG H0 MG. pose proof (tw_input _ _ _ _ _ _ _ _ TW) as GI.
  apply (nt_derivative on nd p per dims ls t M G f g ranges fr gr (tame_factor p)); auto; try lia.
  - intros d A Hd CG. apply (tame_stable nd p per dims ranges d A); auto.
  - apply (plain_gap nd p per dims ranges h0 GI); auto; try lia. intros d Hd. specialize (HT d Hd). destruct (nth d per false); auto.
Qed.
Lemma uniform_derivative on nd p per dims ls t M G C f g ranges fr gr h0 orders xs xs' :
  fit_template on nd p per dims ls t M G -> m_dims f = dims -> wf_mesh f ->
  interpolate Fops on nd t f = Ok g \/ interp_make Fops on nd p per f (map (@Points float) ls) = Ok g ->
  twin nd p per dims ls f ranges fr -> (1 <= p <= 6)%nat -> uniform_periodic per ranges -> interp_make Rops on nd p per fr ranges = Ok gr ->
  0 < h0 -> mesh_gap nd per dims ranges h0 -> length orders = length per -> (forall d, (d < length per)%nat -> (nth d orders 0 <= p)%nat) ->
  let L := 1 + 2 * INR p / h0 in let m := order_sum orders in
  0 <= C -> C * L ^ m <= powerRZ 2 900 -> L ^ m <= powerRZ 2 900 -> (forall a, In a (m_data (sp_ctrl (if_spline g))) -> double_finite a /\ Rabs (double_val a) <= C) ->
  reduced per ls g xs xs' -> countable_point nd per dims ranges (map double_val xs') ->
  exists v w, interp_derivative Fops on g xs orders = Ok v /\ double_finite v /\ interp_derivative Rops on gr (map double_val xs') orders = Ok w /\
    Rabs (double_val v - w) <= L ^ m * (INR (roundings p (length per) + 3 * m) * powerRZ 2 (-52) * C +
      amplification p ^ length per * (INR (length per) * (INR p + INR M * G) * powerRZ 2 (-49) * C + powerRZ 2 (-1031)) + INR m * powerRZ 2 (-273)) + powerRZ 2 (-1034).
Proof.
  intros FT H1 H2 H3 TW P6 HT EG H0 MG. pose proof (tw_input _ _ _ _ _ _ _ _ TW) as GI.
  apply (nt_derivative on nd p per dims ls t M G f g ranges fr gr (amplification p)); auto; try lia.
  - intros d A Hd CG. apply (uniform_stable nd p per dims ranges d A); auto. lia.
  - apply (plain_gap nd p per dims ranges h0 GI); auto; try lia. intros d Hd. left. apply (HT d Hd).
Qed.
