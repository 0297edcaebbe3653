(** Interpolation in doubles and the exact interpolation: statements. *)
From Coq Require Import List Arith Lia Bool ZArith Reals Floats Lra.
From Verif Require Import Base Num MeshM SpecMesh MeshProofs SplineM InterpM FloatM SpecSpline SpecSplineObj SpecInterp SpecCurve SpecStab SpecTame SpecRound SpecRoundInterp SpecNear.
From Verif Require Import SumR TensorR BuildProofs WeightProofs InterpProofs RoundProofs GenSolve RoundTempl RoundInterp StabProofs StabTop TameTop NearProofs NearRound SpecInterp.
Import ListNotations.
Local Open Scope R_scope.
Local Notation float := PrimFloat.float.

Lemma list_max (l : list float) : exists C, 0 <= C /\ (forall a, In a l -> Rabs (double_val a) <= C) /\ (C = 0 \/ exists a, In a l /\ C = Rabs (double_val a)).
Proof.
  induction l as [|b l (C & H0 & H1 & H2)].
  - exists 0. split; [lra|]. split; [intros a []|auto].
  - destruct (Rle_lt_dec (Rabs (double_val b)) C) as [Q|Q].
    + exists C. split; auto. split; [intros a [<-|Ha]; auto|]. destruct H2 as [->|(a & Ha & E)]; [auto|right; exists a; split; auto; right; auto].
    + exists (Rabs (double_val b)). split; [apply Rabs_pos|]. split; [intros a [<-|Ha]; [lra|specialize (H1 a Ha); lra]|]. right. exists b. split; auto. left; auto.
Qed.

Section Top.
Context (on nd : bool) (p : nat) (per : list bool) (dims : list nat) (ls : list (list float)) (t : templ float) (M : nat) (G : R) (f : mesh float) (g : interp float).
Context (ranges : list (xrange R)) (fr : mesh R) (gr : interp R) (K : R).
Hypothesis FT : fit_template on nd p per dims ls t M G.
Hypothesis Hf1 : m_dims f = dims.
Hypothesis Hf2 : wf_mesh f.
Hypothesis Hg : interpolate Fops on nd t f = Ok g \/ interp_make Fops on nd p per f (map (@Points float) ls) = Ok g.
Hypothesis TW : twin nd p per dims ls f ranges fr.
Hypothesis ST : forall d A, (d < length per)%nat ->
  col_good p (nth d per false) (nth d (ddims nd per dims) 0%nat) (gridx nd (nth d per false) (nth d dims 0%nat) (nth d ranges (Points []))) A ->
  stable (nth d (ddims nd per dims) 0%nat) A K.
Hypothesis EG : interp_make Rops on nd p per fr ranges = Ok gr.

Lemma nt_ctrl : exists c, solve_ctrl Fops on nd t f = Ok c /\ g = set_ctrl (tp_base t) c.
Proof using All.
  apply (ft_ctrl on nd t f g). destruct Hg as [|H3]; auto. eapply make_templ; [exact H3|]. rewrite Hf1. apply (ft_made _ _ _ _ _ _ _ _ _ FT).
Qed.
Lemma nt_value C xs xs' : 0 <= C <= powerRZ 2 1000 -> (forall a, In a (m_data (sp_ctrl (if_spline g))) -> double_finite a /\ Rabs (double_val a) <= C) ->
  reduced per ls g xs xs' -> countable_point nd per dims ranges (map double_val xs') ->
  exists v w, interp_eval Fops g xs = Ok v /\ double_finite v /\ interp_eval Rops gr (map double_val xs') = Ok w /\
    Rabs (double_val v - w) <= INR (roundings p (length per)) * powerRZ 2 (-52) * C +
      K ^ length per * (INR (length per) * (INR p + INR M * G) * powerRZ 2 (-49) * C + powerRZ 2 (-1031)) + powerRZ 2 (-1034).
Proof using All.
  intros [HC HC1] HV (Lx & Lx' & Hw) CP. destruct nt_ctrl as (c & Hc & Eg). pose proof FT as [F1 (F2 & F3 & F4) F5 F6 F7 F8 F9 F10]. rewrite Eg in HV, Hw |- *.
  assert (F7' : forall d, (d < length per)%nat -> (nth d (ddims nd per dims) 0 <= M)%nat) by (intros d Hd; rewrite (ft_N on nd p per dims ls t M G FT); auto).
  assert (F8' : forall d sv, nth_error (tp_solvers t) d = Some sv -> exists F, stored_factors sv F /\ factors_within (nth d (ddims nd per dims) 0%nat) F G).
  { intros d sv Hs. destruct (F8 d sv Hs) as (F & A & B). exists F. split; auto. rewrite (ft_N on nd p per dims ls t M G FT); auto.
    destruct (templ_inv Fops on nd p per dims _ t F1 F3) as (_ & _ & Ls & _). rewrite <- Ls. apply nth_error_Some. congruence. }
  destruct TW as [T1 T2 T3 T4 T5].
  exact (nr_value on nd p per dims ls t F1 F3 F4 F5 F6 (ft_one on nd p per dims ls t M G FT) F10 f c G C M Hc Hf1 Hf2 F7' F8' F9 HC HV
    ranges fr gr K T1 ST T3 T2 T4 T5 EG xs xs' HC1 Lx Lx' Hw CP).
Qed.

Lemma nt_control B : 0 <= K -> (forall a, In a (m_data f) -> Rabs (double_val a) <= B) -> (forall a, In a (m_data (sp_ctrl (if_spline g))) -> double_finite a) ->
  K ^ length per * (INR (length per) * (INR p + INR M * G) * powerRZ 2 (-49)) <= / 2 ->
  forall a, In a (m_data (sp_ctrl (if_spline g))) -> Rabs (double_val a) <= 2 * K ^ length per * (B + powerRZ 2 (-1031)).
Proof using All.
  intros HK HB HFin HS. destruct nt_ctrl as (c & Hc & Eg). pose proof FT as [F1 (F2 & F3 & F4) F5 F6 F7 F8 F9 F10]. rewrite Eg in HFin |- *.
  assert (F7' : forall d, (d < length per)%nat -> (nth d (ddims nd per dims) 0 <= M)%nat) by (intros d Hd; rewrite (ft_N on nd p per dims ls t M G FT); auto).
  assert (F8' : forall d sv, nth_error (tp_solvers t) d = Some sv -> exists F, stored_factors sv F /\ factors_within (nth d (ddims nd per dims) 0%nat) F G).
  { intros d sv Hs. destruct (F8 d sv Hs) as (F & A & Q). exists F. split; auto. rewrite (ft_N on nd p per dims ls t M G FT); auto.
    destruct (templ_inv Fops on nd p per dims _ t F1 F3) as (_ & _ & Ls & _). rewrite <- Ls. apply nth_error_Some. congruence. }
  destruct TW as [T1 T2 T3 T4 T5]. change (m_data (sp_ctrl (if_spline (set_ctrl (tp_base t) c)))) with (m_data c) in *.
  destruct (list_max (m_data c)) as (C & C0 & C1 & C2).
  assert (HV : forall a, In a (m_data c) -> double_finite a /\ Rabs (double_val a) <= C) by auto.
  pose proof (nr_shape on nd p per dims ls t F1 F3 F4 F5 F6 (ft_one on nd p per dims ls t M G FT) F10 f c G C M Hc Hf1 Hf2 F7' F8' F9 C0 HV
    ranges fr gr K T1 ST T3 T2 T4 T5 EG) as (A1 & A2 & A3 & A4 & A5 & A6).
  pose proof (nr_residual on nd p per dims ls t F1 F3 F4 F5 F6 (ft_one on nd p per dims ls t M G FT) F10 f c G C M Hc Hf1 Hf2 F7' F8' F9 C0 HV
    ranges fr gr K T1 ST T3 T2 T4 T5 EG) as RS.
  assert (Wfr : wf_mesh fr) by (unfold wf_mesh in *; rewrite T4, T5, map_length; congruence).
  pose proof (near_ctrl on nd p per dims ranges K fr gr (real_spline double_val (if_spline (set_ctrl (tp_base t) c))) T1 ST T4 Wfr EG A1 A2 A3 A4 A5 A6 _ RS) as NC.
  assert (HBr : forall idx, valid (ddims nd per dims) idx -> Rabs (val_at fr idx) <= B).
  { intros idx V. unfold val_at. rewrite T5, (map_nth double_val (m_data f) 0%float (row_major (m_dims fr) idx) : nth _ (map double_val (m_data f)) 0 = _).
    apply HB. apply nth_In. unfold wf_mesh in Hf2. rewrite Hf2, T4, Hf1. apply row_major_lt.
    pose proof V as V2. pose proof (valid_length _ _ V) as Li. assert (LW : length (ddims nd per dims) = length per) by apply ddims_length.
    rewrite valid_nth in V2 |- * by lia. intros k Hk. specialize (V2 k ltac:(lia)). rewrite ddims_nth in V2 by lia. unfold distinct in V2. destruct (_ && _); lia. }
  pose proof (exact_ctrl on nd p per dims ranges K fr gr T1 ST T4 Wfr EG B HBr) as XC.
  set (e := INR (length per) * (INR p + INR M * G) * powerRZ 2 (-49)) in *. set (k := K ^ length per) in *.
  assert (k0 : 0 <= k) by (apply pow_le; auto).
  assert (All : forall a, In a (m_data c) -> Rabs (double_val a) <= k * B + k * (e * C + powerRZ 2 (-1031))).
  { intros a Ha. apply (In_nth _ _ 0%float) in Ha as (i & Hi & <-).
    pose proof (ctrl_shape on nd p per dims ls t F1 F3 F4 F5 F6 (ft_one on nd p per dims ls t M G FT) F10 f c G C M Hc Hf1 Hf2 F7' F8' F9 C0 HV) as [Dc Wc].
    unfold wf_mesh in Wc. rewrite Wc, Dc in Hi. apply row_major_surj in Hi as (idx & V & Ei).
    specialize (NC idx V). specialize (XC idx V). unfold ctrl_at at 1 in NC.
    change (m_data (sp_ctrl (real_spline double_val (if_spline (set_ctrl (tp_base t) c))))) with (map double_val (m_data c)) in NC.
    change (m_dims (sp_ctrl (real_spline double_val (if_spline (set_ctrl (tp_base t) c))))) with (m_dims c) in NC. rewrite Dc, Ei in NC.
    change (o0 Rops) with 0 in NC. rewrite (map_nth double_val (m_data c) 0%float i : nth i (map double_val (m_data c)) 0 = _) in NC.
    replace (double_val (nth i (m_data c) 0%float)) with ((double_val (nth i (m_data c) 0%float) - ctrl_at Rops (if_spline gr) idx) + ctrl_at Rops (if_spline gr) idx) by ring.
    eapply Rle_trans; [apply Rabs_triang|]. lra. }
  assert (P : 0 <= k * (B + powerRZ 2 (-1031))).
  { assert (Q : exists b, In b (m_data f)). { destruct (m_data f) as [|b fl] eqn:Ef; [|exists b; left; auto]. exfalso. unfold wf_mesh in Hf2. rewrite Ef, Hf1 in Hf2. cbn in Hf2.
        assert (0 < prod dims)%nat. { apply prod_pos. apply Forall_forall. intros n Hn. apply (In_nth _ _ 0%nat) in Hn as (d & Hd & <-). rewrite F3 in Hd. pose proof (s_N nd p per dims ranges T1 d Hd) as SN.
          rewrite ddims_nth in SN by auto. unfold distinct in SN. destruct (_ && _); lia. } lia. }
      destruct Q as [b Hb]. specialize (HB b Hb). pose proof (Rabs_pos (double_val b)). pose proof (powerRZ_lt 2 (-1031) ltac:(lra)). apply Rmult_le_pos; lra. }
  assert (CC : C <= 2 * (k * (B + powerRZ 2 (-1031)))).
  { destruct C2 as [->|(a & Ha & E)]; [lra|]. specialize (All a Ha). rewrite <- E in All.
    assert (k * e * C <= / 2 * C) by (apply Rmult_le_compat_r; lra). lra. }
  intros a Ha. specialize (C1 a Ha). lra.
Qed.
End Top.

Lemma tame_value on nd p per dims ls t M G C f g ranges fr gr xs xs' :
  fit_template on nd p per dims ls t M G -> m_dims f = dims -> wf_mesh f ->
  interpolate Fops on nd t f = Ok g \/ interp_make Fops on nd p per f (map (@Points float) ls) = Ok g ->
  twin nd p per dims ls f ranges fr -> (p = 2 \/ p = 3)%nat -> tame nd p per dims ranges -> interp_make Rops on nd p per fr ranges = Ok gr ->
  0 <= C <= powerRZ 2 1000 -> (forall a, In a (m_data (sp_ctrl (if_spline g))) -> double_finite a /\ Rabs (double_val a) <= C) ->
  reduced per ls g xs xs' -> countable_point nd per dims ranges (map double_val xs') ->
  exists v w, interp_eval Fops g xs = Ok v /\ double_finite v /\ interp_eval Rops gr (map double_val xs') = Ok w /\
    Rabs (double_val v - w) <= INR (roundings p (length per)) * powerRZ 2 (-52) * C +
      tame_factor p ^ length per * (INR (length per) * (INR p + INR M * G) * powerRZ 2 (-49) * C + powerRZ 2 (-1031)) + powerRZ 2 (-1034).
Proof.
  intros FT H1 H2 H3 TW P23 HT EG HC HV. apply (nt_value on nd p per dims ls t M G f g ranges fr gr); auto.
  intros d A Hd CG. apply (tame_stable nd p per dims ranges d A); auto. apply TW.
Qed.
Lemma uniform_value on nd p per dims ls t M G C f g ranges fr gr xs xs' :
  fit_template on nd p per dims ls t M G -> m_dims f = dims -> wf_mesh f ->
  interpolate Fops on nd t f = Ok g \/ interp_make Fops on nd p per f (map (@Points float) ls) = Ok g ->
  twin nd p per dims ls f ranges fr -> (p <= 6)%nat -> uniform_periodic per ranges -> interp_make Rops on nd p per fr ranges = Ok gr ->
  0 <= C <= powerRZ 2 1000 -> (forall a, In a (m_data (sp_ctrl (if_spline g))) -> double_finite a /\ Rabs (double_val a) <= C) ->
  reduced per ls g xs xs' -> countable_point nd per dims ranges (map double_val xs') ->
  exists v w, interp_eval Fops g xs = Ok v /\ double_finite v /\ interp_eval Rops gr (map double_val xs') = Ok w /\
    Rabs (double_val v - w) <= INR (roundings p (length per)) * powerRZ 2 (-52) * C +
      amplification p ^ length per * (INR (length per) * (INR p + INR M * G) * powerRZ 2 (-49) * C + powerRZ 2 (-1031)) + powerRZ 2 (-1034).
Proof.
  intros FT H1 H2 H3 TW P6 HT EG HC HV. apply (nt_value on nd p per dims ls t M G f g ranges fr gr); auto.
  intros d A Hd CG. apply (uniform_stable nd p per dims ranges d A); auto. apply TW.
Qed.
Lemma tame_pos p : 0 <= tame_factor p.
Proof. unfold tame_factor. destruct p as [|[|[|p]]]; lra. Qed.
Lemma amp_pos p : 0 <= amplification p.
Proof. unfold amplification. do 6 (destruct p as [|p]; [lra|]). lra. Qed.
Lemma tame_control on nd p per dims ls t M G B f g ranges fr gr :
  fit_template on nd p per dims ls t M G -> m_dims f = dims -> wf_mesh f ->
  interpolate Fops on nd t f = Ok g \/ interp_make Fops on nd p per f (map (@Points float) ls) = Ok g ->
  twin nd p per dims ls f ranges fr -> (p = 2 \/ p = 3)%nat -> tame nd p per dims ranges -> interp_make Rops on nd p per fr ranges = Ok gr ->
  (forall a, In a (m_data f) -> Rabs (double_val a) <= B) -> (forall a, In a (m_data (sp_ctrl (if_spline g))) -> double_finite a) ->
  tame_factor p ^ length per * (INR (length per) * (INR p + INR M * G) * powerRZ 2 (-49)) <= / 2 ->
  forall a, In a (m_data (sp_ctrl (if_spline g))) -> Rabs (double_val a) <= 2 * tame_factor p ^ length per * (B + powerRZ 2 (-1031)).
Proof.
  intros FT H1 H2 H3 TW P23 HT EG HB HF HS. apply (nt_control on nd p per dims ls t M G f g ranges fr gr); auto using tame_pos.
  intros d A Hd CG. apply (tame_stable nd p per dims ranges d A); auto. apply TW.
Qed.
Lemma uniform_control on nd p per dims ls t M G B f g ranges fr gr :
  fit_template on nd p per dims ls t M G -> m_dims f = dims -> wf_mesh f ->
  interpolate Fops on nd t f = Ok g \/ interp_make Fops on nd p per f (map (@Points float) ls) = Ok g ->
  twin nd p per dims ls f ranges fr -> (p <= 6)%nat -> uniform_periodic per ranges -> interp_make Rops on nd p per fr ranges = Ok gr ->
  (forall a, In a (m_data f) -> Rabs (double_val a) <= B) -> (forall a, In a (m_data (sp_ctrl (if_spline g))) -> double_finite a) ->
  amplification p ^ length per * (INR (length per) * (INR p + INR M * G) * powerRZ 2 (-49)) <= / 2 ->
  forall a, In a (m_data (sp_ctrl (if_spline g))) -> Rabs (double_val a) <= 2 * amplification p ^ length per * (B + powerRZ 2 (-1031)).
Proof.
  intros FT H1 H2 H3 TW P6 HT EG HB HF HS. apply (nt_control on nd p per dims ls t M G f g ranges fr gr); auto using amp_pos.
  intros d A Hd CG. apply (uniform_stable nd p per dims ranges d A); auto. apply TW.
Qed.
(** What an exact grid is for: its knots are computed without rounding. *)
Lemma exact_knots on nd p per f ranges g d l :
  interp_make Fops on nd p per f ranges = Ok g -> nth_error ranges d = Some (Points l) ->
  let periodic := nth d per false in
  exact_grid p periodic l -> (if periodic then (p + 2 <= length l)%nat else (1 <= p)%nat /\ (p + 1 <= length l)%nat) -> (Z.of_nat p <= 2 ^ 53)%Z ->
  let x := fun i => double_val (nth i l 0%float) in let n := length l in
  map double_val (nth d (sp_knots (if_spline g)) []) =
    if periodic then map (per_knot p (n - 1) (x (n - 1)%nat - x 0%nat) x) (seq 0 (n + 2 * p + (1 - p mod 2))) else map (ap_knot p n x) (seq 0 (n + p + 1)).
Proof.
  intros E Er periodic HX Ho Hs x n. apply GenKnots.make_knots in E as (_ & _ & coords & E).
  destruct (E d) as (r & b & sz & R1 & R2 & _ & R4); [apply nth_error_Some; congruence|].
  rewrite Er in R1. injection R1 as <-. destruct R4 as [R4 _]. apply GenKnots.points_inv in R4.
  assert (Eb : b = periodic) by (unfold periodic; symmetry; apply nth_error_nth; auto). subst b.
  destruct (KnotExact.exact_points p periodic l HX Ho Hs) as (xs & E1 & E2). etransitivity; [|exact E2]. f_equal.
  destruct periodic; congruence.
Qed.
