(** Signs of values computed in doubles from the cell layout. *)
From Coq Require Import ZArith Reals Floats Lia Lra Bool List Arith.
From Verif Require Import Base Num FloatM MeshM SplineM CellM SpecMesh MeshProofs SpecSpline SpecSplineObj SpecRound FloatProofs SplineProofs SplineFinal EvalProofs SafeProofs SafeTop CellProofs CellTop SpecPositive PositiveProofs.
Import ListNotations.
Local Open Scope R_scope.
Local Notation float := PrimFloat.float.

Definition ssg (b : bool) (x : spec_float) : Prop := match x with S754_infinity s | S754_finite s _ _ => s = b | _ => True end.
Definition sg (b : bool) (a : float) : Prop := ssg b (Prim2SF a).
Lemma ssg_aux b pr em mx ex lx : ssg b (SpecFloat.binary_round_aux pr em b mx ex lx).
Proof.
  unfold SpecFloat.binary_round_aux. destruct (SpecFloat.shr_fexp _ _ _ _ _) as [mrs e]. destruct (SpecFloat.shr_fexp _ _ _ _ _) as [mrs' e'].
  destruct (shr_m mrs'); simpl; auto. destruct (_ <=? _)%Z; simpl; auto.
Qed.
Lemma ssg_add b pr em x y : ssg b x -> ssg b y -> ssg b (SFadd pr em x y).
Proof.
  destruct x, y; intros Hx Hy; unfold SFadd; simpl in Hx, Hy; subst; try exact I; try reflexivity.
  - destruct (Bool.eqb s s0); exact I.
  - destruct b; reflexivity.
  - unfold SpecFloat.binary_normalize, SpecFloat.binary_round. destruct b; cbn [SpecFloat.cond_Zopp].
    + cbn. destruct (SpecFloat.shl_align _ _ _). apply ssg_aux.
    + cbn. destruct (SpecFloat.shl_align _ _ _). apply ssg_aux.
Qed.
Lemma ssg_mul b pr em x y : ssg b x -> ssg false y -> ssg b (SFmul pr em x y).
Proof.
  destruct x, y; intros Hx Hy; unfold SFmul; simpl in Hx, Hy; subst; rewrite ?xorb_false_r; try exact I; try reflexivity. apply ssg_aux.
Qed.
Lemma sg_add b x y : sg b x -> sg b y -> sg b (x + y)%float.
Proof. unfold sg. rewrite add_spec. apply ssg_add. Qed.
Lemma sg_mul b x y : sg b x -> nn y -> sg b (x * y)%float.
Proof. unfold sg. rewrite mul_spec. apply ssg_mul. Qed.
Lemma sg_0 b : sg b zero.
Proof. exact I. Qed.
Lemma sg_positive a : not_positive a <-> sg true a.
Proof.
  unfold not_positive, sg. rewrite ltb_spec. change (Prim2SF zero) with (S754_zero false). destruct (Prim2SF a); simpl; try (split; auto; fail); destruct s; simpl; split; auto; discriminate.
Qed.

Lemma cell_value_sg b s its vals : (forall c, In c (m_data (sp_ctrl s)) -> sg b c) -> Forall (Forall nn) vals -> sg b (cell_value Fops s its vals).
Proof.
  intros Hc Hv. unfold cell_value. assert (G : forall l v, sg b v -> sg b (fold_left (fun v i => let idx := digits (sp_order s + 1) (sp_dim s) i in
      oadd Fops v (fold_left (fun c d => omul Fops c (nth (nth d idx 0%nat) (nth d vals []) (o0 Fops))) (seq 0 (sp_dim s)) (ctrl_at Fops s (gmap Fops s its idx)))) l v)).
  { induction l as [|i l IH]; intros v H; cbn [fold_left]; auto. apply IH. cbv zeta. cbn [oadd Fops]. apply sg_add; auto.
    assert (H1 : sg b (ctrl_at Fops s (gmap Fops s its (digits (sp_order s + 1) (sp_dim s) i)))).
    { unfold ctrl_at. destruct (nth_in_or_default (row_major (m_dims (sp_ctrl s)) (gmap Fops s its (digits (sp_order s + 1) (sp_dim s) i))) (m_data (sp_ctrl s)) (o0 Fops)) as [Q|Q]; [apply Hc; auto|rewrite Q; apply sg_0]. }
    revert H1. generalize (ctrl_at Fops s (gmap Fops s its (digits (sp_order s + 1) (sp_dim s) i))). generalize (seq 0 (sp_dim s)).
    induction l0 as [|d l0 IH0]; intros c H1; cbn [fold_left]; auto. apply IH0. apply sg_mul; auto.
    destruct (nth_in_or_default d vals []) as [Q|Q].
    - rewrite Forall_forall in Hv. apply Hv in Q. rewrite Forall_forall in Q. destruct (nth_in_or_default (nth d (digits (sp_order s + 1) (sp_dim s) i) 0%nat) (nth d vals []) (o0 Fops)) as [Q1|Q1]; [apply Q; auto|rewrite Q1; exact I].
    - rewrite Q. destruct (nth d _ 0%nat); exact I. }
  apply G. apply sg_0.
Qed.

Lemma cell_sign b on s xs xs' hints :
  wf_spline s -> (1 <= sp_dim s)%nat -> sorted_doubles s -> in_domain s xs xs' -> hints_ok s hints ->
  (forall d, (d < sp_dim s)%nat -> per_of s d = true -> length (knot_of s d) = (num_of s d + 2 * sp_order s + 1)%nat) ->
  (forall c, In c (m_data (sp_ctrl s)) -> sg b c) ->
  exists s' v, load_cells Fops on s (sp_ctrl s) = Ok s' /\ cell_eval Fops on s' (combine xs hints) = Ok v /\ sg b v.
Proof.
  intros W HD S D Hh HK Hc. destruct (generate_cells_ok Fops on s W HD) as (c & Ec & _).
  exists (load_ctrl s c). unfold load_cells. rewrite Ec. destruct D as [Lx Dx], Hh as [Lh Bh].
  assert (Hl : length (combine xs hints) = sp_dim s) by (rewrite combine_length; lia).
  assert (H2 : forall d, (d < sp_dim s)%nat -> (sp_order s <= snd (nth d (combine xs hints) (o0 Fops, 0%nat)) <= last_of s d)%nat).
  { intros d Hd. rewrite combine_nth by lia. apply Bh; auto. }
  pose proof (get_knot_iters_post _ Fops (total_quiet Fops F_total) s _ W Hl H2) as P.
  pose proof (its_good s xs xs' hints W S (conj Lx Dx) (conj Lh Bh)) as GI.
  destruct (get_knot_iters Fops s (combine xs hints)) as [its|e|f] eqn:Ei; [|contradiction|contradiction]. cbn in P, GI.
  assert (P2 : post (fun _ => False) (good_vals s) (calc_base_spline_vals Fops s its (repeat (sp_order s) (sp_dim s)))).
  { apply (calc_vals_post _ Fops (total_quiet Fops F_total)); auto. apply repeat_length. intros d Hd. rewrite nth_repeat_lt by auto. auto. }
  pose proof (vals_nn s W S its GI) as PV.
  destruct (calc_base_spline_vals Fops s its (repeat (sp_order s) (sp_dim s))) as [vals|e|f] eqn:Ev; [|contradiction|contradiction]. cbn in P2, PV.
  exists (cell_value Fops s its vals). split; [reflexivity|]. split; [|apply cell_value_sg; auto].
  apply (cell_eval_run Fops on s c _ its vals); auto.
  intros d Hd Ep. destruct P as [_ P]. specialize (P d Hd). unfold last_of in P. rewrite (HK d Hd Ep) in P.
  pose proof (wf_num _ W d Hd) as Hn. rewrite Ep in Hn. pose proof (wf_len _ W d Hd) as Hln. rewrite (HK d Hd Ep) in Hln. lia.
Qed.

Lemma cell_signs on s xs xs' hints :
  wf_spline s -> (1 <= sp_dim s)%nat -> sorted_doubles s -> in_domain s xs xs' -> hints_ok s hints ->
  (forall d, (d < sp_dim s)%nat -> per_of s d = true -> length (knot_of s d) = (num_of s d + 2 * sp_order s + 1)%nat) ->
  exists s', load_cells Fops on s (sp_ctrl s) = Ok s' /\
    ((forall c, In c (m_data (sp_ctrl s)) -> not_negative c) -> exists v, cell_eval Fops on s' (combine xs hints) = Ok v /\ not_negative v) /\
    ((forall c, In c (m_data (sp_ctrl s)) -> not_positive c) -> exists v, cell_eval Fops on s' (combine xs hints) = Ok v /\ not_positive v).
Proof.
  intros W HD S D Hh HK. destruct (generate_cells_ok Fops on s W HD) as (c & Ec & _).
  exists (load_ctrl s c). split; [unfold load_cells; rewrite Ec; reflexivity|].
  split; intros Hc.
  - destruct (cell_sign false on s xs xs' hints W HD S D Hh HK) as (s' & v & E1 & E2 & E3); [intros; apply nn_iff; auto|].
    unfold load_cells in E1. rewrite Ec in E1. injection E1 as <-. exists v. split; auto. apply nn_iff. exact E3.
  - destruct (cell_sign true on s xs xs' hints W HD S D Hh HK) as (s' & v & E1 & E2 & E3); [intros; apply sg_positive; auto|].
    unfold load_cells in E1. rewrite Ec in E1. injection E1 as <-. exists v. split; auto. apply sg_positive. exact E3.
Qed.
