(** Signs of values computed in doubles. *)
From Coq Require Import ZArith Reals Floats Lia Lra Bool List Arith.
From Flocq Require Import Core BinarySingleNaN PrimFloat.
From Verif Require Import Base Num FloatM MeshM SplineM SpecMesh MeshProofs SpecSpline SpecSplineObj SpecRound FloatProofs SplineProofs SplineFinal RoundEval EvalProofs SafeProofs SafeTop SpecSign SignProofs SpecPositive.
Import ListNotations.
Local Open Scope R_scope.
Local Notation float := PrimFloat.float.

(** ** Signs of results *)
Definition snn (x : spec_float) : Prop := match x with S754_infinity s | S754_finite s _ _ => s = false | _ => True end.
Definition spp (x : spec_float) : Prop := match x with S754_infinity s | S754_finite s _ _ => s = false | _ => False end.
Definition nn (a : float) : Prop := snn (Prim2SF a).
Definition pp (a : float) : Prop := spp (Prim2SF a).
Lemma snn_aux pr em mx ex lx : snn (SpecFloat.binary_round_aux pr em false mx ex lx).
Proof.
  unfold SpecFloat.binary_round_aux. destruct (SpecFloat.shr_fexp _ _ _ _ _) as [mrs e]. destruct (SpecFloat.shr_fexp _ _ _ _ _) as [mrs' e'].
  destruct (shr_m mrs'); simpl; auto. destruct (_ <=? _)%Z; simpl; auto.
Qed.
Lemma snn_norm pr em m e s : (0 <= m)%Z -> snn (SpecFloat.binary_normalize pr em m e s).
Proof.
  intros H. destruct m; [exact I| |lia]. unfold SpecFloat.binary_normalize, SpecFloat.binary_round. destruct (SpecFloat.shl_align _ _ _). apply snn_aux.
Qed.
Lemma snn_add pr em a b : snn a -> snn b -> snn (SFadd pr em a b).
Proof.
  destruct a, b; intros Ha Hb; unfold SFadd; simpl in Ha, Hb; subst; try exact I; try reflexivity.
  - destruct (Bool.eqb s s0); exact I.
  - apply snn_norm. cbn. lia.
Qed.
Lemma snn_mul pr em a b : snn a -> snn b -> snn (SFmul pr em a b).
Proof.
  destruct a, b; intros Ha Hb; unfold SFmul; simpl in Ha, Hb; subst; try exact I; try reflexivity. apply snn_aux.
Qed.
Lemma snn_div pr em a b : snn a -> spp b -> snn (SFdiv pr em a b).
Proof.
  destruct a, b; intros Ha Hb; unfold SFdiv; simpl in Ha, Hb; subst; try exact I; try reflexivity; try contradiction.
  destruct (SFdiv_core_binary _ _ _ _ _ _) as [[q e'] l]. apply snn_aux.
Qed.
Lemma nn_add a b : nn a -> nn b -> nn (a + b)%float.
Proof. unfold nn. rewrite add_spec. apply snn_add. Qed.
Lemma nn_mul a b : nn a -> nn b -> nn (a * b)%float.
Proof. unfold nn. rewrite mul_spec. apply snn_mul. Qed.
Lemma nn_div a b : nn a -> pp b -> nn (a / b)%float.
Proof. unfold nn, pp. rewrite div_spec. apply snn_div. Qed.

Lemma nn_sub a b : double_finite a -> double_finite b -> double_val b <= double_val a -> nn (a - b)%float /\ (double_val b < double_val a -> pp (a - b)%float).
Proof.
  intros Ha Hb H. apply finite_B in Ha. apply finite_B in Hb. pose proof (val_format a) as Fa. pose proof (val_format b) as Fb. rewrite !val_B2R in *.
  unfold nn, pp. rewrite <- B2SF_Prim2B, sub_equiv.
  pose proof (Bminus_correct prec emax Hprec Hmax mode_NE (Prim2B a) (Prim2B b) Ha Hb) as C. cbn [round_mode] in C.
  set (z := Bminus mode_NE (Prim2B a) (Prim2B b)) in *.
  assert (P0 : 0 <= rnd (B2R (Prim2B a) - B2R (Prim2B b))). { apply round_ge_generic; [apply fexp_correct; reflexivity|apply valid_rnd_N|apply generic_format_0|lra]. }
  destruct (Rlt_bool_spec (Rabs (rnd (B2R (Prim2B a) - B2R (Prim2B b)))) (bpow radix2 emax)) as [L|L].
  - destruct C as (C1 & C2 & _).
    assert (P1 : B2R (Prim2B b) < B2R (Prim2B a) -> 0 < B2R z).
    { intros S. rewrite C1. destruct (Rle_lt_or_eq_dec _ _ P0) as [Q|Q]; auto. exfalso.
      pose proof (rnd_plus (B2R (Prim2B a)) (- B2R (Prim2B b)) Fa (generic_format_opp _ _ _ Fb)) as E.
      change (B2R (Prim2B a) + - B2R (Prim2B b)) with (B2R (Prim2B a) - B2R (Prim2B b)) in E. rewrite <- Q in E.
      rewrite Rminus_0_l, Rabs_Ropp, Rabs_pos_eq in E by lra. unfold Fu in E. cbn in E. lra. }
    assert (P2 : 0 <= B2R z) by (rewrite C1; auto). clearbody z.
    destruct z as [s|s| |s m e Hm]; cbn [B2SF snn spp is_finite B2R] in *; try discriminate.
    + split; auto. intros S. specialize (P1 S). lra.
    + destruct s; [|auto]. exfalso. assert (F2R (Float radix2 (cond_Zopp true (Zpos m)) e) < 0) by (apply F2R_lt_0; reflexivity). lra.
  - destruct C as [C1 C2]. rewrite C1. unfold binary_overflow, overflow_to_inf. cbn [snn spp].
    assert (S : Bsign (Prim2B a) = false).
    { destruct (Bsign (Prim2B a)) eqn:Sa; auto. exfalso. assert (Sb : Bsign (Prim2B b) = false) by (destruct (Bsign (Prim2B b)); auto; discriminate).
      assert (A : B2R (Prim2B a) <= 0).
      { destruct (Prim2B a) as [s|s| |s m e Hm]; cbn in *; try lra; try discriminate. subst s. left. apply F2R_lt_0. reflexivity. }
      assert (B : 0 <= B2R (Prim2B b)).
      { destruct (Prim2B b) as [s|s| |s m e Hm]; cbn in *; try lra; try discriminate. subst s. left. apply F2R_gt_0. reflexivity. }
      replace (B2R (Prim2B a) - B2R (Prim2B b)) with 0 in L by lra. rewrite round_0, Rabs_R0 in L by apply valid_rnd_N. pose proof (bpow_gt_0 radix2 emax). lra. }
    rewrite S. auto.
Qed.

Lemma nn_iff a : not_negative a <-> nn a.
Proof.
  unfold not_negative, nn. rewrite ltb_spec. change (Prim2SF zero) with (S754_zero false). destruct (Prim2SF a); simpl; try (split; auto; fail); destruct s; simpl; split; auto; discriminate.
Qed.

(** ** Partial correctness *)
Definition psat {A} (P : A -> Prop) (r : res A) : Prop := match r with Ok a => P a | _ => True end.
Lemma psat_bind {A B} (P : A -> Prop) (Q : B -> Prop) r f : psat P r -> (forall a, P a -> psat Q (f a)) -> psat Q (bind r f).
Proof. destruct r; simpl; auto. Qed.
Lemma psat_any {A B} (Q : B -> Prop) (r : res A) f : (forall a, psat Q (f a)) -> psat Q (bind r f).
Proof. destruct r; simpl; auto. Qed.
Lemma psat_eq {A B} (Q : B -> Prop) (r : res A) f : (forall a, r = Ok a -> psat Q (f a)) -> psat Q (bind r f).
Proof. destruct r; simpl; auto. Qed.
Lemma psat_for {X} (P : X -> Prop) lo hi s f : P s -> (forall s i, (lo <= i < hi)%nat -> P s -> psat P (f s i)) -> psat P (for_ lo hi s f).
Proof.
  intros H0 H. unfold for_. assert (G : forall i, In i (seq lo (hi - lo)) -> (lo <= i < hi)%nat) by (intros i Hi; apply in_seq in Hi; lia).
  revert s H0 G. induction (seq lo (hi - lo)); intros s H0 G; cbn [foldM]; auto. apply psat_bind with P; [apply H; auto; apply G; left; auto|].
  intros a0 Ha. apply IHl; auto. intros; apply G; right; auto.
Qed.
Lemma psat_vget {A} (P : A -> Prop) l i : Forall P l -> psat P (vget l i).
Proof. intros H. unfold vget. destruct (nth_error l i) eqn:E; simpl; auto. rewrite Forall_forall in H. apply H. eapply nth_error_In; eauto. Qed.
Lemma upd_Forall {A} (P : A -> Prop) l i a : Forall P l -> P a -> Forall P (upd l i a).
Proof. intros H Ha. revert i. induction H; intros [|i]; simpl; constructor; auto. Qed.
Lemma psat_vset {A} (P : A -> Prop) l i a : Forall P l -> P a -> psat (Forall P) (vset l i a).
Proof. intros H Ha. unfold vset. destruct (_ <? _)%nat; simpl; auto. apply upd_Forall; auto. Qed.
Lemma psat_mapM {B} (P : nat -> B -> Prop) (f : nat -> res B) n k (db : B) :
  (forall i, (k <= i < k + n)%nat -> psat (P i) (f i)) -> psat (fun l => length l = n /\ forall i, (i < n)%nat -> P (k + i)%nat (nth i l db)) (mapM f (seq k n)).
Proof.
  revert k. induction n; intros k H; cbn [mapM seq].
  - split; auto. intros; lia.
  - apply psat_bind with (P k); [apply H; lia|]. intros b Hb. eapply psat_bind; [apply IHn; intros; apply H; lia|].
    intros bs [H1 H2]. split; [cbn; lia|]. intros [|i] Hi; [rewrite Nat.add_0_r; auto|]. cbn [nth]. replace (k + S i)%nat with (S k + i)%nat by lia. apply H2. lia.
Qed.

(** ** Basis functions *)
Section Basis.
Variables (order : nat) (knots : list float) (seg : nat) (x : float).
Let t i := kn (map double_val knots) i.
Hypothesis Gk : forall a, In a knots -> double_finite a.
Hypothesis Gx : double_finite x.
Hypothesis Hs : nondecreasing (map double_val knots).
Hypothesis Hseg : t seg < t (seg + 1).
Hypothesis Hx : t seg <= double_val x <= t (seg + 1).
Hypothesis Hlen : (seg + 1 < length knots)%nat.
Lemma kget_val pos neg a : kget knots pos neg = Ok a -> double_finite a /\ double_val a = t (pos - neg) /\ (pos - neg < length knots)%nat /\ (neg <= pos)%nat.
Proof using Gk.
  unfold kget. destruct (Nat.leb_spec neg pos); [|discriminate]. unfold vget. destruct (nth_error knots (pos - neg)) eqn:E; [|discriminate]. intros Q. injection Q as <-.
  assert (L : (pos - neg < length knots)%nat) by (apply nth_error_Some; congruence). split; [apply Gk; eapply nth_error_In; eauto|]. split; auto.
  unfold t, kn. rewrite (nth_indep _ 0 (double_val f)) by (rewrite map_length; auto). rewrite map_nth. f_equal. symmetry. apply nth_error_nth. auto.
Qed.
Lemma t_mono i j : (i <= j < length knots)%nat -> t i <= t j.
Proof using Hs. intros. apply Hs. rewrite map_length. auto. Qed.
Lemma basis_nn so : psat (Forall nn) (base_spline_value Fops order knots seg x so).
Proof using All.
  unfold base_spline_value. apply psat_bind with (Forall nn).
  { apply psat_vset; [|reflexivity]. apply Forall_forall. intros a Ha. apply repeat_spec in Ha. subst. exact I. }
  intros b0 H0. apply psat_for; auto. intros b i Hi Hb. apply psat_eq. intros ib Eib.
  assert (Hib : ib = (order - i)%nat /\ (i <= order)%nat) by (unfold usub in Eib; destruct (Nat.leb_spec i order); [injection Eib as <-; auto|discriminate]).
  apply psat_for; auto. intros b' j Hj Hb'. apply psat_bind with nn.
  { destruct (Nat.eqb_spec j 0); [exact I|]. apply psat_bind with nn; [apply psat_vget; auto|]. intros bj Hbj.
    apply psat_eq. intros tl El. apply psat_eq. intros tr Er. destruct (kget_val _ _ _ El) as (G1 & V1 & L1 & L1'), (kget_val _ _ _ Er) as (G2 & V2 & L2 & _).
    cbn. assert (t (seg + j - i) <= t seg) by (apply t_mono; lia). assert (t (seg + 1) <= t (seg + j - 0)) by (apply t_mono; lia).
    apply nn_div; [apply nn_mul; auto; apply nn_sub; auto; lra|]. apply nn_sub; auto; lra. }
  intros l Hl. apply psat_bind with nn.
  { destruct (Nat.eqb_spec (ib + j) order); [exact I|]. apply psat_bind with nn; [apply psat_vget; auto|]. intros bj Hbj.
    apply psat_eq. intros tr Er. apply psat_eq. intros tl El. destruct (kget_val _ _ _ El) as (G1 & V1 & L1 & L1'), (kget_val _ _ _ Er) as (G2 & V2 & L2 & _).
    cbn. assert (t (seg + 1) <= t (seg + j + 1 - 0)) by (apply t_mono; lia).
    assert (t (seg + j + 1 - i) <= t seg). { apply t_mono. lia. }
    apply nn_div; [apply nn_mul; auto; apply nn_sub; auto; lra|]. apply nn_sub; auto; lra. }
  intros r Hr. apply psat_vset; auto. apply nn_add; auto.
Qed.
End Basis.

(** ** Evaluation *)
Lemma lookup order p knots r x0 x hint :
  (forall a, In a knots -> double_finite a) -> double_finite x -> nondecreasing (map double_val knots) ->
  (order <= hint)%nat -> (hint + order + 2 <= length knots)%nat ->
  let t := kn (map double_val knots) in let last := (length knots - order - 2)%nat in
  t last < t (last + 1)%nat -> t order <= double_val x <= t (last + 1)%nat ->
  wrap_coord Fops p r x0 = Ok x ->
  exists k, get_knot_iter Fops order p knots r x0 hint = Ok (x, k) /\ (k + 1 < length knots)%nat /\ t k < t (k + 1)%nat /\ t k <= double_val x <= t (k + 1)%nat.
Proof.
  intros Gk Gx Hs H1 H2 t last Hl Hx Ew.
  assert (E0 : get_knot_iter Fops order p knots r x0 hint = get_knot_iter Fops order false knots r x hint) by (unfold get_knot_iter, get_knot_iter_last; rewrite Ew; reflexivity).
  assert (Mo : forall i j, (i <= j < length knots)%nat -> t i <= t j) by (intros; apply Hs; rewrite map_length; auto).
  destruct (get_knot_iter_ok Rops Rops_total 0 (map double_val knots) order false (0, 0) (double_val x) (double_val x) hint eq_refl H1) as (k & Ek & Hk).
  { rewrite map_length. auto. }
  { intros i j Hi Hj. rewrite map_length in Hj. apply Rleb_true. apply Mo. lia. }
  destruct (knot_iter_val Fops double_val double_finite Fu Feta Fbig F_rounding knots x Gk Gx order false r x (0, 0) (double_val x) hint (double_val x) k eq_refl eq_refl Ek) as [E1 _].
  exists k. rewrite E0. split; auto. rewrite map_length in Hk. fold last in Hk. destruct Hk as (B & K1 & K2).
  assert (A1 : t k <= double_val x) by (destruct K1 as [->|K1]; [lra|apply Rleb_true in K1; exact K1]).
  split; [lia|]. destruct K2 as [->|K2]; [split; auto; split; auto; apply Hx|].
  apply Rltb_true in K2. change (nth (k + 1) (map double_val knots) 0) with (t (k + 1)%nat) in K2. lra.
Qed.

Section Eval.
Variables (s : spline float) (xs xs' : list float) (hints : list nat).
Hypothesis W : wf_spline s.
Hypothesis S : sorted_doubles s.
Hypothesis D : in_domain s xs xs'.
Hypothesis Hh : hints_ok s hints.
Definition good_its (its : list (float * nat)) : Prop := length its = sp_dim s /\ forall d, (d < sp_dim s)%nat ->
    let t := kn (map double_val (knot_of s d)) in let k := snd (nth d its (zero, 0%nat)) in let x := fst (nth d its (zero, 0%nat)) in
    double_finite x /\ (k + 1 < length (knot_of s d))%nat /\ t k < t (k + 1)%nat /\ t k <= double_val x <= t (k + 1)%nat.
Lemma its_good : psat good_its (get_knot_iters Fops s (combine xs hints)).
Proof using All.
  unfold get_knot_iters. eapply psat_mapM with (k := 0%nat) (db := (zero, 0%nat)) (P := fun d it =>
      let t := kn (map double_val (knot_of s d)) in let k := snd it in let x := fst it in
      double_finite x /\ (k + 1 < length (knot_of s d))%nat /\ t k < t (k + 1)%nat /\ t k <= double_val x <= t (k + 1)%nat).
    intros d Hd. cbn [Nat.add] in Hd. destruct D as [Lx Dx]. destruct Hh as [Lh Bh]. destruct (Dx d) as (Ew & Fx & Rx); [lia|]. destruct (S d) as (G & M & L); [lia|].
    rewrite (vget_ok _ _ (zero, 0%nat)) by (rewrite combine_length; lia). cbn [bind]. rewrite combine_nth by lia. cbn [fst snd].
    rewrite (vget_ok (sp_per s) d false) by (unfold sp_dim in Hd; lia). cbn [bind].
    rewrite (vget_ok (sp_knots s) d []) by (rewrite (wf_knots _ W); lia). cbn [bind].
    rewrite (vget_ok (sp_range s) d (zero, zero)) by (rewrite (wf_range _ W); lia). cbn [bind]. fold (knot_of s d).
    specialize (Bh d ltac:(lia)). pose proof (wf_len _ W d ltac:(lia)). unfold last_of in *.
    destruct (lookup (sp_order s) (nth d (sp_per s) false) (knot_of s d) (nth d (sp_range s) (zero, zero)) (nth d xs zero) (nth d xs' zero) (nth d hints 0%nat)) as (k & Ek & Q); auto; try lia.
    rewrite Ek. cbn. auto.
Qed.
Lemma vals_nn its : good_its its -> psat (Forall (Forall nn)) (calc_base_spline_vals Fops s its (repeat (sp_order s) (sp_dim s))).
Proof using W S.
  intros [Li Hi].
  unfold calc_base_spline_vals. pose proof (psat_mapM (fun _ => Forall nn) (fun d => it <- vget its d ;; kn <- vget (sp_knots s) d ;; q <- vget (repeat (sp_order s) (sp_dim s)) d ;;
      base_spline_value Fops (sp_order s) kn (snd it) (fst it) q) (sp_dim s) 0 []) as P.
    match type of P with ?A -> psat _ ?r => assert (HA : A) end.
    { intros d Hd. rewrite (vget_ok _ _ (zero, 0%nat)) by lia. cbn [bind]. rewrite (vget_ok (sp_knots s) d []) by (rewrite (wf_knots _ W); lia). cbn [bind]. fold (knot_of s d).
      apply psat_any. intros q. destruct (Hi d) as (F & L & K1 & K2); [lia|]. destruct (S d) as (G & M & _); [lia|]. apply basis_nn; auto. }
    specialize (P HA). destruct (mapM _ _); auto. cbn in P |- *. destruct P as [P1 P2]. apply Forall_forall. intros l Hl. apply (In_nth _ _ []) in Hl as (i & Hi1 & <-). apply P2. lia.
Qed.
Lemma eval_nn : (forall c, In c (m_data (sp_ctrl s)) -> nn c) -> psat nn (spline_eval Fops s (combine xs hints)).
Proof using All.
  intros Hc. unfold spline_eval. apply psat_bind with good_its; [apply its_good|]. intros its Gi.
  apply psat_bind with (Forall (Forall nn)); [apply vals_nn; auto|].
  intros vals Hv. apply psat_for; [exact I|]. intros v i _ Hn. apply psat_any. intros ind.
  apply psat_bind with (fun st => nn (fst st)).
  { apply (psat_for (fun st => nn (fst st))); [reflexivity|]. intros [coef ia] d _ Hcoef. apply psat_any. intros a. apply psat_bind with (Forall nn); [apply psat_vget; auto|]. intros bs Hbs.
    apply psat_bind with nn; [apply psat_vget; auto|]. intros b Hb. apply psat_any. intros a'. apply psat_any. intros ia'. cbn. apply nn_mul; auto. }
  intros [coef ia] Hcoef. apply psat_bind with nn.
  { unfold mesh_get. apply psat_any. intros j. apply psat_vget. apply Forall_forall. auto. }
  intros c Hcc. cbn. apply nn_add; auto. apply nn_mul; auto.
Qed.
Lemma eval_some : exists v, spline_eval Fops s (combine xs hints) = Ok v.
Proof using W D Hh.
  apply post_total. destruct D as [Lx _], Hh as [Lh Bh]. apply (spline_eval_safe (fun _ => False) Fops (total_quiet Fops F_total)); auto.
  - rewrite combine_length. lia.
  - intros d Hd. rewrite combine_nth by lia. apply Bh. auto.
Qed.
End Eval.

Lemma sign_positive s xs xs' hints :
  wf_spline s -> sorted_doubles s -> in_domain s xs xs' -> hints_ok s hints -> (forall c, In c (m_data (sp_ctrl s)) -> not_negative c) ->
  exists v, spline_eval Fops s (combine xs hints) = Ok v /\ not_negative v.
Proof.
  intros W S D H Hc. destruct (eval_some s xs xs' hints W D H) as [v E]. exists v. split; auto.
  assert (P : psat nn (spline_eval Fops s (combine xs hints))) by (apply (eval_nn s xs xs' hints); auto; intros; apply nn_iff; auto). rewrite E in P. apply nn_iff. exact P.
Qed.

Lemma frel_flip a b : frel true a b -> (not_positive a <-> not_negative b).
Proof.
  unfold frel, not_positive. rewrite nn_iff. unfold nn. rewrite ltb_spec. change (Prim2SF zero) with (S754_zero false).
  destruct (Prim2SF a), (Prim2SF b); simpl; try contradiction; try tauto; try (destruct s; simpl; tauto).
  - intros ->. destruct s; simpl; split; auto; discriminate.
  - intros [-> _]. destruct s; simpl; split; auto; discriminate.
Qed.
Lemma load_self (s : spline float) : load_ctrl s (sp_ctrl s) = s.
Proof. destruct s. reflexivity. Qed.
Lemma sign_negative s xs xs' hints :
  wf_spline s -> sorted_doubles s -> in_domain s xs xs' -> hints_ok s hints -> (forall c, In c (m_data (sp_ctrl s)) -> not_positive c) ->
  exists v, spline_eval Fops s (combine xs hints) = Ok v /\ not_positive v.
Proof.
  intros W S D H Hc. destruct (eval_some s xs xs' hints W D H) as [v E]. exists v. split; auto.
  set (c' := mkMesh (m_dims (sp_ctrl s)) (map PrimFloat.opp (m_data (sp_ctrl s)))).
  assert (R : related_data opposite (sp_ctrl s) c') by apply map_opp_opposite.
  assert (M : mrel (frel true) (sp_ctrl s) c'). { destruct R as [R1 R2]. split; auto. apply (Forall2_iff opposite); auto. apply opposite_frel. }
  pose proof (eval_rel Fops (frel true) (frel_0 true) (frel_add true) (frel_mul true) s _ _ M (combine xs hints)) as Q.
  rewrite load_self, E in Q.
  destruct (sign_positive (load_ctrl s c') xs xs' hints) as (w & Ew & Pw).
  - destruct W. constructor; auto. cbn. unfold wf_mesh, c' in *. cbn. rewrite map_length. auto.
  - exact S.
  - exact D.
  - exact H.
  - intros c Ic. cbn in Ic. apply in_map_iff in Ic as (a & <- & Ia). apply (frel_flip a); [|apply Hc; auto].
    unfold frel. rewrite opp_spec. destruct (Prim2SF a); simpl; auto.
  - rewrite Ew in Q. cbn in Q. apply (frel_flip v w); auto.
Qed.
