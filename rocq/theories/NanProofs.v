(** NaN in control points and coordinates. *)
From Coq Require Import ZArith Floats Lia Bool List Arith.
From Verif Require Import Base Num FloatM MeshM SplineM SpecMesh MeshProofs SpecSplineObj SplineProofs SplineFinal TensorR EvalProofs SafeProofs SafeTop CellM CellProofs CellTop PositiveProofs.
Import ListNotations.
Local Notation float := PrimFloat.float.

Definition na (a : float) : Prop := Prim2SF a = S754_nan.
Lemma na_iff a : is_nan a = true <-> na a.
Proof.
  unfold is_nan, na. rewrite FloatAxioms.eqb_spec. unfold SFeqb, SFcompare. destruct (Prim2SF a) as [s|s| |s m e]; try destruct s; simpl; try (split; congruence).
  - rewrite Z.compare_refl, Pos.compare_cont_refl. simpl. split; discriminate.
  - rewrite Z.compare_refl, Pos.compare_cont_refl. simpl. split; discriminate.
Qed.
Lemma na_addl a b : na a -> na (a + b)%float.
Proof. unfold na. rewrite add_spec. intros ->. destruct (Prim2SF b); reflexivity. Qed.
Lemma na_addr a b : na b -> na (a + b)%float.
Proof. unfold na. rewrite add_spec. intros ->. destruct (Prim2SF a); reflexivity. Qed.
Lemma na_subl a b : na a -> na (a - b)%float.
Proof. unfold na. rewrite sub_spec. intros ->. destruct (Prim2SF b); reflexivity. Qed.
Lemma na_subr a b : na b -> na (a - b)%float.
Proof. unfold na. rewrite sub_spec. intros ->. destruct (Prim2SF a); reflexivity. Qed.
Lemma na_mull a b : na a -> na (a * b)%float.
Proof. unfold na. rewrite mul_spec. intros ->. destruct (Prim2SF b); reflexivity. Qed.
Lemma na_mulr a b : na b -> na (a * b)%float.
Proof. unfold na. rewrite mul_spec. intros ->. destruct (Prim2SF a); reflexivity. Qed.
Lemma na_divl a b : na a -> na (a / b)%float.
Proof. unfold na. rewrite div_spec. intros ->. destruct (Prim2SF b); reflexivity. Qed.
Lemma na_nan : na nan.
Proof. reflexivity. Qed.

Lemma inf_iff a : is_infinity a = true -> exists s, Prim2SF a = S754_infinity s.
Proof.
  unfold is_infinity. rewrite FloatAxioms.eqb_spec, abs_spec. change (Prim2SF infinity) with (S754_infinity false). destruct (Prim2SF a); simpl; try discriminate. eauto.
Qed.
(** Not finite: the remainder is NaN. *)
Definition nf (a : float) : Prop := na a \/ exists s, Prim2SF a = S754_infinity s.
Lemma nf_sub a b : nf a -> nf (a - b)%float.
Proof.
  unfold nf, na. rewrite sub_spec. intros [->|[s ->]]; destruct (Prim2SF b) as [s'|s'| |s' m e]; simpl; auto; try (right; eauto; fail).
  destruct s, s'; simpl; auto; right; eauto.
Qed.
Lemma nf_mod a b : nf a -> na (Ffmod a b).
Proof. unfold nf, na, Ffmod. intros [->|[s ->]]; destruct (Prim2SF b); reflexivity. Qed.

Lemma wrap_na p r x : na x \/ p = true /\ nf x -> psat na (wrap_coord Fops p r x).
Proof.
  unfold wrap_coord. destruct p.
  - intros H. assert (F : nf x) by (destruct H as [H|[_ H]]; [left|]; auto). cbn. apply na_addl, na_addr, nf_mod, nf_sub, F.
  - intros [H|[H _]]; [exact H|discriminate].
Qed.
Lemma iter_na order p knots r x hint : na x \/ p = true /\ nf x -> psat (fun it => na (fst it)) (get_knot_iter Fops order p knots r x hint).
Proof.
  intros H. unfold get_knot_iter, get_knot_iter_last. do 2 (apply psat_any; intros ?). apply psat_bind with na; [apply wrap_na; auto|].
  intros x' Hx. do 2 (apply psat_any; intros ?). destruct a2; [exact Hx|]. destruct (_ <? _); [exact I|]. do 2 (apply psat_any; intros ?). exact Hx.
Qed.

Lemma psat_for_i {X} (P : nat -> X -> Prop) lo hi s f :
  lo <= hi -> P lo s -> (forall s i, lo <= i < hi -> P i s -> psat (P (S i)) (f s i)) -> psat (P hi) (for_ lo hi s f).
Proof.
  intros Hl. unfold for_. remember (hi - lo) as n eqn:En. revert lo s Hl En. induction n; intros lo s Hl En H0 H; cbn [seq foldM].
  - replace hi with lo by lia. exact H0.
  - apply psat_bind with (P (S lo)); [apply H; auto; lia|]. intros a Ha. apply IHn; auto; try lia. intros; apply H; auto; lia.
Qed.
Lemma nth_upd_na (b : list float) i k v : (k <> i -> na (nth k b nan)) -> na v -> na (nth k (upd b i v) nan).
Proof.
  intros H Hv. destruct (Nat.eq_dec k i) as [->|E]; [|rewrite Base.nth_upd_other by auto; auto].
  destruct (Nat.lt_ge_cases i (length b)); [rewrite Base.nth_upd_same by auto; auto|]. rewrite nth_overflow by (rewrite upd_length; auto). exact na_nan.
Qed.
Lemma basis_na order knots seg x : 1 <= order -> na x -> psat (fun b => forall k, k <= order -> na (nth k b nan)) (base_spline_value Fops order knots seg x order).
Proof.
  intros Ho Hx. unfold base_spline_value. apply psat_any. intros b0.
  assert (P : psat (fun b => 1 < order + 1 -> forall k, order - (order + 1 - 1) <= k <= order -> na (nth k b nan))
    (for_ 1 (order + 1) b0 (fun b i =>
      idx_begin <- usub order i ;;
      for_ 0 (i + 1) b (fun b j =>
      l <- (if j =? 0 then Ok (o0 Fops)
            else bj <- vget b (idx_begin + j) ;;
                 tl <- kget knots (seg + j) i ;;
                 tr <- kget knots (seg + j) 0 ;;
                 odiv Fops (omul Fops bj (osub Fops x tl)) (osub Fops tr tl)) ;;
      r <- (if idx_begin + j =? order then Ok (o0 Fops)
            else bj <- vget b (idx_begin + j + 1) ;;
                 tr <- kget knots (seg + j + 1) 0 ;;
                 tl <- kget knots (seg + j + 1) i ;;
                 odiv Fops (omul Fops bj (osub Fops tr x)) (osub Fops tr tl)) ;;
      vset b (idx_begin + j) (oadd Fops l r))))).
  { apply (psat_for_i (fun i b => 1 < i -> forall k, order - (i - 1) <= k <= order -> na (nth k b nan))); [lia|intros; lia|].
    intros b i Hi _. apply psat_eq. intros ib Eib.
    assert (Hib : ib = order - i) by (unfold usub in Eib; destruct (Nat.leb_spec i order); [injection Eib as <-; auto|discriminate]).
    assert (Q : forall r, psat (fun b => forall k, ib <= k < ib + (i + 1) -> na (nth k b nan)) r -> psat (fun b => 1 < S i -> forall k, order - (S i - 1) <= k <= order -> na (nth k b nan)) r).
    { intros [b'|e|f]; cbn; auto. intros R _ k Hk. apply R. lia. }
    apply Q. apply (psat_for_i (fun j b => forall k, ib <= k < ib + j -> na (nth k b nan))); [lia|intros; lia|].
    intros b' j Hj Hb.
    assert (V : forall v, na v -> psat (fun b => forall k, ib <= k < ib + S j -> na (nth k b nan)) (vset b' (ib + j) v)).
    { intros v Hv. unfold vset. destruct (_ <? _); [|exact I]. cbn. intros k Hk. apply nth_upd_na; auto. intros. apply Hb. lia. }
    destruct (Nat.eqb_spec j 0) as [Ej|Ej].
    - cbn [bind]. apply psat_bind with na.
      + destruct (Nat.eqb_spec (ib + j) order); [lia|]. do 3 (apply psat_any; intros ?). cbn. apply na_divl, na_mulr, na_subr, Hx.
      + intros r Hr. apply V. apply na_addr, Hr.
    - apply psat_bind with na.
      + do 3 (apply psat_any; intros ?). cbn. apply na_divl, na_mulr, na_subl, Hx.
      + intros l Hl. apply psat_any. intros r. apply V. apply na_addl, Hl. }
  destruct (for_ _ _ _ _); auto. cbn in P |- *. intros k Hk. apply P; lia.
Qed.

Lemma fold_na (g : nat -> float) l v : na v \/ (exists i, In i l /\ na (g i)) -> na (fold_left (fun v i => (v + g i)%float) l v).
Proof.
  revert v. induction l as [|i l IH]; intros v [H|H]; cbn [fold_left]; auto.
  - destruct H as (j & [] & _).
  - apply IH. left. apply na_addl, H.
  - destruct H as (j & [->|Hj] & Hg); apply IH; [left; apply na_addr; auto|right; eauto].
Qed.
Lemma choice n (P : nat -> nat -> Prop) : (forall d, d < n -> exists a, P d a) -> exists l, length l = n /\ forall d, d < n -> P d (nth d l 0).
Proof.
  induction n; intros H.
  - exists []. split; auto. intros; lia.
  - destruct IHn as (l & L & Q); [intros; apply H; lia|]. destruct (H n) as [a Ha]; [lia|]. exists (l ++ [a]). rewrite app_length. cbn. split; [lia|].
    intros d Hd. destruct (Nat.eq_dec d n) as [->|E].
    + rewrite app_nth2 by lia. replace (n - length l) with 0 by lia. exact Ha.
    + rewrite app_nth1 by lia. apply Q. lia.
Qed.

Section Eval.
Variables (s : spline float) (xs : list float) (hints : list nat).
Hypothesis W : wf_spline s.
Hypothesis Lx : length xs = sp_dim s.
Hypothesis Hh : hints_ok s hints.
Lemma runs : exists its vals, get_knot_iters Fops s (combine xs hints) = Ok its /\ calc_base_spline_vals Fops s its (repeat (sp_order s) (sp_dim s)) = Ok vals /\
  good_iters Fops s its /\ good_vals s vals /\ spline_eval Fops s (combine xs hints) = Ok (eval_value Fops s its vals).
Proof using All.
  destruct Hh as [Lh Bh].
  assert (Hl : length (combine xs hints) = sp_dim s) by (rewrite combine_length; lia).
  assert (H2 : forall d, d < sp_dim s -> sp_order s <= snd (nth d (combine xs hints) (o0 Fops, 0)) <= last_of s d).
  { intros d Hd. rewrite combine_nth by lia. apply Bh; auto. }
  pose proof (get_knot_iters_post _ Fops (total_quiet Fops F_total) s _ W Hl H2) as P.
  destruct (get_knot_iters Fops s (combine xs hints)) as [its|e|f] eqn:Ei; [|contradiction|contradiction]. cbn in P.
  assert (P2 : post (fun _ => False) (good_vals s) (calc_base_spline_vals Fops s its (repeat (sp_order s) (sp_dim s)))).
  { apply (calc_vals_post _ Fops (total_quiet Fops F_total)); auto. apply repeat_length. intros d Hd. rewrite nth_repeat_lt by auto. auto. }
  destruct (calc_base_spline_vals Fops s its (repeat (sp_order s) (sp_dim s))) as [vals|e|f] eqn:Ev; [|contradiction|contradiction].
  exists its, vals. split; auto. split; auto. split; auto. split; auto. apply spline_eval_run; auto.
Qed.

Lemma local_index its idx : good_iters Fops s its -> valid (m_dims (sp_ctrl s)) idx ->
  (forall d, d < sp_dim s -> attached s d (snd (nth d its (o0 Fops, 0))) (nth d idx 0)) ->
  exists loc, valid (repeat (sp_order s + 1) (sp_dim s)) loc /\ gmap Fops s its loc = idx.
Proof using W Lx.
  intros G Hv Ha.
  assert (Lc : exists loc, length loc = sp_dim s /\ forall d, d < sp_dim s -> nth d loc 0 <= sp_order s /\ nth d idx 0 = gidx Fops s its d (nth d loc 0)).
  { apply (choice (sp_dim s) (fun d a => a <= sp_order s /\ nth d idx 0 = gidx Fops s its d a)). intros d Hd. destruct (Ha d Hd) as (i & Hi & Ej). destruct G as [_ G]. specialize (G d Hd).
    exists (i + sp_order s - snd (nth d its (o0 Fops, 0))). split; [lia|]. unfold gidx. rewrite Ej.
    replace (i + sp_order s - snd (nth d its (o0 Fops, 0)) + (snd (nth d its (o0 Fops, 0)) - sp_order s)) with i by lia. reflexivity. }
  destruct Lc as (loc & Ll & Hloc).
  assert (Vl : valid (repeat (sp_order s + 1) (sp_dim s)) loc).
  { apply valid_nth; [rewrite repeat_length; auto|]. intros d Hd. rewrite repeat_length in Hd. rewrite nth_repeat_lt by auto. destruct (Hloc d Hd). lia. }
  assert (Eg : gmap Fops s its loc = idx).
  { apply nth_ext with 0 0.
    - unfold gmap. rewrite map_length, seq_length. rewrite (valid_length _ _ Hv), (wf_dims _ W). reflexivity.
    - unfold gmap. rewrite map_length, seq_length. intros d Hd. rewrite nth_map_seq by auto. symmetry. apply Hloc. auto. }
  exists loc. auto.
Qed.

Lemma nan_control its idx :
  get_knot_iters Fops s (combine xs hints) = Ok its -> valid (m_dims (sp_ctrl s)) idx ->
  (forall d, d < sp_dim s -> attached s d (snd (nth d its (o0 Fops, 0))) (nth d idx 0)) ->
  is_nan (ctrl_at Fops s idx) = true ->
  exists v, spline_eval Fops s (combine xs hints) = Ok v /\ is_nan v = true.
Proof using All.
  intros Ei Hv Ha Hn. destruct runs as (its' & vals & E1 & E2 & G & V & E). rewrite Ei in E1. injection E1 as <-. eexists. split; [exact E|].
  apply na_iff. apply na_iff in Hn. destruct (local_index its idx G Hv Ha) as (loc & Vl & Eg).
  unfold eval_value. apply (fold_na (fun i => omul Fops (coef_of Fops s vals (unrank (repeat (sp_order s + 1) (sp_dim s)) i)) (ctrl_at Fops s (gmap Fops s its (unrank (repeat (sp_order s + 1) (sp_dim s)) i))))).
  right. exists (row_major (repeat (sp_order s + 1) (sp_dim s)) loc). split.
  - apply in_seq. unfold buf_size. rewrite <- prod_repeat. split; [lia|]. apply row_major_lt; auto.
  - rewrite rank_unrank by auto. rewrite Eg. apply na_mulr, Hn.
Qed.

Lemma weights_na d its vals : 1 <= sp_order s -> d < sp_dim s ->
  is_nan (nth d xs zero) = true \/ per_of s d = true /\ is_infinity (nth d xs zero) = true ->
  get_knot_iters Fops s (combine xs hints) = Ok its -> calc_base_spline_vals Fops s its (repeat (sp_order s) (sp_dim s)) = Ok vals -> good_iters Fops s its ->
  forall k, k <= sp_order s -> na (nth k (nth d vals []) nan).
Proof using All.
  intros Ho Hd Hx E1 E2 G.
  assert (Hn : na (fst (nth d its (zero, 0)))).
  { pose proof (psat_mapM (fun d' it => d' = d -> na (fst it)) (fun d => c <- vget (combine xs hints) d ;; p <- vget (sp_per s) d ;; kn <- vget (sp_knots s) d ;; rg <- vget (sp_range s) d ;;
      get_knot_iter Fops (sp_order s) p kn rg (fst c) (snd c)) (sp_dim s) 0 (zero, 0)) as P.
    unfold get_knot_iters in E1. rewrite E1 in P. cbn in P. apply P; auto. intros d' Hd'. destruct Hh as [Lh _].
    rewrite (vget_ok _ _ (zero, 0)) by (rewrite combine_length; lia). cbn [bind]. rewrite combine_nth by lia. cbn [fst snd].
    rewrite (vget_ok (sp_per s) d' false) by (unfold sp_dim in Hd'; lia). cbn [bind]. do 2 (apply psat_any; intros ?).
    destruct (Nat.eq_dec d' d) as [->|Ne]; [|destruct (get_knot_iter _ _ _ _ _ _ _); cbn; auto; intros; contradiction].
    assert (Q : psat (fun it => na (fst it)) (get_knot_iter Fops (sp_order s) (nth d (sp_per s) false) a a0 (nth d xs zero) (nth d hints 0))).
    { apply iter_na. destruct Hx as [Hx|[Hp Hx]]; [left; apply na_iff; auto|right; split; auto; right; apply inf_iff; auto]. }
    destruct (get_knot_iter _ _ _ _ _ _ _); cbn in *; auto. }
  pose proof (psat_mapM (fun d' b => d' = d -> forall k, k <= sp_order s -> na (nth k b nan)) (fun d => it <- vget its d ;; kn <- vget (sp_knots s) d ;; q <- vget (repeat (sp_order s) (sp_dim s)) d ;;
      base_spline_value Fops (sp_order s) kn (snd it) (fst it) q) (sp_dim s) 0 []) as P.
    unfold calc_base_spline_vals in E2. rewrite E2 in P. cbn in P. apply P; auto. intros d' Hd'.
    rewrite (vget_ok its d' (zero, 0)) by (destruct G; lia). cbn [bind]. apply psat_any. intros kn.
    rewrite (vget_ok (repeat _ _) d' 0) by (rewrite repeat_length; lia). cbn [bind]. rewrite nth_repeat_lt by lia.
    destruct (Nat.eq_dec d' d) as [->|Ne]; [|destruct (base_spline_value _ _ _ _ _ _); cbn; auto; intros; contradiction].
    pose proof (basis_na (sp_order s) kn (snd (nth d its (zero, 0))) (fst (nth d its (zero, 0))) Ho Hn) as Q.
    destruct (base_spline_value _ _ _ _ _ _); cbn in *; auto.
Qed.

Lemma nan_coordinate d : 1 <= sp_order s -> d < sp_dim s ->
  is_nan (nth d xs zero) = true \/ per_of s d = true /\ is_infinity (nth d xs zero) = true ->
  exists v, spline_eval Fops s (combine xs hints) = Ok v /\ is_nan v = true.
Proof using All.
  intros Ho Hd Hx. destruct runs as (its & vals & E1 & E2 & G & V & E). eexists. split; [exact E|]. apply na_iff.
  assert (Hb := weights_na d its vals Ho Hd Hx E1 E2 G).
  unfold eval_value. apply (fold_na (fun i => omul Fops (coef_of Fops s vals (unrank (repeat (sp_order s + 1) (sp_dim s)) i)) (ctrl_at Fops s (gmap Fops s its (unrank (repeat (sp_order s + 1) (sp_dim s)) i))))).
  right. exists 0. assert (B : 0 < buf_size s) by (unfold buf_size; pose proof (Nat.pow_nonzero (sp_order s + 1) (sp_dim s)); lia). split; [apply in_seq; lia|].
  apply na_mull. set (idx := unrank _ 0).
  assert (Vi : valid (repeat (sp_order s + 1) (sp_dim s)) idx) by (apply unrank_valid; rewrite prod_repeat; exact B).
  assert (Hk : na (nth (nth d idx 0) (nth d vals []) zero)).
  { pose proof (local_lt s idx d Vi Hd). destruct V as [_ V]. specialize (V d Hd). rewrite (nth_indep _ zero nan) by lia. apply Hb. lia. }
  unfold coef_of. assert (F : forall l v, na v \/ In d l -> na (fold_left (fun c d => omul Fops c (nth (nth d idx 0) (nth d vals []) (o0 Fops))) l v)).
  { induction l as [|e l IH]; intros v [H|H]; cbn [fold_left]; auto; try contradiction.
    - apply IH. left. apply na_mull, H.
    - destruct H as [->|H]; apply IH; auto. left. apply na_mulr, Hk. }
  apply F. right. apply in_seq. lia.
Qed.

(** The same for cells. *)
Hypothesis HD : 1 <= sp_dim s.
Hypothesis HK : forall d, d < sp_dim s -> per_of s d = true -> length (knot_of s d) = num_of s d + 2 * sp_order s + 1.
Lemma cell_runs on : exists s' its vals, load_cells Fops on s (sp_ctrl s) = Ok s' /\ get_knot_iters Fops s (combine xs hints) = Ok its /\
  calc_base_spline_vals Fops s its (repeat (sp_order s) (sp_dim s)) = Ok vals /\
  good_iters Fops s its /\ good_vals s vals /\ cell_eval Fops on s' (combine xs hints) = Ok (cell_value Fops s its vals).
Proof using All.
  destruct runs as (its & vals & E1 & E2 & G & V & _). destruct (generate_cells_ok Fops on s W HD) as (c & Ec & _).
  exists (load_ctrl s c), its, vals. unfold load_cells. rewrite Ec. split; auto. split; auto. split; auto. split; auto. split; auto.
  apply (cell_eval_run Fops on s c _ its vals); auto.
  intros d Hd Ep. destruct G as [_ P]. specialize (P d Hd). unfold last_of in P. rewrite (HK d Hd Ep) in P.
  pose proof (wf_num _ W d Hd) as Hn. rewrite Ep in Hn. pose proof (wf_len _ W d Hd) as Hln. rewrite (HK d Hd Ep) in Hln. lia.
Qed.
Lemma prod_na vals idx l v : na v \/ (exists d, In d l /\ na (nth (nth d idx 0) (nth d vals []) zero)) ->
  na (fold_left (fun c d => omul Fops c (nth (nth d idx 0) (nth d vals []) (o0 Fops))) l v).
Proof.
  revert v. induction l as [|e l IH]; intros v [H|H]; cbn [fold_left]; auto.
  - destruct H as (d & [] & _).
  - apply IH. left. apply na_mull, H.
  - destruct H as (d & [->|H] & Hk); apply IH; [left; apply na_mulr, Hk|right; eauto].
Qed.
Lemma cell_nan_control on its idx :
  get_knot_iters Fops s (combine xs hints) = Ok its -> valid (m_dims (sp_ctrl s)) idx ->
  (forall d, d < sp_dim s -> attached s d (snd (nth d its (o0 Fops, 0))) (nth d idx 0)) ->
  is_nan (ctrl_at Fops s idx) = true ->
  exists s' v, load_cells Fops on s (sp_ctrl s) = Ok s' /\ cell_eval Fops on s' (combine xs hints) = Ok v /\ is_nan v = true.
Proof using All.
  intros Ei Hv Ha Hn. destruct (cell_runs on) as (s' & its' & vals & E0 & E1 & E2 & G & V & E). rewrite Ei in E1. injection E1 as <-. exists s'. eexists. split; auto. split; [exact E|].
  apply na_iff. apply na_iff in Hn. destruct (local_index its idx G Hv Ha) as (loc & Vl & Eg).
  unfold cell_value. apply (fold_na (fun i => fold_left (fun c d => omul Fops c (nth (nth d (digits (sp_order s + 1) (sp_dim s) i) 0) (nth d vals []) (o0 Fops))) (seq 0 (sp_dim s))
    (ctrl_at Fops s (gmap Fops s its (digits (sp_order s + 1) (sp_dim s) i))))).
  right. exists (rank_low (sp_order s + 1) loc). split; [apply in_seq; split; [lia|]; apply rank_low_lt; auto|].
  rewrite digits_rank by auto. apply prod_na. left. rewrite Eg. exact Hn.
Qed.
Lemma cell_nan_coordinate on d : 1 <= sp_order s -> d < sp_dim s ->
  is_nan (nth d xs zero) = true \/ per_of s d = true /\ is_infinity (nth d xs zero) = true ->
  exists s' v, load_cells Fops on s (sp_ctrl s) = Ok s' /\ cell_eval Fops on s' (combine xs hints) = Ok v /\ is_nan v = true.
Proof using All.
  intros Ho Hd Hx. destruct (cell_runs on) as (s' & its & vals & E0 & E1 & E2 & G & V & E). exists s'. eexists. split; auto. split; [exact E|].
  apply na_iff. assert (Hb := weights_na d its vals Ho Hd Hx E1 E2 G).
  unfold cell_value. apply (fold_na (fun i => fold_left (fun c d => omul Fops c (nth (nth d (digits (sp_order s + 1) (sp_dim s) i) 0) (nth d vals []) (o0 Fops))) (seq 0 (sp_dim s))
    (ctrl_at Fops s (gmap Fops s its (digits (sp_order s + 1) (sp_dim s) i))))).
  assert (B : 0 < buf_size s) by (unfold buf_size; pose proof (Nat.pow_nonzero (sp_order s + 1) (sp_dim s)); lia).
  right. exists 0. split; [apply in_seq; lia|]. apply prod_na. right. exists d. split; [apply in_seq; lia|].
  assert (Vi : valid (repeat (sp_order s + 1) (sp_dim s)) (digits (sp_order s + 1) (sp_dim s) 0)) by (apply digits_valid; exact B).
  pose proof (local_lt s _ d Vi Hd). destruct V as [_ V]. specialize (V d Hd). rewrite (nth_indep _ zero nan) by lia. apply Hb. lia.
Qed.
End Eval.

Lemma cell_nan on s xs hints iters :
  wf_spline s -> length xs = sp_dim s -> hints_ok s hints -> 1 <= sp_dim s ->
  (forall d, d < sp_dim s -> per_of s d = true -> length (knot_of s d) = num_of s d + 2 * sp_order s + 1) ->
  get_knot_iters Fops s (combine xs hints) = Ok iters ->
  (exists idx, valid (m_dims (sp_ctrl s)) idx /\
     (forall d, d < sp_dim s -> attached s d (snd (nth d iters (zero, 0))) (nth d idx 0)) /\ is_nan (ctrl_at Fops s idx) = true) \/
  (exists d, 1 <= sp_order s /\ d < sp_dim s /\
     (is_nan (nth d xs zero) = true \/ per_of s d = true /\ is_infinity (nth d xs zero) = true)) ->
  exists s' v, load_cells Fops on s (sp_ctrl s) = Ok s' /\ cell_eval Fops on s' (combine xs hints) = Ok v /\ is_nan v = true.
Proof.
  intros W L H HD HK Ei [(idx & A & B & C)|(d & A & B & C)].
  - eapply cell_nan_control; eauto.
  - eapply cell_nan_coordinate; eauto.
Qed.
