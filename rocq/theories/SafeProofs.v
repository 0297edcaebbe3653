(** Memory safety of evaluation, in any arithmetic (no order, no rounding
    assumption: NaN and unsorted knots included). *)
From Coq Require Import List Arith Lia Bool ZArith.
From Verif Require Import Base Num MeshM SplineM SpecMesh MeshProofs TensorR SplineProofs EvalProofs DerivProofs DerivLoops.
Import ListNotations.
Open Scope nat_scope.

Section Post.
(** Faults that the numeric type itself may report. *)
Context (Flt : fault -> Prop).

(** The computation ends with a value satisfying [P] or with a fault of the
    numeric type; nothing else goes wrong. *)
Definition post {A} (P : A -> Prop) (r : res A) : Prop :=
  match r with Ok a => P a | Throw _ => False | Fault f => Flt f end.

Lemma post_bind {A B} (P : A -> Prop) (Q : B -> Prop) (r : res A) (f : A -> res B) :
  post P r -> (forall a, P a -> post Q (f a)) -> post Q (bind r f).
Proof. destruct r; simpl; auto; tauto. Qed.

Lemma post_imp {A} (P Q : A -> Prop) r : post P r -> (forall a, P a -> Q a) -> post Q r.
Proof. destruct r; simpl; auto; tauto. Qed.

Lemma post_ok {A} (P : A -> Prop) r a : r = Ok a -> P a -> post P r.
Proof. intros ->. auto. Qed.

Lemma post_foldM {X I} (P : X -> Prop) (f : X -> I -> res X) l s :
  P s -> (forall s i, In i l -> P s -> post P (f s i)) -> post P (foldM f l s).
Proof.
  revert s; induction l; intros s H0 H; cbn [foldM]; auto.
  apply post_bind with P. apply H; simpl; auto.
  intros. apply IHl; auto. intros; apply H; simpl; auto.
Qed.

Lemma post_for {X} (P : X -> Prop) lo hi s f :
  P s -> (forall s i, lo <= i < hi -> P s -> post P (f s i)) -> post P (for_ lo hi s f).
Proof. intros H0 H. apply post_foldM; auto. intros s0 i Hi. apply in_seq in Hi. apply H. lia. Qed.

Lemma post_mapM {A B} (P : nat -> B -> Prop) (f : A -> res B) l da db :
  (forall i, i < length l -> post (P i) (f (nth i l da))) ->
  post (fun l' => length l' = length l /\ forall i, i < length l -> P i (nth i l' db)) (mapM f l).
Proof.
  revert P; induction l as [|a l IH]; intros P H; cbn [mapM].
  - simpl. split; auto. intros; lia.
  - apply post_bind with (P 0).
    { apply (H 0). simpl; lia. }
    intros b Hb. apply post_bind with (fun l' => length l' = length l /\ forall i, i < length l -> P (S i) (nth i l' db)).
    { apply (IH (fun i => P (S i))). intros i Hi. apply (H (S i)). simpl; lia. }
    intros bs [H1 H2]. simpl. split; [lia|]. intros [|i] Hi; auto. apply H2. lia.
Qed.

Section Safe.
Context {T : Type} (o : ops T) (on : bool).
Notation z := (o0 o).

(** Division and fmod do not themselves report anything but a division by zero. *)
Definition quiet : Prop :=
  forall a b, post (fun _ => True) (odiv o a b) /\ post (fun _ => True) (ofmod o a b).
Hypothesis Hq : quiet.

Lemma upper_bound_post knots x : forall fuel first len,
  first + len <= length knots ->
  post (fun u => first <= u <= first + len) (upper_bound o knots x fuel first len).
Proof.
  induction fuel; intros first len Hl; cbn [upper_bound]; [simpl; lia|].
  destruct (Nat.eqb_spec len 0); [simpl; lia|]. cbv zeta.
  assert (len / 2 < len) by (apply Nat.div_lt; lia). set (h := len / 2) in *. clearbody h.
  rewrite (vget_ok _ _ z) by lia. cbn [bind]. destruct (olt o x _).
  - eapply post_imp; [apply IHfuel; lia|]. simpl; intros; lia.
  - eapply post_imp; [apply IHfuel; lia|]. simpl; intros; lia.
Qed.

Lemma wrap_coord_post p r x : post (fun _ => True) (wrap_coord o p r x).
Proof.
  unfold wrap_coord. destruct p; [|exact I].
  apply post_bind with (fun _ => True). apply Hq. intros; exact I.
Qed.

Lemma get_knot_iter_post order p knots range x hint :
  order <= hint -> hint + order + 2 <= length knots ->
  post (fun r => order <= snd r <= length knots - order - 2) (get_knot_iter o order p knots range x hint).
Proof.
  intros H1 H2. unfold get_knot_iter. rewrite usub_ok by lia. cbn [bind]. rewrite usub_ok by lia. cbn [bind].
  unfold get_knot_iter_last. apply post_bind with (fun _ => True). apply wrap_coord_post. intros x' _.
  rewrite (vget_ok _ _ z) by lia. cbn [bind].
  apply post_bind with (fun _ => True).
  { destruct (ole o _ x'); [|exact I]. rewrite (vget_ok _ _ z) by lia. exact I. }
  intros [|] _. simpl; lia.
  destruct (Nat.ltb_spec (length knots - order - 2) order); [lia|].
  eapply post_bind. apply upper_bound_post. lia. intros u Hu. cbn beta in Hu. rewrite usub_ok by lia. simpl. lia.
Qed.

Lemma get_knot_iters_post s coords :
  wf_spline s -> length coords = sp_dim s ->
  (forall d, d < sp_dim s -> sp_order s <= snd (nth d coords (z, 0)) <= last_of s d) ->
  post (good_iters o s) (get_knot_iters o s coords).
Proof.
  intros W Hc Hh. unfold get_knot_iters.
  eapply post_imp.
  - apply (post_mapM (fun d r => sp_order s <= snd r <= last_of s d) _ (seq 0 (sp_dim s)) 0 (z, 0)).
    intros d Hd. rewrite seq_length in Hd. rewrite seq_nth by auto. cbn [plus].
    rewrite (vget_ok coords d (z, 0)) by lia. cbn [bind]. rewrite vget_per by auto. cbn [bind].
    rewrite (vget_ok (sp_knots s) d []) by (rewrite (wf_knots _ W); auto). cbn [bind].
    rewrite (vget_ok (sp_range s) d (z, z)) by (rewrite (wf_range _ W); auto). cbn [bind].
    fold (knot_of s d). pose proof (wf_len _ W d Hd). specialize (Hh d Hd). unfold last_of in *.
    apply get_knot_iter_post; lia.
  - intros l [H1 H2]. rewrite seq_length in *. split; auto.
Qed.

Lemma kget_post (knots : list T) pos neg : neg <= pos -> pos - neg < length knots -> post (fun _ => True) (kget knots pos neg).
Proof.
  intros. unfold kget. destruct (Nat.leb_spec neg pos); [|lia]. rewrite (vget_ok _ _ z) by auto. exact I.
Qed.

Lemma base_spline_value_post order knots seg x so :
  so <= order -> order <= seg -> seg + order < length knots ->
  post (fun b => length b = order + 1) (base_spline_value o order knots seg x so).
Proof.
  intros Hso H1 H2. unfold base_spline_value.
  rewrite vset_ok by (rewrite repeat_length; lia). cbn [bind].
  apply post_for. { rewrite upd_length, repeat_length; auto. }
  intros b i Hi Hb. rewrite usub_ok by lia. cbn [bind].
  apply post_for; auto. intros b' j Hj Hb'.
  apply post_bind with (fun _ => True).
  { destruct (Nat.eqb_spec j 0); [exact I|]. rewrite (vget_ok _ _ z) by lia. cbn [bind].
    apply post_bind with (fun _ => True). apply kget_post; lia. intros tl _.
    apply post_bind with (fun _ => True). apply kget_post; lia. intros tr _. apply Hq. }
  intros l _. apply post_bind with (fun _ => True).
  { destruct (Nat.eqb_spec (order - i + j) order); [exact I|]. rewrite (vget_ok _ _ z) by lia. cbn [bind].
    apply post_bind with (fun _ => True). apply kget_post; lia. intros tl _.
    apply post_bind with (fun _ => True). apply kget_post; lia. intros tr _. apply Hq. }
  intros r _. rewrite vset_ok by lia. simpl. rewrite upd_length. auto.
Qed.

Lemma calc_vals_post s iters so :
  wf_spline s -> good_iters o s iters -> length so = sp_dim s ->
  (forall d, d < sp_dim s -> nth d so 0 <= sp_order s) ->
  post (good_vals s) (calc_base_spline_vals o s iters so).
Proof.
  intros W [Hl Hg] Hsl Hso. unfold calc_base_spline_vals. eapply post_imp.
  - apply (post_mapM (fun _ b => length b = sp_order s + 1) _ (seq 0 (sp_dim s)) 0 []).
    intros d Hd. rewrite seq_length in Hd. rewrite seq_nth by auto. cbn [plus].
    rewrite (vget_ok iters d (z, 0)) by lia. cbn [bind].
    rewrite (vget_ok (sp_knots s) d []) by (rewrite (wf_knots _ W); auto). cbn [bind].
    rewrite (vget_ok so d 0) by lia. cbn [bind]. fold (knot_of s d).
    specialize (Hg d Hd). pose proof (wf_len _ W d Hd). unfold last_of in Hg.
    apply base_spline_value_post; auto; lia.
  - intros l [H1 H2]. rewrite seq_length in *. split; auto.
Qed.

(** Evaluation never leaves its arrays. *)
Lemma spline_eval_safe s coords :
  wf_spline s -> length coords = sp_dim s ->
  (forall d, d < sp_dim s -> sp_order s <= snd (nth d coords (z, 0)) <= last_of s d) ->
  post (fun _ => True) (spline_eval o s coords).
Proof.
  intros W Hc Hh. destruct (get_knot_iters o s coords) as [iters|e|f] eqn:E.
  - pose proof (get_knot_iters_post s coords W Hc Hh) as P. rewrite E in P. simpl in P.
    destruct (calc_base_spline_vals o s iters (repeat (sp_order s) (sp_dim s))) as [vals|e|f] eqn:E2.
    + pose proof (calc_vals_post s iters (repeat (sp_order s) (sp_dim s)) W P (repeat_length _ _)) as P2.
      rewrite E2 in P2. simpl in P2. rewrite (spline_eval_run o s coords iters vals); auto. exact I.
      apply P2. intros d Hd. rewrite nth_repeat_lt by auto. auto.
    + pose proof (calc_vals_post s iters (repeat (sp_order s) (sp_dim s)) W P (repeat_length _ _)) as P2.
      rewrite E2 in P2. simpl in P2. destruct P2. intros d Hd. rewrite nth_repeat_lt by auto. auto.
    + pose proof (calc_vals_post s iters (repeat (sp_order s) (sp_dim s)) W P (repeat_length _ _)) as P2.
      rewrite E2 in P2. simpl in P2. unfold spline_eval. rewrite E. cbn [bind]. rewrite E2. simpl. apply P2.
      intros d Hd. rewrite nth_repeat_lt by auto. auto.
  - pose proof (get_knot_iters_post s coords W Hc Hh) as P. rewrite E in P. destruct P.
  - pose proof (get_knot_iters_post s coords W Hc Hh) as P. rewrite E in P. unfold spline_eval. rewrite E. exact P.
Qed.

(** Derivatives of order zero are the value, in every case (also failing ones). *)
Lemma derivative_zero_is_eval s coords :
  wf_spline s -> length coords = sp_dim s ->
  (forall d, d < sp_dim s -> sp_order s <= snd (fst (nth d coords (z, 0, 0))) <= last_of s d) ->
  (forall d, d < sp_dim s -> snd (nth d coords (z, 0, 0)) = 0) ->
  spline_derivative_at o on s coords = spline_eval o s (map fst coords).
Proof.
  intros W Hc Hh H0.
  assert (Hfst : forall d, nth d (map fst coords) (z, 0) = fst (nth d coords (z, 0, 0))).
  { intros d. rewrite <- (map_nth fst). reflexivity. }
  pose proof (get_knot_iters_post s (map fst coords) W) as P. rewrite map_length in P. specialize (P Hc).
  destruct (get_knot_iters o s (map fst coords)) as [iters|e|f] eqn:E.
  - assert (G : good_iters o s iters) by (apply P; intros d Hd; rewrite Hfst; auto).
    pose proof (calc_vals_post s iters (repeat (sp_order s) (sp_dim s)) W G (repeat_length _ _)) as P2.
    destruct (calc_base_spline_vals o s iters (repeat (sp_order s) (sp_dim s))) as [vals|e|f] eqn:E2.
    + assert (V : good_vals s vals) by (apply P2; intros d Hd; rewrite nth_repeat_lt by auto; auto).
      rewrite (spline_eval_run o s _ iters vals) by auto. apply (derivative_zero_run o on s coords iters vals); auto.
    + unfold spline_eval, spline_derivative_at. fold (so_of s coords).
      rewrite (so_of_small o) by (intros d Hd; rewrite H0; lia). rewrite (so_of_zero o) by (rewrite Hc; auto).
      rewrite Hc, E. cbn [bind]. rewrite E2. reflexivity.
    + unfold spline_eval, spline_derivative_at. fold (so_of s coords).
      rewrite (so_of_small o) by (intros d Hd; rewrite H0; lia). rewrite (so_of_zero o) by (rewrite Hc; auto).
      rewrite Hc, E. cbn [bind]. rewrite E2. reflexivity.
  - unfold spline_eval, spline_derivative_at. fold (so_of s coords).
    rewrite (so_of_small o) by (intros d Hd; rewrite H0; lia). rewrite E. reflexivity.
  - unfold spline_eval, spline_derivative_at. fold (so_of s coords).
    rewrite (so_of_small o) by (intros d Hd; rewrite H0; lia). rewrite E. reflexivity.
Qed.

(** The derivative loops stay inside. *)
Lemma derive_line_post order knots seg so (m : mesh T) d idx :
  wf_mesh m -> d < length (m_dims m) -> valid (m_dims m) idx -> nth d (m_dims m) 0 = order + 1 ->
  order <= seg -> seg + order < length knots -> so <= order ->
  post (fun m' => wf_mesh m' /\ m_dims m' = m_dims m)
    (derive_line o order knots seg so m
       (mkSkip (Z.of_nat (row_major (m_dims m) (set_nth idx d 0))) (Z.of_nat (prod (skipn (S d) (m_dims m)))))).
Proof.
  intros W Hd Hv Hn H1 H2 Hso. unfold derive_line.
  apply post_foldM; [auto|]. intros m1 k Hk [W1 D1]. apply in_rev in Hk. apply in_seq in Hk.
  apply post_foldM; [auto|]. intros m2 j Hj [W2 D2]. apply in_rev in Hj. apply in_seq in Hj. cbv zeta.
  replace (Z.of_nat order + Z.of_nat j - Z.of_nat k)%Z with (Z.of_nat (order + j - k)) by lia.
  replace (Z.of_nat (order + j - k) - 1)%Z with (Z.of_nat (order + j - k - 1)) by lia.
  rewrite <- D2.
  rewrite !(sk_at_line z m2 d idx) by (auto; rewrite D2; auto; lia). cbn [bind].
  apply post_bind with (fun _ => True). apply kget_post; lia. intros tr _.
  apply post_bind with (fun _ => True). apply kget_post; lia. intros tl _.
  apply post_bind with (fun _ => True). apply Hq. intros v _.
  destruct (sk_set_line z m2 d idx W2) with (pos := order + j - k) (v := v) as (m3 & E & D3 & W3 & _).
  { rewrite D2; auto. } { rewrite D2; auto. } { rewrite D2, Hn. lia. }
  rewrite E. simpl. split; auto; congruence.
Qed.

Lemma dims_loop_post (s : spline T) iters so lcp :
  wf_spline s -> good_iters o s iters -> length so = sp_dim s ->
  (forall d, d < sp_dim s -> nth d so 0 <= sp_order s) ->
  m_dims lcp = repeat (sp_order s + 1) (sp_dim s) -> wf_mesh lcp ->
  post (fun m => wf_mesh m /\ m_dims m = repeat (sp_order s + 1) (sp_dim s))
  (for_ 0 (sp_dim s) lcp (fun lcp d =>
    q <- vget so d ;;
    if q =? sp_order s then Ok lcp else
    n <- mesh_dim_size lcp d ;;
    hyper <- udiv (mesh_size lcp) n ;;
    for_ 0 hyper lcp (fun lcp i =>
      it <- mesh_begin on lcp d (digits_skip (sp_order s + 1) (sp_dim s) d i) ;;
      kn <- vget (sp_knots s) d ;;
      ki <- vget iters d ;;
      derive_line o (sp_order s) kn (snd ki) q lcp it))).
Proof.
  intros W [Hil Hik] Hsl Hso A0 B0. apply post_for; auto.
  intros m d Hd [B A]. rewrite (vget_ok so d 0) by lia. cbn [bind].
  destruct (Nat.eqb_spec (nth d so 0) (sp_order s)); [simpl; auto|].
  unfold mesh_dim_size. rewrite (vget_ok (m_dims m) d 0) by (rewrite A, repeat_length; lia).
  cbn [bind]. rewrite A, nth_repeat_lt by lia. unfold udiv.
  destruct (Nat.eqb_spec (sp_order s + 1) 0); [lia|]. cbn [bind].
  assert (Hsz : mesh_size m / (sp_order s + 1) = (sp_order s + 1) ^ (sp_dim s - 1)).
  { unfold mesh_size. replace (length (m_data m)) with (prod (m_dims m)) by (symmetry; apply B).
    rewrite ?md_size_prod. rewrite A, prod_repeat. replace (sp_dim s) with (S (sp_dim s - 1)) at 1 by lia.
    cbn [Nat.pow]. rewrite Nat.mul_comm. apply Nat.div_mul. lia. }
  rewrite Hsz. clear Hsz.
  apply post_for; auto. intros m1 i Hi [B1 A1].
  destruct (rank_digits_skip (sp_order s + 1) (sp_dim s) d i) as [[He1 He2]|]; try lia.
  assert (Hve : valid (m_dims m1) (digits_skip (sp_order s + 1) (sp_dim s) d i)) by (rewrite A1; auto).
  rewrite mesh_begin_ok; [|rewrite A1, repeat_length; lia|apply valid_set_nth_0; auto].
  cbn [bind]. rewrite (vget_ok (sp_knots s) d []) by (rewrite (wf_knots _ W); lia). cbn [bind].
  rewrite (vget_ok iters d (z, 0)) by lia. cbn [bind]. fold (knot_of s d).
  specialize (Hik d ltac:(lia)). pose proof (wf_len _ W d ltac:(lia)). unfold last_of in Hik.
  eapply post_imp.
  - apply derive_line_post; auto; try lia.
    + rewrite A1, repeat_length; lia.
    + rewrite A1, nth_repeat_lt; lia.
    + apply Hso; lia.
  - cbn beta. intros m2 [? ?]. split; auto; congruence.
Qed.

Lemma spline_derivative_safe s coords :
  wf_spline s -> length coords = sp_dim s ->
  (forall d, d < sp_dim s -> sp_order s <= snd (fst (nth d coords (z, 0, 0))) <= last_of s d) ->
  post (fun _ => True) (spline_derivative_at o on s coords).
Proof.
  intros W Hc Hh.
  assert (Hfst : forall d, nth d (map fst coords) (z, 0) = fst (nth d coords (z, 0, 0))).
  { intros d. rewrite <- (map_nth fst). reflexivity. }
  unfold spline_derivative_at. fold (so_of s coords). set (so := so_of s coords).
  destruct (existsb (fun q => sp_order s <? q) so) eqn:Ex; [exact I|].
  assert (Hsl : length so = sp_dim s) by (unfold so, so_of; rewrite map_length; auto).
  assert (Hso : forall d, d < sp_dim s -> nth d so 0 <= sp_order s).
  { intros d Hd. destruct (Nat.le_gt_cases (nth d so 0) (sp_order s)); auto.
    assert (existsb (fun q => sp_order s <? q) so = true); [|congruence].
    apply existsb_exists. exists (nth d so 0). split. apply nth_In; lia. apply Nat.ltb_lt; auto. }
  eapply post_bind. apply get_knot_iters_post; auto. rewrite map_length; auto. intros d Hd; rewrite Hfst; auto.
  intros iters G. eapply post_bind. apply calc_vals_post; auto.
  intros vals V.
  destruct (fill_ok o s iters vals W G V) as (lsv & lcp & E & A & B & C & D & _).
  cbv zeta in E |- *. rewrite E. cbn [bind].
  eapply post_bind. apply dims_loop_post; auto.
  intros m [Wm Dm]. rewrite (final_ok o s lsv m (mv z lsv) (mv z m)); auto. exact I.
Qed.

(** The value only uses the control points attached to the segments. *)
Definition same_but_ctrl (s s' : spline T) : Prop :=
  sp_order s' = sp_order s /\ sp_per s' = sp_per s /\ sp_knots s' = sp_knots s /\
  sp_range s' = sp_range s /\ m_dims (sp_ctrl s') = m_dims (sp_ctrl s) /\ wf_mesh (sp_ctrl s').

Lemma wf_same s s' : same_but_ctrl s s' -> wf_spline s -> wf_spline s'.
Proof.
  intros (A & B & C & D & E & F) W. destruct s as [so sp sk sc sr], s' as [so' sp' sk' sc' sr']. cbn in *. subst.
  destruct W as [w1 w2 w3 w4 w5 w6]. split; auto; unfold sp_dim, num_of, per_of, knot_of in *; cbn in *; try congruence.
  intros d Hd. rewrite E. apply (w6 d Hd).
Qed.

Lemma local_influence s s' coords iters :
  wf_spline s -> same_but_ctrl s s' -> get_knot_iters o s coords = Ok iters -> good_iters o s iters ->
  (forall idx, valid (m_dims (sp_ctrl s)) idx ->
     (forall d, d < sp_dim s -> exists a, a <= sp_order s /\ nth d idx 0 = gidx o s iters d a) ->
     mesh_get (sp_ctrl s') idx = mesh_get (sp_ctrl s) idx) ->
  spline_eval o s' coords = spline_eval o s coords.
Proof.
  intros W S E G H. assert (W' := wf_same _ _ S W). destruct S as (A & B & C & D & F & K).
  assert (E' : get_knot_iters o s' coords = Ok iters).
  { rewrite <- E. unfold get_knot_iters, sp_dim. rewrite A, B, C, D. reflexivity. }
  assert (Ec : forall q, calc_base_spline_vals o s' iters q = calc_base_spline_vals o s iters q).
  { intros q. unfold calc_base_spline_vals, sp_dim. rewrite A, B, C. reflexivity. }
  assert (G' : good_iters o s' iters).
  { destruct G as [g1 g2]. split; unfold sp_dim, last_of, knot_of in *; rewrite ?A, ?B, ?C; auto. }
  assert (Hdim : sp_dim s' = sp_dim s) by (unfold sp_dim; rewrite B; auto).
  pose proof (calc_vals_post s iters (repeat (sp_order s) (sp_dim s)) W G (repeat_length _ _)) as P2.
  assert (P2' := P2 (fun d Hd => eq_ind_r (fun n => n <= sp_order s) (le_n _) (nth_repeat_lt (sp_order s) 0 (sp_dim s) d Hd))).
  clear P2.
  destruct (calc_base_spline_vals o s iters (repeat (sp_order s) (sp_dim s))) as [vals|e|f] eqn:E2.
  - simpl in P2'.
    assert (V' : good_vals s' vals).
    { destruct P2' as [v1 v2]. split; unfold good_vals; rewrite ?Hdim, ?A; auto. }
    rewrite (spline_eval_run o s' coords iters vals); auto.
    2:{ rewrite Ec, A, Hdim. auto. }
    rewrite (spline_eval_run o s coords iters vals); auto.
    f_equal. unfold eval_value, buf_size. rewrite A, Hdim.
    assert (Hl : forall l a, (forall i, In i l -> i < (sp_order s + 1) ^ sp_dim s) ->
      fold_left (fun v i => oadd o v (omul o (coef_of o s' vals (unrank (repeat (sp_order s + 1) (sp_dim s)) i))
          (ctrl_at o s' (gmap o s' iters (unrank (repeat (sp_order s + 1) (sp_dim s)) i))))) l a =
      fold_left (fun v i => oadd o v (omul o (coef_of o s vals (unrank (repeat (sp_order s + 1) (sp_dim s)) i))
          (ctrl_at o s (gmap o s iters (unrank (repeat (sp_order s + 1) (sp_dim s)) i))))) l a).
    { induction l; intros a0 Hl; cbn [fold_left]; auto.
      set (idx := unrank (repeat (sp_order s + 1) (sp_dim s)) a).
      assert (Hv : valid (repeat (sp_order s + 1) (sp_dim s)) idx).
      { apply unrank_valid. rewrite prod_repeat. apply Hl. simpl; auto. }
      assert (Eg : gmap o s' iters idx = gmap o s iters idx).
      { unfold gmap. rewrite Hdim. apply map_ext. intros d. unfold gidx, per_of, num_of. rewrite A, B, F. reflexivity. }
      assert (Ek : ctrl_at o s' (gmap o s' iters idx) = ctrl_at o s (gmap o s iters idx)).
      { rewrite Eg.
        assert (Hgv : valid (m_dims (sp_ctrl s)) (gmap o s iters idx)) by (apply gmap_valid; auto).
        pose proof (ctrl_get o s (gmap o s iters idx) W Hgv) as X.
        pose proof (ctrl_get o s' (gmap o s iters idx) W' ltac:(rewrite F; auto)) as Y.
        rewrite H in Y; auto. congruence.
        intros d Hd. exists (nth d idx 0). split. pose proof (local_lt s idx d Hv Hd). lia.
        unfold gmap. rewrite nth_map_seq by auto. reflexivity. }
      rewrite Ek. assert (Ecf : coef_of o s' vals idx = coef_of o s vals idx).
      { unfold coef_of. rewrite Hdim. reflexivity. }
      rewrite Ecf. apply IHl. intros; apply Hl; simpl; auto. }
    apply Hl. intros i Hi. apply in_seq in Hi. lia.
  - unfold spline_eval. rewrite E, E'. cbn [bind]. rewrite Ec, A, Hdim, E2. reflexivity.
  - unfold spline_eval. rewrite E, E'. cbn [bind]. rewrite Ec, A, Hdim, E2. reflexivity.
Qed.
End Safe.
End Post.

(** The numeric type either computes or reports a division by zero. *)
Definition divides {T} (o : ops T) : Prop := forall a b,
  ((exists c, odiv o a b = Ok c) \/ odiv o a b = Fault DivByZero) /\
  ((exists c, ofmod o a b = Ok c) \/ ofmod o a b = Fault DivByZero).

(** As in IEEE arithmetic: it always computes. *)
Definition total_ops {T} (o : ops T) : Prop := forall a b,
  (exists c, odiv o a b = Ok c) /\ (exists c, ofmod o a b = Ok c).

(** [a <= x] and [x < a] exclude each other (true of IEEE comparisons, NaN
    included). *)
Definition sane_order {T} (o : ops T) : Prop := forall a x, ole o a x = true -> olt o x a = false.

Lemma divides_quiet {T} (o : ops T) : divides o -> quiet (fun f => f = DivByZero) o.
Proof. intros H a b. destruct (H a b) as [[[c ->]| ->] [[e ->]| ->]]; simpl; auto. Qed.
Lemma total_quiet {T} (o : ops T) : total_ops o -> quiet (fun _ => False) o.
Proof. intros H a b. destruct (H a b) as [[c ->] [e ->]]; simpl; auto. Qed.

Lemma post_div {A} (r : res A) : post (fun f => f = DivByZero) (fun _ => True) r -> (exists v, r = Ok v) \/ r = Fault DivByZero.
Proof. destruct r; simpl; intros H; eauto; try tauto. subst; auto. Qed.
Lemma post_total {A} (r : res A) : post (fun _ => False) (fun _ => True) r -> exists v, r = Ok v.
Proof. destruct r; simpl; intros H; eauto; tauto. Qed.
