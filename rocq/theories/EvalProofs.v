(** Evaluation of splines: memory safety and value, for any arithmetic. *)
From Coq Require Import List Arith Lia Bool ZArith Reals Lra.
From Verif Require Import Base Num MeshM SplineM SpecMesh SpecBand SpecSpline MeshProofs SumR MulProofs
  SplineProofs TensorR.
From Verif Require Export SpecSplineObj.
Import ListNotations.
Open Scope nat_scope.

Lemma nth_map_seq {A} (f : nat -> A) n i d : i < n -> nth i (map f (seq 0 n)) d = f i.
Proof.
  intros. rewrite (nth_indep _ d (f 0)) by (rewrite map_length, seq_length; auto).
  rewrite map_nth, seq_nth by auto. reflexivity.
Qed.

Lemma length_map_seq {A} (f : nat -> A) n : length (map f (seq 0 n)) = n.
Proof. rewrite map_length, seq_length; auto. Qed.

Section Generic.
Context {T : Type} (o : ops T) (on : bool).
Notation z := (o0 o).
Local Notation ctrl_at := (ctrl_at o).
Implicit Types s : spline T.

Definition good_iters (s : spline T) (iters : list (T * nat)) : Prop :=
  length iters = sp_dim s /\
  forall d, d < sp_dim s -> sp_order s <= snd (nth d iters (z, 0)) <= last_of s d.

(** The control point addressed by local index [a]. *)
Definition gidx (s : spline T) (iters : list (T * nat)) (d a : nat) : nat :=
  let i := a + (snd (nth d iters (z, 0)) - sp_order s) in
  if per_of s d then i mod num_of s d else i.

Lemma vget_per s d : d < sp_dim s -> vget (sp_per s) d = Ok (per_of s d).
Proof. intros. apply vget_ok; auto. Qed.

Lemma shifted_index_ok s iters d a :
  wf_spline s -> good_iters s iters -> d < sp_dim s ->
  shifted_index s iters d a = Ok (gidx s iters d a).
Proof.
  intros W [Hl Hg] Hd. unfold shifted_index. specialize (Hg d Hd). pose proof (wf_len _ W d Hd) as HL.
  rewrite (vget_ok iters d (z, 0)) by lia. cbn [bind].
  rewrite (vget_ok (sp_knots s) d []) by (rewrite (wf_knots _ W); auto). cbn [bind].
  unfold mesh_dim_size. rewrite (vget_ok (m_dims (sp_ctrl s)) d 0) by (rewrite (wf_dims _ W); auto). cbn [bind].
  fold (knot_of s d) (num_of s d). set (k := snd (nth d iters (z, 0))) in *.
  assert (E : (if k =? 0 then Ok 0
         else if k =? length (knot_of s d)
              then n1 <- usub (num_of s d) (sp_order s) ;; usub n1 1
              else usub k (sp_order s)) = Ok (k - sp_order s)).
  { unfold last_of in Hg. destruct (Nat.eqb_spec k 0). f_equal; lia.
    destruct (Nat.eqb_spec k (length (knot_of s d))); [lia|]. apply usub_ok; lia. }
  rewrite E. cbn [bind]. rewrite vget_per by auto. cbn [bind].
  unfold gidx. fold k. pose proof (wf_num _ W d Hd) as Hn. destruct (per_of s d); auto.
  unfold umod. destruct (Nat.eqb_spec (num_of s d) 0); auto; lia.
Qed.

Lemma gidx_lt s iters d a :
  wf_spline s -> good_iters s iters -> d < sp_dim s -> a <= sp_order s ->
  gidx s iters d a < num_of s d.
Proof.
  intros W [Hl Hg] Hd Ha. specialize (Hg d Hd). pose proof (wf_len _ W d Hd) as HL.
  pose proof (wf_num _ W d Hd) as Hn. unfold gidx, last_of in *. destruct (per_of s d).
  - apply Nat.mod_upper_bound. lia.
  - lia.
Qed.

Definition gmap (s : spline T) (iters : list (T * nat)) (idx : list nat) : list nat :=
  map (fun d => gidx s iters d (nth d idx 0)) (seq 0 (sp_dim s)).

Lemma gmap_valid s iters idx :
  wf_spline s -> good_iters s iters -> valid (repeat (sp_order s + 1) (sp_dim s)) idx ->
  valid (m_dims (sp_ctrl s)) (gmap s iters idx).
Proof.
  intros W G Hv. assert (Hl := valid_length _ _ Hv). rewrite repeat_length in Hl.
  apply valid_nth.
  - unfold gmap. rewrite length_map_seq. symmetry. apply (wf_dims _ W).
  - intros d Hd. rewrite (wf_dims _ W) in Hd. unfold gmap. rewrite nth_map_seq by auto.
    apply gidx_lt; auto.
    assert (nth d idx 0 < nth d (repeat (sp_order s + 1) (sp_dim s)) 0).
    { apply valid_nth; auto. rewrite repeat_length; auto. rewrite repeat_length; auto. }
    rewrite nth_repeat_lt in H by auto. lia.
Qed.

(** Product of the base spline values, in the order of the code. *)
Definition coef_of (s : spline T) (vals : list (list T)) (idx : list nat) : T :=
  fold_left (fun c d => omul o c (nth (nth d idx 0) (nth d vals []) z)) (seq 0 (sp_dim s)) (o1 o).

Definition good_vals (s : spline T) (vals : list (list T)) : Prop :=
  length vals = sp_dim s /\ forall d, d < sp_dim s -> length (nth d vals []) = sp_order s + 1.

Lemma local_lt (s : spline T) idx d : valid (repeat (sp_order s + 1) (sp_dim s)) idx -> d < sp_dim s ->
  nth d idx 0 < sp_order s + 1.
Proof.
  intros Hv Hd. assert (Hl := valid_length _ _ Hv). rewrite repeat_length in Hl.
  assert (nth d idx 0 < nth d (repeat (sp_order s + 1) (sp_dim s)) 0).
  { apply valid_nth; auto. rewrite repeat_length; auto. rewrite repeat_length; auto. }
  rewrite nth_repeat_lt in H by auto. auto.
Qed.

(** The inner loop of operator() (index array updated in place). *)
Lemma eval_inner_ok s iters vals idx :
  wf_spline s -> good_iters s iters -> good_vals s vals ->
  valid (repeat (sp_order s + 1) (sp_dim s)) idx ->
  for_ 0 (sp_dim s) (o1 o, idx) (fun st d =>
        let '(coef, ind_arr) := st in
        a <- vget ind_arr d ;;
        bs <- vget vals d ;;
        b <- vget bs a ;;
        a' <- shifted_index s iters d a ;;
        ind_arr' <- vset ind_arr d a' ;;
        Ok (omul o coef b, ind_arr'))
  = Ok (coef_of s vals idx, gmap s iters idx).
Proof.
  intros W G [Hvl Hv] Hi. assert (Hl := valid_length _ _ Hi). rewrite repeat_length in Hl.
  match goal with |- for_ 0 ?hi ?s0 ?f = _ =>
    destruct (for_inv (fun d st => length (snd st) = sp_dim s /\
      fst st = fold_left (fun c d => omul o c (nth (nth d idx 0) (nth d vals []) z)) (seq 0 d) (o1 o) /\
      forall e, e < sp_dim s -> nth e (snd st) 0 =
        if e <? d then gidx s iters e (nth e idx 0) else nth e idx 0) 0 hi s0 f) as (st & E & H1 & H2 & H3) end.
  - lia.
  - simpl. split; auto.
  - intros d [coef ind] Hd (H1 & H2 & H3). cbn [fst snd] in *.
    rewrite (vget_ok ind d 0) by lia. cbn [bind].
    rewrite (vget_ok vals d []) by lia. cbn [bind].
    rewrite (H3 d) by lia. destruct (Nat.ltb_spec d d); [lia|].
    pose proof (local_lt s idx d Hi ltac:(lia)).
    rewrite (vget_ok _ _ z) by (rewrite Hv by lia; auto). cbn [bind].
    rewrite shifted_index_ok by (auto; lia). cbn [bind].
    rewrite vset_ok by lia. cbn [bind]. eexists; split; [reflexivity|]. cbn [fst snd].
    rewrite upd_length. split; auto. split.
    + rewrite Nat.add_1_r, seq_S, fold_left_app. simpl. rewrite <- H2. reflexivity.
    + intros e He. destruct (Nat.eq_dec e d).
      * subst e. rewrite nth_upd_same by lia. destruct (Nat.ltb_spec d (d+1)); auto; lia.
      * rewrite nth_upd_other by auto. rewrite H3 by auto.
        destruct (Nat.ltb_spec e d), (Nat.ltb_spec e (d+1)); auto; lia.
  - rewrite E. f_equal. destruct st as [coef ind]; cbn [fst snd] in *. f_equal; auto.
    apply (nth_ext' _ _ 0).
    + unfold gmap. rewrite length_map_seq. auto.
    + intros e He. rewrite H1 in He. rewrite H3 by auto. unfold gmap. rewrite nth_map_seq by auto.
      destruct (Nat.ltb_spec e (sp_dim s)); auto; lia.
Qed.

(** The same with separate arrays (derivative_at). *)
Lemma deriv_inner_ok s iters vals idx :
  wf_spline s -> good_iters s iters -> good_vals s vals ->
  valid (repeat (sp_order s + 1) (sp_dim s)) idx ->
  for_ 0 (sp_dim s) (o1 o, repeat 0 (sp_dim s)) (fun st d =>
        let '(coef, ind_arr) := st in
        a <- vget idx d ;;
        bs <- vget vals d ;;
        b <- vget bs a ;;
        a' <- shifted_index s iters d a ;;
        ind_arr' <- vset ind_arr d a' ;;
        Ok (omul o coef b, ind_arr'))
  = Ok (coef_of s vals idx, gmap s iters idx).
Proof.
  intros W G [Hvl Hv] Hi. assert (Hl := valid_length _ _ Hi). rewrite repeat_length in Hl.
  match goal with |- for_ 0 ?hi ?s0 ?f = _ =>
    destruct (for_inv (fun d st => length (snd st) = sp_dim s /\
      fst st = fold_left (fun c d => omul o c (nth (nth d idx 0) (nth d vals []) z)) (seq 0 d) (o1 o) /\
      forall e, e < d -> nth e (snd st) 0 = gidx s iters e (nth e idx 0)) 0 hi s0 f) as (st & E & H1 & H2 & H3) end.
  - lia.
  - simpl. rewrite repeat_length. split; auto. split; auto. intros; lia.
  - intros d [coef ind] Hd (H1 & H2 & H3). cbn [fst snd] in *.
    rewrite (vget_ok idx d 0) by lia. cbn [bind].
    rewrite (vget_ok vals d []) by lia. cbn [bind].
    pose proof (local_lt s idx d Hi ltac:(lia)).
    rewrite (vget_ok _ _ z) by (rewrite Hv by lia; auto). cbn [bind].
    rewrite shifted_index_ok by (auto; lia). cbn [bind].
    rewrite vset_ok by lia. cbn [bind]. eexists; split; [reflexivity|]. cbn [fst snd].
    rewrite upd_length. split; auto. split.
    + rewrite Nat.add_1_r, seq_S, fold_left_app. simpl. rewrite <- H2. reflexivity.
    + intros e He. destruct (Nat.eq_dec e d).
      * subst e. rewrite nth_upd_same by lia. auto.
      * rewrite nth_upd_other by auto. apply H3. lia.
  - rewrite E. f_equal. destruct st as [coef ind]; cbn [fst snd] in *. f_equal; auto.
    apply (nth_ext' _ _ 0).
    + unfold gmap. rewrite length_map_seq. auto.
    + intros e He. rewrite H1 in He. rewrite H3 by auto. unfold gmap. rewrite nth_map_seq by auto. auto.
Qed.

Lemma for_pure {A} n (F : A -> nat -> res A) (g : A -> nat -> A) a :
  (forall v i, i < n -> F v i = Ok (g v i)) -> for_ 0 n a F = Ok (fold_left g (seq 0 n) a).
Proof.
  intros H. destruct (for_inv (fun i v => v = fold_left g (seq 0 i) a) 0 n a F) as (v & E & Hv); auto.
  - lia.
  - intros i v Hi ->. rewrite H by lia. eexists; split; eauto.
    rewrite Nat.add_1_r, seq_S, fold_left_app. reflexivity.
  - rewrite E, Hv. reflexivity.
Qed.

Lemma ctrl_get s idx : wf_spline s -> valid (m_dims (sp_ctrl s)) idx ->
  mesh_get (sp_ctrl s) idx = Ok (ctrl_at s idx).
Proof. intros W H. apply mesh_get_ok; auto. apply (wf_ctrl _ W). Qed.

(** Value of operator() once the segments and base spline values are known. *)
Definition eval_value (s : spline T) (iters : list (T * nat)) (vals : list (list T)) : T :=
  fold_left (fun v i =>
      let idx := unrank (repeat (sp_order s + 1) (sp_dim s)) i in
      oadd o v (omul o (coef_of s vals idx) (ctrl_at s (gmap s iters idx))))
    (seq 0 (buf_size s)) z.

Lemma spline_eval_run s coords iters vals :
  wf_spline s -> get_knot_iters o s coords = Ok iters ->
  calc_base_spline_vals o s iters (repeat (sp_order s) (sp_dim s)) = Ok vals ->
  good_iters s iters -> good_vals s vals ->
  spline_eval o s coords = Ok (eval_value s iters vals).
Proof.
  intros W E1 E2 G V. unfold spline_eval. rewrite E1. cbn [bind]. rewrite E2. cbn [bind].
  apply for_pure. intros v i Hi. unfold buf_size in Hi. rewrite <- prod_repeat in Hi.
  rewrite md_dimwise_unrank by auto. cbn [bind].
  rewrite eval_inner_ok by (auto using unrank_valid). cbn [bind].
  rewrite ctrl_get by (auto using gmap_valid, unrank_valid). reflexivity.
Qed.

(** Knot iterators of all dimensions. *)
Lemma get_knot_iters_ok s coords (xs' : list T) :
  total_order o -> wf_spline s -> length coords = sp_dim s -> length xs' = sp_dim s ->
  (forall d, d < sp_dim s ->
     wrap_coord o (per_of s d) (nth d (sp_range s) (z, z)) (fst (nth d coords (z, 0))) = Ok (nth d xs' z) /\
     sp_order s <= snd (nth d coords (z, 0)) <= last_of s d /\
     sorted_on o z (knot_of s d) (sp_order s) (last_of s d)) ->
  exists iters, get_knot_iters o s coords = Ok iters /\ good_iters s iters /\
    forall d, d < sp_dim s -> fst (nth d iters (z, 0)) = nth d xs' z /\
       seg_in o z (knot_of s d) (sp_order s) (last_of s d) (nth d xs' z) (snd (nth d iters (z, 0))).
Proof.
  intros Hto W Hc Hx H.
  set (F := fun d =>
    c <- vget coords d ;;
    p <- vget (sp_per s) d ;;
    kn <- vget (sp_knots s) d ;;
    rg <- vget (sp_range s) d ;;
    get_knot_iter o (sp_order s) p kn rg (fst c) (snd c)).
  assert (Hd : forall d, d < sp_dim s -> exists k, F d = Ok (nth d xs' z, k) /\
     seg_in o z (knot_of s d) (sp_order s) (last_of s d) (nth d xs' z) k).
  { intros d Hd. destruct (H d Hd) as (H1 & H2 & H3). unfold F.
    rewrite (vget_ok coords d (z, 0)) by lia. cbn [bind]. rewrite vget_per by auto. cbn [bind].
    rewrite (vget_ok (sp_knots s) d []) by (rewrite (wf_knots _ W); auto). cbn [bind].
    rewrite (vget_ok (sp_range s) d (z, z)) by (rewrite (wf_range _ W); auto). cbn [bind].
    fold (knot_of s d). pose proof (wf_len _ W d Hd). unfold last_of in *.
    apply get_knot_iter_ok; auto; lia. }
  assert (Hex : forall n, n <= sp_dim s -> exists l, mapM F (seq 0 n) = Ok l /\ length l = n /\
     forall d, d < n -> fst (nth d l (z, 0)) = nth d xs' z /\
       seg_in o z (knot_of s d) (sp_order s) (last_of s d) (nth d xs' z) (snd (nth d l (z, 0)))).
  { induction n; intros Hn.
    - exists []. split; auto. split; auto. intros; lia.
    - destruct IHn as (l & El & Hll & Hl); [lia|]. destruct (Hd n) as (k & Ek & Hk); [lia|].
      exists (l ++ [(nth n xs' z, k)]). split; [|split].
      + apply (mapM_ok_nth _ _ _ 0 (z, 0)).
        * rewrite app_length, seq_length. simpl. lia.
        * rewrite seq_length. intros i Hi. rewrite seq_nth by auto. simpl.
          destruct (Nat.eq_dec i n).
          -- subst i. rewrite app_nth2 by lia. rewrite Hll, Nat.sub_diag. simpl. auto.
          -- rewrite app_nth1 by lia.
             rewrite <- (mapM_nth _ _ _ i 0 (z, 0) El) by (rewrite seq_length; lia).
             rewrite seq_nth by lia. reflexivity.
      + rewrite app_length. simpl. lia.
      + intros d Hdn. destruct (Nat.eq_dec d n).
        * subst d. rewrite app_nth2 by lia. rewrite Hll, Nat.sub_diag. simpl. auto.
        * rewrite app_nth1 by lia. apply Hl. lia. }
  destruct (Hex (sp_dim s)) as (l & El & Hll & Hl); auto.
  exists l. split; auto. split; auto. split; auto.
  intros d Hdd. destruct (Hl d Hdd) as (_ & H2 & _). auto.
Qed.

End Generic.
