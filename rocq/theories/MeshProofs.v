From Coq Require Import List Arith Lia Bool ZArith.
From Verif Require Import Base MeshM SpecMesh.
Import ListNotations.

Lemma md_size_prod_aux dims a : fold_left (fun s d => s * d) dims a = a * prod dims.
Proof.
  revert a; induction dims; intros b; simpl; [lia|]. rewrite IHdims. ring.
Qed.
Lemma md_size_prod dims : md_size dims = prod dims.
Proof. unfold md_size. rewrite md_size_prod_aux. lia. Qed.

Lemma valid_length dims idx : valid dims idx -> length idx = length dims.
Proof. unfold valid. induction 1; simpl; auto. Qed.

Lemma valid_cons n dims i idx : valid (n :: dims) (i :: idx) <-> i < n /\ valid dims idx.
Proof. unfold valid. split; intros H. inversion H; auto. constructor; tauto. Qed.

Lemma row_major_lt dims idx : valid dims idx -> row_major dims idx < prod dims.
Proof.
  revert idx; induction dims; intros [|i idx] H; simpl; try lia; try (inversion H; fail).
  apply valid_cons in H as [H1 H2]. specialize (IHdims _ H2). nia.
Qed.

Lemma row_major_inj dims idx idx' :
  valid dims idx -> valid dims idx' -> row_major dims idx = row_major dims idx' -> idx = idx'.
Proof.
  revert idx idx'; induction dims; intros [|i idx] [|i' idx'] H H' E;
    try (inversion H; fail); try (inversion H'; fail); auto.
  apply valid_cons in H as [H1 H2]. apply valid_cons in H' as [H1' H2'].
  simpl in E.
  pose proof (row_major_lt _ _ H2). pose proof (row_major_lt _ _ H2').
  assert (i = i').
  { destruct (Nat.lt_trichotomy i i') as [L|[L|L]]; auto; exfalso; nia. }
  subst. f_equal. apply IHdims; auto. lia.
Qed.

Lemma row_major_surj dims k :
  k < prod dims -> exists idx, valid dims idx /\ row_major dims idx = k.
Proof.
  revert k; induction dims as [|n dims IH]; intros k Hk; simpl in *.
  - exists []. split; [constructor | lia].
  - assert (prod dims <> 0) by nia.
    destruct (IH (k mod prod dims)) as (idx & Hv & E).
    { apply Nat.mod_upper_bound; auto. }
    exists (k / prod dims :: idx). split.
    + apply valid_cons. split; auto. apply Nat.div_lt_upper_bound; auto. lia.
    + simpl. rewrite E. rewrite (Nat.div_mod k (prod dims)) at 3 by auto. lia.
Qed.

Lemma skipn_nth {A} (l : list A) k d : k < length l -> skipn k l = nth k l d :: skipn (S k) l.
Proof.
  revert k; induction l; intros k H; simpl in *; [lia|].
  destruct k; simpl; auto. apply IHl; lia.
Qed.

Section Indexing.
Variables (dims idx : list nat).
Hypothesis Hlen : length idx = length dims.

Lemma md_indexing_spec : md_indexing dims idx = Ok (row_major dims idx).
Proof.
  unfold md_indexing.
  match goal with |- context[for_ 0 ?hi ?s0 ?f] =>
    destruct (for_inv (fun d s => fst s = row_major (skipn (length dims - d) dims) (skipn (length dims - d) idx)
                       /\ snd s = prod (skipn (length dims - d) dims)) 0 hi s0 f) as (s' & E & H1 & H2) end.
  - lia.
  - rewrite Nat.sub_0_r. rewrite !skipn_all2 by lia. simpl; auto.
  - intros d [ind sub] Hd [H1 H2]; simpl in H1, H2.
    rewrite usub_ok by lia. simpl.
    rewrite (vget_ok idx _ 0), (vget_ok dims _ 0) by lia. simpl.
    eexists; split; [reflexivity|]. simpl.
    replace (length dims - (d + 1)) with (length dims - d - 1) by lia.
    set (k := length dims - d - 1).
    rewrite (skipn_nth dims k 0), (skipn_nth idx k 0) by (subst k; lia).
    replace (S k) with (length dims - d) by (subst k; lia).
    simpl. rewrite H1, H2. split; lia.
  - rewrite E. simpl. f_equal. rewrite H1. rewrite Nat.sub_diag. reflexivity.
Qed.

Lemma valid_nth : valid dims idx <-> (forall k, k < length dims -> nth k idx 0 < nth k dims 0).
Proof.
  clear -Hlen. revert idx Hlen. induction dims as [|n l IH]; intros [|i idx0] Hlen; simpl in *; try discriminate.
  - split; intros; [lia | constructor].
  - rewrite valid_cons. rewrite (IH idx0) by lia. split.
    + intros [H1 H2] [|k] Hk; auto. apply H2. lia.
    + intros H. split. apply (H 0); lia. intros k Hk. apply (H (S k)). lia.
Qed.

Lemma md_indexing_safe_valid on :
  valid dims idx -> md_indexing_safe on dims idx = Ok (row_major dims idx).
Proof.
  intros Hv. rewrite <- md_indexing_spec. unfold md_indexing_safe, md_indexing.
  f_equal. apply for_ext. intros [ind sub] d Hd.
  rewrite usub_ok by lia. simpl.
  rewrite (vget_ok idx _ 0), (vget_ok dims _ 0) by lia. simpl.
  pose proof (proj1 valid_nth Hv (length dims - (d+1))) as L.
  specialize (L ltac:(lia)).
  apply Nat.ltb_lt in L. rewrite L. unfold intp_assert. rewrite andb_false_r. reflexivity.
Qed.

Lemma md_indexing_safe_off : md_indexing_safe false dims idx = Ok (row_major dims idx).
Proof. rewrite <- md_indexing_spec. reflexivity. Qed.

(** Early exit of a loop whose body either returns or throws. *)
Lemma md_indexing_safe_invalid :
  ~ valid dims idx -> md_indexing_safe true dims idx = Throw AssertFailed.
Proof.
  intros Hv. unfold md_indexing_safe, for_. rewrite Nat.sub_0_r.
  set (f := fun (s : nat * nat) (d : nat) => _).
  assert (Hf : forall s d, d < length dims ->
     f s d = if nth (length dims - (d+1)) idx 0 <? nth (length dims - (d+1)) dims 0
             then Ok (fst s + nth (length dims - (d+1)) idx 0 * snd s, snd s * nth (length dims - (d+1)) dims 0)
             else Throw AssertFailed).
  { intros [ind sub] d Hd. unfold f. rewrite usub_ok by lia. simpl.
    rewrite (vget_ok idx _ 0), (vget_ok dims _ 0) by lia. simpl.
    unfold intp_assert. destruct (_ <? _); reflexivity. }
  assert (forall l s, (forall d, In d l -> d < length dims) ->
     (exists d, In d l /\ nth (length dims - (d+1)) dims 0 <= nth (length dims - (d+1)) idx 0) ->
     foldM f l s = Throw AssertFailed) as K.
  { induction l as [|d l IH]; intros s Hl (d0 & Hin & Hd0); simpl.
    - destruct Hin.
    - rewrite Hf by (apply Hl; simpl; auto).
      destruct (Nat.ltb_spec (nth (length dims - (d+1)) idx 0) (nth (length dims - (d+1)) dims 0)).
      + simpl. apply IH. intros; apply Hl; simpl; auto.
        destruct Hin as [->|Hin]; [lia|]. eauto.
      + reflexivity. }
  rewrite K; auto.
  - intros d. rewrite in_seq. lia.
  - rewrite valid_nth in Hv.
    assert (exists k, k < length dims /\ nth k dims 0 <= nth k idx 0) as (k & Hk & Hk').
    { destruct (Forall_Exists_dec (fun k => nth k idx 0 < nth k dims 0)
        (fun k => lt_dec _ _) (seq 0 (length dims))) as [F|F].
      - exfalso. apply Hv. rewrite Forall_forall in F. intros k Hk. apply F. rewrite in_seq. lia.
      - rewrite Exists_exists in F. destruct F as (k & Hin & Hk). rewrite in_seq in Hin.
        exists k. split; lia. }
    exists (length dims - (k+1)). rewrite in_seq. split; [lia|].
    replace (length dims - (length dims - (k + 1) + 1)) with k by lia. auto.
Qed.
End Indexing.

(** dimwise_indices *)
Lemma skipn_upd {A} (l : list A) i k a :
  i < k -> skipn k (upd l i a) = skipn k l.
Proof.
  revert i k; induction l; intros i k H; simpl.
  - destruct i; auto.
  - destruct i, k; try lia; simpl; auto. apply IHl. lia.
Qed.

Lemma md_dimwise_indices_spec dims k :
  k < prod dims ->
  exists idx, md_dimwise_indices dims k = Ok idx /\ valid dims idx /\ row_major dims idx = k.
Proof.
  intros Hk. unfold md_dimwise_indices.
  match goal with |- context[for_ 0 ?hi ?s0 ?f] =>
    destruct (for_inv (fun d s =>
        length (snd s) = length dims /\
        fst s < prod (firstn (length dims - d) dims) /\
        valid (skipn (length dims - d) dims) (skipn (length dims - d) (snd s)) /\
        fst s * prod (skipn (length dims - d) dims)
        + row_major (skipn (length dims - d) dims) (skipn (length dims - d) (snd s)) = k)
      0 hi s0 f) as (s' & E & H1 & H2 & H3 & H4) end.
  - lia.
  - simpl. rewrite repeat_length, Nat.sub_0_r, firstn_all.
    rewrite !skipn_all2 by (try rewrite repeat_length; lia). simpl.
    repeat split; auto. constructor. lia.
  - intros d [total indices] Hd (H1 & H2 & H3 & H4); simpl in *.
    rewrite usub_ok by lia. simpl.
    rewrite (vget_ok dims _ 0) by lia. simpl.
    set (j := length dims - (d+1)) in *.
    assert (Ej : length dims - d = S j) by lia.
    rewrite Ej in *.
    assert (Hfn : firstn (S j) dims = firstn j dims ++ [nth j dims 0]).
    { clear - Hd j Ej. clearbody j. assert (j < length dims) by lia. clear -H.
      revert j H. induction dims; intros j H; simpl in *; [lia|].
      destruct j; simpl; auto. f_equal. apply IHdims. lia. }
    assert (Hp : prod (firstn (S j) dims) = prod (firstn j dims) * nth j dims 0).
    { rewrite Hfn. generalize (firstn j dims). intros l. induction l; simpl; lia. }
    rewrite Hp in H2.
    unfold umod, udiv. destruct (Nat.eqb_spec (nth j dims 0) 0) as [Z|Z]; [nia|].
    simpl. rewrite vset_ok by lia. simpl.
    eexists; split; [reflexivity|]. simpl.
    fold j.
    rewrite upd_length. split; auto. split.
    { apply Nat.div_lt_upper_bound; auto. rewrite Nat.mul_comm. exact H2. }
    rewrite (skipn_nth dims j 0) by lia.
    rewrite (skipn_nth (upd indices j _) j 0) by (rewrite upd_length; lia).
    rewrite nth_upd_same by lia.
    rewrite skipn_upd by lia.
    split.
    { apply valid_cons. split; auto. apply Nat.mod_upper_bound; auto. }
    cbn [row_major prod].
    pose proof (Nat.div_mod total (nth j dims 0) Z) as Hdm.
    rewrite <- H4. rewrite Hdm at 3. ring.
  - rewrite E. simpl. exists (snd s'). rewrite Nat.sub_diag in *. simpl in *.
    split; auto. split; auto. lia.
Qed.

Lemma md_dimwise_indices_row_major dims idx :
  valid dims idx -> md_dimwise_indices dims (row_major dims idx) = Ok idx.
Proof.
  intros H. destruct (md_dimwise_indices_spec dims (row_major dims idx)) as (idx' & E & Hv & Er).
  { apply row_major_lt; auto. }
  rewrite E. f_equal. eapply row_major_inj; eauto.
Qed.

(** Strides *)
Lemma md_dim_acc_size_spec dims k :
  k <= length dims -> md_dim_acc_size dims k = Ok (prod (skipn (length dims - k) dims)).
Proof.
  intros Hk. unfold md_dim_acc_size.
  match goal with |- context[for_ 0 ?hi ?s0 ?f] =>
    destruct (for_inv (fun d s => s = prod (skipn (length dims - d) dims)) 0 hi s0 f) as (s' & E & H) end.
  - lia.
  - rewrite Nat.sub_0_r, skipn_all2 by lia. auto.
  - intros d s Hd H. rewrite usub_ok by lia. simpl. rewrite (vget_ok dims _ 0) by lia. simpl.
    eexists; split; eauto. rewrite (skipn_nth dims (length dims - (d+1)) 0) by lia.
    replace (S (length dims - (d+1))) with (length dims - d) by lia. simpl. lia.
  - rewrite E, H. auto.
Qed.

Lemma upd_set_nth (l : list nat) i a : upd l i a = set_nth l i a.
Proof. revert i; induction l; destruct i; simpl; auto. f_equal; auto. Qed.

Lemma row_major_set dims idx d v :
  length idx = length dims -> d < length dims ->
  row_major dims (set_nth idx d v) = row_major dims (set_nth idx d 0) + v * prod (skipn (S d) dims).
Proof.
  revert idx d; induction dims as [|n dims IH]; intros [|i idx] d Hl Hd; simpl in *; try lia.
  destruct d; simpl; [lia|]. rewrite IH by lia. lia.
Qed.

Lemma set_nth_length l d v : length (set_nth l d v) = length l.
Proof. revert d; induction l; destruct d; simpl; auto. Qed.

Lemma valid_set_nth dims idx d v :
  valid dims idx -> v < nth d dims 0 -> valid dims (set_nth idx d v).
Proof.
  revert idx d; induction dims as [|n dims IH]; intros [|i idx] d H Hv; try (inversion H; fail); auto.
  apply valid_cons in H as [H1 H2]. destruct d; simpl in *; apply valid_cons; auto.
Qed.

Lemma valid_app d1 d2 i1 i2 : valid d1 i1 -> valid d2 i2 -> valid (d1 ++ d2) (i1 ++ i2).
Proof. apply Forall2_app. Qed.

(** ** Meshes *)

(** A mesh as produced by the constructors: the storage has the size of the
    dimension. *)
Definition wf_mesh {T} (m : mesh T) : Prop := length (m_data m) = prod (m_dims m).

Lemma wf_mesh_make {T} (z : T) dims : wf_mesh (mesh_make z dims).
Proof. unfold wf_mesh, mesh_make; simpl. rewrite repeat_length. apply md_size_prod. Qed.

Lemma wf_mesh_of_list {T} (l : list T) : wf_mesh (mesh_of_list l).
Proof. unfold wf_mesh; simpl. lia. Qed.

Lemma wf_mesh_resize {T} (p : T) m dims : wf_mesh (mesh_resize p m dims).
Proof.
  unfold wf_mesh, mesh_resize; simpl. rewrite app_length, firstn_length, repeat_length.
  rewrite md_size_prod. lia.
Qed.

Section MeshAccess.
Context {T : Type} (m : mesh T) (d0 : T).
Hypothesis Hwf : wf_mesh m.

Lemma mesh_get_ok idx :
  valid (m_dims m) idx -> mesh_get m idx = Ok (nth (row_major (m_dims m) idx) (m_data m) d0).
Proof.
  intros H. unfold mesh_get. rewrite md_indexing_spec by (apply valid_length; auto).
  simpl. apply vget_ok. rewrite Hwf. apply row_major_lt; auto.
Qed.

Lemma mesh_get_safe_ok on idx :
  valid (m_dims m) idx -> mesh_get_safe on m idx = Ok (nth (row_major (m_dims m) idx) (m_data m) d0).
Proof.
  intros H. unfold mesh_get_safe. rewrite md_indexing_safe_valid by (auto; apply valid_length; auto).
  simpl. apply vget_ok. rewrite Hwf. apply row_major_lt; auto.
Qed.

Lemma mesh_set_ok idx v :
  valid (m_dims m) idx ->
  mesh_set m idx v = Ok (mkMesh (m_dims m) (upd (m_data m) (row_major (m_dims m) idx) v)).
Proof.
  intros H. unfold mesh_set. rewrite md_indexing_spec by (apply valid_length; auto).
  simpl. rewrite vset_ok. reflexivity. rewrite Hwf. apply row_major_lt; auto.
Qed.

Lemma mesh_set_safe_ok on idx v :
  valid (m_dims m) idx ->
  mesh_set_safe on m idx v = Ok (mkMesh (m_dims m) (upd (m_data m) (row_major (m_dims m) idx) v)).
Proof.
  intros H. unfold mesh_set_safe. rewrite md_indexing_safe_valid by (auto; apply valid_length; auto).
  simpl. rewrite vset_ok. reflexivity. rewrite Hwf. apply row_major_lt; auto.
Qed.
End MeshAccess.

Lemma wf_mesh_upd {T} (m : mesh T) k v : wf_mesh m -> wf_mesh (mkMesh (m_dims m) (upd (m_data m) k v)).
Proof. unfold wf_mesh; simpl. rewrite upd_length; auto. Qed.

Lemma mesh_get_set_same {T} (m m' : mesh T) idx v :
  wf_mesh m -> valid (m_dims m) idx -> mesh_set m idx v = Ok m' ->
  m_dims m' = m_dims m /\ wf_mesh m' /\ mesh_get m' idx = Ok v.
Proof.
  intros Hwf Hv E. rewrite mesh_set_ok in E by auto. inversion E; subst; clear E.
  simpl. split; auto. split. apply wf_mesh_upd; auto.
  rewrite (mesh_get_ok _ v) by (auto using wf_mesh_upd). simpl.
  rewrite nth_upd_same; auto. rewrite Hwf. apply row_major_lt; auto.
Qed.

Lemma mesh_get_set_other {T} (m m' : mesh T) idx idx' v :
  wf_mesh m -> valid (m_dims m) idx -> valid (m_dims m) idx' -> idx' <> idx ->
  mesh_set m idx v = Ok m' -> mesh_get m' idx' = mesh_get m idx'.
Proof.
  intros Hwf Hv Hv' Hne E. rewrite mesh_set_ok in E by auto. inversion E; subst; clear E.
  rewrite (mesh_get_ok _ v) by (auto using wf_mesh_upd).
  rewrite (mesh_get_ok m v) by auto. simpl.
  rewrite nth_upd_other; auto. intros E. apply Hne. eapply row_major_inj; eauto.
Qed.

(** Iterators along one dimension. *)
Lemma mesh_begin_ok {T} on (m : mesh T) d idx :
  d < length (m_dims m) -> valid (m_dims m) (set_nth idx d 0) ->
  mesh_begin on m d idx =
    Ok (mkSkip (Z.of_nat (row_major (m_dims m) (set_nth idx d 0)))
               (Z.of_nat (prod (skipn (S d) (m_dims m))))).
Proof.
  intros Hd Hv. unfold mesh_begin.
  pose proof (valid_length _ _ Hv) as Hl. rewrite set_nth_length in Hl.
  rewrite vset_ok by lia. simpl. rewrite upd_set_nth.
  rewrite md_indexing_safe_valid by (auto; rewrite set_nth_length; auto).
  simpl. rewrite usub_ok by lia. simpl.
  rewrite md_dim_acc_size_spec by lia.
  cbn [bind].
  replace (length (m_dims m) - (length (m_dims m) - (d + 1))) with (S d) by lia.
  reflexivity.
Qed.

Lemma mesh_end_ok {T} (m : mesh T) d idx :
  d < length (m_dims m) -> length idx = length (m_dims m) ->
  mesh_end m d idx =
    Ok (mkSkip (Z.of_nat (row_major (m_dims m) (set_nth idx d (nth d (m_dims m) 0))))
               (Z.of_nat (prod (skipn (S d) (m_dims m))))).
Proof.
  intros Hd Hl. unfold mesh_end.
  rewrite (vget_ok _ _ 0) by lia. simpl.
  rewrite vset_ok by lia. simpl. rewrite upd_set_nth.
  rewrite md_indexing_spec by (rewrite set_nth_length; auto).
  simpl. rewrite usub_ok by lia. simpl.
  rewrite md_dim_acc_size_spec by lia.
  cbn [bind].
  replace (length (m_dims m) - (length (m_dims m) - (d + 1))) with (S d) by lia.
  reflexivity.
Qed.

(** [k] increments of an iterator. *)
Fixpoint sk_incs (k : nat) (it : skip_iter) : skip_iter :=
  match k with 0 => it | S k => sk_incs k (sk_inc it) end.

Lemma sk_incs_eq k it : sk_incs k it = sk_add it (Z.of_nat k).
Proof.
  revert it; induction k; intros it.
  - unfold sk_add; destruct it as [o st]; cbn [sk_incs sk_off sk_step]. f_equal. lia.
  - cbn [sk_incs]. rewrite IHk. unfold sk_add, sk_inc; destruct it as [o st]; cbn [sk_off sk_step]. f_equal. lia.
Qed.

Lemma prod_skipn_pos dims idx k : valid dims idx -> 0 < prod (skipn k dims).
Proof.
  revert idx k; induction dims; intros [|i idx] k H; try (inversion H; fail).
  - destruct k; simpl; lia.
  - apply valid_cons in H as [H1 H2]. destruct k; cbn [skipn]; eauto.
    cbn [prod]. specialize (IHdims _ 0 H2). simpl in IHdims. nia.
Qed.

Lemma valid_set_nth_0 dims idx d : valid dims idx -> valid dims (set_nth idx d 0).
Proof.
  revert idx d; induction dims as [|n dims IH]; intros [|i idx] d H; try (inversion H; fail); auto.
  apply valid_cons in H as [H1 H2]. destruct d; simpl; apply valid_cons; auto. split; auto; lia.
Qed.

Lemma mesh_line_walk {T} on (m : mesh T) d idx :
  wf_mesh m -> d < length (m_dims m) -> valid (m_dims m) idx ->
  exists b e,
    mesh_begin on m d idx = Ok b /\ mesh_end m d idx = Ok e /\
    (forall k, k < nth d (m_dims m) 0 ->
       sk_deref m (sk_incs k b) = mesh_get m (set_nth idx d k) /\
       sk_at m b (Z.of_nat k) = mesh_get m (set_nth idx d k) /\
       sk_eqb (sk_incs k b) e = false) /\
    sk_eqb (sk_incs (nth d (m_dims m) 0) b) e = true /\
    (forall j k, sk_diff (sk_add b j) (sk_add b k) = Ok (j - k)%Z).
Proof.
  intros Hwf Hd Hv.
  pose proof (valid_length _ _ Hv) as Hl.
  pose proof (prod_skipn_pos _ _ (S d) Hv) as Hpos.
  eexists; eexists. split. apply mesh_begin_ok; auto using valid_set_nth_0.
  split. apply mesh_end_ok; auto.
  set (P := prod (skipn (S d) (m_dims m))) in *.
  set (r0 := row_major (m_dims m) (set_nth idx d 0)).
  assert (Hder : forall k, k < nth d (m_dims m) 0 ->
     sk_deref m (sk_add (mkSkip (Z.of_nat r0) (Z.of_nat P)) (Z.of_nat k)) = mesh_get m (set_nth idx d k)).
  { intros k Hk. unfold mesh_get. rewrite md_indexing_spec by (rewrite set_nth_length; auto).
    rewrite row_major_set by auto. fold P r0. unfold sk_deref, sk_add; cbn [sk_off sk_step bind].
    destruct (Z.ltb_spec (Z.of_nat r0 + Z.of_nat k * Z.of_nat P) 0); [nia|].
    f_equal. nia. }
  split; [|split].
  - intros k Hk. rewrite sk_incs_eq. split; [|split]; [apply Hder; auto | apply Hder; auto |].
    unfold sk_eqb, sk_add; cbn [sk_off sk_step].
    rewrite row_major_set by auto. fold P r0.
    apply andb_false_iff. left. apply Z.eqb_neq. nia.
  - rewrite sk_incs_eq. unfold sk_eqb, sk_add; cbn [sk_off sk_step].
    rewrite row_major_set by auto. fold P r0.
    apply andb_true_iff. split; apply Z.eqb_eq; nia.
  - intros j k. unfold sk_diff, sk_add; cbn [sk_off sk_step].
    destruct (Z.eqb_spec (Z.of_nat P) 0); [lia|]. f_equal.
    replace (Z.of_nat r0 + j * Z.of_nat P - (Z.of_nat r0 + k * Z.of_nat P))%Z
      with ((j - k) * Z.of_nat P)%Z by ring.
    apply Z.quot_mul. auto.
Qed.

(** ** Statements used by the property file *)
Lemma mesh_index_roundtrip dims idx :
  valid dims idx ->
  md_indexing dims idx = Ok (row_major dims idx) /\
  row_major dims idx < md_size dims /\
  md_dimwise_indices dims (row_major dims idx) = Ok idx.
Proof.
  intros H. rewrite md_size_prod. split; [|split].
  - apply md_indexing_spec, valid_length; auto.
  - apply row_major_lt; auto.
  - apply md_dimwise_indices_row_major; auto.
Qed.

Lemma mesh_offset_roundtrip dims k :
  k < md_size dims ->
  exists idx, md_dimwise_indices dims k = Ok idx /\ valid dims idx /\ md_indexing dims idx = Ok k.
Proof.
  rewrite md_size_prod. intros H. destruct (md_dimwise_indices_spec dims k H) as (idx & E & Hv & Er).
  exists idx. rewrite md_indexing_spec by (apply valid_length; auto). rewrite Er. auto.
Qed.

Lemma mesh_write_read {T} (m : mesh T) idx v :
  wf_mesh m -> valid (m_dims m) idx ->
  exists m', mesh_set m idx v = Ok m' /\ m_dims m' = m_dims m /\ wf_mesh m' /\
    mesh_get m' idx = Ok v /\
    (forall idx', valid (m_dims m) idx' -> idx' <> idx ->
       mesh_get m' idx' = mesh_get m idx' /\ exists w, mesh_get m idx' = Ok w).
Proof.
  intros Hwf Hv. pose proof (mesh_set_ok m Hwf idx v Hv) as E.
  destruct (mesh_get_set_same _ _ _ _ Hwf Hv E) as (H1 & H2 & H3).
  eexists. split; [exact E|]. split; [exact H1|]. split; [exact H2|]. split; [exact H3|].
  intros idx' Hv' Hne. split. exact (mesh_get_set_other _ _ _ _ _ Hwf Hv Hv' Hne E).
  eexists. apply (mesh_get_ok m v); auto.
Qed.

Lemma mesh_checked_access dims idx :
  length idx = length dims ->
  (valid dims idx -> md_indexing_safe true dims idx = md_indexing dims idx
                     /\ exists k, md_indexing dims idx = Ok k /\ k < prod dims) /\
  (~ valid dims idx -> md_indexing_safe true dims idx = Throw AssertFailed).
Proof.
  intros Hl. split.
  - intros Hv. rewrite md_indexing_safe_valid by auto. rewrite md_indexing_spec by auto.
    split; auto. eexists; split; eauto. apply row_major_lt; auto.
  - apply md_indexing_safe_invalid; auto.
Qed.

Lemma skip_end_past_storage :
  exists (m : mesh nat) d idx e,
    wf_mesh m /\ valid (m_dims m) idx /\ mesh_end m d idx = Ok e /\ skip_ptr_ok m e = false.
Proof.
  exists (mesh_make 0 [2; 3]), 0, [0; 1].
  exists (mkSkip 7 3). split; [reflexivity|]. split; [repeat constructor|]. split; reflexivity.
Qed.
