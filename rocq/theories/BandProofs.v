(** Element access of band matrices. *)
From Coq Require Import List Arith Lia Bool Reals Lra.
From Verif Require Import Base Num MeshM SpecMesh MeshProofs BandM SpecBand SumR.
Import ListNotations.
Local Open Scope nat_scope.

Section Access.
Context {T : Type} (o : ops T) (d : T) (on : bool).

(** Two-dimensional meshes. *)
Definition wf2 (a b : nat) (m : mesh T) : Prop := m_dims m = [a; b] /\ wf_mesh m.
Definition val2 (m : mesh T) (b i j : nat) : T := nth (i * b + j) (m_data m) d.

Lemma valid2 a b i j : i < a -> j < b -> valid [a; b] [i; j].
Proof. intros. repeat constructor; auto. Qed.

Lemma get2 a b m i j : wf2 a b m -> i < a -> j < b ->
  mesh_get_safe on m [i; j] = Ok (val2 m b i j).
Proof.
  intros [Hd Hw] Hi Hj. rewrite (mesh_get_safe_ok m d) by (auto; rewrite Hd; apply valid2; auto).
  rewrite Hd. unfold val2. simpl. do 2 f_equal. lia.
Qed.

Lemma set2 a b m i j v : wf2 a b m -> i < a -> j < b ->
  exists m', mesh_set_safe on m [i; j] v = Ok m' /\ wf2 a b m' /\
    forall i' j', i' < a -> j' < b ->
      val2 m' b i' j' = if (i' =? i) && (j' =? j) then v else val2 m b i' j'.
Proof.
  intros [Hd Hw] Hi Hj.
  rewrite (mesh_set_safe_ok m) by (auto; rewrite Hd; apply valid2; auto).
  eexists. split; [reflexivity|]. split.
  - split; auto. apply wf_mesh_upd. auto.
  - intros i' j' Hi' Hj'. unfold val2. simpl. rewrite Hd. simpl.
    rewrite nth_upd.
    assert (i * b + j < length (m_data m)) as HL.
    { unfold wf_mesh in Hw. rewrite Hw, Hd. simpl. nia. }
    replace (i * (b * 1) + (j * 1 + 0)) with (i * b + j) by lia.
    destruct (Nat.ltb_spec (i * b + j) (length (m_data m))); try lia.
    rewrite andb_true_r.
    destruct (Nat.eqb_spec i' i), (Nat.eqb_spec j' j), (Nat.eqb_spec (i' * b + j') (i * b + j));
      simpl; subst; auto; try lia; exfalso.
    all: assert (i' = i) by (destruct (Nat.lt_trichotomy i' i) as [|[|]]; auto; nia); try lia.
Qed.


Lemma make2 a b z : wf2 a b (mesh_make z [a; b]).
Proof. split; auto. apply wf_mesh_make. Qed.
Lemma make2_val a b z i j : i < a -> j < b -> val2 (mesh_make z [a; b]) b i j = z.
Proof.
  intros. unfold val2, mesh_make; cbn [m_data]. rewrite md_size_prod. simpl.
  apply nth_repeat_lt. nia.
Qed.

(** ** BandMatrix *)
Definition wfb (n p q : nat) (m : band T) : Prop :=
  b_n m = n /\ b_p m = p /\ b_q m = q /\ wf2 n (1 + p + q) (b_bands m).
Definition babs (m : band T) (i j : nat) : T :=
  let n := b_n m in let p := b_p m in let q := b_q m in
  if (i <? n) && (j <? n) && (i <=? j + p) && (j <=? i + q)
  then val2 (b_bands m) (1 + p + q) j (i + q - j) else d.

Ltac bd := repeat match goal with
  | |- context [?a <? ?b] => destruct (Nat.ltb_spec a b)
  | |- context [?a <=? ?b] => destruct (Nat.leb_spec a b)
  | |- context [?a =? ?b] => destruct (Nat.eqb_spec a b)
  end; cbn [andb orb negb].

Lemma band_get_ok n p q m i j :
  wfb n p q m -> in_band n p q i j -> band_get on m i j = Ok (babs m i j).
Proof.
  intros (En & Ep & Eq & Hw) (Hi & Hj & Hp & Hq). unfold band_get, babs. rewrite En, Ep, Eq.
  assert ((i <=? j + p) && (j <=? i + q) = true) as E by (bd; auto; lia).
  rewrite E. unfold intp_assert. rewrite andb_false_r. cbn [bind].
  rewrite usub_ok by lia. cbn [bind].
  rewrite (get2 n (1 + p + q)) by (auto; lia). bd; auto; lia.
Qed.

Lemma band_set_ok n p q m i j v :
  wfb n p q m -> in_band n p q i j ->
  exists m', band_set on m i j v = Ok m' /\ wfb n p q m' /\
    forall i' j', babs m' i' j' = if (i' =? i) && (j' =? j) then v else babs m i' j'.
Proof.
  intros (En & Ep & Eq & Hw) (Hi & Hj & Hp & Hq). unfold band_set. rewrite En, Ep, Eq.
  assert ((i <=? j + p) && (j <=? i + q) = true) as E by (bd; auto; lia).
  rewrite E. unfold intp_assert. rewrite andb_false_r. cbn [bind].
  rewrite usub_ok by lia. cbn [bind].
  destruct (set2 n (1 + p + q) (b_bands m) j (i + q - j) v) as (b & Eb & Hwb & Hv); auto; try lia.
  rewrite Eb. cbn [bind]. eexists; split; [reflexivity|]. split.
  - repeat split; auto; apply Hwb.
  - intros i' j'. unfold babs. cbn [b_n b_p b_q b_bands]. rewrite En, Ep, Eq.
    destruct (Nat.ltb_spec i' n), (Nat.ltb_spec j' n), (Nat.leb_spec i' (j' + p)),
      (Nat.leb_spec j' (i' + q)); cbn [andb]; try (bd; auto; lia).
    rewrite Hv by lia. bd; auto; try lia.
Qed.

Lemma band_make_wf n p q : wfb n p q (band_make o n p q).
Proof. repeat split; auto. apply wf_mesh_make. Qed.

Lemma band_make_abs n p q i j :
  in_band n p q i j -> babs (band_make o n p q) i j = o0 o.
Proof.
  intros (Hi & Hj & Hp & Hq). unfold babs. cbn [b_n b_p b_q b_bands band_make].
  rewrite make2_val by lia. bd; auto; lia.
Qed.

Lemma babs_out n p q m i j : wfb n p q m -> ~ in_band n p q i j -> babs m i j = d.
Proof.
  intros (En & Ep & Eq & Hw) H. unfold babs. rewrite En, Ep, Eq. unfold in_band in H. bd; auto; lia.
Qed.

Lemma band_get_outside (m : band T) i j :
  (b_p m + j < i \/ b_q m + i < j) -> band_get true m i j = Throw AssertFailed.
Proof. intros. unfold band_get, intp_assert. bd; auto; lia. Qed.

Lemma band_set_outside (m : band T) i j v :
  (b_p m + j < i \/ b_q m + i < j) -> band_set true m i j v = Throw AssertFailed.
Proof. intros. unfold band_set, intp_assert. bd; auto; lia. Qed.

Lemma band_history n p q h :
  Forall (fun w => in_band n p q (fst (fst w)) (snd (fst w))) h ->
  exists m,
    foldM (fun m w => band_set on m (fst (fst w)) (snd (fst w)) (snd w)) (rev h)
      (band_make o n p q) = Ok m /\
    wfb n p q m /\
    forall i j, in_band n p q i j -> babs m i j = content (o0 o) h i j.
Proof.
  induction h as [|[[a b] v] h IH]; intros H.
  - simpl. eexists; split; [reflexivity|]. split. apply band_make_wf.
    intros; apply band_make_abs; auto.
  - inversion H; subst. destruct (IH H3) as (m & Em & Hw & Hc).
    simpl. rewrite foldM_app, Em. simpl.
    destruct (band_set_ok n p q m a b v Hw H2) as (m' & E' & Hw' & Hv).
    rewrite E'. simpl. exists m'. split; auto. split; auto. intros i j Hij.
    rewrite Hv, Hc by auto. rewrite (Nat.eqb_sym a), (Nat.eqb_sym b). auto.
Qed.

(** ** ExtendedBandMatrix *)
Definition wfe (n p q : nat) (m : eband T) : Prop :=
  wfb n p q (e_base m) /\ p < n /\ q < n /\
  wf2 (n - q - 1) p (e_right m) /\ wf2 (n - p - 1) q (e_bottom m).
Definition eabs (m : eband T) (i j : nat) : T :=
  let n := e_n m in let p := e_p m in let q := e_q m in
  if (i <? n) && (j <? n) then
    if i + q <? j then
      if n <=? j + p then val2 (e_right m) p i (j + p - n) else d
    else if j + p <? i then
      if n <=? i + q then val2 (e_bottom m) q j (i + q - n) else d
    else babs (e_base m) i j
  else d.

(** The two kinds of positions. *)
Definition in_side (n p q i j : nat) : Prop :=
  i < n /\ j < n /\ ((i + q < j /\ n <= j + p) \/ (j + p < i /\ n <= i + q)).

Lemma in_ext_cases n p q i j : in_ext n p q i j <-> in_band n p q i j \/ in_side n p q i j.
Proof. unfold in_ext, in_band, in_side. lia. Qed.

Lemma wfe_npq n p q m : wfe n p q m -> e_n m = n /\ e_p m = p /\ e_q m = q.
Proof. intros ((En & Ep & Eq & _) & _). auto. Qed.

Lemma eb_main_get_ok n p q m i j :
  wfe n p q m -> in_band n p q i j -> eb_main_get on m i j = Ok (eabs m i j).
Proof.
  intros Hw Hb. destruct (wfe_npq _ _ _ _ Hw) as (En & Ep & Eq).
  unfold eb_main_get. rewrite (band_get_ok n p q) by (auto; apply Hw).
  unfold eabs. rewrite En, Ep, Eq. destruct Hb as (Hi & Hj & Hp & Hq). bd; auto; lia.
Qed.

Lemma eb_side_check_ok n p q m i j :
  wfe n p q m -> in_side n p q i j -> eb_side_check on m i j = Ok tt.
Proof.
  intros Hw Hs. destruct (wfe_npq _ _ _ _ Hw) as (En & Ep & Eq).
  destruct Hw as (_ & Hpn & Hqn & _).
  unfold eb_side_check. rewrite En, Ep, Eq. destruct on; auto.
  rewrite !usub_ok by lia. cbn [bind]. unfold intp_assert. unfold in_side in Hs.
  bd; auto; lia.
Qed.

Lemma eb_side_get_ok n p q m i j :
  wfe n p q m -> in_side n p q i j -> eb_side_get on m i j = Ok (eabs m i j).
Proof.
  intros Hw Hs. destruct (wfe_npq _ _ _ _ Hw) as (En & Ep & Eq).
  unfold eb_side_get. rewrite (eb_side_check_ok n p q) by auto. cbn [bind].
  rewrite En, Ep, Eq. unfold eabs. rewrite En, Ep, Eq.
  destruct Hw as (Hwb & Hpn & Hqn & Hr & Hbo). unfold in_side in Hs.
  destruct (Nat.ltb_spec (i + q) j).
  - rewrite usub_ok by lia. cbn [bind]. rewrite (get2 (n - q - 1) p) by (auto; lia).
    bd; auto; lia.
  - rewrite usub_ok by lia. cbn [bind]. rewrite (get2 (n - p - 1) q) by (auto; lia).
    bd; auto; lia.
Qed.

Lemma eb_get_ok n p q m i j :
  wfe n p q m -> in_ext n p q i j -> eb_get on m i j = Ok (eabs m i j).
Proof.
  intros Hw He. destruct (wfe_npq _ _ _ _ Hw) as (En & Ep & Eq).
  unfold eb_get. rewrite Ep, Eq. unfold in_ext, in_band in He.
  destruct (Nat.ltb_spec (i + q) j), (Nat.ltb_spec (j + p) i); simpl;
    try (apply (eb_side_get_ok n p q); auto; unfold in_side; lia).
  apply (eb_main_get_ok n p q); auto; unfold in_band; lia.
Qed.

Lemma eb_main_set_ok n p q m i j v :
  wfe n p q m -> in_band n p q i j ->
  exists m', eb_main_set on m i j v = Ok m' /\ wfe n p q m' /\
    forall i' j', eabs m' i' j' = if (i' =? i) && (j' =? j) then v else eabs m i' j'.
Proof.
  intros Hw Hb. pose proof Hw as (Hwb & Hpn & Hqn & Hr & Hbo).
  unfold eb_main_set.
  destruct (band_set_ok n p q (e_base m) i j v Hwb Hb) as (b & E & Hw' & Hv).
  rewrite E. cbn [bind]. eexists; split; [reflexivity|].
  assert (wfe n p q (mkEBand b (e_right m) (e_bottom m))) as Hwe by (repeat split; auto; try apply Hw'; try apply Hr; try apply Hbo).
  split; auto. intros i' j'. unfold eabs.
  destruct (wfe_npq _ _ _ _ Hw) as (En & Ep & Eq).
  destruct (wfe_npq _ _ _ _ Hwe) as (En' & Ep' & Eq').
  rewrite En, Ep, Eq, En', Ep', Eq'. cbn [e_base e_right e_bottom].
  rewrite Hv. destruct Hb as (Hi & Hj & Hp & Hq).
  bd; auto; lia.
Qed.

Lemma eb_side_set_ok n p q m i j v :
  wfe n p q m -> in_side n p q i j ->
  exists m', eb_side_set on m i j v = Ok m' /\ wfe n p q m' /\
    forall i' j', eabs m' i' j' = if (i' =? i) && (j' =? j) then v else eabs m i' j'.
Proof.
  intros Hw Hs. pose proof Hw as (Hwb & Hpn & Hqn & Hr & Hbo).
  destruct (wfe_npq _ _ _ _ Hw) as (En & Ep & Eq).
  unfold eb_side_set. rewrite (eb_side_check_ok n p q) by auto. cbn [bind].
  rewrite En, Ep, Eq. unfold in_side in Hs.
  destruct (Nat.ltb_spec (i + q) j).
  - rewrite usub_ok by lia. cbn [bind].
    destruct (set2 (n - q - 1) p (e_right m) i (j + p - n) v) as (b & Eb & Hw' & Hv); auto; try lia.
    rewrite Eb. cbn [bind]. eexists; split; [reflexivity|].
    assert (wfe n p q (mkEBand (e_base m) b (e_bottom m))) as Hwe
      by (repeat split; auto; try apply Hwb; try apply Hw'; try apply Hbo).
    split; auto. intros i' j'. unfold eabs.
    destruct (wfe_npq _ _ _ _ Hwe) as (En' & Ep' & Eq').
    rewrite En, Ep, Eq, En', Ep', Eq'. cbn [e_base e_right e_bottom].
    destruct (Nat.ltb_spec i' n), (Nat.ltb_spec j' n); cbn [andb]; try (bd; auto; lia).
    destruct (Nat.ltb_spec (i' + q) j'); [|bd; auto; lia].
    destruct (Nat.leb_spec n (j' + p)); [|bd; auto; lia].
    rewrite Hv by lia. bd; auto; lia.
  - rewrite usub_ok by lia. cbn [bind].
    destruct (set2 (n - p - 1) q (e_bottom m) j (i + q - n) v) as (b & Eb & Hw' & Hv); auto; try lia.
    rewrite Eb. cbn [bind]. eexists; split; [reflexivity|].
    assert (wfe n p q (mkEBand (e_base m) (e_right m) b)) as Hwe
      by (repeat split; auto; try apply Hwb; try apply Hw'; try apply Hr).
    split; auto. intros i' j'. unfold eabs.
    destruct (wfe_npq _ _ _ _ Hwe) as (En' & Ep' & Eq').
    rewrite En, Ep, Eq, En', Ep', Eq'. cbn [e_base e_right e_bottom].
    destruct (Nat.ltb_spec i' n), (Nat.ltb_spec j' n); cbn [andb]; try (bd; auto; lia).
    destruct (Nat.ltb_spec (i' + q) j'); [bd; auto; lia|].
    destruct (Nat.ltb_spec (j' + p) i'); [|bd; auto; lia].
    destruct (Nat.leb_spec n (i' + q)); [|bd; auto; lia].
    rewrite Hv by lia. bd; auto; lia.
Qed.

Lemma eb_set_ok n p q m i j v :
  wfe n p q m -> in_ext n p q i j ->
  exists m', eb_set on m i j v = Ok m' /\ wfe n p q m' /\
    forall i' j', eabs m' i' j' = if (i' =? i) && (j' =? j) then v else eabs m i' j'.
Proof.
  intros Hw He. destruct (wfe_npq _ _ _ _ Hw) as (En & Ep & Eq).
  unfold eb_set. rewrite Ep, Eq. unfold in_ext, in_band in He.
  destruct (Nat.ltb_spec (i + q) j), (Nat.ltb_spec (j + p) i); simpl;
    try (apply (eb_side_set_ok n p q); auto; unfold in_side; lia).
  apply (eb_main_set_ok n p q); auto; unfold in_band; lia.
Qed.

Lemma eband_make_ok n p q : p < n -> q < n ->
  exists m, eband_make o n p q = Ok m /\ wfe n p q m /\
    forall i j, in_ext n p q i j -> eabs m i j = o0 o.
Proof.
  intros Hp Hq. unfold eband_make.
  rewrite (usub_ok n q) by lia. cbn [bind]. rewrite (usub_ok (n - q) 1) by lia. cbn [bind].
  rewrite (usub_ok n p) by lia. cbn [bind]. rewrite (usub_ok (n - p) 1) by lia. cbn [bind].
  eexists; split; [reflexivity|].
  match goal with |- wfe _ _ _ ?m /\ _ =>
    assert (Hw : wfe n p q m) by (repeat split; auto; try apply wf_mesh_make) end.
  split; auto. intros i j He. unfold eabs.
  destruct (wfe_npq _ _ _ _ Hw) as (En & Ep & Eq). rewrite En, Ep, Eq.
  cbn [e_base e_right e_bottom]. unfold in_ext, in_band in He.
  destruct (Nat.ltb_spec i n), (Nat.ltb_spec j n); cbn [andb]; try lia.
  destruct (Nat.ltb_spec (i + q) j).
  - destruct (Nat.leb_spec n (j + p)); try lia. apply make2_val; lia.
  - destruct (Nat.ltb_spec (j + p) i).
    + destruct (Nat.leb_spec n (i + q)); try lia. apply make2_val; lia.
    + apply band_make_abs. unfold in_band; lia.
Qed.

Lemma eabs_out n p q m i j : wfe n p q m -> ~ in_ext n p q i j -> eabs m i j = d.
Proof.
  intros Hw H. unfold eabs. destruct (wfe_npq _ _ _ _ Hw) as (En & Ep & Eq). rewrite En, Ep, Eq.
  unfold in_ext, in_band in H.
  destruct (Nat.ltb_spec i n), (Nat.ltb_spec j n); cbn [andb]; auto.
  bd; auto; lia.
Qed.

Lemma eband_history n p q h :
  p < n -> q < n ->
  Forall (fun w => in_ext n p q (fst (fst w)) (snd (fst w))) h ->
  exists m0 m,
    eband_make o n p q = Ok m0 /\
    foldM (fun m w => eb_set on m (fst (fst w)) (snd (fst w)) (snd w)) (rev h) m0 = Ok m /\
    wfe n p q m /\
    forall i j, in_ext n p q i j -> eabs m i j = content (o0 o) h i j.
Proof.
  intros Hp Hq. destruct (eband_make_ok n p q Hp Hq) as (m0 & E0 & Hw0 & Hz).
  induction h as [|[[a b] v] h IH]; intros H.
  - exists m0, m0. simpl. auto.
  - inversion H; subst. destruct (IH H3) as (m1 & m & Em0 & Em & Hw & Hc).
    rewrite E0 in Em0. inversion Em0; subst m1.
    simpl. exists m0. rewrite foldM_app, Em. simpl.
    destruct (eb_set_ok n p q m a b v Hw H2) as (m' & E' & Hw' & Hv).
    rewrite E'. simpl. exists m'. split; auto. split; auto. split; auto. intros i j Hij.
    rewrite Hv, Hc by auto. rewrite (Nat.eqb_sym a), (Nat.eqb_sym b). auto.
Qed.

End Access.
