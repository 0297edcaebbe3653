(** derivative_at. *)
From Coq Require Import List Arith Lia Bool ZArith Reals Lra.
From Coquelicot Require Import Coquelicot.
From Verif Require Import Base Num MeshM SplineM SpecMesh SpecBand SpecSpline MeshProofs SumR MulProofs
  SplineProofs TensorR BasisProofs EvalProofs EvalR.
Import ListNotations.
Open Scope nat_scope.

(** ** Meshes as functions *)
Definition mv {T} (z : T) (m : mesh T) (idx : list nat) : T := nth (row_major (m_dims m) idx) (m_data m) z.

Lemma mesh_set_mv {T} (z : T) (m : mesh T) idx v :
  wf_mesh m -> valid (m_dims m) idx ->
  exists m', mesh_set m idx v = Ok m' /\ m_dims m' = m_dims m /\ wf_mesh m' /\
    mv z m' idx = v /\ forall idx', valid (m_dims m) idx' -> idx' <> idx -> mv z m' idx' = mv z m idx'.
Proof.
  intros W Hv. rewrite mesh_set_ok by auto. eexists; split; [reflexivity|]. cbn [m_dims].
  split; auto. split. apply wf_mesh_upd; auto. unfold mv; cbn [m_dims m_data]. split.
  - apply nth_upd_same. rewrite W. apply row_major_lt; auto.
  - intros idx' Hv' Hne. apply nth_upd_other. intros E. apply Hne. eapply row_major_inj; eauto.
Qed.

Lemma set_nth_same l d v w : set_nth (set_nth l d v) d w = set_nth l d w.
Proof. revert d; induction l; intros [|d]; simpl; auto. f_equal; auto. Qed.

Lemma set_nth_self l d : set_nth l d (nth d l 0) = l.
Proof. revert d; induction l; intros [|d]; simpl; auto. f_equal; auto. Qed.

Lemma nth_set_nth l d v : d < length l -> nth d (set_nth l d v) 0 = v.
Proof. revert d; induction l; intros [|d] H; simpl in *; try lia; auto. apply IHl; lia. Qed.

Lemma set_nth_inj l d v w : d < length l -> set_nth l d v = set_nth l d w -> v = w.
Proof. intros H E. rewrite <- (nth_set_nth l d v H), E. apply nth_set_nth; auto. Qed.

Section Line.
Context {T : Type} (z : T) (m : mesh T) (d : nat) (idx : list nat).
Hypothesis W : wf_mesh m.
Hypothesis Hd : d < length (m_dims m).
Hypothesis Hv : valid (m_dims m) idx.
Let it := mkSkip (Z.of_nat (row_major (m_dims m) (set_nth idx d 0))) (Z.of_nat (prod (skipn (S d) (m_dims m)))).

Lemma sk_off_line pos :
  sk_off (sk_add it (Z.of_nat pos)) = Z.of_nat (row_major (m_dims m) (set_nth idx d pos)).
Proof.
  unfold sk_add, it. cbn [sk_off sk_step].
  rewrite (row_major_set (m_dims m) idx d pos) by (auto; apply valid_length; auto). lia.
Qed.

Lemma sk_at_line pos : pos < nth d (m_dims m) 0 ->
  sk_at m it (Z.of_nat pos) = Ok (mv z m (set_nth idx d pos)).
Proof.
  intros Hp. unfold sk_at, sk_deref. rewrite sk_off_line.
  destruct (Z.ltb_spec (Z.of_nat (row_major (m_dims m) (set_nth idx d pos))) 0); [lia|].
  rewrite Nat2Z.id. apply vget_ok. rewrite W. apply row_major_lt. apply valid_set_nth; auto.
Qed.

Lemma sk_set_line pos v : pos < nth d (m_dims m) 0 ->
  exists m', sk_set m it (Z.of_nat pos) v = Ok m' /\ m_dims m' = m_dims m /\ wf_mesh m' /\
    mv z m' (set_nth idx d pos) = v /\
    forall idx', valid (m_dims m) idx' -> idx' <> set_nth idx d pos -> mv z m' idx' = mv z m idx'.
Proof.
  intros Hp. unfold sk_set. rewrite sk_off_line.
  destruct (Z.ltb_spec (Z.of_nat (row_major (m_dims m) (set_nth idx d pos))) 0); [lia|].
  rewrite Nat2Z.id.
  destruct (mesh_set_mv z m (set_nth idx d pos) v) as (m' & E & H1 & H2 & H3 & H4); auto.
  { apply valid_set_nth; auto. }
  unfold mesh_set in E. rewrite md_indexing_spec in E by (rewrite set_nth_length; apply valid_length; auto).
  cbn [bind] in E. exists m'. auto.
Qed.
End Line.

(** ** One level of differentiation on a line *)
Open Scope R_scope.
Section DeriveLine.
Variables (order seg : nat) (knots : list R).
Let t := kn knots.
Definition dstep (k : nat) (f : nat -> R) (pos : nat) : R :=
  if (order - k + 1 <=? pos)%nat && (pos <=? order)%nat then
    INR k * (f pos - f (pos - 1)%nat) / (t (seg + pos + k - order)%nat - t (seg + pos - order)%nat)
  else f pos.

Definition dline (so : nat) (f : nat -> R) : nat -> R :=
  fold_left (fun f k => dstep k f) (rev (seq (so + 1) (order - so))) f.

Lemma dstep_ext k f g : (forall p, (p <= order)%nat -> f p = g p) ->
  forall p, (p <= order)%nat -> dstep k f p = dstep k g p.
Proof.
  intros H p Hp. unfold dstep. rewrite (H p) by auto. rewrite (H (p - 1)%nat) by lia. reflexivity.
Qed.

Lemma dline_ext so f g : (forall p, (p <= order)%nat -> f p = g p) ->
  forall p, (p <= order)%nat -> dline so f p = dline so g p.
Proof.
  unfold dline. generalize (rev (seq (so + 1) (order - so))) as l. intros l. revert f g.
  induction l; intros f g H p Hp; cbn [fold_left]; auto.
  apply IHl; auto. apply dstep_ext; auto.
Qed.

Lemma dline_order f : dline order f = f.
Proof. unfold dline. rewrite Nat.sub_diag. reflexivity. Qed.

Hypothesis Hko : (order <= seg)%nat.

(** The line operator produces the coefficients of the derivative. *)
Lemma dline_dcoefs so f p : (so <= order)%nat -> (order - so <= p <= order)%nat ->
  dline so f p = dcoefs t (order - so) order (fun i => f (i - (seg - order))%nat) (seg - order + p).
Proof.
  intros Hso Hp. unfold dline.
  assert (Hgen : forall a p, (a <= order)%nat -> (a <= p <= order)%nat ->
    fold_left (fun f k => dstep k f) (rev (seq (order - a + 1) a)) f p =
    dcoefs t a order (fun i => f (i - (seg - order))%nat) (seg - order + p)).
  { induction a; intros q Ha Hq.
    - cbn [seq rev fold_left dcoefs]. f_equal. lia.
    - cbn [seq rev]. rewrite fold_left_app. cbn [fold_left dcoefs].
      replace (S (order - S a + 1))%nat with (order - a + 1)%nat by lia.
      unfold dstep at 1, dcoef.
      replace (order - S a + 1)%nat with (order - a)%nat by lia.
      destruct (Nat.leb_spec (order - (order - a) + 1) q); [|lia].
      destruct (Nat.leb_spec q order); [|lia]. cbn [andb].
      rewrite !IHa by lia.
      replace (seg - order + q - 1)%nat with (seg - order + (q - 1))%nat by lia.
      replace (seg + q + (order - a) - order)%nat with (seg - order + q + (order - a))%nat by lia.
      replace (seg + q - order)%nat with (seg - order + q)%nat by lia. reflexivity. }
  replace (so + 1)%nat with (order - (order - so) + 1)%nat by lia.
  apply Hgen; lia.
Qed.

Hypothesis Hnd : nondecreasing knots.
Hypothesis Hlen : (seg + order < length knots)%nat.
Hypothesis Hlen1 : (seg + 1 < length knots)%nat.
Hypothesis Hseg : t seg < t (seg + 1)%nat.

Variables (m : mesh R) (d : nat) (idx : list nat).
Hypothesis W : wf_mesh m.
Hypothesis Hd : (d < length (m_dims m))%nat.
Hypothesis Hv : valid (m_dims m) idx.
Hypothesis Hdim : nth d (m_dims m) 0%nat = (order + 1)%nat.
Let it := mkSkip (Z.of_nat (row_major (m_dims m) (set_nth idx d 0))) (Z.of_nat (prod (skipn (S d) (m_dims m)))).

(** [m'] differs from [m] only on the line, where it holds [f]. *)
Definition line_is (m' : mesh R) (f : nat -> R) : Prop :=
  m_dims m' = m_dims m /\ wf_mesh m' /\
  (forall pos, (pos <= order)%nat -> mv 0 m' (set_nth idx d pos) = f pos) /\
  (forall idx', valid (m_dims m) idx' -> (forall pos, idx' <> set_nth idx d pos) -> mv 0 m' idx' = mv 0 m idx').

Lemma foldM_rev_seq {X} (I : nat -> X -> Prop) (f : X -> nat -> res X) lo n s :
  I (lo + n)%nat s ->
  (forall i s, (lo <= i < lo + n)%nat -> I (i + 1)%nat s -> exists s', f s i = Ok s' /\ I i s') ->
  exists s', foldM f (rev (seq lo n)) s = Ok s' /\ I lo s'.
Proof.
  revert s; induction n; intros s H0 Hst.
  - simpl. rewrite Nat.add_0_r in H0. eauto.
  - rewrite seq_S, rev_app_distr. cbn [rev app foldM].
    destruct (Hst (lo + n)%nat s) as (s1 & E1 & H1); [lia| |].
    { replace (lo + n + 1)%nat with (lo + S n)%nat by lia. auto. }
    rewrite E1. cbn [bind]. apply IHn; auto. intros; apply Hst; auto; lia.
Qed.

Lemma dstep_line k m0 f : (1 <= k <= order)%nat -> line_is m0 f ->
  exists m', foldM (fun m j =>
      let pos := (Z.of_nat order + Z.of_nat j - Z.of_nat k)%Z in
      a <- sk_at m it pos ;;
      b <- sk_at m it (pos - 1) ;;
      tr <- kget knots (seg + j) 0 ;;
      tl <- kget knots (seg + j) k ;;
      v <- odiv Rops (omul Rops (onat Rops k) (osub Rops a b)) (osub Rops tr tl) ;;
      sk_set m it pos v) (rev (seq 1 k)) m0 = Ok m' /\ line_is m' (dstep k f).
Proof.
  intros Hk L0.
  match goal with |- context[foldM ?F _ _] =>
    destruct (foldM_rev_seq (fun j m' => line_is m' (fun pos =>
       if (order + j - k <=? pos)%nat && (pos <=? order)%nat then dstep k f pos else f pos)) F 1 k m0)
      as (m' & E & H) end.
  - destruct L0 as (A & B & C & D). split; auto. split; auto. split; auto.
    intros pos Hp. rewrite C by auto.
    destruct (Nat.leb_spec (order + (1 + k) - k) pos); [lia|]. reflexivity.
  - intros j m1 Hj (A & B & C & D). cbv zeta.
    replace (Z.of_nat order + Z.of_nat j - Z.of_nat k)%Z with (Z.of_nat (order + j - k)) by lia.
    replace (Z.of_nat (order + j - k) - 1)%Z with (Z.of_nat (order + j - k - 1)) by lia.
    set (pos := (order + j - k)%nat) in *.
    assert (Eit : it = mkSkip (Z.of_nat (row_major (m_dims m1) (set_nth idx d 0))) (Z.of_nat (prod (skipn (S d) (m_dims m1)))))
      by (unfold it; rewrite A; reflexivity).
    rewrite Eit.
    assert (Hd1 : (d < length (m_dims m1))%nat) by (rewrite A; auto).
    assert (Hv1 : valid (m_dims m1) idx) by (rewrite A; auto).
    rewrite !(sk_at_line 0 m1 d idx) by (auto; rewrite A, Hdim; lia). cbn [bind].
    rewrite !kget_ok by (auto; lia). cbn [bind]. fold t.
    assert (Hgap : 0 < t (seg + j - 0)%nat - t (seg + j - k)%nat).
    { assert (t (seg + j - k)%nat <= t seg) by (apply Hnd; lia).
      assert (t (seg + 1)%nat <= t (seg + j - 0)%nat) by (apply Hnd; lia). unfold t in *. lra. }
    rewrite Rdiv_ok by (simpl; lra). cbn [bind].
    match goal with |- context[sk_set m1 _ _ ?v] =>
      destruct (sk_set_line 0 m1 d idx B Hd1 Hv1 pos v) as (m2 & E2 & A2 & B2 & C2 & D2) end.
    { rewrite A, Hdim. lia. }
    rewrite E2. exists m2. split; auto. split; [congruence|]. split; auto. split.
    + intros p Hp. destruct (Nat.eq_dec p pos) as [->|Hne].
      * rewrite C2. rewrite !C by lia.
        destruct (Nat.leb_spec (order + (j + 1) - k) pos); [lia|].
        destruct (Nat.leb_spec (order + (j + 1) - k) (pos - 1)); [lia|].
        destruct (Nat.leb_spec pos pos); [|lia]. destruct (Nat.leb_spec pos order); [|lia].
        cbn [andb]. unfold dstep.
        destruct (Nat.leb_spec (order - k + 1) pos); [|lia].
        destruct (Nat.leb_spec pos order); [|lia]. cbn [andb]. simpl omul. simpl onat. simpl osub.
        replace (seg + pos + k - order)%nat with (seg + j - 0)%nat by lia.
        replace (seg + pos - order)%nat with (seg + j - k)%nat by lia. reflexivity.
      * rewrite D2.
        -- rewrite C by auto. fold pos.
           destruct (Nat.leb_spec (order + (j + 1) - k) p), (Nat.leb_spec pos p); auto; lia.
        -- rewrite A. apply valid_set_nth; auto. rewrite Hdim. lia.
        -- intros E. apply Hne. eapply set_nth_inj; [|exact E]. rewrite (valid_length _ _ Hv). auto.
    + intros idx' Hv' Hn. rewrite D2; auto. rewrite A; auto.
  - exists m'. split; auto. destruct H as (A & B & C & D). split; auto. split; auto. split; auto.
    intros pos Hp. rewrite C by auto. unfold dstep.
    destruct (Nat.leb_spec (order + 1 - k) pos), (Nat.leb_spec (order - k + 1) pos), (Nat.leb_spec pos order); cbn [andb]; auto; lia.
Qed.

Lemma derive_line_ok so : (so <= order)%nat ->
  exists m', derive_line Rops order knots seg so m it = Ok m' /\
    line_is m' (dline so (fun pos => mv 0 m (set_nth idx d pos))).
Proof.
  intros Hso. unfold derive_line, dline.
  assert (Hgen : forall n hi m0 f, (so + 1 + n = hi)%nat -> (hi <= order + 1)%nat -> line_is m0 f ->
    exists m', foldM (fun m k =>
    foldM (fun m j =>
      let pos := (Z.of_nat order + Z.of_nat j - Z.of_nat k)%Z in
      a <- sk_at m it pos ;;
      b <- sk_at m it (pos - 1) ;;
      tr <- kget knots (seg + j) 0 ;;
      tl <- kget knots (seg + j) k ;;
      v <- odiv Rops (omul Rops (onat Rops k) (osub Rops a b)) (osub Rops tr tl) ;;
      sk_set m it pos v) (rev (seq 1 k)) m) (rev (seq (so + 1) n)) m0 = Ok m' /\
     line_is m' (fold_left (fun f k => dstep k f) (rev (seq (so + 1) n)) f)).
  { induction n; intros hi m0 f E Hh L.
    - simpl. eauto.
    - rewrite seq_S, rev_app_distr. cbn [rev app foldM fold_left].
      destruct (dstep_line (so + 1 + n) m0 f) as (m1 & E1 & L1); auto. lia.
      cbv zeta in E1 |- *. rewrite E1. cbn [bind]. apply (IHn (so + 1 + n)%nat); auto. lia. }
  apply (Hgen (order - so)%nat (order + 1)%nat); try lia.
  split; auto.
Qed.

End DeriveLine.

(** ** Enumeration of the lines of a cube *)
Open Scope nat_scope.
Fixpoint rank_skip (b d : nat) (idx : list nat) : nat :=
  match d, idx with
  | _, [] => 0
  | 0, _ :: l => rank_low b l
  | S d, a :: l => a + b * rank_skip b d l
  end.

Lemma digits_skip_rank b n d idx :
  d < n -> valid (repeat b n) idx -> digits_skip b n d (rank_skip b d idx) = set_nth idx d 0.
Proof.
  revert d idx; induction n; intros d idx Hd H; [lia|].
  destruct idx as [|a idx]; [inversion H|]. cbn [repeat] in H. apply valid_cons in H as [H1 H2].
  destruct d; cbn [digits_skip rank_skip set_nth].
  - f_equal. apply digits_rank; auto.
  - replace (a + b * rank_skip b d idx) with (a + rank_skip b d idx * b) by lia.
    rewrite Nat.mod_add, Nat.div_add by lia. rewrite Nat.mod_small, Nat.div_small by auto.
    f_equal. cbn [plus]. apply IHn; auto. lia.
Qed.

Lemma rank_skip_lt b n d idx : d < n -> valid (repeat b n) idx -> rank_skip b d idx < b ^ (n - 1).
Proof.
  revert d idx; induction n; intros d idx Hd H; [lia|].
  destruct idx as [|a idx]; [inversion H|]. cbn [repeat] in H. apply valid_cons in H as [H1 H2].
  replace (S n - 1) with n by lia.
  destruct d; cbn [rank_skip].
  - apply rank_low_lt; auto.
  - specialize (IHn d idx ltac:(lia) H2). destruct n; [lia|]. cbn [Nat.pow]. replace (S n - 1) with n in IHn by lia. nia.
Qed.

Lemma rank_digits_skip b n d i : d < n -> i < b ^ (n - 1) ->
  valid (repeat b n) (digits_skip b n d i) /\ rank_skip b d (digits_skip b n d i) = i \/ b = 0.
Proof.
  destruct b; [auto|]. intros Hd Hi. left. revert d i Hd Hi. induction n; intros d i Hd Hi; [lia|].
  replace (S n - 1) with n in Hi by lia.
  destruct d; cbn [digits_skip rank_skip repeat].
  - split. apply valid_cons. split; [lia|]. apply digits_valid; auto. apply rank_digits; auto.
  - destruct n; [lia|]. cbn [Nat.pow] in Hi.
    destruct (IHn d (i / S b)) as [H1 H2]; try lia.
    { replace (S n - 1) with n by lia. apply Nat.div_lt_upper_bound; lia. }
    split.
    + apply valid_cons. split; auto. apply Nat.mod_upper_bound; lia.
    + rewrite H2. pose proof (Nat.div_mod i (S b)). lia.
Qed.

Lemma rank_skip_set b d idx v : rank_skip b d (set_nth idx d v) = rank_skip b d idx.
Proof. revert d; induction idx; intros [|d]; simpl; auto. Qed.

Lemma nth_repeat_dims b n d : d < n -> nth d (repeat b n) 0 = b.
Proof. apply nth_repeat_lt. Qed.

(** ** All lines of one dimension *)
Open Scope R_scope.
Lemma hyper_loop_ok on (s : spline R) (ki : nat) d q (m : mesh R) :
  let order := sp_order s in
  let dim := sp_dim s in
  (d < dim)%nat -> (q <= order)%nat -> wf_mesh m -> m_dims m = repeat (order + 1)%nat dim ->
  nondecreasing (knot_of s d) -> (order <= ki)%nat -> (ki + order + 1 < length (knot_of s d))%nat ->
  kn (knot_of s d) ki < kn (knot_of s d) (ki + 1) -> length (sp_knots s) = dim ->
  exists m', for_ 0 ((order + 1) ^ (dim - 1)) m (fun lcp i =>
      it <- mesh_begin on lcp d (digits_skip (order + 1) dim d i) ;;
      kn <- vget (sp_knots s) d ;;
      derive_line Rops order kn ki q lcp it) = Ok m' /\
    m_dims m' = m_dims m /\ wf_mesh m' /\
    forall idx, valid (m_dims m) idx ->
      mv 0 m' idx = dline order ki (knot_of s d) q (fun pos => mv 0 m (set_nth idx d pos)) (nth d idx 0%nat).
Proof.
  intros order dim Hd Hq W Hm Hnd Hk1 Hk2 Hks Hkl.
  match goal with |- context[for_ 0 ?hi ?s0 ?f] =>
    destruct (for_inv (fun i m' => m_dims m' = m_dims m /\ wf_mesh m' /\
      forall idx, valid (m_dims m) idx -> mv 0 m' idx =
        if (rank_skip (order + 1) d idx <? i)%nat
        then dline order ki (knot_of s d) q (fun pos => mv 0 m (set_nth idx d pos)) (nth d idx 0%nat)
        else mv 0 m idx) 0 hi s0 f) as (m' & E & A & B & C) end.
  - lia.
  - split; auto.
  - intros i m1 Hi (A & B & C).
    destruct (rank_digits_skip (order + 1) dim d i) as [[He1 He2]|]; try lia.
    set (e := digits_skip (order + 1) dim d i) in *.
    assert (Hve : valid (m_dims m1) e) by (rewrite A, Hm; auto).
    rewrite mesh_begin_ok; [|rewrite A, Hm, repeat_length; auto|].
    2:{ apply valid_set_nth_0; auto. }
    cbn [bind]. rewrite (vget_ok (sp_knots s) d []) by lia. cbn [bind]. fold (knot_of s d).
    destruct (derive_line_ok order ki (knot_of s d) Hk1 Hnd ltac:(lia) ltac:(lia) Hks m1 d e B) with (so := q)
      as (m2 & E2 & L1 & L2 & L3 & L4); auto.
    { rewrite A, Hm, repeat_length; auto. }
    { rewrite A, Hm, nth_repeat_dims; auto. }
    exists m2. split; auto. split; [congruence|]. split; auto.
    intros idx Hv.
    assert (Hvr : valid (repeat (order + 1)%nat dim) idx) by (rewrite <- Hm; auto).
    assert (Hil : length idx = dim) by (apply valid_length in Hvr; rewrite repeat_length in Hvr; auto).
    assert (Hnd0 : (nth d idx 0 <= order)%nat).
    { assert (nth d idx 0 < nth d (repeat (order+1) dim) 0)%nat.
      { apply valid_nth; auto; rewrite repeat_length; auto. }
      rewrite nth_repeat_lt in H by auto. lia. }
    destruct (Nat.eq_dec (rank_skip (order + 1) d idx) i) as [Er|Er].
    + assert (Ee : set_nth idx d 0 = e).
      { unfold e. rewrite <- Er. symmetry. apply digits_skip_rank; auto. }
      assert (Eidx : forall pos, set_nth e d pos = set_nth idx d pos).
      { intros pos. rewrite <- Ee. apply set_nth_same. }
      rewrite <- (set_nth_self idx d) at 1. rewrite <- Eidx. rewrite L3 by auto.
      rewrite Er. destruct (Nat.ltb_spec i (i + 1)); [|lia].
      apply dline_ext; auto. intros pos Hp. rewrite Eidx. rewrite C.
      * rewrite rank_skip_set, Er. destruct (Nat.ltb_spec i i); auto; lia.
      * apply valid_set_nth; auto. rewrite Hm, nth_repeat_lt by auto. lia.
    + rewrite L4.
      * rewrite C by auto.
        destruct (Nat.ltb_spec (rank_skip (order + 1) d idx) i), (Nat.ltb_spec (rank_skip (order + 1) d idx) (i + 1)); auto; lia.
      * rewrite A; auto.
      * intros pos E. apply Er. rewrite E, rank_skip_set. auto.
  - exists m'. split; auto. split; auto. split; auto.
    intros idx Hv. rewrite C by auto.
    pose proof (rank_skip_lt (order + 1) dim d idx Hd) as Hr. rewrite <- Hm in Hr. specialize (Hr Hv).
    destruct (Nat.ltb_spec (rank_skip (order + 1) d idx) ((order + 1) ^ (dim - 1))); auto; lia.
Qed.

