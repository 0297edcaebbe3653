(** Proofs about base_spline_value and get_knot_iter. *)
From Coq Require Import List Arith Lia Bool ZArith Reals Lra.
From Verif Require Import Base Num MeshM SplineM SpecMesh SpecSpline.
Import ListNotations.
Open Scope R_scope.

Lemma frac_ok a b : b <> 0 -> frac a b = a / b.
Proof. intros. unfold frac. destruct (Req_EM_T b 0); auto; contradiction. Qed.

Lemma piece_S t k p i x :
  piece t k (S p) i x =
  frac (x - t i) (t (i + S p)%nat - t i) * piece t k p i x
  + frac (t (i + S p + 1)%nat - x) (t (i + S p + 1)%nat - t (i + 1)%nat) * piece t k p (i + 1) x.
Proof. reflexivity. Qed.

(** Local support. *)
Lemma piece_support t k p i x : (k < i \/ i + p < k)%nat -> piece t k p i x = 0.
Proof.
  revert i; induction p; intros i H.
  - unfold piece; simpl. destruct (Nat.eqb_spec i k); auto; lia.
  - rewrite piece_S, !IHp by lia. ring.
Qed.

(** Inside a segment the basis function is its polynomial piece. *)
Lemma bspline_piece t k p i x :
  (forall a b, (a <= b)%nat -> (b <= i + p + 1 \/ b <= k + 1)%nat -> t a <= t b) ->
  t k <= x < t (k + 1)%nat -> bspline t p i x = piece t k p i x.
Proof.
  intros Hm Hx. unfold bspline, piece. revert i Hm; induction p; intros i Hm.
  - simpl. destruct (Nat.eqb_spec i k).
    + subst. destruct (Rle_dec (t k) x); [|lra]. destruct (Rlt_dec x (t (k+1)%nat)); lra.
    + destruct (Rle_dec (t i) x); auto. destruct (Rlt_dec x (t (i+1)%nat)); auto.
      destruct (Nat.lt_ge_cases i k).
      * assert (t (i+1)%nat <= t k) by (apply Hm; lia). lra.
      * assert (t (k+1)%nat <= t i) by (apply Hm; lia). lra.
  - cbn [cox]. rewrite !IHp; auto.
    + intros; apply Hm; lia.
    + intros; apply Hm; lia.
Qed.

Lemma kget_ok knots pos neg : (neg <= pos)%nat -> (pos - neg < length knots)%nat ->
  kget knots pos neg = Ok (kn knots (pos - neg)).
Proof.
  intros. unfold kget. destruct (Nat.leb_spec neg pos); [|lia].
  rewrite (vget_ok _ _ 0) by auto. reflexivity.
Qed.

Section Base.
Variables (order : nat) (knots : list R) (k : nat).
Let t := kn knots.
Hypothesis Hnd : nondecreasing knots.
Hypothesis Hko : (order <= k)%nat.
Hypothesis Hlen : (k + order < length knots)%nat.
Hypothesis Hlen1 : (k + 1 < length knots)%nat.
Hypothesis Hseg : t k < t (k + 1)%nat.

Lemma seg_gap i j : (i <= k)%nat -> (k + 1 <= j < length knots)%nat -> 0 < t j - t i.
Proof.
  intros. assert (t i <= t k) by (apply Hnd; lia). assert (t (k+1)%nat <= t j) by (apply Hnd; lia). lra.
Qed.

Definition bsv_level (x : R) (q : nat) (b : list R) : Prop :=
  length b = (order + 1)%nat /\
  (forall j, (j < order - q)%nat -> nth j b 0 = 0) /\
  (forall j, (j <= q)%nat -> nth (order - q + j) b 0 = piece t k q (k - q + j) x).

Lemma base_spline_value_ok x so :
  (so <= order)%nat ->
  exists b, base_spline_value Rops order knots k x so = Ok b /\ bsv_level x so b.
Proof.
  intros Hso. unfold base_spline_value.
  rewrite vset_ok by (rewrite repeat_length; lia). cbn [bind].
  match goal with |- context[for_ 1 ?hi ?s0 ?f] =>
    destruct (for_inv (fun i b => bsv_level x (i - 1) b) 1 hi s0 f) as (b & E & H) end.
  - lia.
  - unfold bsv_level. rewrite upd_length, repeat_length. split; auto. split.
    + intros j Hj. rewrite nth_upd_other by lia. apply nth_repeat.
    + intros j Hj. replace (order - (1-1) + j)%nat with order by lia.
      rewrite nth_upd_same by (rewrite repeat_length; lia).
      replace (k - (1-1) + j)%nat with k by lia. unfold piece; simpl.
      rewrite Nat.eqb_refl. reflexivity.
  - intros i b Hi (Hl & Hz & Hv). rewrite usub_ok by lia. cbn [bind].
    match goal with |- context[for_ 0 ?hi ?s0 ?f] =>
      destruct (for_inv (fun j b' => length b' = (order + 1)%nat /\
        (forall m, (m < order - i)%nat -> nth m b' 0 = 0) /\
        (forall m, (m < j)%nat -> nth (order - i + m) b' 0 = piece t k i (k - i + m) x) /\
        (forall m, (j <= m <= i)%nat -> nth (order - i + m) b' 0 =
             if (m =? 0)%nat then 0 else piece t k (i - 1) (k - i + m) x)) 0 hi s0 f)
        as (b' & E' & Hl' & Hz' & Hv' & _) end.
    + lia.
    + split; auto. split; [|split].
      * intros m Hm. apply Hz. lia.
      * intros; lia.
      * intros m Hm. destruct (Nat.eqb_spec m 0).
        { apply Hz. lia. }
        replace (order - i + m)%nat with (order - (i - 1) + (m - 1))%nat by lia.
        rewrite Hv by lia. f_equal. lia.
    + intros j b1 Hj (Hl1 & Hz1 & Hn1 & Ho1).
      assert (EL : exists l, (if (j =? 0)%nat then Ok (o0 Rops)
            else bj <- vget b1 (order - i + j) ;;
                 tl <- kget knots (k + j) i ;;
                 tr <- kget knots (k + j) 0 ;;
                 odiv Rops (omul Rops bj (osub Rops x tl)) (osub Rops tr tl)) = Ok l /\
            l = frac (x - t (k-i+j)%nat) (t (k-i+j+i)%nat - t (k-i+j)%nat) * piece t k (i-1) (k-i+j) x).
      { destruct (Nat.eqb_spec j 0).
        - eexists; split; [reflexivity|]. rewrite piece_support by lia. simpl. ring.
        - rewrite (vget_ok _ _ 0) by lia. cbn [bind].
          rewrite !kget_ok by lia. cbn [bind]. fold t. rewrite Rdiv_ok.
          + eexists; split; [reflexivity|]. rewrite Ho1 by lia.
            destruct (Nat.eqb_spec j 0); [lia|].
            replace (k + j - i)%nat with (k - i + j)%nat by lia.
            replace (k + j - 0)%nat with (k - i + j + i)%nat by lia.
            rewrite frac_ok. simpl. unfold Rdiv. ring.
            assert (0 < t (k-i+j+i)%nat - t (k-i+j)%nat) by (apply seg_gap; lia). lra.
          + simpl. assert (0 < t (k+j-0)%nat - t (k+j-i)%nat) by (apply seg_gap; lia). lra. }
      assert (ER : exists r, (if (order - i + j =? order)%nat then Ok (o0 Rops)
            else bj <- vget b1 (order - i + j + 1) ;;
                 tr <- kget knots (k + j + 1) 0 ;;
                 tl <- kget knots (k + j + 1) i ;;
                 odiv Rops (omul Rops bj (osub Rops tr x)) (osub Rops tr tl)) = Ok r /\
            r = frac (t (k-i+j+i+1)%nat - x) (t (k-i+j+i+1)%nat - t (k-i+j+1)%nat) * piece t k (i-1) (k-i+j+1) x).
      { destruct (Nat.eqb_spec (order - i + j) order).
        - eexists; split; [reflexivity|]. rewrite piece_support by lia. simpl. ring.
        - rewrite (vget_ok _ _ 0) by lia. cbn [bind].
          rewrite !kget_ok by lia. cbn [bind]. fold t. rewrite Rdiv_ok.
          + eexists; split; [reflexivity|].
            replace (order - i + j + 1)%nat with (order - i + (j + 1))%nat by lia. rewrite Ho1 by lia.
            destruct (Nat.eqb_spec (j+1) 0); [lia|].
            replace (k + j + 1 - i)%nat with (k - i + j + 1)%nat by lia.
            replace (k + j + 1 - 0)%nat with (k - i + j + i + 1)%nat by lia.
            rewrite frac_ok. simpl. replace (k - i + (j+1))%nat with (k - i + j + 1)%nat by lia. unfold Rdiv. ring.
            assert (0 < t (k-i+j+i+1)%nat - t (k-i+j+1)%nat) by (apply seg_gap; lia). lra.
          + simpl. assert (0 < t (k+j+1-0)%nat - t (k+j+1-i)%nat) by (apply seg_gap; lia). lra. }
      destruct EL as (l & EL & Vl). destruct ER as (r & ER & Vr). rewrite EL, ER. cbn [bind].
      rewrite vset_ok by lia. eexists; split; [reflexivity|]. rewrite upd_length.
      split; auto. split; [|split].
      * intros m Hm. rewrite nth_upd_other by lia. auto.
      * intros m Hm. destruct (Nat.eq_dec m j).
        { subst m. rewrite nth_upd_same by lia. subst l r. simpl oadd.
          destruct i; [lia|]. rewrite piece_S. replace (S i - 1)%nat with i by lia. reflexivity. }
        { rewrite nth_upd_other by lia. apply Hn1. lia. }
      * intros m Hm. rewrite nth_upd_other by lia. apply Ho1. lia.
    + exists b'. split; auto. replace (i + 1 - 1)%nat with i by lia. split; auto. split; auto.
      intros j Hj. apply Hv'. lia.
  - exists b. split; auto. replace (so + 1 - 1)%nat with so in H by lia. auto.
Qed.

End Base.

(** ** Knot lookup: for every decidable total order *)
Definition total_order {T} (o : ops T) : Prop :=
  (forall x, ole o x x = true) /\
  (forall x y z, ole o x y = true -> ole o y z = true -> ole o x z = true) /\
  (forall x y, olt o x y = negb (ole o y x)) /\
  (forall x y, ole o x y = true \/ ole o y x = true).

Lemma Rops_total : total_order Rops.
Proof.
  split; [|split; [|split]]; simpl; intros.
  - apply Rleb_true. lra.
  - rewrite Rleb_true in *. lra.
  - destruct (Rleb y x) eqn:E; simpl.
    + apply Rltb_false. apply Rleb_true in E. auto.
    + apply Rltb_true. apply Rleb_false in E. auto.
  - rewrite !Rleb_true. lra.
Qed.

Section Search.
Context {T : Type} (o : ops T) (Hto : total_order o) (d : T).
Variable knots : list T.

Lemma olt_le x y : olt o x y = true -> ole o x y = true.
Proof.
  destruct Hto as (_ & _ & Hlt & Htot). rewrite Hlt. intros H.
  destruct (Htot x y); auto. rewrite H0 in H. discriminate.
Qed.
Lemma olt_false x y : olt o x y = false -> ole o y x = true.
Proof. destruct Hto as (_ & _ & Hlt & _). rewrite Hlt. intros H. destruct (ole o y x); auto. Qed.
Lemma olt_le_trans x y z : olt o x y = true -> ole o y z = true -> olt o x z = true.
Proof.
  destruct Hto as (_ & Htr & Hlt & _). rewrite !Hlt. intros H1 H2.
  destruct (ole o z x) eqn:E; auto. rewrite (Htr y z x) in H1; auto.
Qed.

Lemma upper_bound_ok x : forall fuel first len,
  (len <= fuel)%nat -> (first + len <= length knots)%nat ->
  (forall i j, (first <= i <= j)%nat -> (j < first + len)%nat -> ole o (nth i knots d) (nth j knots d) = true) ->
  exists u, upper_bound o knots x fuel first len = Ok u /\ (first <= u <= first + len)%nat /\
    (forall i, (first <= i < u)%nat -> ole o (nth i knots d) x = true) /\
    (forall i, (u <= i < first + len)%nat -> olt o x (nth i knots d) = true).
Proof.
  destruct Hto as (Hr & Htr & Hlt & Htot).
  induction fuel; intros first len Hf Hl Hs; cbn [upper_bound].
  - exists first. split; auto. split; [lia|]. split; intros; lia.
  - destruct (Nat.eqb_spec len 0).
    + exists first. split; auto. split; [lia|]. split; intros; lia.
    + assert (Hh : (len / 2 < len)%nat) by (apply Nat.div_lt; lia).
      rewrite (vget_ok _ _ d) by lia. cbn [bind].
      destruct (olt o x (nth (first + len / 2) knots d)) eqn:E.
      * destruct (IHfuel first (len / 2)%nat) as (u & Eu & Hu & H1 & H2); try lia.
        { intros. apply Hs; lia. }
        exists u. split; auto. split; [lia|]. split; auto.
        intros i Hi. destruct (Nat.lt_ge_cases i (first + len / 2)).
        { apply H2; lia. }
        { eapply olt_le_trans; eauto. apply Hs; lia. }
      * destruct (IHfuel (first + len / 2 + 1)%nat (len - len / 2 - 1)%nat) as (u & Eu & Hu & H1 & H2); try lia.
        { intros. apply Hs; lia. }
        exists u. split; auto. split; [lia|]. split.
        { intros i Hi. destruct (Nat.lt_ge_cases i (first + len / 2 + 1)).
          - apply olt_false in E. apply (Htr _ (nth (first + len / 2) knots d)); auto. apply Hs; lia.
          - apply H1; lia. }
        { intros i Hi. apply H2. lia. }
Qed.

(** The segment responsible for a coordinate. *)
Definition seg_in (lo hi : nat) (x : T) (k : nat) : Prop :=
  (lo <= k <= hi)%nat /\
  (k = lo \/ ole o (nth k knots d) x = true) /\
  (k = hi \/ olt o x (nth (k + 1) knots d) = true).

Definition sorted_on (lo hi : nat) : Prop :=
  forall i j, (lo <= i <= j)%nat -> (j <= hi)%nat -> ole o (nth i knots d) (nth j knots d) = true.

Lemma olt_irrefl_le x y : olt o x y = true -> ole o y x = true -> False.
Proof. destruct Hto as (_ & _ & Hlt & _). rewrite Hlt. intros H1 H2. rewrite H2 in H1. discriminate. Qed.

Lemma seg_in_unique lo hi x k k' :
  sorted_on lo hi -> seg_in lo hi x k -> seg_in lo hi x k' -> k = k'.
Proof.
  destruct Hto as (Hr & Htr & Hlt & Htot). intros Hs.
  assert (W : forall k k', seg_in lo hi x k -> seg_in lo hi x k' -> (k < k')%nat -> False).
  { intros a b (Ha & Ha1 & Ha2) (Hb & Hb1 & Hb2) Hab.
    destruct Ha2 as [|Ha2]; [lia|]. destruct Hb1 as [|Hb1]; [lia|].
    apply (olt_irrefl_le _ _ Ha2). apply (Htr _ (nth b knots d)); auto. apply Hs; lia. }
  intros A B. destruct (Nat.lt_trichotomy k k') as [|[|]]; auto; exfalso; eauto.
Qed.

Lemma get_knot_iter_last_ok order periodic range x x' hint last :
  wrap_coord o periodic range x = Ok x' ->
  (order <= hint <= last)%nat -> (last + 1 < length knots)%nat ->
  sorted_on order last ->
  exists k, get_knot_iter_last o order periodic knots range x hint last = Ok (x', k) /\
            seg_in order last x' k.
Proof.
  intros Ew Hh Hl Hs. unfold get_knot_iter_last. rewrite Ew. cbn [bind].
  rewrite (vget_ok _ _ d) by lia. cbn [bind].
  set (hit := if ole o (nth hint knots d) x' then _ else _).
  assert (Hhit : exists b, hit = Ok b /\ (b = true -> ole o (nth hint knots d) x' = true /\ olt o x' (nth (hint+1) knots d) = true)).
  { unfold hit. destruct (ole o (nth hint knots d) x') eqn:E.
    - rewrite (vget_ok _ _ d) by lia. cbn [bind]. eexists; split; eauto.
    - eexists; split; eauto. discriminate. }
  destruct Hhit as (b & -> & Hb). cbn [bind]. destruct b.
  - destruct Hb as [H1 H2]; auto. exists hint. split; auto. split; auto.
  - destruct (Nat.ltb_spec last order); [lia|].
    destruct (upper_bound_ok x' (last - order) (order + 1) (last - order)) as (u & Eu & Hu & H1 & H2); try lia.
    { intros. apply Hs; lia. }
    rewrite Eu. cbn [bind]. rewrite usub_ok by lia. cbn [bind].
    eexists; split; eauto. split; [lia|]. split.
    + destruct (Nat.eq_dec (u - 1) order); auto. right. apply H1. lia.
    + destruct (Nat.eq_dec (u - 1) last); auto. right. apply H2. lia.
Qed.

(** The default bound of the search. *)
Lemma get_knot_iter_ok order periodic range x x' hint :
  wrap_coord o periodic range x = Ok x' ->
  (order <= hint)%nat -> (hint + order + 2 <= length knots)%nat ->
  sorted_on order (length knots - order - 2) ->
  exists k, get_knot_iter o order periodic knots range x hint = Ok (x', k) /\
            seg_in order (length knots - order - 2) x' k.
Proof.
  intros Ew H1 H2 Hs. unfold get_knot_iter. rewrite usub_ok by lia. cbn [bind].
  rewrite usub_ok by lia. cbn [bind]. apply get_knot_iter_last_ok; auto; lia.
Qed.

End Search.

Lemma sorted_on_R knots lo hi :
  nondecreasing knots -> (hi < length knots)%nat -> sorted_on Rops 0 knots lo hi.
Proof. intros H Hh i j Hij Hj. simpl. apply Rleb_true. apply H. lia. Qed.

Lemma seg_in_R knots lo hi x k :
  nondecreasing knots -> (hi + 1 < length knots)%nat ->
  kn knots lo < kn knots (lo + 1) -> kn knots hi < kn knots (hi + 1) ->
  seg_in Rops 0 knots lo hi x k <-> segment (kn knots) lo hi x k.
Proof.
  intros Hnd Hl Hlo Hhi. unfold seg_in, segment. simpl. rewrite Rleb_true, Rltb_true.
  fold (kn knots k). fold (kn knots (k+1)). split.
  - intros (H1 & H2 & H3). split; auto. split; auto.
    destruct H2 as [->|H2]; auto. destruct H3 as [->|H3]; auto. lra.
  - intros (H1 & H2 & H3 & H4). auto.
Qed.

(** Every coordinate has a segment. *)
Lemma segment_exists knots lo hi x :
  nondecreasing knots -> (lo <= hi)%nat -> (hi + 1 < length knots)%nat ->
  kn knots lo < kn knots (lo + 1) -> kn knots hi < kn knots (hi + 1) ->
  exists k, segment (kn knots) lo hi x k.
Proof.
  intros Hnd Hlh Hl Hlo Hhi.
  destruct (get_knot_iter_last_ok Rops Rops_total 0 knots lo false (0,0) x x lo hi) as (k & _ & Hk); auto.
  { apply sorted_on_R; auto. lia. }
  exists k. apply seg_in_R in Hk; auto.
Qed.

Lemma segment_unique knots lo hi x k k' :
  nondecreasing knots -> (hi < length knots)%nat ->
  segment (kn knots) lo hi x k -> segment (kn knots) lo hi x k' -> k = k'.
Proof.
  intros Hnd Hl.
  assert (W : forall a b, segment (kn knots) lo hi x a -> segment (kn knots) lo hi x b -> (a < b)%nat -> False).
  { intros a b (Ha & _ & Ha1 & Ha2) (Hb & _ & Hb1 & Hb2) Hab.
    destruct Ha2 as [|Ha2]; [lia|]. destruct Hb1 as [|Hb1]; [lia|].
    assert (kn knots (a+1) <= kn knots b) by (apply Hnd; lia). lra. }
  intros A B. destruct (Nat.lt_trichotomy k k') as [|[|]]; auto; exfalso; eauto.
Qed.
