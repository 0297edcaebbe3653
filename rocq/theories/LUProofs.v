(** Correctness of the band LU factorisations and triangular solves. *)
From Coq Require Import List Arith Lia Bool Reals Lra.
From Verif Require Import Base Num MeshM BandM ProgM LUM SpecBand SumR DenseLU BandProofs MulProofs.
Import ListNotations.
Local Open Scope R_scope.

Ltac bdr := repeat match goal with
  | |- context [(?a <? ?b)%nat] => destruct (Nat.ltb_spec a b)
  | |- context [(?a <=? ?b)%nat] => destruct (Nat.leb_spec a b)
  | |- context [(?a =? ?b)%nat] => destruct (Nat.eqb_spec a b)
  end; cbn [andb orb negb].

(** ** Update loops on an abstract matrix *)
Section Loops.
Context {M : Type} (inv : M -> Prop) (abs : M -> mat).

Definition getter (D : nat -> nat -> Prop) (get : M -> nat -> nat -> res R) : Prop :=
  forall m i j, inv m -> D i j -> get m i j = Ok (abs m i j).
Definition setter (D : nat -> nat -> Prop) (set : M -> nat -> nat -> R -> res M) : Prop :=
  forall m i j v, inv m -> D i j -> exists m', set m i j v = Ok m' /\ inv m' /\
    forall i' j', abs m' i' j' = if ((i' =? i) && (j' =? j))%nat then v else abs m i' j'.

Lemma div_loop D Dd getd get set k lo hi m :
  getter Dd getd -> getter D get -> setter D set ->
  inv m -> (k < lo)%nat -> Dd k k -> (forall i, (lo <= i < hi)%nat -> D i k) ->
  ((lo < hi)%nat -> abs m k k <> 0) ->
  exists m', for_ lo hi m (fun m i => div_assign Rops getd get set m i k k) = Ok m' /\ inv m' /\
    forall i j, abs m' i j = if ((lo <=? i) && (i <? hi) && (j =? k))%nat
                             then abs m i k / abs m k k else abs m i j.
Proof.
  intros Hgd Hg Hs Hi Hk Hdd Hd Hnz.
  destruct (for_inv' (fun c m' => inv m' /\ forall i j, abs m' i j =
     if ((lo <=? i) && (i <? Nat.min c hi) && (j =? k))%nat then abs m i k / abs m k k else abs m i j)
    lo hi m (fun m i => div_assign Rops getd get set m i k k)) as (m' & E & Hi' & Hv).
  - split; auto. intros i j. destruct (Nat.leb_spec lo i), (Nat.ltb_spec i (Nat.min lo hi)); cbn [andb]; auto; lia.
  - intros c s Hc (His & Hvs). unfold div_assign. rewrite (Hg s c k) by auto. cbn [bind].
    rewrite (Hgd s k k) by auto. cbn [bind].
    assert (abs s k k = abs m k k) as Ek.
    { rewrite Hvs. destruct (Nat.leb_spec lo k); auto; lia. }
    assert (abs s c k = abs m c k) as Ec.
    { rewrite Hvs. destruct (Nat.leb_spec lo c), (Nat.ltb_spec c (Nat.min c hi)); cbn [andb]; auto; lia. }
    rewrite Ek, Ec, Rdiv_ok by (apply Hnz; lia). cbn [bind].
    destruct (Hs s c k (abs m c k / abs m k k)) as (s' & E' & Hi' & Hv'); auto.
    exists s'. split; auto. split; auto. intros i j. rewrite Hv', Hvs.
    bdr; subst; auto; lia.
  - exists m'. split; auto. split; auto. intros i j. rewrite Hv.
    replace (Nat.min (Nat.max lo hi) hi) with hi by lia. auto.
Qed.

Definition elim (k : nat) (A : mat) (i j : nat) : R := A i j - A i k * A k j.

Lemma sub_step D D1 D2 get get1 get2 set k i j m :
  getter D get -> getter D1 get1 -> getter D2 get2 -> setter D set ->
  inv m -> D i j -> D1 i k -> D2 k j ->
  exists m', sub_assign Rops get get1 get2 set m i j k = Ok m' /\ inv m' /\
    forall i' j', abs m' i' j' = if ((i' =? i) && (j' =? j))%nat then elim k (abs m) i j else abs m i' j'.
Proof.
  intros Hg Hg1 Hg2 Hs Hi Hd Hd1 Hd2. unfold sub_assign.
  rewrite (Hg m i j), (Hg1 m i k), (Hg2 m k j) by auto. cbn [bind].
  apply Hs; auto.
Qed.

(** Inner loop over rows [i] in a fixed column, and over columns [j] in a
    fixed row; outer loop over the other index. *)
Lemma rect_ji D D1 D2 get get1 get2 set k il ih jl jh m :
  getter D get -> getter D1 get1 -> getter D2 get2 -> setter D set ->
  inv m -> (k < il)%nat -> (k < jl)%nat ->
  (forall i j, (il <= i < ih)%nat -> (jl <= j < jh)%nat -> D i j /\ D1 i k /\ D2 k j) ->
  exists m', for_ jl jh m (fun m j => for_ il ih m (fun m i =>
      sub_assign Rops get get1 get2 set m i j k)) = Ok m' /\ inv m' /\
    forall i j, abs m' i j = if ((il <=? i) && (i <? ih) && (jl <=? j) && (j <? jh))%nat
                             then elim k (abs m) i j else abs m i j.
Proof.
  intros Hg Hg1 Hg2 Hs Hi Hil Hjl Hd.
  match goal with |- exists m', for_ jl jh m ?F = _ /\ _ =>
  destruct (for_inv' (fun c m' => inv m' /\ forall i j, abs m' i j =
     if ((il <=? i) && (i <? ih) && (jl <=? j) && (j <? Nat.min c jh))%nat
     then elim k (abs m) i j else abs m i j) jl jh m F) as (r & E & Hi' & Hv) end.
  - split; auto. intros i j.
    destruct (Nat.leb_spec jl j), (Nat.ltb_spec j (Nat.min jl jh)); rewrite ?andb_false_r; cbn [andb]; auto; lia.
  - intros c s Hc (His & Hvs).
    match goal with |- exists m', for_ il ih s ?F = _ /\ _ =>
    destruct (for_inv' (fun r m' => inv m' /\ forall i j, abs m' i j =
      if ((il <=? i) && (i <? Nat.min r ih) && (j =? c))%nat
      then elim k (abs m) i j else abs s i j) il ih s F) as (s' & E' & Hi' & Hv') end.
    + split; auto. intros i j.
      destruct (Nat.leb_spec il i), (Nat.ltb_spec i (Nat.min il ih)); cbn [andb]; auto; lia.
    + intros r t Hr (Hit & Hvt). destruct (Hd r c) as (H1 & H2 & H3); auto.
      destruct (sub_step D D1 D2 get get1 get2 set k r c t) as (t' & Et & Hit' & Hvt'); auto.
      exists t'. split; auto. split; auto. intros i j. rewrite Hvt'.
      assert (elim k (abs t) r c = elim k (abs m) r c) as Ee.
      { assert (Q1 : abs t r c = abs m r c) by (rewrite Hvt, Hvs; bdr; auto; lia).
        assert (Q2 : abs t r k = abs m r k) by (rewrite Hvt, Hvs; bdr; auto; lia).
        assert (Q3 : abs t k c = abs m k c) by (rewrite Hvt, Hvs; bdr; auto; lia).
        unfold elim. rewrite Q1, Q2, Q3. auto. }
      rewrite Ee, Hvt.
      destruct (Nat.eqb_spec i r), (Nat.eqb_spec j c); subst; cbn [andb]; rewrite ?andb_false_r; auto;
      repeat match goal with
        | |- context [(?a <? ?b)%nat] => destruct (Nat.ltb_spec a b)
        | |- context [(?a <=? ?b)%nat] => destruct (Nat.leb_spec a b)
        end; cbn [andb]; auto; try lia.
    + exists s'. split; auto. split; auto. intros i j. rewrite Hv', Hvs.
      replace (Nat.min (Nat.max il ih) ih) with ih by lia.
      destruct (Nat.leb_spec il i), (Nat.ltb_spec i ih), (Nat.eqb_spec j c), (Nat.leb_spec jl j),
        (Nat.ltb_spec j (Nat.min c jh)), (Nat.ltb_spec j (Nat.min (c + 1) jh)); cbn [andb]; subst; auto; try lia.
  - exists r. split; auto. split; auto. intros i j. rewrite Hv.
    replace (Nat.min (Nat.max jl jh) jh) with jh by lia. auto.
Qed.

Lemma rect_ij D D1 D2 get get1 get2 set k il ih jl jh m :
  getter D get -> getter D1 get1 -> getter D2 get2 -> setter D set ->
  inv m -> (k < il)%nat -> (k < jl)%nat ->
  (forall i j, (il <= i < ih)%nat -> (jl <= j < jh)%nat -> D i j /\ D1 i k /\ D2 k j) ->
  exists m', for_ il ih m (fun m i => for_ jl jh m (fun m j =>
      sub_assign Rops get get1 get2 set m i j k)) = Ok m' /\ inv m' /\
    forall i j, abs m' i j = if ((il <=? i) && (i <? ih) && (jl <=? j) && (j <? jh))%nat
                             then elim k (abs m) i j else abs m i j.
Proof.
  intros Hg Hg1 Hg2 Hs Hi Hil Hjl Hd.
  match goal with |- exists m', for_ il ih m ?F = _ /\ _ =>
  destruct (for_inv' (fun c m' => inv m' /\ forall i j, abs m' i j =
     if ((il <=? i) && (i <? Nat.min c ih) && (jl <=? j) && (j <? jh))%nat
     then elim k (abs m) i j else abs m i j) il ih m F) as (r & E & Hi' & Hv) end.
  - split; auto. intros i j.
    destruct (Nat.leb_spec il i), (Nat.ltb_spec i (Nat.min il ih)); cbn [andb]; auto; lia.
  - intros c s Hc (His & Hvs).
    match goal with |- exists m', for_ jl jh s ?F = _ /\ _ =>
    destruct (for_inv' (fun r m' => inv m' /\ forall i j, abs m' i j =
      if ((jl <=? j) && (j <? Nat.min r jh) && (i =? c))%nat
      then elim k (abs m) i j else abs s i j) jl jh s F) as (s' & E' & Hi' & Hv') end.
    + split; auto. intros i j.
      destruct (Nat.leb_spec jl j), (Nat.ltb_spec j (Nat.min jl jh)); cbn [andb]; auto; lia.
    + intros r t Hr (Hit & Hvt). destruct (Hd c r) as (H1 & H2 & H3); auto.
      destruct (sub_step D D1 D2 get get1 get2 set k c r t) as (t' & Et & Hit' & Hvt'); auto.
      exists t'. split; auto. split; auto. intros i j. rewrite Hvt'.
      assert (elim k (abs t) c r = elim k (abs m) c r) as Ee.
      { assert (Q1 : abs t c r = abs m c r) by (rewrite Hvt, Hvs; bdr; auto; lia).
        assert (Q2 : abs t c k = abs m c k) by (rewrite Hvt, Hvs; bdr; auto; lia).
        assert (Q3 : abs t k r = abs m k r) by (rewrite Hvt, Hvs; bdr; auto; lia).
        unfold elim. rewrite Q1, Q2, Q3. auto. }
      rewrite Ee, Hvt.
      destruct (Nat.eqb_spec i c), (Nat.eqb_spec j r); subst; cbn [andb]; rewrite ?andb_false_r; auto;
      repeat match goal with
        | |- context [(?a <? ?b)%nat] => destruct (Nat.ltb_spec a b)
        | |- context [(?a <=? ?b)%nat] => destruct (Nat.leb_spec a b)
        end; cbn [andb]; auto; try lia.
    + exists s'. split; auto. split; auto. intros i j. rewrite Hv', Hvs.
      replace (Nat.min (Nat.max jl jh) jh) with jh by lia.
      destruct (Nat.leb_spec jl j), (Nat.ltb_spec j jh), (Nat.eqb_spec i c), (Nat.leb_spec il i),
        (Nat.ltb_spec i (Nat.min c ih)), (Nat.ltb_spec i (Nat.min (c + 1) ih)); cbn [andb]; subst; auto; try lia.
  - exists r. split; auto. split; auto. intros i j. rewrite Hv.
    replace (Nat.min (Nat.max il ih) ih) with ih by lia. auto.
Qed.

End Loops.



Lemma lu_iter_ext A B n k :
  (forall i j, (i < n)%nat -> (j < n)%nat -> A i j = B i j) ->
  forall i j, (k <= n)%nat -> (i < n)%nat -> (j < n)%nat -> lu_iter A k i j = lu_iter B k i j.
Proof.
  intros H. induction k; intros i j Hk Hi Hj; simpl; auto.
  unfold lu_step. rewrite !IHk by lia. auto.
Qed.

Lemma pivots_ext A B n :
  (forall i j, (i < n)%nat -> (j < n)%nat -> A i j = B i j) -> pivots_ok A n -> pivots_ok B n.
Proof.
  intros H Hp k Hk. rewrite <- (lu_iter_ext A B n k H) by lia. apply Hp; auto.
Qed.

(** ** BandLU<BandMatrix> *)
Lemma band_lu_step on n p q m k :
  wfb n p q m -> (k < n - 1)%nat -> ((1 <= p)%nat -> babs 0 m k k <> 0) ->
  exists m', (m <- for_ (k + 1) (Nat.min (k + p + 1) n) m (fun m i =>
           div_assign Rops (band_get on) (band_get on) (band_set on) m i k k) ;;
    for_ (k + 1) (Nat.min (k + q + 1) n) m (fun m j =>
      for_ (k + 1) (Nat.min (k + p + 1) n) m (fun m i =>
        sub_assign Rops (band_get on) (band_get on) (band_get on) (band_set on) m i j k))) = Ok m' /\
    wfb n p q m' /\
    forall i j, babs 0 m' i j = lu_step k (babs 0 m) i j.
Proof.
  intros Hw Hk Hnz.
  pose (inv := wfb (T := R) n p q). pose (D := in_band n p q).
  assert (Hg : getter inv (babs 0) D (band_get on)) by (intros ? ? ? ? ?; apply (band_get_ok 0 on n p q); auto).
  assert (Hs : setter inv (babs 0) D (band_set on)) by (intros ? ? ? ? ? ?; apply (band_set_ok 0 on n p q); auto).
  destruct (div_loop inv (babs 0) D D (band_get on) (band_get on) (band_set on) k (k + 1)
     (Nat.min (k + p + 1) n) m) as (m1 & E1 & H1 & V1); auto; try lia; try (intros; apply Hnz; lia).
  { unfold D, in_band; lia. }
  { intros i Hi. unfold D, in_band; lia. }
  rewrite E1. cbn [bind].
  destruct (rect_ji inv (babs 0) D D D (band_get on) (band_get on) (band_get on) (band_set on) k
     (k + 1) (Nat.min (k + p + 1) n) (k + 1) (Nat.min (k + q + 1) n) m1) as (m2 & E2 & H2 & V2); auto; try lia.
  { intros i j Hi Hj. unfold D, in_band; lia. }
  exists m2. split; auto. split; auto. intros i j. rewrite V2. unfold elim.
  destruct (Nat.le_gt_cases i k).
  - rewrite lu_step_row by auto. rewrite !V1. bdr; auto; lia.
  - destruct (Nat.lt_trichotomy j k) as [|[->|]].
    + rewrite lu_step_col by auto. rewrite !V1. bdr; auto; lia.
    + rewrite lu_step_mult by auto. rewrite !V1.
      destruct (Nat.leb_spec (k + 1) k); try lia. rewrite !andb_false_r. cbn [andb].
      destruct (Nat.ltb_spec i (Nat.min (k + p + 1) n)).
      * bdr; auto; lia.
      * rewrite !andb_false_r. cbn [andb]. rewrite (babs_out 0 n p q m i k Hw) by (unfold in_band; lia).
        unfold Rdiv; ring.
    + rewrite lu_step_elim by auto. rewrite !V1.
      replace (k + 1 <=? k)%nat with false by (bdr; auto; lia).
      replace (j =? k)%nat with false by (bdr; auto; lia). rewrite Nat.eqb_refl.
      replace (k + 1 <=? i)%nat with true by (bdr; auto; lia).
      replace (k + 1 <=? j)%nat with true by (bdr; auto; lia).
      rewrite ?andb_false_r, ?andb_true_r. cbn [andb].
      destruct (Nat.ltb_spec i (Nat.min (k + p + 1) n)); cbn [andb].
      * destruct (Nat.ltb_spec j (Nat.min (k + q + 1) n)); auto.
        rewrite (babs_out 0 n p q m k j Hw) by (unfold in_band; lia). lra.
      * rewrite (babs_out 0 n p q m i k Hw) by (unfold in_band; lia). unfold Rdiv; ring.
Qed.

Lemma band_lu_ok on n p q m :
  wfb n p q m -> (0 < n)%nat -> pivots_ok (babs 0 m) n ->
  exists m', band_lu Rops on m = Ok m' /\ wfb n p q m' /\
    forall i j, (i < n)%nat -> (j < n)%nat -> babs 0 m' i j = lu_iter (babs 0 m) n i j.
Proof.
  intros Hw Hn Hp. unfold band_lu. pose proof Hw as (En & Ep & Eq & _).
  rewrite En, Ep, Eq. rewrite usub_ok by lia. cbn [bind].
  match goal with |- exists m', for_ 0 (n - 1) m ?F = _ /\ _ =>
  destruct (for_inv (fun k s => wfb n p q s /\ forall i j, babs 0 s i j = lu_iter (babs 0 m) k i j)
     0 (n - 1) m F) as (m' & E & Hw' & Hv) end.
  - lia.
  - split; auto.
  - intros k s Hk (Hws & Hvs).
    destruct (band_lu_step on n p q s k) as (s' & E' & Hw' & Hv'); auto; try lia.
    { intros _. rewrite Hvs. apply Hp. lia. }
    exists s'. split; auto. split; auto. intros i j. rewrite Hv'.
    replace (k + 1)%nat with (S k) by lia. simpl. unfold lu_step. rewrite !Hvs. auto.
  - exists m'. split; auto. split; auto. intros i j Hi Hj. rewrite Hv.
    symmetry. destruct (Nat.eq_dec n 1) as [->|].
    + simpl. rewrite lu_step_row by lia. auto.
    + replace n with (S (n - 1)) at 1 by lia. simpl. apply lu_step_row. lia.
Qed.

(** ** BandLU<ExtendedBandMatrix> *)
Lemma eband_lu_step on n p q m k :
  wfe n p q m -> (k < n - 1)%nat -> ((1 <= p + q)%nat -> eabs 0 m k k <> 0) ->
  exists m', (
    nq <- usub n q ;;
    np <- usub n p ;;
    m <- for_ (k + 1) (Nat.min (k + p + 1) n) m (fun m i =>
           div_assign Rops (eb_main_get on) (eb_main_get on) (eb_main_set on) m i k k) ;;
    m <- for_ (Nat.max nq (k + p + 1)) n m (fun m i =>
           div_assign Rops (eb_main_get on) (eb_side_get on) (eb_side_set on) m i k k) ;;
    m <- for_ (k + 1) (Nat.min (k + q + 1) n) m (fun m j =>
           for_ (k + 1) (Nat.min (k + p + 1) n) m (fun m i =>
             sub_assign Rops (eb_main_get on) (eb_main_get on) (eb_main_get on) (eb_main_set on) m i j k)) ;;
    m <- for_ (k + 1) (Nat.min (k + p + 1) n) m (fun m i =>
           for_ (Nat.max np (k + q + 1)) n m (fun m j =>
             sub_assign Rops (eb_get on) (eb_main_get on) (eb_side_get on) (eb_set on) m i j k)) ;;
    m <- for_ (k + 1) (Nat.min (k + q + 1) n) m (fun m j =>
           for_ (Nat.max nq (k + p + 1)) n m (fun m i =>
             sub_assign Rops (eb_get on) (eb_side_get on) (eb_main_get on) (eb_set on) m i j k)) ;;
    np1 <- usub np 1 ;;
    nq1 <- usub nq 1 ;;
    if (k <? Nat.max np1 nq1)%nat then
      for_ (Nat.max nq (k + p + 1)) n m (fun m i =>
        for_ (Nat.max np (k + q + 1)) n m (fun m j =>
          sub_assign Rops (eb_main_get on) (eb_side_get on) (eb_side_get on) (eb_main_set on) m i j k))
    else Ok m) = Ok m' /\ wfe n p q m' /\
    forall i j, eabs 0 m' i j = lu_step k (eabs 0 m) i j.
Proof.
  intros Hw Hk Hnz. pose proof Hw as (_ & Hpn & Hqn & _).
  pose (inv := wfe (T := R) n p q).
  pose (B := in_band n p q). pose (S := in_side n p q). pose (X := in_ext n p q).
  assert (gB : getter inv (eabs 0) B (eb_main_get on)) by (intros ? ? ? ? ?; apply (eb_main_get_ok 0 on n p q); auto).
  assert (gS : getter inv (eabs 0) S (eb_side_get on)) by (intros ? ? ? ? ?; apply (eb_side_get_ok 0 on n p q); auto).
  assert (gX : getter inv (eabs 0) X (eb_get on)) by (intros ? ? ? ? ?; apply (eb_get_ok 0 on n p q); auto).
  assert (sB : setter inv (eabs 0) B (eb_main_set on)) by (intros ? ? ? ? ? ?; apply (eb_main_set_ok 0 on n p q); auto).
  assert (sS : setter inv (eabs 0) S (eb_side_set on)) by (intros ? ? ? ? ? ?; apply (eb_side_set_ok 0 on n p q); auto).
  assert (sX : setter inv (eabs 0) X (eb_set on)) by (intros ? ? ? ? ? ?; apply (eb_set_ok 0 on n p q); auto).
  rewrite !usub_ok by lia. cbn [bind].
  destruct (div_loop inv (eabs 0) B B (eb_main_get on) (eb_main_get on) (eb_main_set on) k (k + 1)
     (Nat.min (k + p + 1) n) m) as (m1 & E1 & H1 & V1); auto; try lia; try (intros; apply Hnz; lia).
  { unfold B, in_band; lia. }
  { intros i Hi. unfold B, in_band; lia. }
  rewrite E1. cbn [bind].
  assert (K1 : eabs 0 m1 k k = eabs 0 m k k) by (rewrite V1; bdr; auto; lia).
  destruct (div_loop inv (eabs 0) S B (eb_main_get on) (eb_side_get on) (eb_side_set on) k
     (Nat.max (n - q) (k + p + 1)) n m1) as (m2 & E2 & H2 & V2); auto; try lia.
  { unfold B, in_band; lia. }
  { intros i Hi. unfold S, in_side; lia. }
  { rewrite K1. intros; apply Hnz; lia. }
  rewrite E2. cbn [bind].
  destruct (rect_ji inv (eabs 0) B B B (eb_main_get on) (eb_main_get on) (eb_main_get on) (eb_main_set on) k
     (k + 1) (Nat.min (k + p + 1) n) (k + 1) (Nat.min (k + q + 1) n) m2) as (m3 & E3 & H3 & V3); auto; try lia.
  { intros i j Hi Hj. unfold B, in_band; lia. }
  rewrite E3. cbn [bind].
  destruct (rect_ij inv (eabs 0) X B S (eb_get on) (eb_main_get on) (eb_side_get on) (eb_set on) k
     (k + 1) (Nat.min (k + p + 1) n) (Nat.max (n - p) (k + q + 1)) n m3) as (m4 & E4 & H4 & V4); auto; try lia.
  { intros i j Hi Hj. unfold X, S, B, in_ext, in_side, in_band; lia. }
  rewrite E4. cbn [bind].
  destruct (rect_ji inv (eabs 0) X S B (eb_get on) (eb_side_get on) (eb_main_get on) (eb_set on) k
     (Nat.max (n - q) (k + p + 1)) n (k + 1) (Nat.min (k + q + 1) n) m4) as (m5 & E5 & H5 & V5); auto; try lia.
  { intros i j Hi Hj. unfold X, S, B, in_ext, in_side, in_band; lia. }
  rewrite E5. cbn [bind]. rewrite (usub_ok (n - p) 1) by lia. cbn [bind].
  rewrite (usub_ok (n - q) 1) by lia. cbn [bind].
  assert (exists m6, (if (k <? Nat.max (n - p - 1) (n - q - 1))%nat then
      for_ (Nat.max (n - q) (k + p + 1)) n m5 (fun m i =>
        for_ (Nat.max (n - p) (k + q + 1)) n m (fun m j =>
          sub_assign Rops (eb_main_get on) (eb_side_get on) (eb_side_get on) (eb_main_set on) m i j k))
    else Ok m5) = Ok m6 /\ inv m6 /\
    forall i j, eabs 0 m6 i j = if ((Nat.max (n - q) (k + p + 1) <=? i) && (i <? n) &&
       (Nat.max (n - p) (k + q + 1) <=? j) && (j <? n))%nat
                             then elim k (eabs 0 m5) i j else eabs 0 m5 i j) as (m6 & E6 & H6 & V6).
  { destruct (Nat.ltb_spec k (Nat.max (n - p - 1) (n - q - 1))).
    - apply (rect_ij inv (eabs 0) B S S); auto; try lia.
      intros i j Hi Hj. unfold S, B, in_side, in_band; lia.
    - exists m5. split; auto. split; auto. intros i j. bdr; auto; lia. }
  exists m6. split; auto. split; auto. intros i j.
  (* rows and columns up to k are not touched by the rectangles *)
  assert (C5 : forall i j, (i <= k \/ j <= k)%nat -> eabs 0 m5 i j = eabs 0 m2 i j).
  { intros a b Hab. rewrite V5, V4, V3.
    replace ((Nat.max (n - q) (k + p + 1) <=? a) && (a <? n) && (k + 1 <=? b) && (b <? Nat.min (k + q + 1) n))%nat with false by (bdr; auto; lia).
    replace ((k + 1 <=? a) && (a <? Nat.min (k + p + 1) n) && (Nat.max (n - p) (k + q + 1) <=? b) && (b <? n))%nat with false by (bdr; auto; lia).
    replace ((k + 1 <=? a) && (a <? Nat.min (k + p + 1) n) && (k + 1 <=? b) && (b <? Nat.min (k + q + 1) n))%nat with false by (bdr; auto; lia).
    auto. }
  assert (C4 : forall i j, (i <= k \/ j <= k)%nat -> eabs 0 m4 i j = eabs 0 m2 i j).
  { intros a b Hab. rewrite V4, V3.
    replace ((k + 1 <=? a) && (a <? Nat.min (k + p + 1) n) && (Nat.max (n - p) (k + q + 1) <=? b) && (b <? n))%nat with false by (bdr; auto; lia).
    replace ((k + 1 <=? a) && (a <? Nat.min (k + p + 1) n) && (k + 1 <=? b) && (b <? Nat.min (k + q + 1) n))%nat with false by (bdr; auto; lia).
    auto. }
  assert (C3 : forall i j, (i <= k \/ j <= k)%nat -> eabs 0 m3 i j = eabs 0 m2 i j).
  { intros a b Hab. rewrite V3.
    replace ((k + 1 <=? a) && (a <? Nat.min (k + p + 1) n) && (k + 1 <=? b) && (b <? Nat.min (k + q + 1) n))%nat with false by (bdr; auto; lia).
    auto. }
  (* column k of m2 *)
  assert (L2 : forall i, (k < i)%nat -> eabs 0 m2 i k = eabs 0 m i k / eabs 0 m k k).
  { intros a Ha. rewrite V2, K1, !V1, Nat.eqb_refl.
    replace (k + 1 <=? a)%nat with true by (bdr; auto; lia). rewrite ?andb_true_r. cbn [andb].
    destruct (Nat.ltb_spec a (Nat.min (k + p + 1) n)).
    - bdr; auto; lia.
    - bdr; auto; rewrite (eabs_out 0 n p q m a k Hw) by (unfold in_ext, in_band; lia); unfold Rdiv; ring. }
  assert (R2 : forall i j, (j <> k \/ i <= k)%nat -> eabs 0 m2 i j = eabs 0 m i j).
  { intros a b Hab. rewrite V2, !V1. bdr; auto; lia. }
  destruct (Nat.le_gt_cases i k) as [Hik|Hik].
  { rewrite lu_step_row by auto. rewrite V6, C5, R2 by lia. bdr; auto; lia. }
  destruct (Nat.lt_trichotomy j k) as [Hjk|[->|Hjk]].
  { rewrite lu_step_col by auto. rewrite V6, C5, R2 by lia. bdr; auto; lia. }
  { rewrite lu_step_mult by auto. rewrite V6, C5, L2 by lia. bdr; auto; lia. }
  rewrite lu_step_elim by auto.
  set (e := eabs 0 m i j - eabs 0 m i k / eabs 0 m k k * eabs 0 m k j).
  assert (F5 : elim k (eabs 0 m5) i j = eabs 0 m5 i j - eabs 0 m i k / eabs 0 m k k * eabs 0 m k j).
  { unfold elim. rewrite (C5 i k), (C5 k j), L2, (R2 k j) by lia. auto. }
  assert (F4 : elim k (eabs 0 m4) i j = eabs 0 m4 i j - eabs 0 m i k / eabs 0 m k k * eabs 0 m k j).
  { unfold elim. rewrite (C4 i k), (C4 k j), L2, (R2 k j) by lia. auto. }
  assert (F3 : elim k (eabs 0 m3) i j = eabs 0 m3 i j - eabs 0 m i k / eabs 0 m k k * eabs 0 m k j).
  { unfold elim. rewrite (C3 i k), (C3 k j), L2, (R2 k j) by lia. auto. }
  assert (F2 : elim k (eabs 0 m2) i j = e).
  { unfold elim, e. rewrite L2, (R2 k j), (R2 i j) by lia. auto. }
  rewrite V6, F5, V5, F4, V4, F3, V3, F2, (R2 i j) by lia.
  replace (k + 1 <=? i)%nat with true by (bdr; auto; lia).
  replace (k + 1 <=? j)%nat with true by (bdr; auto; lia). cbn [andb].
  destruct (Nat.lt_ge_cases i n) as [Hi|Hi].
  2:{ replace (i <? n)%nat with false by (bdr; auto; lia).
      replace (i <? Nat.min (k + p + 1) n)%nat with false by (bdr; auto; lia).
      rewrite ?andb_false_r. cbn [andb]. unfold e.
      rewrite (eabs_out 0 n p q m i k Hw) by (unfold in_ext, in_band; lia). unfold Rdiv; ring. }
  destruct (Nat.lt_ge_cases j n) as [Hj|Hj].
  2:{ replace (j <? n)%nat with false by (bdr; auto; lia).
      replace (j <? Nat.min (k + q + 1) n)%nat with false by (bdr; auto; lia).
      rewrite ?andb_false_r. cbn [andb]. unfold e.
      rewrite (eabs_out 0 n p q m k j Hw) by (unfold in_ext, in_band; lia). unfold Rdiv; ring. }
  replace (i <? n)%nat with true by (bdr; auto; lia).
  replace (j <? n)%nat with true by (bdr; auto; lia).
  destruct (Nat.ltb_spec i (Nat.min (k + p + 1) n)), (Nat.ltb_spec j (Nat.min (k + q + 1) n)),
    (Nat.leb_spec (Nat.max (n - q) (k + p + 1)) i), (Nat.leb_spec (Nat.max (n - p) (k + q + 1)) j);
    cbn [andb]; auto; try lia; unfold e;
    try (rewrite (eabs_out 0 n p q m i k Hw) by (unfold in_ext, in_band; lia); unfold Rdiv; ring);
    try (rewrite (eabs_out 0 n p q m k j Hw) by (unfold in_ext, in_band; lia); unfold Rdiv; ring).
Qed.

Lemma eband_lu_ok on n p q m :
  wfe n p q m -> pivots_ok (eabs 0 m) n ->
  exists m', eband_lu Rops on m = Ok m' /\ wfe n p q m' /\
    forall i j, (i < n)%nat -> (j < n)%nat -> eabs 0 m' i j = lu_iter (eabs 0 m) n i j.
Proof.
  intros Hw Hp. unfold eband_lu. destruct (wfe_npq _ _ _ _ Hw) as (En & Ep & Eq).
  pose proof Hw as (_ & Hpn & Hqn & _).
  rewrite En, Ep, Eq. rewrite usub_ok by lia. cbn [bind].
  match goal with |- exists m', for_ 0 (n - 1) m ?F = _ /\ _ =>
  destruct (for_inv (fun k s => wfe n p q s /\ forall i j, eabs 0 s i j = lu_iter (eabs 0 m) k i j)
     0 (n - 1) m F) as (r & E & Hw' & Hv) end.
  - lia.
  - split; auto.
  - intros k s Hk (Hws & Hvs).
    destruct (eband_lu_step on n p q s k) as (s' & E' & Hw' & Hv'); auto; try lia.
    { intros _. rewrite Hvs. apply Hp. lia. }
    exists s'. split; [exact E'|]. split; auto. intros i j. rewrite Hv'.
    replace (k + 1)%nat with (S k) by lia. simpl. unfold lu_step. rewrite !Hvs. auto.
  - exists r. split; auto. split; auto. intros i j Hi Hj. rewrite Hv.
    symmetry. destruct (Nat.eq_dec n 1) as [->|].
    + simpl. rewrite lu_step_row by lia. auto.
    + replace n with (S (n - 1)) at 1 by lia. simpl. apply lu_step_row. lia.
Qed.

(** ** Triangular solves *)
Section Solve.
Context (n : nat) (iter : nat -> loc) (m0 : mem R).
Hypothesis Hinj : forall i j, (i < n)%nat -> (j < n)%nat -> iter i = iter j -> i = j.
Hypothesis Hok : forall i, (i < n)%nat -> mem_ok m0 (iter i).

(** Memory with vector [x] behind the iterator, everything else as in [m0]. *)
Definition holds (m : mem R) (x : nat -> R) : Prop :=
  (forall l, mem_ok m l <-> mem_ok m0 l) /\
  map (@length R) m = map (@length R) m0 /\
  (forall i, (i < n)%nat -> mval 0 m (iter i) = x i) /\
  (forall l, (forall i, (i < n)%nat -> l <> iter i) -> mval 0 m l = mval 0 m0 l).

Lemma holds_read m x i : holds m x -> (i < n)%nat -> mem_get m (iter i) = Ok (x i).
Proof.
  intros (Hm & _ & Hv & _) Hi. rewrite (mem_get_ok 0). rewrite Hv; auto. apply Hm. auto.
Qed.

Lemma holds_write m x i v : holds m x -> (i < n)%nat ->
  exists m', mem_set m (iter i) v = Ok m' /\ holds m' (fun k => if (k =? i)%nat then v else x k).
Proof.
  intros (Hm & Hl & Hv & Ho) Hi.
  destruct (mem_set_ok 0 m (iter i) v) as (m' & E & Hm' & Hl' & Hv'). apply Hm; auto.
  exists m'. split; auto. split; [|split; [|split]].
  - intros l. rewrite Hm'. auto.
  - congruence.
  - intros k Hk. rewrite Hv'. destruct (Nat.eqb_spec k i) as [->|Hne].
    + rewrite !Nat.eqb_refl. auto.
    + destruct (Nat.eqb_spec (fst (iter k)) (fst (iter i))), (Nat.eqb_spec (snd (iter k)) (snd (iter i)));
        simpl; auto.
      exfalso. apply Hne. apply Hinj; auto. destruct (iter k), (iter i); simpl in *; congruence.
  - intros l Hne. rewrite Hv'. specialize (Hne i Hi) as Hne'.
    destruct (Nat.eqb_spec (fst l) (fst (iter i))), (Nat.eqb_spec (snd l) (snd (iter i))); simpl; auto.
    exfalso. apply Hne'. destruct l, (iter i); simpl in *; congruence.
Qed.

Lemma holds_ext m x y : (forall i, (i < n)%nat -> x i = y i) -> holds m x -> holds m y.
Proof.
  intros H (Hm & Hl & Hv & Ho). split; [|split; [|split]]; auto.
  intros i Hi. rewrite <- H; auto.
Qed.

Lemma sub_loop (get : nat -> res R) (f : nat -> R) j lo hi m x :
  holds m x -> (j < n)%nat -> (hi <= n)%nat -> ~ (lo <= j < hi)%nat ->
  (forall i, (lo <= i < hi)%nat -> get i = Ok (f i)) ->
  exists m', run (pfor lo hi (fun i => it_sub_assign Rops iter (get i) i j)) m = Ok (tt, m') /\
    holds m' (fun i => if ((lo <=? i) && (i <? hi))%nat then x i - f i * x j else x i).
Proof.
  intros Hh Hj Hhi Hno Hg. rewrite run_pfor.
  match goal with |- exists m', bind (for_ lo hi m ?F) _ = _ /\ _ =>
  destruct (for_inv' (fun c s => holds s (fun i => if ((lo <=? i) && (i <? Nat.min c hi))%nat then x i - f i * x j else x i))
    lo hi m F) as (r & E & Hr) end.
  - eapply holds_ext; [|exact Hh]. intros i Hi. bdr; auto; lia.
  - intros c s Hc Hs. unfold it_sub_assign.
    cbn [pread pbind plift]. cbn [run]. rewrite (holds_read s _ c Hs) by lia. cbn [bind].
    rewrite Hg by lia. cbn [plift pbind run]. rewrite (holds_read s _ j Hs) by lia. cbn [bind pbind].
    unfold pwrite. cbn [run].
    match goal with |- context [mem_set s (iter c) ?v] => destruct (holds_write s _ c v Hs) as (s' & E' & Hs'); [lia|] end.
    rewrite E'. cbn [bind]. exists s'. cbn [snd]. split; auto.
    eapply holds_ext; [|exact Hs']. intros i Hi. cbv beta.
    replace ((lo <=? j) && (j <? Nat.min c hi))%nat with false by (bdr; auto; lia).
    replace ((lo <=? c) && (c <? Nat.min c hi))%nat with false by (bdr; auto; lia).
    destruct (Nat.eqb_spec i c).
    + subst. bdr; auto; try lia; simpl; lra.
    + bdr; auto; lia.
  - exists r. rewrite E. cbn [bind]. split; auto.
    eapply holds_ext; [|exact Hr]. intros i Hi. cbv beta.
    replace (Nat.min (Nat.max lo hi) hi) with hi by lia. auto.
Qed.

Lemma div_one (a : R) j m x :
  holds m x -> (j < n)%nat -> a <> 0 ->
  exists m', run (it_div_assign Rops iter (Ok a) j) m = Ok (tt, m') /\
    holds m' (fun i => if (i =? j)%nat then x j / a else x i).
Proof.
  intros Hh Hj Ha. unfold it_div_assign. cbn [pread pbind plift run].
  rewrite (holds_read m x j) by auto. cbn [bind]. rewrite Rdiv_ok by auto. cbn [plift pbind].
  unfold pwrite; cbn [run].
  destruct (holds_write m x j (x j / a) Hh Hj) as (m' & E & H'). rewrite E. cbn [bind]. eauto.
Qed.

(** Forward substitution: [step j] subtracts column [j] below the diagonal. *)
Lemma forward (F : mat) (step : nat -> prog R unit) b :
  (forall j m x, (j < n)%nat -> holds m x -> exists m', run (step j) m = Ok (tt, m') /\
     holds m' (fun i => if (j <? i)%nat then x i - F i j * x j else x i)) ->
  forall m, holds m b -> exists m' y, run (pfor 0 n step) m = Ok (tt, m') /\ holds m' y /\
    forall i, (i < n)%nat -> mv n (Lmat F) y i = b i.
Proof.
  intros Hst m Hm. rewrite run_pfor.
  match goal with |- exists m' z, bind (for_ 0 n m ?G) _ = _ /\ _ =>
  destruct (for_inv (fun c s => exists x, holds s x /\ forall i, (i < n)%nat ->
     b i = x i + sum (Nat.min c i) (fun l => F i l * x l)) 0 n m G) as (r & E & x & Hr & Hx) end.
  - lia.
  - exists b. split; auto. intros i Hi. simpl. lra.
  - intros c s Hc (x & Hs & Hx).
    destruct (Hst c s x) as (s' & E' & Hs'); auto; try lia.
    rewrite E'. cbn [bind snd]. exists s'. split; auto. eexists; split; [exact Hs'|].
    intros i Hi. cbv beta. rewrite (Hx i Hi).
    destruct (Nat.ltb_spec c i).
    + replace (Nat.min (c + 1) i) with (S c) by lia. replace (Nat.min c i) with c by lia. cbn [sum].
      rewrite (sum_ext c (fun l => F i l * (if (c <? l)%nat then x l - F l c * x c else x l))
        (fun l => F i l * x l)) by (intros l Hl; bdr; auto; lia).
      bdr; try lia; lra.
    + replace (Nat.min (c + 1) i) with i by lia. replace (Nat.min c i) with i by lia.
      rewrite (sum_ext i (fun l => F i l * (if (c <? l)%nat then x l - F l c * x c else x l))
        (fun l => F i l * x l)) by (intros l Hl; bdr; auto; lia). lra.
  - rewrite E. cbn [bind]. exists r, x. split; auto. split; auto. intros i Hi.
    rewrite (Hx i Hi). replace (Nat.min n i) with i by lia. unfold mv.
    rewrite (sum_trunc (S i) n).
    + cbn [sum]. rewrite (sum_ext i _ (fun l => F i l * x l)).
      2:{ intros l Hl. unfold Lmat. bdr; auto; lia. }
      unfold Lmat. rewrite Nat.ltb_irrefl, Nat.eqb_refl. lra.
    + lia.
    + intros l Hl. unfold Lmat. bdr; try lia; lra.
Qed.

Lemma backward (F : mat) (step : nat -> prog R unit) y :
  (forall j m x, (j < n)%nat -> holds m x -> exists m', run (step j) m = Ok (tt, m') /\
     holds m' (fun i => if (i <? j)%nat then x i - F i j * (x j / F j j)
                        else if (i =? j)%nat then x j / F j j else x i)) ->
  (forall j, (j < n)%nat -> F j j <> 0) ->
  forall m, holds m y -> exists m' x, run (pfor_down n step) m = Ok (tt, m') /\ holds m' x /\
    forall i, (i < n)%nat -> mv n (Umat F) x i = y i.
Proof.
  intros Hst Hnz m Hm. rewrite run_pfor_down.
  match goal with |- exists m' z, bind (for_down n m ?G) _ = _ /\ _ =>
  destruct (for_down_inv (fun c s => exists x, holds s x /\ forall i, (i < n)%nat ->
     y i = (if (i <? c)%nat then x i else 0) +
           sum n (fun l => if ((c <=? l) && (i <=? l))%nat then F i l * x l else 0)) n m G)
    as (r & E & x & Hr & Hx) end.
  - exists y. split; auto. intros i Hi. rewrite sum_0. bdr; try lia; lra.
    intros l Hl. bdr; auto; lia.
  - intros c s Hc (x & Hs & Hx).
    destruct (Hst c s x) as (s' & E' & Hs'); auto.
    rewrite E'. cbn [bind snd]. exists s'. split; auto. eexists; split; [exact Hs'|].
    intros i Hi. cbv beta. rewrite (Hx i Hi).
    (* split off the term l = c *)
    rewrite (sum_ext n (fun l => if ((c <=? l) && (i <=? l))%nat then F i l * _ else 0)
      (fun l => (if (l =? c)%nat then (if (i <=? c)%nat then F i c * (x c / F c c) else 0) else 0) +
                (if ((c + 1 <=? l) && (i <=? l))%nat then F i l * x l else 0))).
    2:{ intros l Hl. destruct (Nat.eq_dec l c) as [->|Hne].
        - rewrite Nat.eqb_refl. bdr; try lia; lra.
        - destruct (Nat.eqb_spec l c); [lia|]. bdr; try lia; lra. }
    rewrite sum_plus.
    rewrite (sum_single n c (fun l => if (l =? c)%nat then (if (i <=? c)%nat then F i c * (x c / F c c) else 0) else 0))
      by (auto; intros l Hl Hne; destruct (Nat.eqb_spec l c); auto; lia).
    rewrite Nat.eqb_refl. specialize (Hnz c Hc).
    destruct (Nat.lt_trichotomy i c) as [|[->|]].
    + bdr; try lia; lra.
    + bdr; try lia. replace (F c c * (x c / F c c)) with (x c) by (field; auto). lra.
    + bdr; try lia; lra.
  - rewrite E. cbn [bind]. exists r, x. split; auto. split; auto. intros i Hi.
    rewrite (Hx i Hi). simpl Nat.ltb. rewrite Rplus_0_l. unfold mv. apply sum_ext. intros l Hl.
    unfold Umat. bdr; try lia; lra.
Qed.

End Solve.

Lemma run_seq {T A B} (p : prog T A) (f : A -> prog T B) m a m' :
  run p m = Ok (a, m') -> run (pbind p f) m = run (f a) m'.
Proof. intros E. rewrite run_bind, E. reflexivity. Qed.

(** Both kinds of matrix: solving with the computed factors. *)
Lemma band_solve_ok on n p q m iter m0 b :
  (forall i j, (i < n)%nat -> (j < n)%nat -> iter i = iter j -> i = j) ->
  (forall i, (i < n)%nat -> mem_ok m0 (iter i)) ->
  wfb n p q m -> (forall j, (j < n)%nat -> babs 0 m j j <> 0) ->
  (forall i, (i < n)%nat -> mval 0 m0 (iter i) = b i) ->
  exists m1 x, run (band_solve Rops on m iter) m0 = Ok (tt, m1) /\
    holds n iter m0 m1 x /\
    forall i, (i < n)%nat -> mv n (Lmat (babs 0 m)) (mv n (Umat (babs 0 m)) x) i = b i.
Proof.
  intros Hinj Hok Hw Hnz Hb. unfold band_solve. pose proof Hw as (En & Ep & Eq & _).
  rewrite En, Ep, Eq.
  assert (H0 : holds n iter m0 m0 b) by (repeat split; auto).
  match goal with |- context [pfor 0 n ?S] => pose (step := S) end.
  destruct (forward n iter m0 (babs 0 m) step b) with (m := m0) as (m1 & y & E1 & H1 & Hy); auto.
  { intros j s x Hj Hs. unfold step.
    destruct (sub_loop n iter m0 Hinj Hok (fun i => band_get on m i j) (fun i => babs 0 m i j) j (j + 1)
      (Nat.min (j + p + 1) n) s x) as (s' & E' & H'); auto; try lia.
    { intros i Hi. apply (band_get_ok 0 on n p q); auto. unfold in_band; lia. }
    exists s'. split; auto. eapply holds_ext; [|exact H']. intros i Hi. cbv beta.
    bdr; auto; try lia. rewrite (babs_out 0 n p q m i j Hw) by (unfold in_band; lia). lra. }
  rewrite (run_seq _ _ _ tt m1) by exact E1.
  match goal with |- context [pfor_down n ?S] => pose (step2 := S) end.
  destruct (backward n iter m0 (babs 0 m) step2 y) with (m := m1) as (m2 & x & E2 & H2 & Hx); auto.
  { intros j s x Hj Hs. unfold step2.
    rewrite (band_get_ok 0 on n p q) by (auto; unfold in_band; lia).
    destruct (div_one n iter m0 Hinj Hok (babs 0 m j j) j s x) as (s1 & E' & H'); auto.
    rewrite (run_seq _ _ _ tt s1) by exact E'.
    destruct (sub_loop n iter m0 Hinj Hok (fun i => band_get on m i j) (fun i => babs 0 m i j) j
      (if (j <? q)%nat then 0%nat else (j - q)%nat) j s1 _ H') as (s2 & E2 & H2); auto; try lia.
    { intros i Hi. apply (band_get_ok 0 on n p q); auto. unfold in_band.
      destruct (Nat.ltb_spec j q); lia. }
    exists s2. split; auto. eapply holds_ext; [|exact H2]. intros i Hi. cbv beta.
    rewrite Nat.eqb_refl.
    destruct (Nat.ltb_spec i j).
    - destruct (Nat.eqb_spec i j); [lia|]. rewrite andb_true_r.
      destruct (Nat.leb_spec (if (j <? q)%nat then 0%nat else (j - q)%nat) i); auto.
      rewrite (babs_out 0 n p q m i j Hw); [lra|]. unfold in_band.
      destruct (Nat.ltb_spec j q); lia.
    - rewrite andb_false_r. auto. }
  exists m2, x. split; auto. split; auto. intros i Hi. rewrite <- (Hy i Hi).
  apply mv_ext. auto.
Qed.

Lemma eband_solve_ok on n p q m iter m0 b :
  (forall i j, (i < n)%nat -> (j < n)%nat -> iter i = iter j -> i = j) ->
  (forall i, (i < n)%nat -> mem_ok m0 (iter i)) ->
  wfe n p q m -> (p + q <= n)%nat -> (forall j, (j < n)%nat -> eabs 0 m j j <> 0) ->
  (forall i, (i < n)%nat -> mval 0 m0 (iter i) = b i) ->
  exists m1 x, run (eband_solve Rops on m iter) m0 = Ok (tt, m1) /\
    holds n iter m0 m1 x /\
    forall i, (i < n)%nat -> mv n (Lmat (eabs 0 m)) (mv n (Umat (eabs 0 m)) x) i = b i.
Proof.
  intros Hinj Hok Hw Hpq Hnz Hb. unfold eband_solve. destruct (wfe_npq _ _ _ _ Hw) as (En & Ep & Eq).
  pose proof Hw as (_ & Hpn & Hqn & _).
  rewrite En, Ep, Eq.
  assert (H0 : holds n iter m0 m0 b) by (repeat split; auto).
  assert (Enp : (a <- usub n p ;; usub a 1) = Ok (n - p - 1)%nat) by (rewrite usub_ok by lia; cbn [bind]; apply usub_ok; lia).
  rewrite Enp. cbn [plift]. rewrite (usub_ok n q) by lia. cbn [plift].
  match goal with |- context [pfor 0 n ?S] => pose (step := S) end.
  destruct (forward n iter m0 (eabs 0 m) step b) with (m := m0) as (m1 & y & E1 & H1 & Hy); auto.
  { intros j s x Hj Hs. unfold step.
    destruct (sub_loop n iter m0 Hinj Hok (fun i => eb_main_get on m i j) (fun i => eabs 0 m i j) j (j + 1)
      (Nat.min (j + p + 1) n) s x) as (s1 & E' & H'); auto; try lia.
    { intros i Hi. apply (eb_main_get_ok 0 on n p q); auto. unfold in_band; lia. }
    rewrite (run_seq _ _ _ tt s1) by exact E'. cbn [pbind].
    destruct (Nat.ltb_spec j (n - p - 1)).
    - destruct (sub_loop n iter m0 Hinj Hok (fun i => eb_side_get on m i j) (fun i => eabs 0 m i j) j
        (Nat.max (n - q) (j + p + 1)) n s1 _ H') as (s2 & E2 & H2); auto; try lia.
      { intros i Hi. apply (eb_side_get_ok 0 on n p q); auto. unfold in_side; lia. }
      exists s2. split; auto. eapply holds_ext; [|exact H2]. intros i Hi. cbv beta.
      replace ((j + 1 <=? j) && (j <? Nat.min (j + p + 1) n))%nat with false by (bdr; auto; lia).
      bdr; auto; try lia; rewrite (eabs_out 0 n p q m i j Hw) by (unfold in_ext, in_band; lia); lra.
    - exists s1. split; auto. eapply holds_ext; [|exact H']. intros i Hi. cbv beta.
      bdr; auto; lia. }
  rewrite (run_seq _ _ _ tt m1) by exact E1.
  match goal with |- context [pfor_down n ?S] => pose (step2 := S) end.
  destruct (backward n iter m0 (eabs 0 m) step2 y) with (m := m1) as (m2 & x & E2 & H2 & Hx); auto.
  { intros j s x Hj Hs. unfold step2.
    rewrite (eb_main_get_ok 0 on n p q) by (auto; unfold in_band; lia).
    destruct (div_one n iter m0 Hinj Hok (eabs 0 m j j) j s x) as (s1 & E' & H'); auto.
    rewrite (run_seq _ _ _ tt s1) by exact E'.
    destruct (sub_loop n iter m0 Hinj Hok (fun i => eb_main_get on m i j) (fun i => eabs 0 m i j) j
      (if (j <? q)%nat then 0%nat else (j - q)%nat) j s1 _ H') as (s2 & E2 & H2); auto; try lia.
    { intros i Hi. apply (eb_main_get_ok 0 on n p q); auto. unfold in_band.
      destruct (Nat.ltb_spec j q); lia. }
    rewrite (run_seq _ _ _ tt s2) by exact E2. cbn [pbind].
    destruct (Nat.ltb_spec (n - p - 1) j).
    - rewrite usub_ok by lia. cbn [plift pbind].
      destruct (sub_loop n iter m0 Hinj Hok (fun i => eb_side_get on m i j) (fun i => eabs 0 m i j) j
        0 (j - q) s2 _ H2) as (s3 & E3 & H3); auto; try lia.
      { intros i Hi. apply (eb_side_get_ok 0 on n p q); auto. unfold in_side; lia. }
      exists s3. split; auto. eapply holds_ext; [|exact H3]. intros i Hi. cbv beta.
      rewrite Nat.eqb_refl, Nat.ltb_irrefl, andb_false_r.
      destruct (Nat.ltb_spec j q); bdr; auto; try lia.
    - exists s2. split; auto. eapply holds_ext; [|exact H2]. intros i Hi. cbv beta.
      rewrite Nat.eqb_refl.
      destruct (Nat.ltb_spec j q); bdr; auto; try lia;
       rewrite (eabs_out 0 n p q m i j Hw) by (unfold in_ext, in_band; lia); lra. }
  exists m2, x. split; auto. split; auto. intros i Hi. rewrite <- (Hy i Hi).
  apply mv_ext. auto.
Qed.

(** Factorise and solve. *)
Lemma mv_LU_ext n A F x i : (i < n)%nat ->
  (forall i j, (i < n)%nat -> (j < n)%nat -> F i j = lu_iter A n i j) -> pivots_ok A n ->
  mv n (Lmat F) (mv n (Umat F) x) i = mv n A x i.
Proof.
  intros Hi HF Hp. rewrite (lu_mv A n x i Hp Hi). unfold mv.
  apply sum_ext. intros j Hj. f_equal.
  - unfold Lmat. bdr; auto.
  - apply sum_ext. intros l Hl. f_equal. unfold Umat. bdr; auto.
Qed.

Lemma band_lu_solve on n p q m iter m0 b :
  (forall i j, (i < n)%nat -> (j < n)%nat -> iter i = iter j -> i = j) ->
  (forall i, (i < n)%nat -> mem_ok m0 (iter i)) ->
  wfb n p q m -> (0 < n)%nat -> pivots_ok (babs 0 m) n ->
  (forall i, (i < n)%nat -> mval 0 m0 (iter i) = b i) ->
  exists f m1 x, band_lu Rops on m = Ok f /\ run (band_solve Rops on f iter) m0 = Ok (tt, m1) /\
    holds n iter m0 m1 x /\ (forall i, (i < n)%nat -> mv n (babs 0 m) x i = b i).
Proof.
  intros Hinj Hok Hw Hn Hp Hb.
  destruct (band_lu_ok on n p q m Hw Hn Hp) as (f & Ef & Hwf & Hf).
  destruct (band_solve_ok on n p q f iter m0 b) as (m1 & x & E & Hh & Hx); auto.
  { intros j Hj. rewrite Hf by auto. apply pivots_diag; auto. }
  exists f, m1, x. split; auto. split; auto. split; auto. intros i Hi.
  rewrite <- (Hx i Hi). symmetry. apply mv_LU_ext; auto.
Qed.

Lemma eband_lu_solve on n p q m iter m0 b :
  (forall i j, (i < n)%nat -> (j < n)%nat -> iter i = iter j -> i = j) ->
  (forall i, (i < n)%nat -> mem_ok m0 (iter i)) ->
  wfe n p q m -> (p + q <= n)%nat -> pivots_ok (eabs 0 m) n ->
  (forall i, (i < n)%nat -> mval 0 m0 (iter i) = b i) ->
  exists f m1 x, eband_lu Rops on m = Ok f /\ run (eband_solve Rops on f iter) m0 = Ok (tt, m1) /\
    holds n iter m0 m1 x /\ (forall i, (i < n)%nat -> mv n (eabs 0 m) x i = b i).
Proof.
  intros Hinj Hok Hw Hpq Hp Hb.
  destruct (eband_lu_ok on n p q m Hw Hp) as (f & Ef & Hwf & Hf).
  destruct (eband_solve_ok on n p q f iter m0 b) as (m1 & x & E & Hh & Hx); auto.
  { intros j Hj. rewrite Hf by auto. apply pivots_diag; auto. }
  exists f, m1, x. split; auto. split; auto. split; auto. intros i Hi.
  rewrite <- (Hx i Hi). symmetry. apply mv_LU_ext; auto.
Qed.
