(** The band solvers in an arithmetic whose division always gives a number
    (IEEE): the sequence of matrices and vectors they go through, without any
    law of arithmetic. *)
From Coq Require Import List Arith Lia Bool.
From Verif Require Import Base Num MeshM BandM ProgM LUM SpecBand BandProofs MulProofs LUProofs.
Import ListNotations.

Section Gen.
Context {T : Type} (o : ops T) (dv : T -> T -> T) (Hdv : forall a b, odiv o a b = Ok (dv a b)).
Local Notation z := (o0 o).
Local Notation mat := (nat -> nat -> T).

(** One elimination step: the rows [rw k] and the columns [cl k] are touched. *)
Definition gstep (rw cl : nat -> nat -> bool) (k : nat) (A : mat) : mat := fun i j =>
  if rw k i then
    if j =? k then dv (A i k) (A k k)
    else if cl k j then osub o (A i j) (omul o (dv (A i k) (A k k)) (A k j)) else A i j
  else A i j.
Fixpoint giter rw cl (A : mat) (k : nat) : mat :=
  match k with 0 => A | S k => gstep rw cl k (giter rw cl A k) end.

Section Loops.
Context {M : Type} (inv : M -> Prop) (abs : M -> nat -> nat -> T).

Definition getter (D : nat -> nat -> Prop) (get : M -> nat -> nat -> res T) : Prop :=
  forall m i j, inv m -> D i j -> get m i j = Ok (abs m i j).
Definition setter (D : nat -> nat -> Prop) (set : M -> nat -> nat -> T -> res M) : Prop :=
  forall m i j v, inv m -> D i j -> exists m', set m i j v = Ok m' /\ inv m' /\
    forall i' j', abs m' i' j' = if ((i' =? i) && (j' =? j))%nat then v else abs m i' j'.

Lemma div_loop D Dd getd get set k lo hi m :
  getter Dd getd -> getter D get -> setter D set ->
  inv m -> (k < lo)%nat -> Dd k k -> (forall i, (lo <= i < hi)%nat -> D i k) ->
  exists m', for_ lo hi m (fun m i => div_assign o getd get set m i k k) = Ok m' /\ inv m' /\
    forall i j, abs m' i j = if ((lo <=? i) && (i <? hi) && (j =? k))%nat
                             then dv (abs m i k) (abs m k k) else abs m i j.
Proof using All.
  intros Hgd Hg Hs Hi Hk Hdd Hd.
  destruct (for_inv' (fun c m' => inv m' /\ forall i j, abs m' i j =
     if ((lo <=? i) && (i <? Nat.min c hi) && (j =? k))%nat then dv (abs m i k) (abs m k k) else abs m i j)
    lo hi m (fun m i => div_assign o getd get set m i k k)) as (m' & E & Hi' & Hv).
  - split; auto. intros i j. destruct (Nat.leb_spec lo i), (Nat.ltb_spec i (Nat.min lo hi)); cbn [andb]; auto; lia.
  - intros c s Hc (His & Hvs). unfold div_assign. rewrite (Hg s c k) by auto. cbn [bind].
    rewrite (Hgd s k k) by auto. cbn [bind].
    assert (abs s k k = abs m k k) as Ek.
    { rewrite Hvs. destruct (Nat.leb_spec lo k); auto; lia. }
    assert (abs s c k = abs m c k) as Ec.
    { rewrite Hvs. destruct (Nat.leb_spec lo c), (Nat.ltb_spec c (Nat.min c hi)); cbn [andb]; auto; lia. }
    rewrite Ek, Ec, Hdv. cbn [bind].
    destruct (Hs s c k (dv (abs m c k) (abs m k k))) as (s' & E' & Hi' & Hv'); auto.
    exists s'. split; auto. split; auto. intros i j. rewrite Hv', Hvs.
    bdr; subst; auto; lia.
  - exists m'. split; auto. split; auto. intros i j. rewrite Hv.
    replace (Nat.min (Nat.max lo hi) hi) with hi by lia. auto.
Qed.

Definition elim (k : nat) (A : nat -> nat -> T) (i j : nat) : T := osub o (A i j) (omul o (A i k) (A k j)).

Lemma sub_step D D1 D2 get get1 get2 set k i j m :
  getter D get -> getter D1 get1 -> getter D2 get2 -> setter D set ->
  inv m -> D i j -> D1 i k -> D2 k j ->
  exists m', sub_assign o get get1 get2 set m i j k = Ok m' /\ inv m' /\
    forall i' j', abs m' i' j' = if ((i' =? i) && (j' =? j))%nat then elim k (abs m) i j else abs m i' j'.
Proof using All.
  intros Hg Hg1 Hg2 Hs Hi Hd Hd1 Hd2. unfold sub_assign.
  rewrite (Hg m i j), (Hg1 m i k), (Hg2 m k j) by auto. cbn [bind].
  apply Hs; auto.
Qed.

(** Inner loop over rows [i] in a fixed column, and over columns [j] in a
    fixed row; outer loop over the other index. *)
Lemma rect_ji D D1 D2 get get1 get2 set k il ih jl jh m :
  getter D get -> getter D1 get1 -> getter D2 get2 -> setter D set ->
  inv m -> (k < il)%nat -> (k < jl)%nat ->
  (forall i j, (il <= i < ih)%nat -> (jl <= j < jh)%nat -> D i j /\ D1 i k /\ D2 k j) ->
  exists m', for_ jl jh m (fun m j => for_ il ih m (fun m i =>
      sub_assign o get get1 get2 set m i j k)) = Ok m' /\ inv m' /\
    forall i j, abs m' i j = if ((il <=? i) && (i <? ih) && (jl <=? j) && (j <? jh))%nat
                             then elim k (abs m) i j else abs m i j.
Proof using All.
  intros Hg Hg1 Hg2 Hs Hi Hil Hjl Hd.
  match goal with |- exists m', for_ jl jh m ?F = _ /\ _ =>
  destruct (for_inv' (fun c m' => inv m' /\ forall i j, abs m' i j =
     if ((il <=? i) && (i <? ih) && (jl <=? j) && (j <? Nat.min c jh))%nat
     then elim k (abs m) i j else abs m i j) jl jh m F) as (r & E & Hi' & Hv) end.
  - split; auto. intros i j.
    destruct (Nat.leb_spec jl j), (Nat.ltb_spec j (Nat.min jl jh)); rewrite ?andb_false_r; cbn [andb]; auto; lia.
  - intros c s Hc (His & Hvs).
    match goal with |- exists m', for_ il ih s ?F = _ /\ _ =>
    destruct (for_inv' (fun r m' => inv m' /\ forall i j, abs m' i j =
      if ((il <=? i) && (i <? Nat.min r ih) && (j =? c))%nat
      then elim k (abs m) i j else abs s i j) il ih s F) as (s' & E' & Hi' & Hv') end.
    + split; auto. intros i j.
      destruct (Nat.leb_spec il i), (Nat.ltb_spec i (Nat.min il ih)); cbn [andb]; auto; lia.
    + intros r t Hr (Hit & Hvt). destruct (Hd r c) as (H1 & H2 & H3); auto.
      destruct (sub_step D D1 D2 get get1 get2 set k r c t) as (t' & Et & Hit' & Hvt'); auto.
      exists t'. split; auto. split; auto. intros i j. rewrite Hvt'.
      assert (elim k (abs t) r c = elim k (abs m) r c) as Ee.
      { assert (Q1 : abs t r c = abs m r c) by (rewrite Hvt, Hvs; bdr; auto; lia).
        assert (Q2 : abs t r k = abs m r k) by (rewrite Hvt, Hvs; bdr; auto; lia).
        assert (Q3 : abs t k c = abs m k c) by (rewrite Hvt, Hvs; bdr; auto; lia).
        unfold elim. rewrite Q1, Q2, Q3. auto. }
      rewrite Ee, Hvt.
      destruct (Nat.eqb_spec i r), (Nat.eqb_spec j c); subst; cbn [andb]; rewrite ?andb_false_r; auto;
      repeat match goal with
        | |- context [(?a <? ?b)%nat] => destruct (Nat.ltb_spec a b)
        | |- context [(?a <=? ?b)%nat] => destruct (Nat.leb_spec a b)
        end; cbn [andb]; auto; try lia.
    + exists s'. split; auto. split; auto. intros i j. rewrite Hv', Hvs.
      replace (Nat.min (Nat.max il ih) ih) with ih by lia.
      destruct (Nat.leb_spec il i), (Nat.ltb_spec i ih), (Nat.eqb_spec j c), (Nat.leb_spec jl j),
        (Nat.ltb_spec j (Nat.min c jh)), (Nat.ltb_spec j (Nat.min (c + 1) jh)); cbn [andb]; subst; auto; try lia.
  - exists r. split; auto. split; auto. intros i j. rewrite Hv.
    replace (Nat.min (Nat.max jl jh) jh) with jh by lia. auto.
Qed.

Lemma rect_ij D D1 D2 get get1 get2 set k il ih jl jh m :
  getter D get -> getter D1 get1 -> getter D2 get2 -> setter D set ->
  inv m -> (k < il)%nat -> (k < jl)%nat ->
  (forall i j, (il <= i < ih)%nat -> (jl <= j < jh)%nat -> D i j /\ D1 i k /\ D2 k j) ->
  exists m', for_ il ih m (fun m i => for_ jl jh m (fun m j =>
      sub_assign o get get1 get2 set m i j k)) = Ok m' /\ inv m' /\
    forall i j, abs m' i j = if ((il <=? i) && (i <? ih) && (jl <=? j) && (j <? jh))%nat
                             then elim k (abs m) i j else abs m i j.
Proof using All.
  intros Hg Hg1 Hg2 Hs Hi Hil Hjl Hd.
  match goal with |- exists m', for_ il ih m ?F = _ /\ _ =>
  destruct (for_inv' (fun c m' => inv m' /\ forall i j, abs m' i j =
     if ((il <=? i) && (i <? Nat.min c ih) && (jl <=? j) && (j <? jh))%nat
     then elim k (abs m) i j else abs m i j) il ih m F) as (r & E & Hi' & Hv) end.
  - split; auto. intros i j.
    destruct (Nat.leb_spec il i), (Nat.ltb_spec i (Nat.min il ih)); cbn [andb]; auto; lia.
  - intros c s Hc (His & Hvs).
    match goal with |- exists m', for_ jl jh s ?F = _ /\ _ =>
    destruct (for_inv' (fun r m' => inv m' /\ forall i j, abs m' i j =
      if ((jl <=? j) && (j <? Nat.min r jh) && (i =? c))%nat
      then elim k (abs m) i j else abs s i j) jl jh s F) as (s' & E' & Hi' & Hv') end.
    + split; auto. intros i j.
      destruct (Nat.leb_spec jl j), (Nat.ltb_spec j (Nat.min jl jh)); cbn [andb]; auto; lia.
    + intros r t Hr (Hit & Hvt). destruct (Hd c r) as (H1 & H2 & H3); auto.
      destruct (sub_step D D1 D2 get get1 get2 set k c r t) as (t' & Et & Hit' & Hvt'); auto.
      exists t'. split; auto. split; auto. intros i j. rewrite Hvt'.
      assert (elim k (abs t) c r = elim k (abs m) c r) as Ee.
      { assert (Q1 : abs t c r = abs m c r) by (rewrite Hvt, Hvs; bdr; auto; lia).
        assert (Q2 : abs t c k = abs m c k) by (rewrite Hvt, Hvs; bdr; auto; lia).
        assert (Q3 : abs t k r = abs m k r) by (rewrite Hvt, Hvs; bdr; auto; lia).
        unfold elim. rewrite Q1, Q2, Q3. auto. }
      rewrite Ee, Hvt.
      destruct (Nat.eqb_spec i c), (Nat.eqb_spec j r); subst; cbn [andb]; rewrite ?andb_false_r; auto;
      repeat match goal with
        | |- context [(?a <? ?b)%nat] => destruct (Nat.ltb_spec a b)
        | |- context [(?a <=? ?b)%nat] => destruct (Nat.leb_spec a b)
        end; cbn [andb]; auto; try lia.
    + exists s'. split; auto. split; auto. intros i j. rewrite Hv', Hvs.
      replace (Nat.min (Nat.max jl jh) jh) with jh by lia.
      destruct (Nat.leb_spec jl j), (Nat.ltb_spec j jh), (Nat.eqb_spec i c), (Nat.leb_spec il i),
        (Nat.ltb_spec i (Nat.min c ih)), (Nat.ltb_spec i (Nat.min (c + 1) ih)); cbn [andb]; subst; auto; try lia.
  - exists r. split; auto. split; auto. intros i j. rewrite Hv.
    replace (Nat.min (Nat.max il ih) ih) with ih by lia. auto.
Qed.

End Loops.

Section Solve.
Context (n : nat) (iter : nat -> loc) (m0 : mem T).
Hypothesis Hinj : forall i j, (i < n)%nat -> (j < n)%nat -> iter i = iter j -> i = j.
Hypothesis Hok : forall i, (i < n)%nat -> mem_ok m0 (iter i).

(** Memory with vector [x] behind the iterator, everything else as in [m0]. *)
Definition holds (m : mem T) (x : nat -> T) : Prop :=
  (forall l, mem_ok m l <-> mem_ok m0 l) /\
  map (@length T) m = map (@length T) m0 /\
  (forall i, (i < n)%nat -> mval z m (iter i) = x i) /\
  (forall l, (forall i, (i < n)%nat -> l <> iter i) -> mval z m l = mval z m0 l).

Lemma holds_read m x i : holds m x -> (i < n)%nat -> mem_get m (iter i) = Ok (x i).
Proof using All.
  intros (Hm & _ & Hv & _) Hi. rewrite (mem_get_ok z). rewrite Hv; auto. apply Hm. auto.
Qed.

Lemma holds_write m x i v : holds m x -> (i < n)%nat ->
  exists m', mem_set m (iter i) v = Ok m' /\ holds m' (fun k => if (k =? i)%nat then v else x k).
Proof using All.
  intros (Hm & Hl & Hv & Ho) Hi.
  destruct (mem_set_ok z m (iter i) v) as (m' & E & Hm' & Hl' & Hv'). apply Hm; auto.
  exists m'. split; auto. split; [|split; [|split]].
  - intros l. rewrite Hm'. auto.
  - congruence.
  - intros k Hk. rewrite Hv'. destruct (Nat.eqb_spec k i) as [->|Hne].
    + rewrite !Nat.eqb_refl. auto.
    + destruct (Nat.eqb_spec (fst (iter k)) (fst (iter i))), (Nat.eqb_spec (snd (iter k)) (snd (iter i)));
        simpl; auto.
      exfalso. apply Hne. apply Hinj; auto. destruct (iter k), (iter i); simpl in *; congruence.
  - intros l Hne. rewrite Hv'. specialize (Hne i Hi) as Hne'.
    destruct (Nat.eqb_spec (fst l) (fst (iter i))), (Nat.eqb_spec (snd l) (snd (iter i))); simpl; auto.
    exfalso. apply Hne'. destruct l, (iter i); simpl in *; congruence.
Qed.

Lemma holds_ext m x y : (forall i, (i < n)%nat -> x i = y i) -> holds m x -> holds m y.
Proof using All.
  intros H (Hm & Hl & Hv & Ho). split; [|split; [|split]]; auto.
  intros i Hi. rewrite <- H; auto.
Qed.

Lemma sub_loop (get : nat -> res T) (f : nat -> T) j lo hi m x :
  holds m x -> (j < n)%nat -> (hi <= n)%nat -> ~ (lo <= j < hi)%nat ->
  (forall i, (lo <= i < hi)%nat -> get i = Ok (f i)) ->
  exists m', run (pfor lo hi (fun i => it_sub_assign o iter (get i) i j)) m = Ok (tt, m') /\
    holds m' (fun i => if ((lo <=? i) && (i <? hi))%nat then osub o (x i) (omul o (f i) (x j)) else x i).
Proof using All.
  intros Hh Hj Hhi Hno Hg. rewrite run_pfor.
  match goal with |- exists m', bind (for_ lo hi m ?F) _ = _ /\ _ =>
  destruct (for_inv' (fun c s => holds s (fun i => if ((lo <=? i) && (i <? Nat.min c hi))%nat then osub o (x i) (omul o (f i) (x j)) else x i))
    lo hi m F) as (r & E & Hr) end.
  - eapply holds_ext; [|exact Hh]. intros i Hi. bdr; auto; lia.
  - intros c s Hc Hs. unfold it_sub_assign.
    cbn [pread pbind plift]. cbn [run]. rewrite (holds_read s _ c Hs) by lia. cbn [bind].
    rewrite Hg by lia. cbn [plift pbind run]. rewrite (holds_read s _ j Hs) by lia. cbn [bind pbind].
    unfold pwrite. cbn [run].
    match goal with |- context [mem_set s (iter c) ?v] => destruct (holds_write s _ c v Hs) as (s' & E' & Hs'); [lia|] end.
    rewrite E'. cbn [bind]. exists s'. cbn [snd]. split; auto.
    eapply holds_ext; [|exact Hs']. intros i Hi. cbv beta.
    replace ((lo <=? j) && (j <? Nat.min c hi))%nat with false by (bdr; auto; lia).
    replace ((lo <=? c) && (c <? Nat.min c hi))%nat with false by (bdr; auto; lia).
    destruct (Nat.eqb_spec i c).
    + subst. bdr; auto; try lia; auto.
    + bdr; auto; lia.
  - exists r. rewrite E. cbn [bind]. split; auto.
    eapply holds_ext; [|exact Hr]. intros i Hi. cbv beta.
    replace (Nat.min (Nat.max lo hi) hi) with hi by lia. auto.
Qed.

Lemma div_one (a : T) j m x :
  holds m x -> (j < n)%nat ->
  exists m', run (it_div_assign o iter (Ok a) j) m = Ok (tt, m') /\
    holds m' (fun i => if (i =? j)%nat then dv (x j) a else x i).
Proof using All.
  intros Hh Hj. unfold it_div_assign. cbn [pread pbind plift run].
  rewrite (holds_read m x j) by auto. cbn [bind]. rewrite Hdv. cbn [plift pbind].
  unfold pwrite; cbn [run].
  destruct (holds_write m x j (dv (x j) a) Hh Hj) as (m' & E & H'). rewrite E. cbn [bind]. eauto.
Qed.


End Solve.

(** Rows below and columns beyond the pivot that belong to the structure. *)
Definition brow (n p k i : nat) : bool := (k <? i) && (i <? n) && (i <=? k + p).
Definition erow (n p q k i : nat) : bool := (k <? i) && (i <? n) && ((i <=? k + p) || (n <=? i + q)).

Lemma gband_step on n p q m k :
  wfb n p q m -> k < n - 1 ->
  exists m', (m <- for_ (k + 1) (Nat.min (k + p + 1) n) m (fun m i =>
           div_assign o (band_get on) (band_get on) (band_set on) m i k k) ;;
    for_ (k + 1) (Nat.min (k + q + 1) n) m (fun m j =>
      for_ (k + 1) (Nat.min (k + p + 1) n) m (fun m i =>
        sub_assign o (band_get on) (band_get on) (band_get on) (band_set on) m i j k))) = Ok m' /\
    wfb n p q m' /\
    forall i j, babs z m' i j = gstep (brow n p) (brow n q) k (babs z m) i j.
Proof using All.
  intros Hw Hk.
  pose (inv := wfb (T := T) n p q). pose (D := in_band n p q).
  assert (Hg : getter inv (babs z) D (band_get on)) by (intros ? ? ? ? ?; apply (band_get_ok z on n p q); auto).
  assert (Hs : setter inv (babs z) D (band_set on)) by (intros ? ? ? ? ? ?; apply (band_set_ok z on n p q); auto).
  destruct (div_loop inv (babs z) D D (band_get on) (band_get on) (band_set on) k (k + 1)
     (Nat.min (k + p + 1) n) m) as (m1 & E1 & H1 & V1); auto; try lia.
  { unfold D, in_band; lia. }
  { intros i Hi. unfold D, in_band; lia. }
  rewrite E1. cbn [bind].
  destruct (rect_ji inv (babs z) D D D (band_get on) (band_get on) (band_get on) (band_set on) k
     (k + 1) (Nat.min (k + p + 1) n) (k + 1) (Nat.min (k + q + 1) n) m1) as (m2 & E2 & H2 & V2); auto; try lia.
  { intros i j Hi Hj. unfold D, in_band; lia. }
  exists m2. split; auto. split; auto. intros i j. rewrite V2. unfold elim, gstep.
  replace (brow n p k i) with ((k + 1 <=? i) && (i <? Nat.min (k + p + 1) n)) by (unfold brow; bdr; auto; lia).
  rewrite !V1, Nat.eqb_refl. replace ((k + 1 <=? k) && (k <? Nat.min (k + p + 1) n)) with false by (bdr; auto; lia). cbn [andb].
  destruct ((k + 1 <=? i) && (i <? Nat.min (k + p + 1) n)); cbn [andb]; [|reflexivity].
  destruct (Nat.eqb_spec j k) as [->|Hj].
  - replace ((k + 1 <=? k) && (k <? Nat.min (k + q + 1) n)) with false by (bdr; auto; lia). reflexivity.
  - replace (brow n q k j) with ((k + 1 <=? j) && (j <? Nat.min (k + q + 1) n)) by (unfold brow; bdr; auto; lia). reflexivity.
Qed.

Lemma giter_S rw cl A k : giter rw cl A (S k) = gstep rw cl k (giter rw cl A k).
Proof. reflexivity. Qed.
Lemma gstep_ext rw cl k A B : (forall i j, A i j = B i j) -> forall i j, gstep rw cl k A i j = gstep rw cl k B i j.
Proof. intros H i j. unfold gstep. rewrite !H. reflexivity. Qed.

Lemma gband_lu on n p q m :
  wfb n p q m -> 0 < n ->
  exists m', band_lu o on m = Ok m' /\ wfb n p q m' /\
    forall i j, babs z m' i j = giter (brow n p) (brow n q) (babs z m) (n - 1) i j.
Proof using All.
  intros Hw Hn. unfold band_lu. pose proof Hw as (En & Ep & Eq & _).
  rewrite En, Ep, Eq. rewrite usub_ok by lia. cbn [bind].
  match goal with |- exists m', for_ 0 (n - 1) m ?F = _ /\ _ =>
  destruct (for_inv (fun k s => wfb n p q s /\ forall i j, babs z s i j = giter (brow n p) (brow n q) (babs z m) k i j)
     0 (n - 1) m F) as (m' & E & Hw' & Hv) end.
  - lia.
  - split; auto.
  - intros k s Hk (Hws & Hvs).
    destruct (gband_step on n p q s k) as (s' & E' & Hw' & Hv'); auto; try lia.
    exists s'. split; auto. split; auto. intros i j. rewrite Hv'.
    replace (k + 1) with (S k) by lia. rewrite giter_S. apply gstep_ext. exact Hvs.
  - exists m'. auto.
Qed.

Lemma geband_step on n p q m k :
  wfe n p q m -> k < n - 1 ->
  exists m', (
    nq <- usub n q ;;
    np <- usub n p ;;
    m <- for_ (k + 1) (Nat.min (k + p + 1) n) m (fun m i =>
           div_assign o (eb_main_get on) (eb_main_get on) (eb_main_set on) m i k k) ;;
    m <- for_ (Nat.max nq (k + p + 1)) n m (fun m i =>
           div_assign o (eb_main_get on) (eb_side_get on) (eb_side_set on) m i k k) ;;
    m <- for_ (k + 1) (Nat.min (k + q + 1) n) m (fun m j =>
           for_ (k + 1) (Nat.min (k + p + 1) n) m (fun m i =>
             sub_assign o (eb_main_get on) (eb_main_get on) (eb_main_get on) (eb_main_set on) m i j k)) ;;
    m <- for_ (k + 1) (Nat.min (k + p + 1) n) m (fun m i =>
           for_ (Nat.max np (k + q + 1)) n m (fun m j =>
             sub_assign o (eb_get on) (eb_main_get on) (eb_side_get on) (eb_set on) m i j k)) ;;
    m <- for_ (k + 1) (Nat.min (k + q + 1) n) m (fun m j =>
           for_ (Nat.max nq (k + p + 1)) n m (fun m i =>
             sub_assign o (eb_get on) (eb_side_get on) (eb_main_get on) (eb_set on) m i j k)) ;;
    np1 <- usub np 1 ;;
    nq1 <- usub nq 1 ;;
    if k <? Nat.max np1 nq1 then
      for_ (Nat.max nq (k + p + 1)) n m (fun m i =>
        for_ (Nat.max np (k + q + 1)) n m (fun m j =>
          sub_assign o (eb_main_get on) (eb_side_get on) (eb_side_get on) (eb_main_set on) m i j k))
    else Ok m) = Ok m' /\ wfe n p q m' /\
    forall i j, eabs z m' i j = gstep (erow n p q) (erow n q p) k (eabs z m) i j.
Proof using All.
  intros Hw Hk. pose proof Hw as (_ & Hpn & Hqn & _).
  pose (inv := wfe (T := T) n p q).
  pose (B := in_band n p q). pose (S := in_side n p q). pose (X := in_ext n p q).
  assert (gB : getter inv (eabs z) B (eb_main_get on)) by (intros ? ? ? ? ?; apply (eb_main_get_ok z on n p q); auto).
  assert (gS : getter inv (eabs z) S (eb_side_get on)) by (intros ? ? ? ? ?; apply (eb_side_get_ok z on n p q); auto).
  assert (gX : getter inv (eabs z) X (eb_get on)) by (intros ? ? ? ? ?; apply (eb_get_ok z on n p q); auto).
  assert (sB : setter inv (eabs z) B (eb_main_set on)) by (intros ? ? ? ? ? ?; apply (eb_main_set_ok z on n p q); auto).
  assert (sS : setter inv (eabs z) S (eb_side_set on)) by (intros ? ? ? ? ? ?; apply (eb_side_set_ok z on n p q); auto).
  assert (sX : setter inv (eabs z) X (eb_set on)) by (intros ? ? ? ? ? ?; apply (eb_set_ok z on n p q); auto).
  rewrite !usub_ok by lia. cbn [bind].
  destruct (div_loop inv (eabs z) B B (eb_main_get on) (eb_main_get on) (eb_main_set on) k (k + 1)
     (Nat.min (k + p + 1) n) m) as (m1 & E1 & H1 & V1); auto; try lia.
  { unfold B, in_band; lia. }
  { intros i Hi. unfold B, in_band; lia. }
  rewrite E1. cbn [bind].
  assert (K1 : eabs z m1 k k = eabs z m k k) by (rewrite V1; bdr; auto; lia).
  destruct (div_loop inv (eabs z) S B (eb_main_get on) (eb_side_get on) (eb_side_set on) k
     (Nat.max (n - q) (k + p + 1)) n m1) as (m2 & E2 & H2 & V2); auto; try lia.
  { unfold B, in_band; lia. }
  { intros i Hi. unfold S, in_side; lia. }
  rewrite E2. cbn [bind].
  destruct (rect_ji inv (eabs z) B B B (eb_main_get on) (eb_main_get on) (eb_main_get on) (eb_main_set on) k
     (k + 1) (Nat.min (k + p + 1) n) (k + 1) (Nat.min (k + q + 1) n) m2) as (m3 & E3 & H3 & V3); auto; try lia.
  { intros i j Hi Hj. unfold B, in_band; lia. }
  rewrite E3. cbn [bind].
  destruct (rect_ij inv (eabs z) X B S (eb_get on) (eb_main_get on) (eb_side_get on) (eb_set on) k
     (k + 1) (Nat.min (k + p + 1) n) (Nat.max (n - p) (k + q + 1)) n m3) as (m4 & E4 & H4 & V4); auto; try lia.
  { intros i j Hi Hj. unfold X, S, B, in_ext, in_side, in_band; lia. }
  rewrite E4. cbn [bind].
  destruct (rect_ji inv (eabs z) X S B (eb_get on) (eb_side_get on) (eb_main_get on) (eb_set on) k
     (Nat.max (n - q) (k + p + 1)) n (k + 1) (Nat.min (k + q + 1) n) m4) as (m5 & E5 & H5 & V5); auto; try lia.
  { intros i j Hi Hj. unfold X, S, B, in_ext, in_side, in_band; lia. }
  rewrite E5. cbn [bind]. rewrite (usub_ok (n - p) 1) by lia. cbn [bind].
  rewrite (usub_ok (n - q) 1) by lia. cbn [bind].
  assert (exists m6, (if (k <? Nat.max (n - p - 1) (n - q - 1)) then
      for_ (Nat.max (n - q) (k + p + 1)) n m5 (fun m i =>
        for_ (Nat.max (n - p) (k + q + 1)) n m (fun m j =>
          sub_assign o (eb_main_get on) (eb_side_get on) (eb_side_get on) (eb_main_set on) m i j k))
    else Ok m5) = Ok m6 /\ inv m6 /\
    forall i j, eabs z m6 i j = if ((Nat.max (n - q) (k + p + 1) <=? i) && (i <? n) &&
       (Nat.max (n - p) (k + q + 1) <=? j) && (j <? n))
                             then elim k (eabs z m5) i j else eabs z m5 i j) as (m6 & E6 & H6 & V6).
  { destruct (Nat.ltb_spec k (Nat.max (n - p - 1) (n - q - 1))).
    - apply (rect_ij inv (eabs z) B S S); auto; try lia.
      intros i j Hi Hj. unfold S, B, in_side, in_band; lia.
    - exists m5. split; auto. split; auto. intros i j. bdr; auto; lia. }
  exists m6. split; auto. split; auto. intros i j.
  pose (ra := fun i => (k + 1 <=? i) && (i <? Nat.min (k + p + 1) n)).
  pose (rb := fun i => (Nat.max (n - q) (k + p + 1) <=? i) && (i <? n)).
  pose (ca := fun j => (k + 1 <=? j) && (j <? Nat.min (k + q + 1) n)).
  pose (cb := fun j => (Nat.max (n - p) (k + q + 1) <=? j) && (j <? n)).
  assert (Er : erow n p q k i = ra i || rb i) by (unfold erow, ra, rb; bdr; auto; lia).
  assert (Ec : erow n q p k j = ca j || cb j) by (unfold erow, ca, cb; bdr; auto; lia).
  assert (Xr : ra i && rb i = false) by (unfold ra, rb; bdr; auto; lia).
  assert (Xc : ca j && cb j = false) by (unfold ca, cb; bdr; auto; lia).
  assert (Rk : ra k = false /\ rb k = false) by (unfold ra, rb; split; bdr; auto; lia).
  assert (Ck : ca k = false /\ cb k = false) by (unfold ca, cb; split; bdr; auto; lia).
  assert (W1 : forall i j, eabs z m1 i j = if ra i && (j =? k) then dv (eabs z m i k) (eabs z m k k) else eabs z m i j) by exact V1.
  assert (W2 : forall i j, eabs z m2 i j = if rb i && (j =? k) then dv (eabs z m1 i k) (eabs z m1 k k) else eabs z m1 i j) by exact V2.
  assert (W3 : forall i j, eabs z m3 i j = if ra i && ca j then elim k (eabs z m2) i j else eabs z m2 i j).
  { intros. rewrite V3. unfold ra, ca. rewrite andb_assoc. reflexivity. }
  assert (W4 : forall i j, eabs z m4 i j = if ra i && cb j then elim k (eabs z m3) i j else eabs z m3 i j).
  { intros. rewrite V4. unfold ra, cb. rewrite andb_assoc. reflexivity. }
  assert (W5 : forall i j, eabs z m5 i j = if rb i && ca j then elim k (eabs z m4) i j else eabs z m4 i j).
  { intros. rewrite V5. unfold rb, ca. rewrite andb_assoc. reflexivity. }
  assert (W6 : forall i j, eabs z m6 i j = if rb i && cb j then elim k (eabs z m5) i j else eabs z m5 i j).
  { intros. rewrite V6. unfold rb, cb. rewrite andb_assoc. reflexivity. }
  destruct Rk as [Rk1 Rk2], Ck as [Ck1 Ck2].
  unfold gstep. rewrite Er, Ec. clear V1 V2 V3 V4 V5 V6 Er Ec.
  rewrite W6. unfold elim. rewrite !W5. unfold elim. rewrite !W4. unfold elim. rewrite !W3. unfold elim. rewrite !W2, !W1.
  rewrite ?Rk1, ?Rk2, ?Ck1, ?Ck2, ?Nat.eqb_refl, ?andb_true_r, ?andb_false_r.
  destruct (Nat.eqb_spec j k) as [->|Hj].
  - rewrite Ck1, Ck2. destruct (ra i), (rb i); cbn [andb orb] in *; try discriminate; reflexivity.
  - destruct (ra i), (rb i), (ca j), (cb j); cbn [andb orb] in *; try discriminate; reflexivity.
Qed.

Lemma geband_lu on n p q m :
  wfe n p q m ->
  exists m', eband_lu o on m = Ok m' /\ wfe n p q m' /\
    forall i j, eabs z m' i j = giter (erow n p q) (erow n q p) (eabs z m) (n - 1) i j.
Proof using All.
  intros Hw. unfold eband_lu. destruct (wfe_npq _ _ _ _ Hw) as (En & Ep & Eq).
  pose proof Hw as (_ & Hpn & Hqn & _).
  rewrite En, Ep, Eq. rewrite usub_ok by lia. cbn [bind].
  match goal with |- exists m', for_ 0 (n - 1) m ?F = _ /\ _ =>
  destruct (for_inv (fun k s => wfe n p q s /\ forall i j, eabs z s i j = giter (erow n p q) (erow n q p) (eabs z m) k i j)
     0 (n - 1) m F) as (r & E & Hw' & Hv) end.
  - lia.
  - split; auto.
  - intros k s Hk (Hws & Hvs).
    destruct (geband_step on n p q s k) as (s' & E' & Hw' & Hv'); auto; try lia.
    exists s'. split; [exact E'|]. split; auto. intros i j. rewrite Hv'.
    replace (k + 1) with (S k) by lia. rewrite giter_S. apply gstep_ext. exact Hvs.
  - exists r. auto.
Qed.

(** The vectors of the two substitutions. *)
Definition fstep (rw : nat -> nat -> bool) (F : mat) (j : nat) (v : nat -> T) : nat -> T := fun i =>
  if rw j i then osub o (v i) (omul o (F i j) (v j)) else v i.
Definition bstep (cl : nat -> nat -> bool) (F : mat) (j : nat) (v : nat -> T) : nat -> T := fun i =>
  if i =? j then dv (v j) (F j j)
  else if cl i j then osub o (v i) (omul o (F i j) (dv (v j) (F j j))) else v i.
Fixpoint fiter rw F (v : nat -> T) (k : nat) : nat -> T :=
  match k with 0 => v | S k => fstep rw F k (fiter rw F v k) end.
(** [biter … c]: the steps [n - 1] down to [c] have been taken, [m] of them. *)
Fixpoint biter cl F n (v : nat -> T) (m : nat) : nat -> T :=
  match m with 0 => v | S m => bstep cl F (n - S m) (biter cl F n v m) end.

Lemma gforward n iter m0 rw F (step : nat -> prog T unit) b :
  (forall j m x, j < n -> holds n iter m0 m x -> exists m', run (step j) m = Ok (tt, m') /\
     holds n iter m0 m' (fstep rw F j x)) ->
  forall m, holds n iter m0 m b -> exists m', run (pfor 0 n step) m = Ok (tt, m') /\
    holds n iter m0 m' (fiter rw F b n).
Proof using All.
  intros Hst m Hm. rewrite run_pfor.
  match goal with |- exists m', bind (for_ 0 n m ?G) _ = _ /\ _ =>
  destruct (for_inv (fun c s => holds n iter m0 s (fiter rw F b c)) 0 n m G) as (r & E & Hr) end.
  - lia.
  - exact Hm.
  - intros c s Hc Hs. destruct (Hst c s _ ltac:(lia) Hs) as (s' & E' & Hs').
    rewrite E'. cbn [bind snd]. exists s'. split; auto. replace (c + 1) with (S c) by lia. exact Hs'.
  - rewrite E. cbn [bind]. eauto.
Qed.

Lemma gbackward n iter m0 cl F (step : nat -> prog T unit) y :
  (forall j m x, j < n -> holds n iter m0 m x -> exists m', run (step j) m = Ok (tt, m') /\
     holds n iter m0 m' (bstep cl F j x)) ->
  forall m, holds n iter m0 m y -> exists m', run (pfor_down n step) m = Ok (tt, m') /\
    holds n iter m0 m' (biter cl F n y n).
Proof using All.
  intros Hst m Hm. rewrite run_pfor_down.
  match goal with |- exists m', bind (for_down n m ?G) _ = _ /\ _ =>
  destruct (for_down_inv (fun c s => holds n iter m0 s (biter cl F n y (n - c))) n m G) as (r & E & Hr) end.
  - replace (n - n) with 0 by lia. exact Hm.
  - intros c s Hc Hs. destruct (Hst c s _ Hc Hs) as (s' & E' & Hs').
    rewrite E'. cbn [bind snd]. exists s'. split; auto. replace (n - c) with (S (n - (c + 1))) by lia. cbn [biter].
    replace (n - S (n - (c + 1))) with c by lia. exact Hs'.
  - rewrite E. cbn [bind]. exists r. split; auto. rewrite Nat.sub_0_r in Hr. exact Hr.
Qed.

Lemma gband_solve on n p q m iter m0 b :
  (forall i j, i < n -> j < n -> iter i = iter j -> i = j) ->
  (forall i, i < n -> mem_ok m0 (iter i)) ->
  wfb n p q m -> (forall i, i < n -> mval z m0 (iter i) = b i) ->
  exists m1, run (band_solve o on m iter) m0 = Ok (tt, m1) /\
    holds n iter m0 m1 (biter (brow n q) (babs z m) n (fiter (brow n p) (babs z m) b n) n).
Proof using All.
  intros Hinj Hok Hw Hb. unfold band_solve. pose proof Hw as (En & Ep & Eq & _).
  rewrite En, Ep, Eq.
  assert (H0 : holds n iter m0 m0 b) by (repeat split; auto).
  match goal with |- context [pfor 0 n ?S] => pose (step := S) end.
  destruct (gforward n iter m0 (brow n p) (babs z m) step b) with (m := m0) as (m1 & E1 & H1); auto.
  { intros j s x Hj Hs. unfold step.
    destruct (sub_loop n iter m0 Hinj Hok (fun i => band_get on m i j) (fun i => babs z m i j) j (j + 1)
      (Nat.min (j + p + 1) n) s x) as (s' & E' & H'); auto; try lia.
    { intros i Hi. apply (band_get_ok z on n p q); auto. unfold in_band; lia. }
    exists s'. split; auto. eapply holds_ext; [exact Hinj|exact Hok| |exact H']. intros i Hi. cbv beta.
    unfold fstep, brow. bdr; auto; lia. }
  rewrite (run_seq _ _ _ tt m1) by exact E1.
  match goal with |- context [pfor_down n ?S] => pose (step2 := S) end.
  destruct (gbackward n iter m0 (brow n q) (babs z m) step2 (fiter (brow n p) (babs z m) b n)) with (m := m1) as (m2 & E2 & H2); auto.
  { intros j s x Hj Hs. unfold step2.
    rewrite (band_get_ok z on n p q) by (auto; unfold in_band; lia).
    destruct (div_one n iter m0 Hinj Hok (babs z m j j) j s x) as (s1 & E' & H'); auto.
    rewrite (run_seq _ _ _ tt s1) by exact E'.
    destruct (sub_loop n iter m0 Hinj Hok (fun i => band_get on m i j) (fun i => babs z m i j) j
      (if j <? q then 0 else j - q) j s1 _ H') as (s2 & E2 & H2); auto; try lia.
    { intros i Hi. apply (band_get_ok z on n p q); auto. unfold in_band.
      destruct (Nat.ltb_spec j q); lia. }
    exists s2. split; auto. eapply holds_ext; [exact Hinj|exact Hok| |exact H2]. intros i Hi. cbv beta.
    rewrite Nat.eqb_refl. unfold bstep, brow. destruct (Nat.ltb_spec j q); bdr; auto; lia. }
  exists m2. auto.
Qed.

Lemma geband_solve on n p q m iter m0 b :
  (forall i j, i < n -> j < n -> iter i = iter j -> i = j) ->
  (forall i, i < n -> mem_ok m0 (iter i)) ->
  wfe n p q m -> p + q <= n -> (forall i, i < n -> mval z m0 (iter i) = b i) ->
  exists m1, run (eband_solve o on m iter) m0 = Ok (tt, m1) /\
    holds n iter m0 m1 (biter (erow n q p) (eabs z m) n (fiter (erow n p q) (eabs z m) b n) n).
Proof using All.
  intros Hinj Hok Hw Hpq Hb. unfold eband_solve. destruct (wfe_npq _ _ _ _ Hw) as (En & Ep & Eq).
  pose proof Hw as (_ & Hpn & Hqn & _).
  rewrite En, Ep, Eq.
  assert (H0 : holds n iter m0 m0 b) by (repeat split; auto).
  assert (Enp : (a <- usub n p ;; usub a 1) = Ok (n - p - 1)) by (rewrite usub_ok by lia; cbn [bind]; apply usub_ok; lia).
  rewrite Enp. cbn [plift]. rewrite (usub_ok n q) by lia. cbn [plift].
  match goal with |- context [pfor 0 n ?S] => pose (step := S) end.
  destruct (gforward n iter m0 (erow n p q) (eabs z m) step b) with (m := m0) as (m1 & E1 & H1); auto.
  { intros j s x Hj Hs. unfold step.
    destruct (sub_loop n iter m0 Hinj Hok (fun i => eb_main_get on m i j) (fun i => eabs z m i j) j (j + 1)
      (Nat.min (j + p + 1) n) s x) as (s1 & E' & H'); auto; try lia.
    { intros i Hi. apply (eb_main_get_ok z on n p q); auto. unfold in_band; lia. }
    rewrite (run_seq _ _ _ tt s1) by exact E'. cbn [pbind].
    destruct (Nat.ltb_spec j (n - p - 1)).
    - destruct (sub_loop n iter m0 Hinj Hok (fun i => eb_side_get on m i j) (fun i => eabs z m i j) j
        (Nat.max (n - q) (j + p + 1)) n s1 _ H') as (s2 & E2 & H2); auto; try lia.
      { intros i Hi. apply (eb_side_get_ok z on n p q); auto. unfold in_side; lia. }
      exists s2. split; auto. eapply holds_ext; [exact Hinj|exact Hok| |exact H2]. intros i Hi. cbv beta.
      replace ((j + 1 <=? j) && (j <? Nat.min (j + p + 1) n)) with false by (bdr; auto; lia).
      unfold fstep, erow. bdr; auto; lia.
    - exists s1. split; auto. eapply holds_ext; [exact Hinj|exact Hok| |exact H']. intros i Hi. cbv beta.
      unfold fstep, erow. bdr; auto; lia. }
  rewrite (run_seq _ _ _ tt m1) by exact E1.
  match goal with |- context [pfor_down n ?S] => pose (step2 := S) end.
  destruct (gbackward n iter m0 (erow n q p) (eabs z m) step2 (fiter (erow n p q) (eabs z m) b n)) with (m := m1) as (m2 & E2 & H2); auto.
  { intros j s x Hj Hs. unfold step2.
    rewrite (eb_main_get_ok z on n p q) by (auto; unfold in_band; lia).
    destruct (div_one n iter m0 Hinj Hok (eabs z m j j) j s x) as (s1 & E' & H'); auto.
    rewrite (run_seq _ _ _ tt s1) by exact E'.
    destruct (sub_loop n iter m0 Hinj Hok (fun i => eb_main_get on m i j) (fun i => eabs z m i j) j
      (if j <? q then 0 else j - q) j s1 _ H') as (s2 & E2 & H2); auto; try lia.
    { intros i Hi. apply (eb_main_get_ok z on n p q); auto. unfold in_band.
      destruct (Nat.ltb_spec j q); lia. }
    rewrite (run_seq _ _ _ tt s2) by exact E2. cbn [pbind].
    destruct (Nat.ltb_spec (n - p - 1) j).
    - rewrite usub_ok by lia. cbn [plift pbind].
      destruct (sub_loop n iter m0 Hinj Hok (fun i => eb_side_get on m i j) (fun i => eabs z m i j) j
        0 (j - q) s2 _ H2) as (s3 & E3 & H3); auto; try lia.
      { intros i Hi. apply (eb_side_get_ok z on n p q); auto. unfold in_side; lia. }
      exists s3. split; auto. eapply holds_ext; [exact Hinj|exact Hok| |exact H3]. intros i Hi. cbv beta.
      rewrite Nat.eqb_refl, Nat.ltb_irrefl, andb_false_r. unfold bstep, erow.
      destruct (Nat.ltb_spec j q); bdr; auto; lia.
    - exists s2. split; auto. eapply holds_ext; [exact Hinj|exact Hok| |exact H2]. intros i Hi. cbv beta.
      rewrite Nat.eqb_refl. unfold bstep, erow.
      destruct (Nat.ltb_spec j q); bdr; auto; lia. }
  exists m2. auto.
Qed.

End Gen.
