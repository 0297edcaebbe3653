(** Knots that are copies of data coordinates, exactly also in rounded
    arithmetic: odd orders in periodic dimensions, order 1 in aperiodic ones. *)
From Coq Require Import List Arith Lia Bool ZArith Reals Lra.
From Flocq Require Import Core BinarySingleNaN PrimFloat.
From Coq Require Import Floats.
From Verif Require Import Base Num FloatM MeshM MeshProofs SplineM InterpM LUConv SpecRound GenKnots RoundKnots FloatProofs.
Import ListNotations.
Open Scope nat_scope.

Section Gen.
Context {T : Type} (o : ops T).
Local Notation z := (o0 o).

Lemma nth_app_last {A} (l : list A) a d : nth (length l) (l ++ [a]) d = a.
Proof. rewrite app_nth2 by lia. rewrite Nat.sub_diag. reflexivity. Qed.

Lemma per_exact order l xs c : order mod 2 = 1 -> order + 2 <= length l -> periodic_points o order l = Ok (xs, c) ->
  let m := length l - 1 in
  (forall k, order + 1 <= k < order + m -> nth k xs z = nth (k - order) l z) /\
  nth order xs z = osub o (nth m l z) (osub o (nth m l z) (nth 0 l z)).
Proof.
  intros Ho Hn E m. revert E. unfold periodic_points. set (len := length l + 2 * order + (1 - order mod 2)). intros E.
  apply bind_Ok in E as (c0 & E0 & E). apply vget_inv with (d := z) in E0 as (_ & _ & <-).
  apply bind_Ok in E as ([xs1 c1] & E1 & E).
  apply (for_post (fun i st => length (fst st) = len /\ length (snd st) = i - order /\ nth 0 (snd st) z = nth 0 l z /\
     nth (i - order - 1) (snd st) z = nth (i - order - 1) l z /\
     forall k, order + 1 <= k < i -> nth k (fst st) z = nth (k - order) l z)) in E1.
  2: lia.
  2:{ cbn [fst snd]. rewrite repeat_length. split; auto. split; [simpl; lia|]. split; auto. replace (order + 1 - order - 1) with 0 by lia. split; auto. intros; lia. }
  2:{ intros i [x1 y1] s' Hi (I1 & I2 & I3 & I4 & I5) B. cbn [fst snd] in *.
      apply bind_Ok in B as (pr & Ep & B). apply vget_inv with (d := z) in Ep as (_ & _ & <-).
      apply bind_Ok in B as (bk & Eb & B). apply bind_Ok in B as (x2 & Ex & B). inversion B; subst s'; clear B. cbn [fst snd].
      rewrite Ho in Ex. cbn [Nat.eqb] in Ex. apply vset_inv in Ex as (Lx & ->). rewrite upd_length, app_length. cbn [length].
      split; auto. split; [lia|]. split; [rewrite app_nth1 by lia; auto|]. split.
      - replace (i + 1 - order - 1) with (length y1) by lia. rewrite nth_app_last. f_equal. lia.
      - intros k Hk. destruct (Nat.eq_dec k i) as [->|Ne]; [rewrite nth_upd_same by auto; auto|]. rewrite nth_upd_other by auto. apply I5. lia. }
  cbn [fst snd] in E1. destruct E1 as (L1 & L2 & F0 & F1 & V1).
  apply bind_Ok in E as (bk & Eb & E). apply vget_inv with (d := z) in Eb as (_ & _ & <-).
  apply bind_Ok in E as (ft & Ef & E). apply vget_inv with (d := z) in Ef as (_ & _ & <-).
  apply bind_Ok in E as (xs2 & E2 & E). inversion E; subst xs2 c1; clear E.
  rewrite L2 in E2. rewrite F0, F1 in E2. replace (order + length l - order - 1) with m in E2 by (unfold m; lia).
  set (P := osub o (nth m l z) (nth 0 l z)) in *.
  apply (for_post (fun i x => length x = len /\ (forall k, order + 1 <= k < order + m -> nth k x z = nth (k - order) l z) /\
     (i <= order -> nth (order + m) x z = nth m l z) /\ (order < i -> nth order x z = osub o (nth m l z) P))) in E2.
  - destruct E2 as (_ & V2 & _ & V3). split; auto. apply V3. lia.
  - lia.
  - split; auto. split; [intros k Hk; apply V1; unfold m in Hk; lia|]. split; [|intros; lia].
    intros _. rewrite V1 by (unfold m; lia). f_equal. lia.
  - intros i x s' Hi (I1 & I2 & I3 & I4) B.
    apply bind_Ok in B as (k & Ek & B). unfold usub in Ek. destruct (1 <=? length l + i); inversion Ek; subst k; clear Ek.
    apply bind_Ok in B as (v & Ev & B). apply vget_inv with (d := z) in Ev as (_ & _ & <-).
    apply bind_Ok in B as (x2 & Ex & B). apply vset_inv in Ex as (Lx & ->). rewrite upd_length in B.
    apply bind_Ok in B as (a & Ea & B). unfold usub in Ea. destruct (i <=? length x); inversion Ea; subst a; clear Ea.
    apply bind_Ok in B as (a & Ea & B). unfold usub in Ea. destruct (1 <=? length x - i); inversion Ea; subst a; clear Ea.
    apply bind_Ok in B as (a & Ea & B). apply bind_Ok in B as (w & Ew & B). apply vset_inv in B as (_ & ->).
    rewrite !upd_length. split; auto.
    assert (Hw : length x - i - 1 = order + m + (order - i)) by (rewrite I1; unfold len, m; lia). rewrite Hw.
    split; [|split].
    + intros k Hk. rewrite !nth_upd_other by (unfold m in *; lia). apply I2. auto.
    + intros Hle. rewrite !nth_upd_other by (unfold m; lia). apply I3. lia.
    + intros Hlt. replace i with order in * by lia. rewrite nth_upd_other by (unfold m; lia). rewrite nth_upd_same by auto.
      replace (length l + order - 1) with (order + m) by (unfold m; lia). rewrite I3 by lia. reflexivity.
Qed.
End Gen.

Local Open Scope R_scope.
Lemma Fadd_zero w c : double_finite w -> double_val w = 0 -> double_finite c -> Rabs (double_val c) <= Fbig ->
  double_finite (w + c)%float /\ double_val (w + c)%float = double_val c.
Proof.
  intros Gw W Gc Hb. destruct (Fadd_val w c Gw Gc) as [G V]; [rewrite W, Rplus_0_l; auto|]. split; auto.
  rewrite V, W, Rplus_0_l. apply round_generic; [apply valid_rnd_N|apply val_format].
Qed.
Lemma Fdiv_one c : double_finite c -> Rabs (double_val c) <= Fbig ->
  double_finite (c / onat Fops 1)%float /\ double_val (c / onat Fops 1)%float = double_val c.
Proof.
  intros Gc Hb. destruct (Fnat_exact 1 ltac:(lia)) as [G1 V1]. change (INR 1) with 1 in V1.
  assert (D1 : double_val c / 1 = double_val c) by field.
  destruct (Fdiv_val c (onat Fops 1) Gc G1) as [G V].
  - unfold onat, Fops. rewrite V1. lra.
  - unfold onat, Fops. rewrite V1. rewrite D1. auto.
  - split; auto. rewrite V. unfold onat, Fops. rewrite V1, D1. apply round_generic; [apply valid_rnd_N|apply val_format].
Qed.
Lemma Fsub_same a b : double_finite a -> double_finite b -> double_val a = double_val b ->
  double_finite (a - b)%float /\ double_val (a - b)%float = 0.
Proof.
  intros Ga Gb E. destruct (Fsub_val a b Ga Gb) as [G V].
  - rewrite E, Rminus_diag_eq by auto. rewrite Rabs_R0. apply bpow_ge_0.
  - split; auto. rewrite V, E, Rminus_diag_eq by auto. apply round_0. apply valid_rnd_N.
Qed.

Lemma ap_one l xs c : (2 <= length l)%nat -> (forall a, In a l -> double_finite a /\ Rabs (double_val a) <= Fbig) ->
  aperiodic_points Fops 1 l = Ok (xs, c) ->
  forall i, (1 <= i)%nat -> (i + 1 < length l)%nat -> double_val (nth (i + 1) xs 0%float) = double_val (nth i l 0%float).
Proof.
  intros Hn Hl. unfold aperiodic_points. change (o0 Fops) with 0%float. intros E.
  assert (Gl : forall i, (i < length l)%nat -> double_finite (nth i l 0%float) /\ Rabs (double_val (nth i l 0%float)) <= Fbig) by (intros; apply Hl; apply nth_In; auto).
  apply bind_Ok in E as (a & Ea & E). apply vget_inv with (d := 0%float) in Ea as (_ & _ & <-).
  apply bind_Ok in E as (x0 & E0 & E).
  apply (for_post (fun _ x => length x = (length l + 1 + 1)%nat)) in E0; [|lia|apply repeat_length|intros i x x' _ Lx Hx; apply vset_inv in Hx as (_ & ->); rewrite upd_length; auto].
  apply bind_Ok in E as ([[it co] w] & E1 & E). cbn [for_] in E1. inversion E1; subst it co w; clear E1.
  apply bind_Ok in E as ([[[x1 it] co] w] & E2 & E).
  apply (for_post (fun i st => let '(x, it, co, w) := st in length x = (length l + 1 + 1)%nat /\ it = (i - 2)%nat /\ length co = (i - 1)%nat /\
     (forall k, (k < i - 1)%nat -> nth k co 0%float = nth k l 0%float) /\ double_finite w /\ double_val w = 0 /\
     forall k, (2 <= k < i)%nat -> double_val (nth k x 0%float) = double_val (nth (k - 1) l 0%float))) in E2.
  - destruct E2 as (L1 & _ & _ & _ & _ & _ & V). apply bind_Ok in E as (r & Er & E). apply bind_Ok in E as (x2 & E2 & E). inversion E; subst x2 c; clear E.
    apply (for_post (fun _ x => length x = (length l + 1 + 1)%nat /\ forall k, (2 <= k < length l)%nat -> double_val (nth k x 0%float) = double_val (nth (k - 1) l 0%float))) in E2.
    + intros i H1 H2. destruct E2 as [_ E2]. rewrite E2 by lia. do 2 f_equal. lia.
    + lia.
    + auto.
    + intros i x x' Hi [Lx Vx] Hx. apply vset_inv in Hx as (_ & ->). rewrite upd_length. split; auto. intros k Hk. rewrite nth_upd_other by lia. auto.
  - lia.
  - split; auto. split; [reflexivity|]. split; [reflexivity|]. split; [|split; [exact I|split; [reflexivity|intros; lia]]].
    intros k Hk. replace k with 0%nat by lia. reflexivity.
  - intros i [[[x it'] co'] w'] s' Hi (I1 & -> & I3 & I4 & I5 & I6 & I7) B.
    apply bind_Ok in B as (v & Ev & B). apply vget_inv with (d := 0%float) in Ev as (_ & _ & <-).
    set (v := nth (i - 2 + 1) l 0%float) in *.
    apply bind_Ok in B as (c1 & Ec & B). apply vget_inv with (d := 0%float) in Ec as (_ & _ & <-).
    rewrite <- I3 in B. rewrite nth_app_last in B.
    assert (Hv : double_finite v /\ Rabs (double_val v) <= Fbig) by (apply Gl; lia). destruct Hv as [Gv Bv].
    destruct (Fadd_zero w' v I5 I6 Gv Bv) as [G1 V1]. change (oadd Fops w' v) with (w' + v)%float in B.
    apply bind_Ok in B as (k & Ek & B). cbn [odiv Fops] in Ek. inversion Ek; subst k; clear Ek.
    assert (B1 : Rabs (double_val (w' + v)%float) <= Fbig) by (rewrite V1; auto).
    destruct (Fdiv_one _ G1 B1) as [G2 V2]. change (onat Fops 1) with (Fnat 1) in G2, V2.
    apply bind_Ok in B as (x2 & Ex & B). apply vset_inv in Ex as (Lx & ->).
    apply bind_Ok in B as (c2 & Ec & B). apply vget_inv with (d := 0%float) in Ec as (_ & _ & <-). inversion B; subst s'; clear B.
    rewrite nth_app_last. destruct (Fsub_same _ _ G1 Gv V1) as [G3 V3].
    rewrite upd_length, app_length. cbn [length]. split; auto. split; [lia|]. split; [lia|].
    split; [|split; [exact G3|split; [exact V3|]]].
    + intros k Hk. destruct (Nat.eq_dec k (length co')) as [->|Ne].
      * rewrite nth_app_last. unfold v. f_equal. lia.
      * rewrite app_nth1 by lia. apply I4. lia.
    + intros k Hk. destruct (Nat.eq_dec k i) as [->|Ne].
      * rewrite nth_upd_same by auto. rewrite V2, V1. unfold v. do 2 f_equal. lia.
      * rewrite nth_upd_other by auto. apply I7. lia.
Qed.
