(** Matrix-vector products. *)
From Coq Require Import List Arith Lia Bool Reals Lra.
From Verif Require Import Base Num MeshM SpecMesh MeshProofs BandM SpecBand SumR BandProofs.
Import ListNotations.
Local Open Scope R_scope.

Lemma Rsum_sum n f : Rsum n f = sum n f.
Proof. induction n; simpl; congruence. Qed.

Definition ind (b : bool) (r : R) : R := if b then r else 0.

(** [xx[i] += get * x[k]] over a range of columns. *)
Lemma row_acc (x : list R) (get : nat -> res R) (col : nat -> nat) (A : nat -> R) i lo hi n xx :
  length x = n -> length xx = n -> (i < n)%nat ->
  (forall j, (lo <= j < hi)%nat -> get j = Ok (A (col j)) /\ (col j < n)%nat) ->
  exists xx', for_ lo hi xx (fun xx j =>
      a <- get j ;; xj <- vget x (col j) ;; xi <- vget xx i ;;
      vset xx i (oadd Rops xi (omul Rops a xj))) = Ok xx' /\
    length xx' = n /\
    (forall k, nth k xx' 0 = nth k xx 0 +
        (if (k =? i)%nat then sum (hi - lo) (fun j => A (col (lo + j)%nat) * nth (col (lo + j)%nat) x 0) else 0)).
Proof.
  intros Hx Hxx Hi Hg.
  destruct (for_inv' (fun j xx' => length xx' = n /\
    (forall k, nth k xx' 0 = nth k xx 0 +
        (if (k =? i)%nat then sum (j - lo) (fun j => A (col (lo + j)%nat) * nth (col (lo + j)%nat) x 0) else 0)))
    lo hi xx (fun xx j =>
      a <- get j ;; xj <- vget x (col j) ;; xi <- vget xx i ;;
      vset xx i (oadd Rops xi (omul Rops a xj)))) as (xx' & E & Hl & Hv).
  - split; auto. intros k. rewrite Nat.sub_diag. simpl. destruct (k =? i)%nat; lra.
  - intros j s Hj (Hl & Hv). destruct (Hg j Hj) as (Eg & Hc).
    rewrite Eg. cbn [bind]. rewrite (vget_ok x _ 0) by lia. cbn [bind].
    rewrite (vget_ok s _ 0) by lia. cbn [bind]. rewrite vset_ok by lia.
    eexists; split; [reflexivity|]. split. rewrite upd_length; auto.
    intros k. rewrite nth_upd. destruct (Nat.eqb_spec k i).
    + subst k. destruct (Nat.ltb_spec i (length s)); [|lia]. cbn [andb].
      rewrite Hv, Nat.eqb_refl. replace (j + 1 - lo)%nat with (S (j - lo)) by lia. simpl.
      replace (lo + (j - lo))%nat with j by lia. lra.
    + cbn [andb]. rewrite Hv. destruct (Nat.eqb_spec k i); [lia|]. auto.
  - exists xx'. split; auto. split; auto. intros k. rewrite Hv. destruct (k =? i)%nat; auto.
    replace (Nat.max lo hi - lo)%nat with (hi - lo)%nat by lia. auto.
Qed.

Lemma sum_shift_ind n lo hi f :
  (hi <= n)%nat ->
  sum (hi - lo) (fun j => f (lo + j)%nat) = sum n (fun j => ind ((lo <=? j)%nat && (j <? hi)%nat) (f j)).
Proof.
  intros Hn. destruct (Nat.le_gt_cases hi lo).
  - replace (hi - lo)%nat with O by lia. simpl. symmetry. apply sum_0. intros j Hj.
    unfold ind. destruct (Nat.leb_spec lo j), (Nat.ltb_spec j hi); auto; lia.
  - rewrite (sum_range n lo (hi - lo)).
    + apply sum_ext. intros j Hj. unfold ind.
      destruct (Nat.leb_spec lo (lo + j)), (Nat.ltb_spec (lo + j) hi); auto; lia.
    + lia.
    + intros j Hj Hr. unfold ind. destruct (Nat.leb_spec lo j), (Nat.ltb_spec j hi); auto; lia.
Qed.

(** What [BandMatrix::operator*] computes when the two band widths agree. *)
Lemma band_mul_transposed on n p m x :
  wfb n p p m -> length x = n ->
  exists y, band_mul Rops on m x = Ok y /\ length y = n /\
    forall i, (i < n)%nat -> nth i y 0 = sum n (fun j => babs 0 m j i * nth j x 0).
Proof.
  intros Hw Hx. pose proof Hw as (En & Ep & Eq & Hw2). unfold band_mul.
  rewrite En, Ep, Eq, Hx.
  destruct (for_inv (fun i xx => length xx = n /\ forall k, (k < n)%nat ->
     nth k xx 0 = if (k <? i)%nat then sum n (fun j => babs 0 m j k * nth j x 0) else 0)
    0 n (repeat (o0 Rops) n) (fun xx i =>
    let j0 := if (i <? p)%nat then (p - i)%nat else 0%nat in
    let k0 := if (p <? i)%nat then (i - p)%nat else 0%nat in
    e <- usub (n + p) i ;;
    for_ j0 (Nat.min (p + p + 1) e) xx (fun xx j =>
      let k := (k0 + (j - j0))%nat in
      b <- mesh_get_safe on (b_bands m) [i; j] ;;
      xk <- vget x k ;;
      xi <- vget xx i ;;
      vset xx i (oadd Rops xi (omul Rops b xk))))) as (y & E & Hl & Hv).
  - lia.
  - split. apply repeat_length. intros k Hk. simpl. apply nth_repeat_lt; auto.
  - intros i s Hi (Hl & Hv). cbv zeta. rewrite usub_ok by lia. cbn [bind].
    set (j0 := if (i <? p)%nat then (p - i)%nat else 0%nat).
    set (k0 := if (p <? i)%nat then (i - p)%nat else 0%nat).
    assert (Hjk : (k0 + p = i + j0)%nat).
    { unfold k0, j0. destruct (Nat.ltb_spec p i), (Nat.ltb_spec i p); lia. }
    assert (H0 : (k0 = 0 \/ j0 = 0)%nat).
    { unfold k0, j0. destruct (Nat.ltb_spec p i), (Nat.ltb_spec i p); lia. }
    set (hi := Nat.min (p + p + 1) (n + p - i)).
    destruct (row_acc x (fun j => mesh_get_safe on (b_bands m) [i; j])
       (fun j => k0 + (j - j0))%nat (fun k => babs 0 m k i) i j0 hi n s)
       as (xx' & E' & Hl' & Hv'); auto; try lia.
    + intros j Hj. split; [|unfold hi in *; lia].
      rewrite (get2 0 on n (1 + p + p)) by (auto; unfold hi in *; lia).
      unfold babs. rewrite En, Ep, Eq. unfold hi in *.
      destruct (Nat.ltb_spec (k0 + (j - j0)) n), (Nat.ltb_spec i n),
        (Nat.leb_spec (k0 + (j - j0)) (i + p)), (Nat.leb_spec i (k0 + (j - j0) + p)); cbn [andb]; try lia.
      do 2 f_equal. lia.
    + exists xx'. split; [exact E'|]. split; auto. intros k Hk. rewrite Hv', Hv by auto.
      destruct (Nat.eqb_spec k i).
      * subst k. destruct (Nat.ltb_spec i i); try lia. destruct (Nat.ltb_spec i (i + 1)); try lia.
        rewrite Rplus_0_l. symmetry. unfold hi.
        rewrite (sum_range n k0 (Nat.min (p + p + 1) (n + p - i) - j0)).
        -- apply sum_ext. intros j Hj. do 2 f_equal; try lia.
        -- lia.
        -- intros j Hj Hr. rewrite (babs_out 0 n p p) by (auto; unfold in_band; lia). lra.
      * destruct (Nat.ltb_spec k i), (Nat.ltb_spec k (i + 1)); try lia; lra.
  - exists y. split; auto. split; auto. intros i Hi. rewrite Hv by auto.
    destruct (Nat.ltb_spec i n); auto; lia.
Qed.

(** [ExtendedBandMatrix::operator*]. *)
Lemma eband_mul_correct on n p q m x :
  wfe n p q m -> length x = n ->
  exists y, eband_mul Rops on m x = Ok y /\ length y = n /\
    forall i, (i < n)%nat -> nth i y 0 = sum n (fun j => eabs 0 m i j * nth j x 0).
Proof.
  intros Hw Hx. destruct (wfe_npq _ _ _ _ Hw) as (En & Ep & Eq).
  pose proof Hw as (_ & Hpn & Hqn & _).
  unfold eband_mul. rewrite En, Ep, Eq, Hx. cbv zeta.
  set (S1 := fun k => sum n (fun j => ind (negb (j + p <? k)%nat) (eabs 0 m k j * nth j x 0))).
  set (F1 := fun (xx : list R) i =>
    xx <- for_ (if (p <? i)%nat then (i - p)%nat else 0%nat) (Nat.min (i + q + 1) n) xx (fun xx j =>
      a <- eb_main_get on m i j ;; xj <- vget x j ;; xi <- vget xx i ;;
      vset xx i (oadd Rops xi (omul Rops a xj))) ;;
    a <- usub n q ;; a1 <- usub a 1 ;;
    if (i <? a1)%nat then
      b <- usub n p ;;
      for_ (Nat.max b (i + q + 1)) n xx (fun xx j =>
        a <- eb_side_get on m i j ;; xj <- vget x j ;; xi <- vget xx i ;;
        vset xx i (oadd Rops xi (omul Rops a xj)))
    else Ok xx).
  destruct (for_inv (fun i xx => length xx = n /\ forall k, (k < n)%nat ->
     nth k xx 0 = if (k <? i)%nat then S1 k else 0) 0 n (repeat (o0 Rops) n) F1) as (x1 & E1 & Hl1 & Hv1).
  - lia.
  - split. apply repeat_length. intros k Hk. simpl. apply nth_repeat_lt; auto.
  - intros i s Hi (Hl & Hv). unfold F1.
    destruct (row_acc x (fun j => eb_main_get on m i j) (fun j => j) (fun j => eabs 0 m i j) i
       (if (p <? i)%nat then (i - p)%nat else 0%nat) (Nat.min (i + q + 1) n) n s)
       as (xx1 & E' & Hl' & Hv'); auto; try lia.
    { intros j Hj. split; [|lia]. apply (eb_main_get_ok 0 on n p q); auto.
      unfold in_band. destruct (Nat.ltb_spec p i); lia. }
    rewrite E'. cbn [bind]. rewrite usub_ok by lia. cbn [bind]. rewrite usub_ok by lia. cbn [bind].
    rewrite (sum_shift_ind n _ _ (fun j => eabs 0 m i j * nth j x 0)) in Hv' by lia.
    assert (Hside : exists xx2, (if (i <? n - q - 1)%nat then
      b <- usub n p ;;
      for_ (Nat.max b (i + q + 1)) n xx1 (fun xx j =>
        a <- eb_side_get on m i j ;; xj <- vget x j ;; xi <- vget xx i ;;
        vset xx i (oadd Rops xi (omul Rops a xj)))
      else Ok xx1) = Ok xx2 /\ length xx2 = n /\
      forall k, nth k xx2 0 = nth k xx1 0 + if (k =? i)%nat then
         sum n (fun j => ind (i + q <? j)%nat (eabs 0 m i j * nth j x 0)) else 0).
    { destruct (Nat.ltb_spec i (n - q - 1)).
      - rewrite usub_ok by lia. cbn [bind].
        destruct (row_acc x (fun j => eb_side_get on m i j) (fun j => j) (fun j => eabs 0 m i j) i
          (Nat.max (n - p) (i + q + 1)) n n xx1) as (xx2 & E2 & Hl2 & Hv2); auto; try lia.
        { intros j Hj. split; [|lia]. apply (eb_side_get_ok 0 on n p q); auto. unfold in_side. lia. }
        exists xx2. split; [exact E2|]. split; auto. intros k. rewrite Hv2.
        destruct (k =? i)%nat; auto. f_equal.
        rewrite (sum_shift_ind n _ _ (fun j => eabs 0 m i j * nth j x 0)) by lia.
        apply sum_ext. intros j Hj. unfold ind.
        destruct (Nat.leb_spec (Nat.max (n - p) (i + q + 1)) j), (Nat.ltb_spec j n),
          (Nat.ltb_spec (i + q) j); simpl; auto; try lia.
        rewrite (eabs_out 0 n p q m i j Hw); [lra|]. unfold in_ext, in_band. lia.
      - exists xx1. split; auto. split; auto. intros k. destruct (k =? i)%nat; [|lra].
        rewrite sum_0; [lra|]. intros j Hj. unfold ind. destruct (Nat.ltb_spec (i + q) j); auto; lia. }
    destruct Hside as (xx2 & E2 & Hl2 & Hv2). exists xx2. split; [exact E2|]. split; auto.
    intros k Hk. rewrite Hv2, Hv', Hv by auto. destruct (Nat.eqb_spec k i).
    + subst k. destruct (Nat.ltb_spec i i); try lia. destruct (Nat.ltb_spec i (i + 1)); try lia.
      rewrite Rplus_0_l. rewrite <- sum_plus. unfold S1. apply sum_ext. intros j Hj. unfold ind.
      destruct (Nat.ltb_spec p i), (Nat.leb_spec (i - p) j), (Nat.ltb_spec j (Nat.min (i + q + 1) n)),
        (Nat.ltb_spec (i + q) j), (Nat.ltb_spec (j + p) i); simpl; try lia; lra.
    + destruct (Nat.ltb_spec k i), (Nat.ltb_spec k (i + 1)); try lia; lra.
  -
    match goal with |- exists y, bind ?a _ = _ /\ _ => change a with (for_ 0 n (repeat (o0 Rops) n) F1) end.
    rewrite E1. cbn [bind]. rewrite usub_ok by lia. cbn [bind]. rewrite usub_ok by lia. cbn [bind].
    set (S2 := fun c k => sum c (fun j => ind (j + p <? k)%nat (eabs 0 m k j * nth j x 0))).
    match goal with |- exists y, for_ 0 ?h x1 ?F = _ /\ _ =>
      destruct (for_inv (fun c xx => length xx = n /\ forall k, (k < n)%nat ->
        nth k xx 0 = S1 k + S2 c k) 0 h x1 F) as (y1 & E & Hl & Hv) end.
    + lia.
    + split; auto. intros k Hk. rewrite Hv1 by auto. destruct (Nat.ltb_spec k n); try lia.
      unfold S2; simpl. lra.
    + intros c s Hc (Hl & Hv). rewrite usub_ok by lia. cbn [bind].
      match goal with |- exists y, for_ ?l ?h s ?F = _ /\ _ =>
       destruct (for_inv' (fun r xx => length xx = n /\ forall k, (k < n)%nat ->
        nth k xx 0 = S1 k + S2 c k + ind ((k <? r)%nat && (c + p <? k)%nat) (eabs 0 m k c * nth c x 0)) l h s F)
         as (y2 & E & Hl2 & Hv2) end.
      * split; auto. intros k Hk. rewrite Hv by auto. unfold ind.
        destruct (Nat.ltb_spec k (Nat.max (n - q) (c + p + 1))), (Nat.ltb_spec (c + p) k); simpl; try lra.
        rewrite (eabs_out 0 n p q m k c Hw); [lra|]. unfold in_ext, in_band. lia.
      * intros r s' Hr (Hl' & Hv'). rewrite (eb_side_get_ok 0 on n p q) by (auto; unfold in_side; lia).
        cbn [bind]. rewrite (vget_ok x _ 0) by lia. cbn [bind].
        rewrite (vget_ok s' _ 0) by lia. cbn [bind]. rewrite vset_ok by lia.
        eexists; split; [reflexivity|]. split. rewrite upd_length; auto.
        intros k Hk. rewrite nth_upd. unfold ind. destruct (Nat.eqb_spec k r).
        -- subst k. destruct (Nat.ltb_spec r (length s')); [|lia]. cbn [andb]. rewrite Hv' by auto.
           unfold ind.
           destruct (Nat.ltb_spec r r), (Nat.ltb_spec r (r + 1)), (Nat.ltb_spec (c + p) r); simpl; try lia; lra.
        -- cbn [andb]. rewrite Hv' by auto. unfold ind.
           destruct (Nat.ltb_spec k r), (Nat.ltb_spec k (r + 1)); simpl; try lia; auto.
      * exists y2. split; [exact E|]. split; auto. intros k Hk. rewrite Hv2 by auto.
        replace (Nat.max (Nat.max (n - q) (c + p + 1)) n) with n by lia.
        replace (c + 1)%nat with (S c) by lia. unfold S2. cbn [sum]. unfold ind.
        destruct (Nat.ltb_spec k n), (Nat.ltb_spec (c + p) k); simpl; try lia; lra.
    + exists y1. split; [exact E|]. split; auto. intros i Hi. rewrite Hv by auto.
      unfold S1, S2. rewrite <- (sum_trunc (n - p - 1) n).
      * rewrite <- sum_plus. apply sum_ext. intros j Hj. unfold ind.
        destruct (Nat.ltb_spec (j + p) i); simpl; lra.
      * lia.
      * intros j Hj. unfold ind. destruct (Nat.ltb_spec (j + p) i); auto; lia.
Qed.
