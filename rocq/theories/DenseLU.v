(** LU factorisation of dense real matrices given as functions, without
    pivoting: the abstract counterpart of the band algorithms. *)
From Coq Require Import Arith Lia Reals Lra Bool.
From Verif Require Import SumR.
Open Scope R_scope.

Definition mat := nat -> nat -> R.

(** One elimination step with pivot [k], storing multipliers in place. *)
Definition lu_step (k : nat) (M : mat) : mat := fun i j =>
  if (k <? i)%nat then
    if (j <? k)%nat then M i j
    else if (j =? k)%nat then M i k / M k k
    else M i j - M i k / M k k * M k j
  else M i j.

Fixpoint lu_iter (A : mat) (k : nat) : mat :=
  match k with O => A | S k => lu_step k (lu_iter A k) end.

(** All pivots among the first [n] are non-zero. *)
Definition pivots_ok (A : mat) (n : nat) : Prop :=
  forall k, (k < n)%nat -> lu_iter A k k k <> 0.

Lemma lu_step_row k M i j : (i <= k)%nat -> lu_step k M i j = M i j.
Proof. intros. unfold lu_step. destruct (Nat.ltb_spec k i); auto; lia. Qed.
Lemma lu_step_col k M i j : (j < k)%nat -> lu_step k M i j = M i j.
Proof.
  intros. unfold lu_step. destruct (Nat.ltb_spec k i); auto.
  destruct (Nat.ltb_spec j k); auto; lia.
Qed.
Lemma lu_step_mult k M i : (k < i)%nat -> lu_step k M i k = M i k / M k k.
Proof.
  intros. unfold lu_step. destruct (Nat.ltb_spec k i); try lia.
  destruct (Nat.ltb_spec k k); try lia. rewrite Nat.eqb_refl. auto.
Qed.
Lemma lu_step_elim k M i j :
  (k < i)%nat -> (k < j)%nat -> lu_step k M i j = M i j - M i k / M k k * M k j.
Proof.
  intros. unfold lu_step. destruct (Nat.ltb_spec k i); try lia.
  destruct (Nat.ltb_spec j k); try lia. destruct (Nat.eqb_spec j k); try lia. auto.
Qed.

Lemma lu_iter_row A i j K k : (i <= k)%nat -> (k <= K)%nat -> lu_iter A K i j = lu_iter A k i j.
Proof.
  intros Hi HK. induction K. replace k with O by lia; auto.
  destruct (Nat.eq_dec k (S K)) as [->|]; auto. simpl. rewrite lu_step_row by lia. apply IHK. lia.
Qed.
Lemma lu_iter_col A i j K k : (j < k)%nat -> (k <= K)%nat -> lu_iter A K i j = lu_iter A k i j.
Proof.
  intros Hi HK. induction K. lia.
  destruct (Nat.eq_dec k (S K)) as [->|]; auto. simpl. rewrite lu_step_col by lia. apply IHK. lia.
Qed.

(** Trailing block = Schur complement. *)
Lemma lu_iter_schur A k i j :
  (k <= i)%nat -> (k <= j)%nat ->
  lu_iter A k i j = A i j - sum k (fun l => lu_iter A (S l) i l * lu_iter A l l j).
Proof.
  induction k; intros Hi Hj; cbn [sum]. simpl; lra.
  change (lu_iter A (S k)) with (lu_step k (lu_iter A k)).
  rewrite lu_step_elim, lu_step_mult by lia. rewrite (IHk ltac:(lia) ltac:(lia)). lra.
Qed.

(** The factors read off the final matrix. *)
Definition Lmat (F : mat) : mat := fun i j =>
  if (j <? i)%nat then F i j else if (j =? i)%nat then 1 else 0.
Definition Umat (F : mat) : mat := fun i j => if (i <=? j)%nat then F i j else 0.

Lemma lu_factor A n i j :
  pivots_ok A n -> (i < n)%nat -> (j < n)%nat ->
  A i j = sum n (fun l => Lmat (lu_iter A n) i l * Umat (lu_iter A n) l j).
Proof.
  intros Hp Hi Hj.
  assert (HL : forall l, (l < i)%nat -> Lmat (lu_iter A n) i l = lu_iter A (S l) i l).
  { intros l Hl. unfold Lmat. destruct (Nat.ltb_spec l i); try lia. apply lu_iter_col; lia. }
  assert (HLi : Lmat (lu_iter A n) i i = 1).
  { unfold Lmat. rewrite Nat.ltb_irrefl, Nat.eqb_refl. auto. }
  assert (HL0 : forall l, (i < l)%nat -> Lmat (lu_iter A n) i l = 0).
  { intros l Hl. unfold Lmat. destruct (Nat.ltb_spec l i); try lia.
    destruct (Nat.eqb_spec l i); try lia. auto. }
  assert (HU : forall l, (l <= j)%nat -> Umat (lu_iter A n) l j = lu_iter A l l j).
  { intros l Hl. unfold Umat. destruct (Nat.leb_spec l j); try lia. apply lu_iter_row; lia. }
  assert (HU0 : forall l, (j < l)%nat -> Umat (lu_iter A n) l j = 0).
  { intros l Hl. unfold Umat. destruct (Nat.leb_spec l j); try lia. auto. }
  destruct (Nat.le_gt_cases i j) as [Hij|Hij].
  - rewrite (sum_trunc (S i) n).
    + cbn [sum]. rewrite HLi, HU by lia. rewrite lu_iter_schur by lia.
      rewrite (sum_ext i (fun l => Lmat (lu_iter A n) i l * Umat (lu_iter A n) l j)
                 (fun l => lu_iter A (S l) i l * lu_iter A l l j)).
      lra. intros l Hl. rewrite HL, HU by lia. auto.
    + lia.
    + intros l Hl. rewrite HL0 by lia. lra.
  - rewrite (sum_trunc (S j) n).
    + cbn [sum]. rewrite HL, HU by lia. change (lu_iter A (S j)) with (lu_step j (lu_iter A j)). rewrite lu_step_mult by lia.
      rewrite (sum_ext j (fun l => Lmat (lu_iter A n) i l * Umat (lu_iter A n) l j)
                 (fun l => lu_iter A (S l) i l * lu_iter A l l j))
        by (intros l Hl; rewrite HL, HU by lia; auto).
      replace (lu_iter A j i j / lu_iter A j j j * lu_iter A j j j) with (lu_iter A j i j)
        by (field; apply Hp; lia).
      rewrite lu_iter_schur by lia. lra.
    + lia.
    + intros l Hl. rewrite HU0 by lia. lra.
Qed.

(** Matrix times vector, for an n x n matrix. *)
Definition mv (n : nat) (A : mat) (x : nat -> R) (i : nat) : R := sum n (fun j => A i j * x j).

Lemma mv_ext n A x y i : (forall j, (j < n)%nat -> x j = y j) -> mv n A x i = mv n A y i.
Proof. intros H. apply sum_ext. intros. rewrite H; auto. Qed.

Lemma lu_mv A n x i :
  pivots_ok A n -> (i < n)%nat ->
  mv n A x i = mv n (Lmat (lu_iter A n)) (mv n (Umat (lu_iter A n)) x) i.
Proof.
  intros Hp Hi. unfold mv.
  rewrite (sum_ext n (fun j => A i j * x j)
    (fun j => sum n (fun l => Lmat (lu_iter A n) i l * (Umat (lu_iter A n) l j * x j)))).
  2:{ intros j Hj. rewrite (lu_factor A n i j) by auto. rewrite <- sum_scal_r.
      apply sum_ext. intros; ring. }
  rewrite sum_swap. apply sum_ext. intros l Hl. rewrite sum_scal. auto.
Qed.

(** Kernel of a matrix with non-zero pivots is trivial. *)
Lemma upper_ker n F x :
  (forall k, (k < n)%nat -> F k k <> 0) ->
  (forall i, (i < n)%nat -> mv n (Umat F) x i = 0) -> forall i, (i < n)%nat -> x i = 0.
Proof.
  intros Hd H.
  assert (forall k i, (i < n)%nat -> (n - k <= i)%nat -> x i = 0) as K.
  { induction k; intros i Hi Hk; [lia|].
    destruct (Nat.le_gt_cases (n - k) i); [apply IHk; auto|].
    specialize (H i Hi). unfold mv in H.
    rewrite (sum_single n i) in H; auto.
    - unfold Umat in H. rewrite Nat.leb_refl in H.
      apply Rmult_integral in H. destruct H; auto. exfalso; eapply Hd; eauto.
    - intros j Hj Hji. unfold Umat. destruct (Nat.leb_spec i j); try lra.
      rewrite (IHk j) by lia. lra. }
  intros i Hi. apply (K n i); lia.
Qed.

Lemma lower_ker n F x :
  (forall i, (i < n)%nat -> mv n (Lmat F) x i = 0) -> forall i, (i < n)%nat -> x i = 0.
Proof.
  intros H i. induction i as [i IH] using lt_wf_ind. intros Hi.
  specialize (H i Hi). unfold mv in H. rewrite (sum_single n i) in H; auto.
  - unfold Lmat in H. rewrite Nat.ltb_irrefl, Nat.eqb_refl in H. lra.
  - intros j Hj Hji. unfold Lmat. destruct (Nat.ltb_spec j i).
    + rewrite IH by lia. lra.
    + destruct (Nat.eqb_spec j i); try lia. lra.
Qed.

Lemma pivots_diag A n k : pivots_ok A n -> (k < n)%nat -> lu_iter A n k k <> 0.
Proof. intros Hp Hk. rewrite (lu_iter_row A k k n k) by lia. apply Hp; auto. Qed.

Lemma pivots_ker A n x :
  pivots_ok A n -> (forall i, (i < n)%nat -> mv n A x i = 0) -> forall i, (i < n)%nat -> x i = 0.
Proof.
  intros Hp H. apply (upper_ker n (lu_iter A n)).
  - intros. apply pivots_diag; auto.
  - apply (lower_ker n (lu_iter A n)). intros i Hi. rewrite <- lu_mv; auto.
Qed.

Lemma pivots_unique A n x y :
  pivots_ok A n -> (forall i, (i < n)%nat -> mv n A x i = mv n A y i) ->
  forall i, (i < n)%nat -> x i = y i.
Proof.
  intros Hp H i Hi.
  assert (x i - y i = 0); [|lra].
  apply (pivots_ker A n (fun i => x i - y i)); auto.
  intros k Hk. unfold mv.
  rewrite (sum_ext n _ (fun j => A k j * x j - A k j * y j)) by (intros; ring).
  rewrite sum_minus. fold (mv n A x k) (mv n A y k). rewrite H; auto. lra.
Qed.

(** Conversely: if every leading block has a trivial kernel, no pivot vanishes. *)
Lemma leading_pivots A n :
  (forall k x, (k < n)%nat -> (forall i, (i <= k)%nat -> mv (S k) A x i = 0) ->
     forall i, (i <= k)%nat -> x i = 0) ->
  pivots_ok A n.
Proof.
  intros H k. induction k as [k IH] using lt_wf_ind. intros Hk Hz.
  assert (Hpk : pivots_ok A k) by (intros l Hl; apply IH; lia).
  (* back substitution: x k = 1 and U x = 0 on rows 0..k *)
  assert (exists x, x k = 1 /\ forall l, (l < k)%nat ->
            sum (S k) (fun j => Umat (lu_iter A (S k)) l j * x j) = 0) as (x & Hxk & Hx).
  { set (F := lu_iter A (S k)).
    assert (HF : forall l, (l < k)%nat -> F l l <> 0).
    { intros l Hl. unfold F. rewrite (lu_iter_row A l l (S k) l) by lia. apply Hpk; auto. }
    assert (forall m, (m <= k)%nat -> exists x, x k = 1 /\ forall l, (k - m <= l < k)%nat ->
       sum (S k) (fun j => Umat F l j * x j) = 0) as K.
    { induction m; intros Hm.
      - exists (fun _ => 1). split; auto. intros; lia.
      - destruct IHm as (x & Hxk & Hx); [lia|].
        set (r := (k - S m)%nat).
        set (v := - sum (S k) (fun j => if (r <? j)%nat then F r j * x j else 0) / F r r).
        exists (fun j => if (j =? r)%nat then v else x j). split.
        + destruct (Nat.eqb_spec k r); [unfold r in *; lia|auto].
        + intros l Hl. destruct (Nat.eq_dec l r) as [->|Hlr].
          * rewrite (sum_ext (S k) _ (fun j => (if (j =? r)%nat then F r r * v else 0)
                     + (if (r <? j)%nat then F r j * x j else 0))).
            2:{ intros j Hj. unfold Umat. destruct (Nat.leb_spec r j), (Nat.ltb_spec r j),
                  (Nat.eqb_spec j r); subst; try lia; ring. }
            rewrite sum_plus. rewrite (sum_single (S k) r).
            -- rewrite Nat.eqb_refl. unfold v. field. apply HF. unfold r; lia.
            -- unfold r; lia.
            -- intros i Hi Hir. destruct (Nat.eqb_spec i r); [lia|auto].
          * rewrite <- (Hx l) by (unfold r in *; lia). apply sum_ext. intros j Hj.
            unfold Umat. destruct (Nat.leb_spec l j); [|lra].
            destruct (Nat.eqb_spec j r); auto. unfold r in *; lia. }
    destruct (K k (le_n k)) as (x & Hxk & Hx). exists x. split; auto. intros; apply Hx; lia. }
  (* then A x = 0 on rows 0..k *)
  assert (Hrow : forall i, (i <= k)%nat -> mv (S k) A x i = 0).
  { intros i Hi. unfold mv.
    rewrite (sum_ext (S k) (fun j => A i j * x j)
      (fun j => sum (S k) (fun l => Lmat (lu_iter A (S k)) i l * (Umat (lu_iter A (S k)) l j * x j)))).
    2:{ intros j Hj.
        (* A i j = sum L U over l <= k although the last pivot is zero *)
        assert (A i j = sum (S k) (fun l => Lmat (lu_iter A (S k)) i l * Umat (lu_iter A (S k)) l j)) as E.
        { destruct (Nat.eq_dec i k) as [->|Hik]; [destruct (Nat.eq_dec j k) as [->|Hjk]|].
          - (* i = j = k *)
            cbn [sum]. rewrite (sum_ext k _ (fun l => lu_iter A (S l) k l * lu_iter A l l k)).
            2:{ intros l Hl. unfold Lmat, Umat. destruct (Nat.ltb_spec l k), (Nat.leb_spec l k); try lia.
                rewrite (lu_iter_col A k l (S k) (S l)), (lu_iter_row A l k (S k) l) by lia. auto. }
            unfold Lmat, Umat. rewrite Nat.ltb_irrefl, Nat.eqb_refl, Nat.leb_refl.
            rewrite (lu_iter_row A k k (S k) k) by lia. rewrite lu_iter_schur by lia. lra.
          - (* i = k, j < k *)
            rewrite (sum_trunc (S j) (S k)).
            + cbn [sum]. rewrite (sum_ext j _ (fun l => lu_iter A (S l) k l * lu_iter A l l j)).
              2:{ intros l Hl. unfold Lmat, Umat. destruct (Nat.ltb_spec l k), (Nat.leb_spec l j); try lia.
                  rewrite (lu_iter_col A k l (S k) (S l)), (lu_iter_row A l j (S k) l) by lia. auto. }
              unfold Lmat, Umat. destruct (Nat.ltb_spec j k), (Nat.leb_spec j j); try lia.
              rewrite (lu_iter_col A k j (S k) (S j)), (lu_iter_row A j j (S k) j) by lia.
              change (lu_iter A (S j)) with (lu_step j (lu_iter A j)). rewrite lu_step_mult by lia.
              replace (lu_iter A j k j / lu_iter A j j j * lu_iter A j j j) with (lu_iter A j k j)
                by (field; apply Hpk; lia).
              rewrite lu_iter_schur by lia. lra.
            + lia.
            + intros l Hl. unfold Umat. destruct (Nat.leb_spec l j); try lia. lra.
          - (* i < k *)
            destruct (Nat.le_gt_cases i j) as [Hij|Hij].
            + rewrite (sum_trunc (S i) (S k)).
              * cbn [sum]. rewrite (sum_ext i _ (fun l => lu_iter A (S l) i l * lu_iter A l l j)).
                2:{ intros l Hl. unfold Lmat, Umat. destruct (Nat.ltb_spec l i), (Nat.leb_spec l j); try lia.
                    rewrite (lu_iter_col A i l (S k) (S l)), (lu_iter_row A l j (S k) l) by lia. auto. }
                unfold Lmat, Umat. rewrite Nat.ltb_irrefl, Nat.eqb_refl.
                destruct (Nat.leb_spec i j); try lia.
                rewrite (lu_iter_row A i j (S k) i) by lia. rewrite lu_iter_schur by lia. lra.
              * lia.
              * intros l Hl. unfold Lmat. destruct (Nat.ltb_spec l i), (Nat.eqb_spec l i); try lia. lra.
            + rewrite (sum_trunc (S j) (S k)).
              * cbn [sum]. rewrite (sum_ext j _ (fun l => lu_iter A (S l) i l * lu_iter A l l j)).
                2:{ intros l Hl. unfold Lmat, Umat. destruct (Nat.ltb_spec l i), (Nat.leb_spec l j); try lia.
                    rewrite (lu_iter_col A i l (S k) (S l)), (lu_iter_row A l j (S k) l) by lia. auto. }
                unfold Lmat, Umat. destruct (Nat.ltb_spec j i), (Nat.leb_spec j j); try lia.
                rewrite (lu_iter_col A i j (S k) (S j)), (lu_iter_row A j j (S k) j) by lia.
                change (lu_iter A (S j)) with (lu_step j (lu_iter A j)). rewrite lu_step_mult by lia.
                replace (lu_iter A j i j / lu_iter A j j j * lu_iter A j j j) with (lu_iter A j i j)
                  by (field; apply Hpk; lia).
                rewrite lu_iter_schur by lia. lra.
              * lia.
              * intros l Hl. unfold Umat. destruct (Nat.leb_spec l j); try lia. lra. }
        rewrite E at 1. rewrite <- sum_scal_r. apply sum_ext. intros; ring. }
    rewrite sum_swap. apply sum_0. intros l Hl.
    rewrite sum_scal. destruct (Nat.eq_dec l k) as [->|Hlk].
    - rewrite (sum_0 (S k)); [lra|]. intros j Hj. unfold Umat.
      destruct (Nat.leb_spec k j); [|lra].
      replace j with k by lia. rewrite (lu_iter_row A k k (S k) k) by lia. rewrite Hz. lra.
    - rewrite Hx by lia. lra. }
  assert (x k = 0) by (apply (H k x Hk Hrow k); lia). lra.
Qed.

(** Strict row diagonal dominance is inherited by the Schur complement. *)
Definition dominant (A : mat) (n : nat) : Prop :=
  forall i, (i < n)%nat -> sum n (fun j => if (j =? i)%nat then 0 else Rabs (A i j)) < Rabs (A i i).

Lemma dominant_lead A n : dominant A n -> pivots_ok A n.
Proof.
  intros Hd. apply leading_pivots. intros k x Hk Hx.
  (* the entry of largest modulus must be zero *)
  assert (exists r, (r <= k)%nat /\ forall j, (j <= k)%nat -> Rabs (x j) <= Rabs (x r)) as (r & Hr & Hmax).
  { clear. induction k.
    - exists O. split; auto. intros j Hj. replace j with O by lia. lra.
    - destruct IHk as (r & Hr & Hm). destruct (Rle_dec (Rabs (x (S k))) (Rabs (x r))).
      + exists r. split; [lia|]. intros j Hj. destruct (Nat.eq_dec j (S k)) as [->|]; auto. apply Hm; lia.
      + exists (S k). split; [lia|]. intros j Hj. destruct (Nat.eq_dec j (S k)) as [->|]; [lra|].
        assert (Rabs (x j) <= Rabs (x r)) by (apply Hm; lia). lra. }
  assert (Rabs (x r) = 0) as E.
  { destruct (Req_dec (Rabs (x r)) 0) as [|Hne]; auto. exfalso.
    assert (0 < Rabs (x r)) by (pose proof (Rabs_pos (x r)); lra).
    specialize (Hx r Hr). unfold mv in Hx.
    rewrite (sum_ext (S k) _ (fun j => (if (j =? r)%nat then A r r * x r else 0) +
               (if (j =? r)%nat then 0 else A r j * x j))) in Hx
      by (intros j Hj; destruct (Nat.eqb_spec j r); subst; ring).
    rewrite sum_plus in Hx. rewrite (sum_single (S k) r) in Hx; try lia.
    2:{ intros i Hi Hir. destruct (Nat.eqb_spec i r); [lia|auto]. }
    rewrite Nat.eqb_refl in Hx.
    assert (Rabs (A r r) * Rabs (x r) <= sum (S k) (fun j => if (j =? r)%nat then 0 else Rabs (A r j)) * Rabs (x r)).
    { rewrite <- Rabs_mult. replace (A r r * x r) with (- sum (S k) (fun j => if (j =? r)%nat then 0 else A r j * x j)) by lra.
      rewrite Rabs_Ropp. eapply Rle_trans. apply sum_Rabs. rewrite <- sum_scal_r.
      apply sum_le. intros j Hj. destruct (Nat.eqb_spec j r).
      - rewrite Rabs_R0. lra.
      - rewrite Rabs_mult. apply Rmult_le_compat_l. apply Rabs_pos. apply Hmax; lia. }
    assert (sum (S k) (fun j => if (j =? r)%nat then 0 else Rabs (A r j)) <=
            sum n (fun j => if (j =? r)%nat then 0 else Rabs (A r j))).
    { replace n with (S k + (n - S k))%nat by lia. rewrite sum_app.
      match goal with |- ?a <= ?a + ?b => assert (0 <= b); [|lra] end.
      apply sum_pos. intros. destruct (_ =? _)%nat; [lra|apply Rabs_pos]. }
    assert (sum n (fun j => if (j =? r)%nat then 0 else Rabs (A r j)) < Rabs (A r r)) by (apply Hd; lia).
    assert (Rabs (A r r) <= sum (S k) (fun j => if (j =? r)%nat then 0 else Rabs (A r j))).
    { apply Rmult_le_reg_r with (Rabs (x r)); auto. }
    lra. }
  intros i Hi. assert (Rabs (x i) <= 0) by (rewrite <- E; apply Hmax; auto).
  pose proof (Rabs_pos (x i)). destruct (Req_dec (x i) 0); auto.
  apply Rabs_no_R0 in H1. lra.
Qed.
