(** Properties of the Cox-de Boor functions: partition of unity, sign,
    derivatives. *)
From Coq Require Import List Arith Lia Bool ZArith Reals Lra.
From Coquelicot Require Import Coquelicot.
From Verif Require Import Base Num SpecBand SpecSpline SplineProofs SumR.
Import ListNotations.
Open Scope R_scope.

Ltac ring_R := match goal with |- ?l = ?r => change (@eq R l r) end; ring.

Lemma evar_eq (f : R -> R) x a b : is_derive f x a -> a = b -> is_derive f x b.
Proof. intros H <-; auto. Qed.

Lemma derive_mix (f g : R -> R) x f' g' u a v b :
  is_derive f x f' -> is_derive g x g' ->
  is_derive (fun x => (x - u) * a * f x + (v - x) * b * g x) x
            (a * f x + (x - u) * a * f' - b * g x + (v - x) * b * g').
Proof.
  intros Hf Hg. auto_derive.
  - split; [eexists; exact Hf|]. split; auto. eexists; exact Hg.
  - replace (Derive (fun x0 => f x0) x) with f' by (symmetry; apply is_derive_unique; exact Hf).
    replace (Derive (fun x0 => g x0) x) with g' by (symmetry; apply is_derive_unique; exact Hg). ring.
Qed.

Section Basis.
Variables (t : nat -> R) (N k : nat).
Hypothesis Hmono : forall i j, (i <= j < N)%nat -> t i <= t j.
Hypothesis Hk : (k + 1 < N)%nat.
Hypothesis Hseg : t k < t (k + 1)%nat.

Lemma gap i j : (i <= k)%nat -> (k + 1 <= j < N)%nat -> 0 < t j - t i.
Proof.
  intros. assert (t i <= t k) by (apply Hmono; lia). assert (t (k+1)%nat <= t j) by (apply Hmono; lia). lra.
Qed.

(** The ascending weight of the recursion. *)
Definition wgt (p i : nat) (x : R) : R := frac (x - t i) (t (i + p)%nat - t i).

Lemma piece_rec p i x : (i + S p + 1 < N)%nat ->
  piece t k (S p) i x =
  wgt (S p) i x * piece t k p i x + (1 - wgt (S p) (i + 1) x) * piece t k p (i + 1) x.
Proof.
  intros Hi. rewrite piece_S. unfold wgt.
  replace (i + 1 + S p)%nat with (i + S p + 1)%nat by lia.
  destruct (Nat.le_gt_cases (i + 1) k); [destruct (Nat.le_gt_cases k (i + 1 + p))|].
  - f_equal. f_equal. assert (0 < t (i + S p + 1)%nat - t (i+1)%nat) by (apply gap; lia).
    rewrite !frac_ok by lra. field. lra.
  - rewrite (piece_support t k p (i+1)) by lia. ring.
  - rewrite (piece_support t k p (i+1)) by lia. ring.
Qed.

Lemma piece_unity p x : (p <= k)%nat -> (k + p < N)%nat ->
  sum (p + 1) (fun j => piece t k p (k - p + j) x) = 1.
Proof.
  revert x; induction p; intros x Hp HN.
  - simpl. unfold piece; simpl. replace (k - 0 + 0)%nat with k by lia. rewrite Nat.eqb_refl. lra.
  - replace (S p + 1)%nat with (S (p + 1)) by lia.
    transitivity (sum (S (p+1)) (fun j => wgt (S p) (k - S p + j) x * piece t k p (k - S p + j) x)
      + sum (S (p+1)) (fun j => (1 - wgt (S p) (k - S p + j + 1) x) * piece t k p (k - S p + j + 1) x)).
    + rewrite <- sum_plus. apply sum_ext. intros j Hj.
      destruct (Nat.eq_dec j (p+1)).
      * subst j. rewrite (piece_support t k p (k - S p + (p+1) + 1)) by lia.
        rewrite piece_S. rewrite (piece_support t k p (k - S p + (p+1) + 1)) by lia.
        unfold wgt. ring.
      * apply piece_rec. lia.
    + rewrite (sum_S_l (p+1) (fun j => wgt (S p) _ _ * _)).
      rewrite (piece_support t k p (k - S p + 0)) by lia.
      cbn [sum]. rewrite (piece_support t k p (k - S p + (p+1) + 1)) by lia.
      rewrite Rmult_0_r, Rmult_0_r, Rplus_0_l, Rplus_0_r, <- sum_plus.
      etransitivity; [|apply (IHp x); lia]. apply sum_ext. intros j Hj.
      replace (k - S p + S j)%nat with (k - p + j)%nat by lia.
      replace (k - S p + j + 1)%nat with (k - p + j)%nat by lia. ring.
Qed.

Lemma piece_nonneg p i x : (i + p + 1 < N)%nat -> t k <= x <= t (k + 1)%nat -> 0 <= piece t k p i x.
Proof.
  revert i; induction p; intros i Hi Hx.
  - unfold piece; simpl. destruct (Nat.eqb_spec i k); lra.
  - destruct (Nat.lt_ge_cases k i). rewrite piece_support by lia; lra.
    destruct (Nat.lt_ge_cases (i + S p) k). rewrite piece_support by lia; lra.
    rewrite piece_S. apply Rplus_le_le_0_compat; apply Rmult_le_pos; try (apply IHp; lia || auto);
      unfold frac; match goal with |- context[Req_EM_T ?a ?b] => destruct (Req_EM_T a b); try lra end.
    + destruct (Nat.eq_dec k (i + S p)).
      * assert (t i <= t k) by (apply Hmono; lia). assert (t i <= t (i + S p)%nat) by (apply Hmono; lia).
        apply Rmult_le_pos; [lra|]. left. apply Rinv_0_lt_compat. lra.
      * assert (0 < t (i + S p)%nat - t i) by (apply gap; lia). assert (t i <= t k) by (apply Hmono; lia).
        apply Rmult_le_pos; [lra|]. left. apply Rinv_0_lt_compat. lra.
    + assert (t (k+1)%nat <= t (i + S p + 1)%nat) by (apply Hmono; lia).
      assert (t (i+1)%nat <= t (i + S p + 1)%nat) by (apply Hmono; lia).
      apply Rmult_le_pos; [lra|]. left. apply Rinv_0_lt_compat. lra.
Qed.

(** First derivative of a piece. *)
Definition dpiece (p i : nat) (x : R) : R :=
  match p with
  | O => 0
  | S q => INR p * (frac 1 (t (i + p)%nat - t i) * piece t k q i x
                    - frac 1 (t (i + p + 1)%nat - t (i + 1)%nat) * piece t k q (i + 1) x)
  end.

Lemma frac_1 a b : frac a b = a * frac 1 b.
Proof. unfold frac. destruct (Req_EM_T b 0); lra. Qed.

Lemma inner_cancel q i x : (i + S (S q) + 1 < N)%nat ->
  ((t (i + S (S q))%nat - t i) * frac 1 (t (i + S (S q))%nat - t i) = 1 /\
   (t (i + S (S q) + 1)%nat - t (i + 1)%nat) * frac 1 (t (i + S (S q) + 1)%nat - t (i + 1)%nat) = 1)
  \/ piece t k q (i + 1) x = 0.
Proof.
  intros Hi. destruct (Nat.lt_ge_cases k (i + 1)). right; apply piece_support; lia.
  destruct (Nat.lt_ge_cases (i + 1 + q) k). right; apply piece_support; lia.
  left. assert (0 < t (i + S (S q))%nat - t i) by (apply gap; lia).
  assert (0 < t (i + S (S q) + 1)%nat - t (i + 1)%nat) by (apply gap; lia).
  rewrite !frac_ok by lra. split; field; lra.
Qed.

Lemma piece_derive p i (x : R) : (i + p + 1 < N)%nat -> is_derive (fun x : R => piece t k p i x) x (dpiece p i x).
Proof.
  revert i x; induction p; intros i x Hi.
  - unfold piece; simpl. apply @is_derive_const.
  - assert (D : is_derive (fun x => piece t k (S p) i x) x
       (frac 1 (t (i + S p)%nat - t i) * piece t k p i x
        + (x - t i) * frac 1 (t (i + S p)%nat - t i) * dpiece p i x
        - frac 1 (t (i + S p + 1)%nat - t (i+1)%nat) * piece t k p (i+1) x
        + (t (i + S p + 1)%nat - x) * frac 1 (t (i + S p + 1)%nat - t (i+1)%nat) * dpiece p (i+1) x)).
    { set (a := frac 1 (t (i + S p)%nat - t i)). set (b := frac 1 (t (i + S p + 1)%nat - t (i+1)%nat)).
      apply (is_derive_ext (fun x => (x - t i) * a * piece t k p i x + (t (i + S p + 1)%nat - x) * b * piece t k p (i+1) x)).
      { intros y. rewrite piece_S. rewrite (frac_1 (y - t i)), (frac_1 (t (i + S p + 1)%nat - y)).
        fold a. fold b. reflexivity. }
      pose proof (IHp i x) as D1. pose proof (IHp (i+1)%nat x) as D2.
      specialize (D1 ltac:(lia)). specialize (D2 ltac:(lia)).
      eapply evar_eq; [exact (derive_mix _ _ x _ _ (t i) a (t (i + S p + 1)%nat) b D1 D2)|].
      reflexivity. }
    replace (dpiece (S p) i x) with
       (frac 1 (t (i + S p)%nat - t i) * piece t k p i x
        + (x - t i) * frac 1 (t (i + S p)%nat - t i) * dpiece p i x
        - frac 1 (t (i + S p + 1)%nat - t (i+1)%nat) * piece t k p (i+1) x
        + (t (i + S p + 1)%nat - x) * frac 1 (t (i + S p + 1)%nat - t (i+1)%nat) * dpiece p (i+1) x); auto.
    clear D. destruct p as [|q].
    + unfold dpiece. simpl INR. ring.
    + unfold dpiece at 1 2 3. cbv beta iota.
      rewrite (S_INR (S q)). rewrite (piece_S t k q i x), (piece_S t k q (i+1) x).
      rewrite (frac_1 (x - t i)), (frac_1 (t (i + S q + 1)%nat - x)),
              (frac_1 (x - t (i+1)%nat)), (frac_1 (t (i + 1 + S q + 1)%nat - x)).
      replace (i + 1 + S q)%nat with (i + S (S q))%nat by lia.
      replace (i + S q + 1)%nat with (i + S (S q))%nat by lia.
      set (A := frac 1 (t (i + S (S q))%nat - t i)).
      set (B := frac 1 (t (i + S (S q) + 1)%nat - t (i + 1)%nat)).
      set (C := frac 1 (t (i + S (S q))%nat - t (i + 1)%nat)).
      set (a := frac 1 (t (i + S q)%nat - t i)).
      set (c := frac 1 (t (i + S (S q) + 1)%nat - t (i + 1 + 1)%nat)).
      set (P0 := piece t k q i x). set (P2 := piece t k q (i + 1 + 1) x).
      destruct (inner_cancel q i x) as [[H1 H2]|H0]; try lia.
      * fold A in H1. fold B in H2. set (P1 := piece t k q (i + 1) x).
        set (T0 := t i) in *. set (T1 := t (i+1)%nat) in *.
        set (T2 := t (i + S (S q))%nat) in *. set (T3 := t (i + S (S q) + 1)%nat) in *.
        set (n := INR (S q)).
        match goal with |- ?l = ?r => assert (Z : l - r = n * C * P1 * ((T3 - T1) * B - (T2 - T0) * A)) by ring end.
        rewrite H1, H2 in Z. lra.
      * rewrite H0. ring.
Qed.

(** Combination of the functions that do not vanish on the segment. *)
Definition comb (p : nat) (c : nat -> R) (x : R) : R :=
  sum (p + 1) (fun j => c (k - p + j)%nat * piece t k p (k - p + j) x).

(** Coefficients of the derivative of a combination of degree [p]. *)
Definition dcoef (p : nat) (c : nat -> R) (i : nat) : R :=
  INR p * (c i - c (i - 1)%nat) / (t (i + p)%nat - t i).

Lemma is_derive_sum n (f : nat -> R -> R) (g : nat -> R) (x : R) :
  (forall i, (i < n)%nat -> is_derive (f i) x (g i)) ->
  is_derive (fun x : R => sum n (fun i => f i x)) x (sum n g).
Proof.
  induction n; intros H; simpl.
  - apply @is_derive_const.
  - apply @is_derive_plus; auto.
Qed.

Lemma comb_derive p c (x : R) : (S p <= k)%nat -> (k + S p < N)%nat ->
  is_derive (comb (S p) c) x (comb p (dcoef (S p) c) x).
Proof.
  intros Hp HN. unfold comb.
  assert (D : is_derive (fun x : R => sum (S p + 1) (fun j => c (k - S p + j)%nat * piece t k (S p) (k - S p + j) x)) x
     (sum (S p + 1) (fun j => c (k - S p + j)%nat *
        (INR (S p) * (frac 1 (t (k - S p + j + S p)%nat - t (k - S p + j)%nat) * piece t k p (k - S p + j) x
          - frac 1 (t (k - S p + j + S p + 1)%nat - t (k - S p + j + 1)%nat) * piece t k p (k - S p + j + 1) x))))).
  { apply (is_derive_sum (S p + 1) (fun j x => c (k - S p + j)%nat * piece t k (S p) (k - S p + j) x)).
    intros j Hj. apply @is_derive_scal.
    destruct (Nat.eq_dec j (p + 1)).
    - (* the last function touches the knot t (k + p + 2) only with weight zero *)
      assert (E : forall y, piece t k (S p) (k - S p + j) y =
          (y - t (k - S p + j)%nat) * frac 1 (t (k - S p + j + S p)%nat - t (k - S p + j)%nat) * piece t k p (k - S p + j) y).
      { intros y. rewrite piece_S, (piece_support t k p (k - S p + j + 1)) by lia.
        rewrite (frac_1 (y - _)). ring. }
      rewrite (piece_support t k p (k - S p + j + 1)) by lia.
      eapply is_derive_ext; [intros y; symmetry; apply E|].
      set (i := (k - S p + j)%nat).
      assert (Di : is_derive (fun y => piece t k p i y) x (dpiece p i x)).
      { apply piece_derive. unfold i. lia. }
      eapply evar_eq.
      { apply (is_derive_ext (fun y => (y - t i) * frac 1 (t (i + S p)%nat - t i) * piece t k p i y + (0 - y) * 0 * 0)).
        - intros y. simpl. ring_R.
        - apply (derive_mix _ (fun _ => 0) x _ 0 (t i) (frac 1 (t (i + S p)%nat - t i)) 0 0 Di).
          apply @is_derive_const. }
      assert (Ei : i = k) by (unfold i; lia).
      cbv beta. destruct p as [|q]; [simpl; ring_R|].
      unfold dpiece. rewrite (piece_support t k q (i+1)) by lia.
      rewrite (piece_S t k q i), (piece_support t k q (i+1)) by lia.
      rewrite (frac_1 (x - t i)). rewrite !S_INR. ring_R.
    - apply (piece_derive (S p)). lia. }
  eapply evar_eq; [exact D|]. clear D.
  (* summation by parts *)
  set (n := INR (S p)).
  transitivity (n * (sum (S (p + 1)) (fun j => c (k - S p + j)%nat * (frac 1 (t (k - S p + j + S p)%nat - t (k - S p + j)%nat) * piece t k p (k - S p + j) x))
    - sum (S (p + 1)) (fun j => c (k - S p + j)%nat * (frac 1 (t (k - S p + j + S p + 1)%nat - t (k - S p + j + 1)%nat) * piece t k p (k - S p + j + 1) x)))).
  { rewrite <- sum_minus, <- sum_scal. replace (S p + 1)%nat with (S (p + 1)) by lia.
    apply sum_ext. intros j Hj. ring. }
  rewrite (sum_S_l (p + 1)). rewrite (piece_support t k p (k - S p + 0)) by lia.
  cbn [sum]. rewrite (piece_support t k p (k - S p + (p + 1) + 1)) by lia.
  rewrite !Rmult_0_r, Rplus_0_l, Rplus_0_r, <- sum_minus, <- sum_scal.
  apply sum_ext. intros j Hj. unfold dcoef.
  replace (k - S p + S j)%nat with (k - p + j)%nat by lia.
  replace (k - S p + j + 1)%nat with (k - p + j)%nat by lia.
  replace (k - p + j - 1)%nat with (k - S p + j)%nat by lia.
  replace (k - S p + j + S p + 1)%nat with (k - p + j + S p)%nat by lia.
  assert (0 < t (k - p + j + S p)%nat - t (k - p + j)%nat) by (apply gap; lia).
  rewrite frac_ok by lra. fold n. field. lra.
Qed.

Fixpoint dcoefs (a p : nat) (c : nat -> R) : nat -> R :=
  match a with O => c | S a => dcoef (p - a) (dcoefs a p c) end.

Lemma comb_derive_n p c a : (p <= k)%nat -> (k + p < N)%nat -> (a <= p)%nat ->
  forall x : R, Derive_n (comb p c) a x = comb (p - a) (dcoefs a p c) x.
Proof.
  intros Hp HN. induction a; intros Ha x.
  - simpl. rewrite Nat.sub_0_r. reflexivity.
  - cbn [Derive_n dcoefs].
    rewrite (Derive_ext _ (comb (p - a) (dcoefs a p c))) by (intros; apply IHa; lia).
    apply is_derive_unique. replace (p - a)%nat with (S (p - S a)) by lia.
    apply comb_derive; lia.
Qed.

Lemma comb_ex_derive_n p c a (x : R) : (p <= k)%nat -> (k + p < N)%nat ->
  ex_derive_n (comb p c) a x.
Proof.
  intros Hp HN. destruct a; simpl; auto.
  destruct (Nat.le_gt_cases a p) as [Ha|Ha].
  - apply (ex_derive_ext (comb (p - a) (dcoefs a p c))).
    { intros; symmetry; apply comb_derive_n; auto. }
    destruct (p - a)%nat as [|q] eqn:E.
    + unfold comb. simpl. unfold piece; simpl. apply ex_derive_const.
    + eexists. apply comb_derive; lia.
  - assert (Z : forall b (y : R), Derive_n (comb p c) (S p + b) y = 0).
    { induction b; intros y.
      - replace (S p + 0)%nat with (S p) by lia. cbn [Derive_n].
        rewrite (Derive_ext _ (comb 0 (dcoefs p p c))).
        + unfold comb. simpl. unfold piece; simpl. apply Derive_const.
        + intros z. rewrite comb_derive_n by lia. rewrite Nat.sub_diag. reflexivity.
      - replace (S p + S b)%nat with (S (S p + b)) by lia. cbn [Derive_n].
        rewrite (Derive_ext _ (fun _ => 0)) by auto. apply Derive_const. }
    apply (ex_derive_ext (fun _ => 0)).
    + intros y. symmetry. replace a with (S p + (a - S p))%nat by lia. apply Z.
    + apply ex_derive_const.
Qed.

Lemma comb_derive_high p c a (x : R) : (p <= k)%nat -> (k + p < N)%nat -> (p < a)%nat ->
  Derive_n (comb p c) a x = 0.
Proof.
  intros Hp HN Ha. revert x. replace a with (S p + (a - S p))%nat by lia.
  induction (a - S p)%nat as [|b IHb]; intros y.
  - replace (S p + 0)%nat with (S p) by lia. cbn [Derive_n].
    rewrite (Derive_ext _ (comb 0 (dcoefs p p c))).
    + unfold comb. simpl. unfold piece; simpl. apply Derive_const.
    + intros z. rewrite comb_derive_n by lia. rewrite Nat.sub_diag. reflexivity.
  - replace (S p + S b)%nat with (S (S p + b)) by lia. cbn [Derive_n].
    rewrite (Derive_ext _ (fun _ => 0)) by auto. apply Derive_const.
Qed.

End Basis.
