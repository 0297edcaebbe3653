(** Finite sums of reals. *)
From Coq Require Import Arith Lia Reals Lra.
Open Scope R_scope.

(** [sum n f] = f 0 + ... + f (n-1). *)
Fixpoint sum (n : nat) (f : nat -> R) : R :=
  match n with O => 0 | S n => sum n f + f n end.

Lemma sum_ext n f g : (forall i, (i < n)%nat -> f i = g i) -> sum n f = sum n g.
Proof. induction n; intros H; simpl; auto. rewrite IHn, H; auto. Qed.

Lemma sum_0 n f : (forall i, (i < n)%nat -> f i = 0) -> sum n f = 0.
Proof. induction n; intros H; simpl; auto. rewrite IHn, H; auto. lra. Qed.

Lemma sum_plus n f g : sum n (fun i => f i + g i) = sum n f + sum n g.
Proof. induction n; simpl; try lra. Qed.

Lemma sum_minus n f g : sum n (fun i => f i - g i) = sum n f - sum n g.
Proof. induction n; simpl; try lra. Qed.

Lemma sum_scal n c f : sum n (fun i => c * f i) = c * sum n f.
Proof. induction n; simpl; try rewrite IHn; lra. Qed.

Lemma sum_scal_r n c f : sum n (fun i => f i * c) = sum n f * c.
Proof. induction n; simpl; try rewrite IHn; lra. Qed.

Lemma sum_opp n f : sum n (fun i => - f i) = - sum n f.
Proof. induction n; simpl; try rewrite IHn; lra. Qed.

Lemma sum_const n c : sum n (fun _ => c) = INR n * c.
Proof. induction n. simpl; lra. rewrite S_INR. simpl sum. rewrite IHn. lra. Qed.

Lemma sum_app a b f : sum (a + b) f = sum a f + sum b (fun i => f (a + i)%nat).
Proof.
  induction b; simpl. rewrite Nat.add_0_r; lra.
  rewrite Nat.add_succ_r. simpl. rewrite IHb. lra.
Qed.

Lemma sum_S_l n f : sum (S n) f = f 0%nat + sum n (fun i => f (S i)).
Proof. replace (S n) with (1 + n)%nat by lia. rewrite sum_app. simpl. lra. Qed.

Lemma sum_single n k f :
  (k < n)%nat -> (forall i, (i < n)%nat -> i <> k -> f i = 0) -> sum n f = f k.
Proof.
  intros Hk H. induction n; [lia|]. simpl.
  destruct (Nat.eq_dec k n) as [->|].
  - rewrite sum_0. lra. intros; apply H; lia.
  - rewrite IHn, (H n); try lia. lra. intros; apply H; lia.
Qed.

Lemma sum_swap n m f :
  sum n (fun i => sum m (fun j => f i j)) = sum m (fun j => sum n (fun i => f i j)).
Proof.
  induction n; simpl.
  - symmetry. apply sum_0. auto.
  - rewrite IHn. rewrite <- sum_plus. apply sum_ext. auto.
Qed.

Lemma sum_le n f g : (forall i, (i < n)%nat -> f i <= g i) -> sum n f <= sum n g.
Proof.
  induction n; intros H; simpl; [lra|].
  apply Rplus_le_compat. apply IHn; auto. apply H; lia.
Qed.

Lemma sum_pos n f : (forall i, (i < n)%nat -> 0 <= f i) -> 0 <= sum n f.
Proof. intros. replace 0 with (sum n (fun _ => 0)). apply sum_le; auto. apply sum_0; auto. Qed.

Lemma sum_lt n f g : (0 < n)%nat -> (forall i, (i < n)%nat -> f i < g i) -> sum n f < sum n g.
Proof.
  intros Hn H. induction n; [lia|]. simpl.
  destruct n; simpl.
  - assert (f 0%nat < g 0%nat) by (apply H; lia). lra.
  - assert (sum (S n) f < sum (S n) g) by (apply IHn; [lia|]; intros; apply H; lia).
    assert (f (S n) < g (S n)) by (apply H; lia). simpl in *. lra.
Qed.

Lemma sum_Rabs n f : Rabs (sum n f) <= sum n (fun i => Rabs (f i)).
Proof.
  induction n; simpl. rewrite Rabs_R0; lra.
  eapply Rle_trans. apply Rabs_triang. lra.
Qed.

(** Terms beyond [n] vanish. *)
Lemma sum_trunc n m f :
  (n <= m)%nat -> (forall i, (n <= i < m)%nat -> f i = 0) -> sum m f = sum n f.
Proof.
  intros Hnm H. replace m with (n + (m - n))%nat by lia. rewrite sum_app.
  rewrite (sum_0 (m - n)). lra. intros; apply H; lia.
Qed.

(** Only terms in [a, a+b) count. *)
Lemma sum_range n a b f :
  (a + b <= n)%nat -> (forall i, (i < n)%nat -> ~ (a <= i < a + b)%nat -> f i = 0) ->
  sum n f = sum b (fun i => f (a + i)%nat).
Proof.
  intros Hn H. replace n with (a + (b + (n - a - b)))%nat by lia.
  rewrite !sum_app. rewrite (sum_0 a), (sum_0 (n - a - b)). lra.
  intros; apply H; lia. intros; apply H; lia.
Qed.

Lemma sum_pos_zero n f :
  (forall i, (i < n)%nat -> 0 <= f i) -> sum n f = 0 -> forall i, (i < n)%nat -> f i = 0.
Proof.
  intros Hp Hs. induction n; intros i Hi; [lia|].
  simpl in Hs.
  assert (0 <= sum n f) by (apply sum_pos; intros; apply Hp; lia).
  assert (0 <= f n) by (apply Hp; lia).
  destruct (Nat.eq_dec i n) as [->|]; [lra|].
  apply IHn; try lia; try lra. intros; apply Hp; lia.
Qed.

(** Rotating the summation index. *)
Lemma sum_rot n k f :
  (0 < n)%nat -> sum n (fun i => f ((i + k) mod n)%nat) = sum n f.
Proof.
  intros Hn.
  assert (H : forall f, sum n (fun i => f ((i + 1) mod n)%nat) = sum n f).
  { clear f. intros f. destruct n as [|n]; [lia|].
    rewrite (sum_S_l n f).
    change (sum n (fun i => f ((i + 1) mod S n)%nat) + f ((n + 1) mod S n)%nat =
            f 0%nat + sum n (fun i => f (S i))).
    replace ((n + 1) mod S n)%nat with 0%nat.
    2:{ replace (n + 1)%nat with (S n) by lia. rewrite Nat.mod_same; lia. }
    rewrite (sum_ext n _ (fun i => f (S i))); [lra|]. intros i Hi.
    rewrite Nat.mod_small by lia. f_equal. lia. }
  induction k.
  - apply sum_ext. intros i Hi. rewrite Nat.add_0_r. rewrite Nat.mod_small; auto.
  - rewrite <- IHk. rewrite <- (H (fun i => f ((i + k) mod n)%nat)).
    apply sum_ext. intros i Hi. f_equal.
    rewrite Nat.add_mod_idemp_l by lia. f_equal. lia.
Qed.
