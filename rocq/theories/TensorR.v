(** Multi-index enumeration and tensor-product sums. *)
From Coq Require Import List Arith Lia Bool ZArith Reals Lra Permutation FinFun.
From Verif Require Import Base Num MeshM SplineM SpecMesh SpecBand SpecSpline MeshProofs SumR MulProofs.
Import ListNotations.
Open Scope nat_scope.

(** ** Enumerations *)
Fixpoint unrank (dims : list nat) (i : nat) : list nat :=
  match dims with
  | [] => []
  | n :: ds => i / prod ds :: unrank ds (i mod prod ds)
  end.

Lemma unrank_valid dims i : i < prod dims -> valid dims (unrank dims i).
Proof.
  revert i; induction dims; intros i Hi; cbn [unrank prod] in *; [constructor|].
  assert (prod dims <> 0) by nia. apply valid_cons. split.
  - apply Nat.div_lt_upper_bound; auto. lia.
  - apply IHdims. apply Nat.mod_upper_bound; auto.
Qed.

Lemma unrank_rank dims i : i < prod dims -> row_major dims (unrank dims i) = i.
Proof.
  revert i; induction dims; intros i Hi; cbn [unrank prod row_major] in *; [lia|].
  assert (prod dims <> 0) by nia. rewrite IHdims by (apply Nat.mod_upper_bound; auto).
  rewrite Nat.mul_comm. symmetry. apply Nat.div_mod; auto.
Qed.

Lemma rank_unrank dims idx : valid dims idx -> unrank dims (row_major dims idx) = idx.
Proof.
  intros H. assert (row_major dims idx < prod dims) by (apply row_major_lt; auto).
  eapply row_major_inj; eauto. apply unrank_valid; auto. apply unrank_rank; auto.
Qed.

Lemma md_dimwise_unrank dims i : i < prod dims -> md_dimwise_indices dims i = Ok (unrank dims i).
Proof.
  intros H. rewrite <- (md_dimwise_indices_row_major dims (unrank dims i)).
  - rewrite unrank_rank; auto.
  - apply unrank_valid; auto.
Qed.

Lemma prod_repeat b n : prod (repeat b n) = b ^ n.
Proof. induction n; simpl; auto. Qed.

(** Lowest digit first. *)
Lemma digits_valid b n i : i < b ^ n -> valid (repeat b n) (digits b n i).
Proof.
  revert i; induction n; intros i Hi; cbn [digits repeat Nat.pow] in *; [constructor|].
  assert (b <> 0) by nia. apply valid_cons. split.
  - apply Nat.mod_upper_bound; auto.
  - apply IHn. apply Nat.div_lt_upper_bound; auto.
Qed.

(** Rank of the digit enumeration. *)
Fixpoint rank_low (b : nat) (idx : list nat) : nat :=
  match idx with [] => 0 | a :: idx => a + b * rank_low b idx end.

Lemma digits_rank b n idx : valid (repeat b n) idx -> digits b n (rank_low b idx) = idx.
Proof.
  revert idx; induction n; intros [|a idx] H; try (inversion H; fail); auto.
  cbn [repeat] in H. apply valid_cons in H as [H1 H2]. cbn [digits rank_low].
  replace (a + b * rank_low b idx) with (a + rank_low b idx * b) by lia.
  rewrite Nat.mod_add, Nat.div_add by lia.
  rewrite Nat.mod_small, Nat.div_small by auto. simpl. f_equal. auto.
Qed.

Lemma rank_low_lt b n idx : valid (repeat b n) idx -> rank_low b idx < b ^ n.
Proof.
  revert idx; induction n; intros [|a idx] H; try (inversion H; fail); auto.
  cbn [repeat] in H. apply valid_cons in H as [H1 H2]. cbn [rank_low Nat.pow].
  specialize (IHn _ H2). nia.
Qed.

Lemma rank_digits b n i : i < b ^ n -> rank_low b (digits b n i) = i.
Proof.
  revert i; induction n; intros i Hi; cbn [digits rank_low Nat.pow] in *; [lia|].
  assert (b <> 0) by nia. rewrite IHn by (apply Nat.div_lt_upper_bound; auto).
  pose proof (Nat.div_mod i b). lia.
Qed.

(** ** Pointwise list operations *)
Fixpoint map2 {A B C} (f : A -> B -> C) (l : list A) (m : list B) : list C :=
  match l, m with a :: l, b :: m => f a b :: map2 f l m | _, _ => [] end.

Lemma map2_length {A B C} (f : A -> B -> C) l m :
  length l = length m -> length (map2 f l m) = length l.
Proof. revert m; induction l; intros [|b m] H; simpl in *; auto; lia. Qed.

Lemma map2_nth {A B C} (f : A -> B -> C) l m i da db dc :
  i < length l -> i < length m -> nth i (map2 f l m) dc = f (nth i l da) (nth i m db).
Proof.
  revert m i; induction l; intros [|b m] i H1 H2; simpl in *; try lia.
  destruct i; auto. apply IHl; lia.
Qed.

Lemma map2_ext {A B C} (f g : A -> B -> C) l m da db :
  (forall i, i < length l -> i < length m -> f (nth i l da) (nth i m db) = g (nth i l da) (nth i m db)) ->
  map2 f l m = map2 g l m.
Proof.
  revert m; induction l as [|a l IH]; intros [|b m] H; simpl in *; auto. f_equal.
  - apply (H 0); lia.
  - apply IH. intros i H1 H2. apply (H (S i)); lia.
Qed.

(** ** Sums *)
Open Scope R_scope.

Lemma sum_mult n m f :
  sum (n * m) f = sum n (fun i => sum m (fun j => f (i * m + j)%nat)).
Proof.
  induction n; cbn [sum Nat.mul]; auto.
  rewrite Nat.add_comm, sum_app, IHn. reflexivity.
Qed.

Definition prodR (l : list R) : R := fold_right Rmult 1 l.

Lemma prodR_fold_left l a : fold_left Rmult l a = a * prodR l.
Proof. revert a; induction l; intros b; simpl; [ring|]. rewrite IHl. ring. Qed.

Lemma tensor_ext_gen bs bs' c c' :
  map fst bs = map fst bs' ->
  (forall d i, (d < length bs)%nat -> (i < nth d (map fst bs) 0)%nat ->
      snd (nth d bs (0%nat, fun _ => 0)) i = snd (nth d bs' (0%nat, fun _ => 0)) i) ->
  (forall idx, valid (map fst bs) idx -> c idx = c' idx) ->
  tensor bs c = tensor bs' c'.
Proof.
  revert bs' c c'; induction bs as [|[m b] bs IH]; intros [|[m' b'] bs'] c c' E Hb Hc; simpl in *; try discriminate.
  - apply Hc. constructor.
  - injection E as -> E. etransitivity; [apply Rsum_sum|]. etransitivity; [|symmetry; apply Rsum_sum].
    apply sum_ext. intros i Hi. f_equal.
    + apply (Hb 0%nat); lia || auto.
    + apply IH; auto.
      * intros d j Hd Hj. apply (Hb (S d)); auto. lia.
      * intros idx Hv. apply Hc. apply valid_cons. auto.
Qed.

Lemma tensor_ext bs c c' :
  (forall idx, valid (map fst bs) idx -> c idx = c' idx) -> tensor bs c = tensor bs c'.
Proof. intros. apply tensor_ext_gen; auto. Qed.

Lemma tensor_scal bs a c : tensor bs (fun idx => a * c idx) = a * tensor bs c.
Proof.
  revert c; induction bs as [|[m b] bs IH]; intros c; cbn [tensor]; auto.
  rewrite !Rsum_sum. rewrite <- sum_scal. apply sum_ext. intros. rewrite IH. ring.
Qed.

Lemma tensor_plus bs c c' : tensor bs (fun idx => c idx + c' idx) = tensor bs c + tensor bs c'.
Proof.
  revert c c'; induction bs as [|[m b] bs IH]; intros c c'; cbn [tensor]; auto.
  rewrite !Rsum_sum. rewrite <- sum_plus. apply sum_ext. intros. rewrite IH. ring.
Qed.

Definition vals_at (bs : list (nat * (nat -> R))) (idx : list nat) : list R :=
  map2 (fun b a => snd b a) bs idx.

Lemma tensor_flat bs c :
  tensor bs c = sum (prod (map fst bs)) (fun i =>
    prodR (vals_at bs (unrank (map fst bs) i)) * c (unrank (map fst bs) i)).
Proof.
  revert c; induction bs as [|[m b] bs IH]; intros c; cbn [tensor map fst prod unrank vals_at map2].
  - simpl. ring.
  - rewrite Rsum_sum, sum_mult. apply sum_ext. intros i Hi.
    rewrite IH, <- sum_scal. apply sum_ext. intros j Hj.
    assert (E1 : ((i * prod (map fst bs) + j) / prod (map fst bs) = i)%nat).
    { rewrite Nat.div_add_l by lia. rewrite Nat.div_small by auto. lia. }
    assert (E2 : ((i * prod (map fst bs) + j) mod prod (map fst bs) = j)%nat).
    { rewrite Nat.add_comm, Nat.mod_add by lia. apply Nat.mod_small; auto. }
    rewrite E1, E2. unfold prodR. cbn [fold_right]. fold prodR. unfold vals_at. cbn [snd]. ring.
Qed.

Lemma NoDup_map_in {A B} (g : A -> B) l :
  (forall x y, In x l -> In y l -> g x = g y -> x = y) -> NoDup l -> NoDup (map g l).
Proof.
  induction l; intros H Hn; simpl; [constructor|]. inversion Hn; subst. constructor.
  - intros Hin. apply in_map_iff in Hin as (y & E & Hy). apply H in E; simpl; auto. subst. contradiction.
  - apply IHl; auto. intros; apply H; simpl; auto.
Qed.

Lemma fold_perm (f : nat -> R) l l' :
  Permutation l l' -> fold_right Rplus 0 (map f l) = fold_right Rplus 0 (map f l').
Proof. induction 1; simpl; auto; lra. Qed.

(** A sum over any bijective enumeration of the multi-indices. *)
Lemma sum_perm_inj n f (g : nat -> nat) :
  (forall i, (i < n)%nat -> (g i < n)%nat) ->
  (forall i j, (i < n)%nat -> (j < n)%nat -> g i = g j -> i = j) ->
  sum n (fun i => f (g i)) = sum n f.
Proof.
  intros Hg Hi.
  assert (E : forall l, sum (length l) (fun i => f (nth i l 0%nat)) = fold_right Rplus 0 (map f l)).
  { induction l; simpl length; auto. rewrite sum_S_l. simpl. rewrite <- IHl. reflexivity. }
  transitivity (fold_right Rplus 0 (map f (map g (seq 0 n)))).
  - rewrite <- E. rewrite map_length, seq_length. apply sum_ext. intros i Hn.
    rewrite (nth_indep _ 0%nat (g 0%nat)) by (rewrite map_length, seq_length; auto).
    rewrite map_nth, seq_nth by auto. reflexivity.
  - transitivity (fold_right Rplus 0 (map f (seq 0 n))).
    + assert (P : Permutation.Permutation (map g (seq 0 n)) (seq 0 n)).
      { apply Permutation.NoDup_Permutation_bis.
        - apply NoDup_map_in; [|apply seq_NoDup].
          intros x y Hx Hy. apply in_seq in Hx, Hy. apply Hi; lia.
        - rewrite map_length; auto.
        - intros x Hx. apply in_map_iff in Hx as (y & <- & Hy). apply in_seq in Hy.
          apply in_seq. specialize (Hg y). lia. }
      apply fold_perm; auto.
    + rewrite <- E. rewrite seq_length. apply sum_ext. intros i Hn. rewrite seq_nth; auto.
Qed.

Lemma sum_digits b n (f : list nat -> R) :
  sum (b ^ n) (fun i => f (digits b n i)) = sum (b ^ n) (fun i => f (unrank (repeat b n) i)).
Proof.
  transitivity (sum (b ^ n) (fun i => (fun k => f (unrank (repeat b n) k)) (row_major (repeat b n) (digits b n i)))).
  - apply sum_ext. intros i Hi. rewrite rank_unrank; auto. apply digits_valid; auto.
  - apply (sum_perm_inj (b ^ n) (fun k => f (unrank (repeat b n) k)) (fun i => row_major (repeat b n) (digits b n i))).
    + intros i Hi. rewrite <- prod_repeat. apply row_major_lt. apply digits_valid; auto.
    + intros i j Hi Hj E. apply row_major_inj in E; try apply digits_valid; auto.
      rewrite <- (rank_digits b n i), <- (rank_digits b n j), E by auto. reflexivity.
Qed.

(** Restriction of each dimension to a window outside which the functions
    vanish. *)
Lemma tensor_window (Ds : list (nat * (nat -> R) * nat)) w c :
  (forall m b k, In (m, b, k) Ds -> (k + w <= m)%nat /\
      forall i, (i < m)%nat -> ~ (k <= i < k + w)%nat -> b i = 0) ->
  tensor (map fst Ds) c =
  tensor (map (fun D => (w, fun a => snd (fst D) (snd D + a)%nat)) Ds)
         (fun idx => c (map2 (fun D a => (snd D + a)%nat) Ds idx)).
Proof.
  revert c; induction Ds as [|[[m b] k] Ds IH]; intros c H; cbn [map tensor map2 fst snd]; auto.
  rewrite !Rsum_sum. destruct (H m b k) as [H1 H2]; [simpl; auto|].
  rewrite (sum_range m k w) by (auto; intros i Hi Hn; rewrite H2 by auto; ring).
  apply sum_ext. intros a Ha. f_equal. rewrite IH; [reflexivity|].
  intros; apply H; simpl; auto.
Qed.

(** Accumulating loop. *)
Lemma for_sum n (F : R -> nat -> res R) (g : nat -> R) a :
  (forall v i, (i < n)%nat -> F v i = Ok (v + g i)) -> for_ 0 n a F = Ok (a + sum n g).
Proof.
  intros H. destruct (for_inv (fun i v => v = a + sum i g) 0 n a F) as (v & E & Hv).
  - lia.
  - simpl. lra.
  - intros i v Hi ->. rewrite H by lia. eexists; split; eauto.
    replace (i + 1)%nat with (S i) by lia. simpl. lra.
  - rewrite E, Hv. reflexivity.
Qed.
