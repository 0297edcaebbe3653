(** Outcomes, the error monad, checked vectors and loops.

    Everything here is a modelling vocabulary, not a model of one particular
    C++ function; each definition says which C++ construct it stands for. *)
From Coq Require Import List Arith Lia Bool.
Import ListNotations.

(** C++ exceptions thrown by the library: [INTP_ASSERT]
    (util.hpp:251-258), [std::domain_error] (Interpolation.hpp:486),
    [std::bad_alloc] (util.hpp:116, aligned-allocator.hpp:102). *)
Inductive exn : Type := AssertFailed | DomainError | BadAlloc.

(** Behaviour the code does not define or intend.
    - [OutOfBounds]: access outside a vector / array / storage (UB);
    - [IntDivZero]: integer [/] or [%] by zero (UB);
    - [BadCast]: floating value not representable in [size_t] (UB);
    - [Wrapped]: a [size_t] subtraction with a negative mathematical result
      (defined in C++, modulo 2^64, but never intended here; the model stops
      there instead of continuing with the wrapped value: a simplification);
    - [DivByZero]: division by exactly zero in the numeric type (inf/nan in
      IEEE arithmetic; meaningless in exact arithmetic);
    - [Inactive]: use of a union member that has not been constructed (UB). *)
Inductive fault : Type := OutOfBounds | IntDivZero | BadCast | Wrapped | DivByZero | Inactive.

(** Result of running a piece of C++ code. *)
Inductive res (A : Type) : Type :=
| Ok (a : A)
| Throw (e : exn)
| Fault (f : fault).
Arguments Ok {A} a.
Arguments Throw {A} e.
Arguments Fault {A} f.

Definition bind {A B} (r : res A) (f : A -> res B) : res B :=
  match r with Ok a => f a | Throw e => Throw e | Fault u => Fault u end.

Declare Scope res_scope.
Delimit Scope res_scope with res.
Notation "x <- a ;; b" := (bind a (fun x => b))
  (at level 61, a at next level, right associativity) : res_scope.
Notation "' p <- a ;; b" := (bind a (fun x => match x with p => b end))
  (at level 61, p pattern, a at next level, right associativity) : res_scope.
Open Scope res_scope.

(** [INTP_ASSERT(b, msg)] (util.hpp:251-258); [on] tells whether
    [INTP_ENABLE_ASSERTION] is defined. *)
Definition intp_assert (on b : bool) : res unit :=
  if on && negb b then Throw AssertFailed else Ok tt.

(** [size_t] subtraction [a - b]. *)
Definition usub (a b : nat) : res nat :=
  if b <=? a then Ok (a - b) else Fault Wrapped.

(** [v[i]] on a [std::vector], [std::array] or raw buffer. *)
Definition vget {A} (v : list A) (i : nat) : res A :=
  match nth_error v i with Some a => Ok a | None => Fault OutOfBounds end.

(** The list [v] with element [i] replaced (unchanged when out of range). *)
Fixpoint upd {A} (v : list A) (i : nat) (a : A) : list A :=
  match v, i with
  | [], _ => []
  | _ :: l, 0 => a :: l
  | x :: l, S i => x :: upd l i a
  end.

(** [v[i] = a]. *)
Definition vset {A} (v : list A) (i : nat) (a : A) : res (list A) :=
  if i <? length v then Ok (upd v i a) else Fault OutOfBounds.

(** A loop with body [f] over the index values [l], carrying a state. *)
Fixpoint foldM {S I} (f : S -> I -> res S) (l : list I) (s : S) : res S :=
  match l with
  | [] => Ok s
  | i :: l => s' <- f s i ;; foldM f l s'
  end.

(** [for (size_t i = lo; i < hi; ++i)]. *)
Definition for_ {S} (lo hi : nat) (s : S) (f : S -> nat -> res S) : res S :=
  foldM f (seq lo (hi - lo)) s.

(** [for (size_t j = n - 1; j < n; --j)] (the wrap below zero ends the loop). *)
Definition for_down {S} (n : nat) (s : S) (f : S -> nat -> res S) : res S :=
  foldM f (rev (seq 0 n)) s.

(** Building an array element by element (pack expansions such as
    [{ f(indices)... }]). *)
Fixpoint mapM {A B} (f : A -> res B) (l : list A) : res (list B) :=
  match l with
  | [] => Ok []
  | a :: l => b <- f a ;; bs <- mapM f l ;; Ok (b :: bs)
  end.

(** ** Facts *)

Lemma bind_Ok {A B} (r : res A) (f : A -> res B) b :
  bind r f = Ok b -> exists a, r = Ok a /\ f a = Ok b.
Proof. destruct r; simpl; try discriminate. eauto. Qed.

Lemma usub_ok a b : b <= a -> usub a b = Ok (a - b).
Proof. unfold usub. intros. destruct (Nat.leb_spec b a); auto; lia. Qed.

Lemma usub_inv a b c : usub a b = Ok c -> b <= a /\ c = a - b.
Proof. unfold usub. destruct (Nat.leb_spec b a); intros E; inversion E; auto. Qed.

Lemma vget_ok {A} (v : list A) i d : i < length v -> vget v i = Ok (nth i v d).
Proof. intros. unfold vget. rewrite (nth_error_nth' v d) by auto. auto. Qed.

Lemma vget_inv {A} (v : list A) i a : vget v i = Ok a -> i < length v /\ forall d, nth i v d = a.
Proof.
  unfold vget. destruct (nth_error v i) eqn:E; intros F; inversion F; subst.
  split. apply nth_error_Some; congruence. intros. apply nth_error_nth; auto.
Qed.

Lemma vget_oob {A} (v : list A) i : length v <= i -> vget v i = Fault OutOfBounds.
Proof. intros. unfold vget. rewrite (proj2 (nth_error_None v i)); auto. Qed.

Lemma upd_length {A} (v : list A) i a : length (upd v i a) = length v.
Proof. revert i; induction v; destruct i; simpl; auto. Qed.

Lemma nth_upd {A} (v : list A) i j a d :
  nth j (upd v i a) d = if (j =? i) && (i <? length v) then a else nth j v d.
Proof.
  revert i j; induction v as [|x v IH]; intros i j.
  - simpl. rewrite andb_comm. simpl. destruct j; auto.
  - destruct i, j; simpl; auto. rewrite IH. auto.
Qed.

Lemma nth_upd_same {A} (v : list A) i a d : i < length v -> nth i (upd v i a) d = a.
Proof.
  intros. rewrite nth_upd, Nat.eqb_refl. simpl.
  destruct (Nat.ltb_spec i (length v)); auto; lia.
Qed.

Lemma nth_upd_other {A} (v : list A) i j a d : j <> i -> nth j (upd v i a) d = nth j v d.
Proof. intros. rewrite nth_upd. destruct (Nat.eqb_spec j i); auto; lia. Qed.

Lemma vset_ok {A} (v : list A) i a : i < length v -> vset v i a = Ok (upd v i a).
Proof. intros. unfold vset. destruct (Nat.ltb_spec i (length v)); auto; lia. Qed.

Lemma vset_inv {A} (v w : list A) i a : vset v i a = Ok w -> i < length v /\ w = upd v i a.
Proof. unfold vset. destruct (Nat.ltb_spec i (length v)); intros E; inversion E; auto. Qed.

Lemma foldM_app {S I} (f : S -> I -> res S) l1 l2 s :
  foldM f (l1 ++ l2) s = bind (foldM f l1 s) (foldM f l2).
Proof.
  revert s; induction l1; intros s; simpl; auto.
  destruct (f s a); simpl; auto.
Qed.

Lemma foldM_ext {S I} (f g : S -> I -> res S) l s :
  (forall s i, In i l -> f s i = g s i) -> foldM f l s = foldM g l s.
Proof.
  revert s; induction l; intros s H; simpl; auto.
  rewrite H by (simpl; auto). destruct (g s a); simpl; auto.
  apply IHl. intros; apply H; simpl; auto.
Qed.

Lemma seq_S_app lo n : seq lo (S n) = seq lo n ++ [lo + n].
Proof. apply seq_S. Qed.

(** Loop rule: an invariant preserved by each iteration. *)
Lemma for_inv {S} (I : nat -> S -> Prop) lo hi s f :
  lo <= hi -> I lo s ->
  (forall i s, lo <= i < hi -> I i s -> exists s', f s i = Ok s' /\ I (i + 1) s') ->
  exists s', for_ lo hi s f = Ok s' /\ I hi s'.
Proof.
  intros Hle H0 Hstep. unfold for_.
  remember (hi - lo) as n eqn:En.
  revert lo s Hle H0 Hstep En.
  induction n; intros lo s Hle H0 Hstep En; simpl.
  - exists s. split; auto. replace hi with lo by lia. auto.
  - destruct (Hstep lo s) as (s1 & E1 & H1); [lia | auto |].
    rewrite E1; simpl. apply IHn; try lia.
    + replace (Datatypes.S lo) with (lo + 1) by lia; auto.
    + intros; apply Hstep; auto; lia.
Qed.

Lemma for_empty {S} lo hi (s : S) f : hi <= lo -> for_ lo hi s f = Ok s.
Proof. intros. unfold for_. replace (hi - lo) with 0 by lia. auto. Qed.

(** Same, for possibly empty loops: the invariant holds at [max lo hi]. *)
Lemma for_inv' {S} (I : nat -> S -> Prop) lo hi s f :
  I lo s ->
  (forall i s, lo <= i < hi -> I i s -> exists s', f s i = Ok s' /\ I (i + 1) s') ->
  exists s', for_ lo hi s f = Ok s' /\ I (Nat.max lo hi) s'.
Proof.
  intros H0 Hstep. destruct (Nat.le_gt_cases lo hi).
  - rewrite Nat.max_r by auto. apply for_inv; auto.
  - rewrite for_empty by lia. rewrite Nat.max_l by lia. eauto.
Qed.

Lemma for_down_inv {S} (I : nat -> S -> Prop) n s f :
  I n s ->
  (forall i s, i < n -> I (i + 1) s -> exists s', f s i = Ok s' /\ I i s') ->
  exists s', for_down n s f = Ok s' /\ I 0 s'.
Proof.
  unfold for_down. revert s; induction n; intros s H0 Hstep.
  - simpl. eauto.
  - rewrite seq_S_app, rev_app_distr. simpl.
    destruct (Hstep n s) as (s1 & E1 & H1); [lia | replace (n+1) with (Datatypes.S n) by lia; auto |].
    rewrite E1; simpl. apply IHn; auto.
Qed.

Lemma for_ext {S} lo hi (s : S) f g :
  (forall s i, lo <= i < hi -> f s i = g s i) -> for_ lo hi s f = for_ lo hi s g.
Proof. intros. unfold for_. apply foldM_ext. intros. apply H. rewrite in_seq in H0. lia. Qed.

Lemma mapM_length {A B} (f : A -> res B) l l' : mapM f l = Ok l' -> length l' = length l.
Proof.
  revert l'; induction l; simpl; intros l' E.
  - inversion E; auto.
  - apply bind_Ok in E as (b & _ & E). apply bind_Ok in E as (bs & E1 & E).
    inversion E; subst; simpl. f_equal; auto.
Qed.

Lemma mapM_ok {A B} (f : A -> res B) (g : A -> B) l :
  (forall a, In a l -> f a = Ok (g a)) -> mapM f l = Ok (map g l).
Proof.
  induction l; simpl; intros; auto.
  rewrite H by auto. simpl. rewrite IHl by auto. auto.
Qed.

Lemma mapM_nth {A B} (f : A -> res B) l l' i da db :
  mapM f l = Ok l' -> i < length l -> f (nth i l da) = Ok (nth i l' db).
Proof.
  revert l' i; induction l; simpl; intros l' i E Hi; [lia|].
  apply bind_Ok in E as (b & Eb & E). apply bind_Ok in E as (bs & E1 & E).
  inversion E; subst. destruct i; simpl; auto. apply IHl; auto; lia.
Qed.

Lemma mapM_ok_nth {A B} (f : A -> res B) (l : list A) (l' : list B) da db :
  length l' = length l ->
  (forall i, i < length l -> f (nth i l da) = Ok (nth i l' db)) ->
  mapM f l = Ok l'.
Proof.
  revert l'; induction l; intros l' Hl H; destruct l'; simpl in *; try discriminate; auto.
  rewrite (H 0) by lia. simpl. rewrite (IHl l'); auto.
  intros i Hi. apply (H (S i)). lia.
Qed.

Lemma nth_ext' {A} (l l' : list A) d :
  length l = length l' -> (forall i, i < length l -> nth i l d = nth i l' d) -> l = l'.
Proof. intros. apply nth_ext with d d; auto. Qed.

Lemma nth_repeat_lt {A} (a d : A) n i : i < n -> nth i (repeat a n) d = a.
Proof. revert i; induction n; intros i Hi; [lia|]. destruct i; simpl; auto. apply IHn; lia. Qed.
