(** Programs over shared memory.

    Code that works in place through iterators (the triangular solves of
    BandLU.hpp and the line-by-line solving of InterpolationTemplate.hpp) is
    written as a program that reads and writes memory cells.  The same
    program text has a sequential meaning ([run]) and, in [ThreadsM.v], an
    interleaved one.

    A cell is named by an array number and an offset into that array.  This
    is modelling vocabulary for C++ lvalue reads and writes. *)
From Coq Require Import List Arith Lia Bool.
From Verif Require Import Base.
Import ListNotations.

Definition loc : Type := (nat * nat)%type.

Inductive prog (T A : Type) : Type :=
| Ret (a : A)
| Rd (l : loc) (k : T -> prog T A)
| Wr (l : loc) (v : T) (k : prog T A)
| PThrow (e : exn)
| PFault (f : fault).
Arguments Ret {T A} a.
Arguments Rd {T A} l k.
Arguments Wr {T A} l v k.
Arguments PThrow {T A} e.
Arguments PFault {T A} f.

Fixpoint pbind {T A B} (p : prog T A) (f : A -> prog T B) : prog T B :=
  match p with
  | Ret a => f a
  | Rd l k => Rd l (fun v => pbind (k v) f)
  | Wr l v k => Wr l v (pbind k f)
  | PThrow e => PThrow e
  | PFault u => PFault u
  end.

(** A pure computation as a program. *)
Definition plift {T A} (r : res A) : prog T A :=
  match r with Ok a => Ret a | Throw e => PThrow e | Fault u => PFault u end.

Definition pread {T} (l : loc) : prog T T := Rd l (fun v => Ret v).
Definition pwrite {T} (l : loc) (v : T) : prog T unit := Wr l v (Ret tt).

Fixpoint piter {T I} (f : I -> prog T unit) (l : list I) : prog T unit :=
  match l with
  | [] => Ret tt
  | i :: l => pbind (f i) (fun _ => piter f l)
  end.

(** [for (i = lo; i < hi; ++i) f(i);] *)
Definition pfor {T} (lo hi : nat) (f : nat -> prog T unit) : prog T unit :=
  piter f (seq lo (hi - lo)).
(** [for (j = n - 1; j < n; --j) f(j);] *)
Definition pfor_down {T} (n : nat) (f : nat -> prog T unit) : prog T unit :=
  piter f (rev (seq 0 n)).

(** Memory: a list of arrays. *)
Definition mem (T : Type) : Type := list (list T).

Definition mem_get {T} (m : mem T) (l : loc) : res T :=
  match nth_error m (fst l) with
  | Some a => vget a (snd l)
  | None => Fault OutOfBounds
  end.
Definition mem_set {T} (m : mem T) (l : loc) (v : T) : res (mem T) :=
  match nth_error m (fst l) with
  | Some a => a' <- vset a (snd l) v ;; Ok (upd m (fst l) a')
  | None => Fault OutOfBounds
  end.

(** Sequential execution. *)
Fixpoint run {T A} (p : prog T A) (m : mem T) : res (A * mem T) :=
  match p with
  | Ret a => Ok (a, m)
  | Rd l k => v <- mem_get m l ;; run (k v) m
  | Wr l v k => m' <- mem_set m l v ;; run k m'
  | PThrow e => Throw e
  | PFault u => Fault u
  end.

(** ** Facts *)
Lemma run_bind {T A B} (p : prog T A) (f : A -> prog T B) m :
  run (pbind p f) m = bind (run p m) (fun am => run (f (fst am)) (snd am)).
Proof.
  revert m; induction p; intros m; simpl; auto.
  - destruct (mem_get m l); simpl; auto.
  - destruct (mem_set m l v); simpl; auto.
Qed.

Lemma run_lift {T A} (r : res A) (m : mem T) :
  run (plift r) m = bind r (fun a => Ok (a, m)).
Proof. destruct r; reflexivity. Qed.

Lemma run_piter {T I} (f : I -> prog T unit) l m :
  run (piter f l) m =
  bind (foldM (fun m i => r <- run (f i) m ;; Ok (snd r)) l m) (fun m => Ok (tt, m)).
Proof.
  revert m; induction l; intros m; simpl; auto.
  rewrite run_bind. destruct (run (f a) m) as [[? ?]| |]; simpl; auto.
Qed.

Lemma run_pfor {T} lo hi (f : nat -> prog T unit) m :
  run (pfor lo hi f) m =
  bind (for_ lo hi m (fun m i => r <- run (f i) m ;; Ok (snd r))) (fun m => Ok (tt, m)).
Proof. apply run_piter. Qed.

Lemma run_pfor_down {T} n (f : nat -> prog T unit) m :
  run (pfor_down n f) m =
  bind (for_down n m (fun m i => r <- run (f i) m ;; Ok (snd r))) (fun m => Ok (tt, m)).
Proof. apply run_piter. Qed.

(** Validity of a cell and its content. *)
Definition mem_ok {T} (m : mem T) (l : loc) : Prop := snd l < length (nth (fst l) m []).
Definition mval {T} (d : T) (m : mem T) (l : loc) : T := nth (snd l) (nth (fst l) m []) d.

Lemma mem_ok_fst {T} (m : mem T) l : mem_ok m l -> fst l < length m.
Proof.
  unfold mem_ok. intros H. destruct (Nat.lt_ge_cases (fst l) (length m)); auto.
  rewrite (nth_overflow m) in H by auto. simpl in H. lia.
Qed.

Lemma mem_get_ok {T} (d : T) m l : mem_ok m l -> mem_get m l = Ok (mval d m l).
Proof.
  intros H. pose proof (mem_ok_fst _ _ H). unfold mem_get.
  rewrite (nth_error_nth' m []) by auto. apply vget_ok. auto.
Qed.

Lemma mem_set_ok {T} (d : T) m l v :
  mem_ok m l ->
  exists m', mem_set m l v = Ok m' /\
    (forall l', mem_ok m' l' <-> mem_ok m l') /\
    map (@length T) m' = map (@length T) m /\
    (forall l', mval d m' l' = if (fst l' =? fst l) && (snd l' =? snd l) then v else mval d m l').
Proof.
  intros H. pose proof (mem_ok_fst _ _ H) as Hf. unfold mem_ok in H. unfold mem_set.
  rewrite (nth_error_nth' m []) by auto. rewrite vset_ok by auto. simpl.
  eexists; split; [reflexivity|]. split; [|split].
  - intros l'. unfold mem_ok. rewrite nth_upd.
    destruct (Nat.eqb_spec (fst l') (fst l)) as [E|E]; simpl; [|tauto].
    destruct (Nat.ltb_spec (fst l) (length m)); [|lia]. rewrite upd_length, E. tauto.
  - clear H. revert Hf. generalize (fst l) as a. intros a Ha.
    assert (length (upd (nth a m []) (snd l) v) = length (nth a m [])) as E by apply upd_length.
    revert E. generalize (upd (nth a m []) (snd l) v) as w. intros w E.
    revert a Ha w E. induction m as [|x m IH]; intros a Ha w E; simpl in *; [lia|].
    destruct a; simpl in *; [congruence|]. f_equal. apply IH; auto. lia.
  - intros l'. unfold mval. rewrite nth_upd.
    destruct (Nat.eqb_spec (fst l') (fst l)) as [E|E]; simpl; auto.
    destruct (Nat.ltb_spec (fst l) (length m)); [|lia].
    rewrite nth_upd. rewrite E.
    destruct (Nat.eqb_spec (snd l') (snd l)) as [E'|E']; simpl; auto.
    destruct (Nat.ltb_spec (snd l) (length (nth (fst l) m []))); auto; lia.
Qed.
