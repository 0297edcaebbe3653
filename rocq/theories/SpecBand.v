(** Specification of matrices with a prescribed structure, independent of the
    storage used by the model. *)
From Coq Require Import List Arith Reals.
Import ListNotations.

(** Positions of an n x n matrix with [p] lower and [q] upper bands. *)
Definition in_band (n p q i j : nat) : Prop :=
  i < n /\ j < n /\ i <= j + p /\ j <= i + q.

(** Positions of the extended structure: the band, the last [p] columns and
    the last [q] rows. *)
Definition in_ext (n p q i j : nat) : Prop :=
  i < n /\ j < n /\ (in_band n p q i j \/ n <= j + p \/ n <= i + q).

(** Content of a cell after a history of writes (latest first), all cells
    being initially [d]. *)
Fixpoint content {T} (d : T) (h : list (nat * nat * T)) (i j : nat) : T :=
  match h with
  | [] => d
  | (a, b, v) :: h => if Nat.eqb a i && Nat.eqb b j then v else content d h i j
  end%bool.

(** Sum of f(0) .. f(n-1). *)
Fixpoint Rsum (n : nat) (f : nat -> R) : R :=
  match n with O => 0%R | S n => (Rsum n f + f n)%R end.

(** [x] solves the n x n system with matrix [A] and right-hand side [b]. *)
Definition solves (n : nat) (A : nat -> nat -> R) (x b : nat -> R) : Prop :=
  forall i, i < n -> Rsum n (fun j => A i j * x j)%R = b i.

(** Strict row diagonal dominance. *)
Definition row_dominant (n : nat) (A : nat -> nat -> R) : Prop :=
  forall i, i < n ->
    (Rsum n (fun j => if Nat.eqb j i then 0 else Rabs (A i j)) < Rabs (A i i))%R.

(** Every leading principal submatrix is nonsingular. *)
Definition leading_nonsingular (n : nat) (A : nat -> nat -> R) : Prop :=
  forall k x, k < n -> solves (S k) A x (fun _ => 0%R) -> forall i, i <= k -> x i = 0%R.

(** Positive definite, not necessarily symmetric. *)
Definition positive_definite (n : nat) (A : nat -> nat -> R) : Prop :=
  forall x, (exists i, i < n /\ x i <> 0%R) ->
    (0 < Rsum n (fun i => x i * Rsum n (fun j => A i j * x j)))%R.
