(** Derivatives of functions of several variables, taken one after another. *)
From Coq Require Import List Arith Reals.
From Coquelicot Require Import Coquelicot.
From Verif Require Import SpecSmooth.
Import ListNotations.
Local Open Scope R_scope.

(** [G] is what becomes of the function [F] of [n] variables when it is
    differentiated in the variables of the list, one after another, from the
    first to the last; all these derivatives exist everywhere. *)
Fixpoint differentiates (n : nat) (vars : list nat) (F G : list R -> R) : Prop :=
  match vars with
  | [] => forall xs, length xs = n -> F xs = G xs
  | d :: vars => exists F1,
      (forall xs : list R, length xs = n -> is_derive (fun t : R => F (with_at xs d t)) (nth d xs 0) (F1 xs)) /\
      differentiates n vars F1 G
  end.

(** How often each of [n] variables is in the list. *)
Definition order_of (vars : list nat) (d : nat) : nat := count_occ Nat.eq_dec vars d.
Definition orders_of (n : nat) (vars : list nat) : list nat := map (order_of vars) (seq 0 n).
