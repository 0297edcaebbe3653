(** Vocabulary for smoothness: functions of several variables and the family
    of their partial derivatives, independent of the model. *)
From Coq Require Import List Arith Reals.
From Coquelicot Require Import Coquelicot.
From Verif Require Import SpecCalc.
Import ListNotations.
Local Open Scope R_scope.

(** The list with another element at position [d]. *)
Definition with_at {A} (l : list A) (d : nat) (a : A) : list A := firstn d l ++ a :: skipn (S d) l.

(** The members of [F] are the partial derivatives of a function of [D]
    variables, [F orders] being differentiated [nth d orders 0] times in
    variable [d]; all orders up to [m] in each variable exist and are
    continuous everywhere. *)
Definition smooth_family (D m : nat) (F : list nat -> list R -> R) : Prop :=
  forall orders xs, length orders = D -> length xs = D -> (forall d, (d < D)%nat -> (nth d orders 0 <= m)%nat) ->
    continuous_at (F orders) xs /\
    is_mixed orders (F (repeat 0%nat D)) xs (F orders xs) /\
    forall d, (d < D)%nat -> (nth d orders 0 < m)%nat ->
      is_derive (fun x => F orders (with_at xs d x)) (nth d xs 0) (F (with_at orders d (S (nth d orders 0%nat))) xs).
