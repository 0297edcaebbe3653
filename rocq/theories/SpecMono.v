(** Monotone data. *)
From Coq Require Import List Arith Reals.
From Verif Require Import SpecMesh SpecSmooth.
Import ListNotations.
Local Open Scope R_scope.

(** The values do not decrease when index [d] is increased. *)
Definition increasing_along (dims : list nat) (v : list nat -> R) (d : nat) : Prop :=
  forall idx, valid dims idx -> (S (nth d idx 0) < nth d dims 0)%nat -> v idx <= v (with_at idx d (S (nth d idx 0%nat))).

Definition decreasing_along (dims : list nat) (v : list nat -> R) (d : nat) : Prop :=
  forall idx, valid dims idx -> (S (nth d idx 0) < nth d dims 0)%nat -> v (with_at idx d (S (nth d idx 0%nat))) <= v idx.
