(** How much interpolation can amplify errors of the data. *)
From Coq Require Import List Arith Reals.
From Verif Require Import SpecInterp InterpM.
Import ListNotations.
Local Open Scope R_scope.

(** The factor per dimension for equally spaced periodic points, by order. *)
Definition amplification (p : nat) : R :=
  match p with
  | 0%nat | 1%nat => 1
  | 2%nat => 2
  | 3%nat => 3
  | 4%nat => 96 / 19
  | 5%nat => 10
  | _ => 5760 / 127
  end.

(** All dimensions are periodic with equally spaced points. *)
Definition uniform_periodic (per : list bool) (ranges : list (xrange R)) : Prop :=
  forall d, (d < length per)%nat -> nth d per false = true /\ exists a b, nth d ranges (Points []) = Uniform a b.
