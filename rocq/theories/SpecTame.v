(** Grids that are nearly uniform or have no period. *)
From Coq Require Import List Arith Bool ZArith Reals.
From Verif Require Import MeshM InterpM SpecInterp SpecCurve.
Import ListNotations.
Local Open Scope R_scope.

(** Periodic dimensions: no distance of neighbouring points is more than
    twice another. Other dimensions: at least 2 * order + 1 equally spaced points. *)
Definition tame (nd : bool) (p : nat) (per : list bool) (dims : list nat) (ranges : list (xrange R)) : Prop :=
  forall d, (d < length per)%nat ->
    if nth d per false then
      forall i j, (i < distinct nd true (nth d dims 0%nat))%nat -> (j < distinct nd true (nth d dims 0%nat))%nat ->
        coordinate nd per dims ranges d (i + 1) - coordinate nd per dims ranges d i
          <= 2 * (coordinate nd per dims ranges d (j + 1) - coordinate nd per dims ranges d j)
    else (2 * p + 1 <= nth d dims 0)%nat /\ exists a b, nth d ranges (Points []) = Uniform a b.

(** The factor per dimension for the orders 2 and 3. *)
Definition tame_factor (p : nat) : R := match p with 2%nat => 45 / 16 | _ => 6 end.
