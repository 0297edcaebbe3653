(** Moved grids. *)
From Coq Require Import List Arith Bool ZArith Reals.
From Verif Require Import Base Num MeshM SpecMesh SpecInterp SpecSplineObj InterpM.
Import ListNotations.
Open Scope R_scope.

(** A move of one coordinate axis: x goes to a x + b, where a < 0 mirrors the
    axis; a periodic dimension may also start its list of points [r] points
    later. *)
Definition move : Type := (R * R * nat)%type.
Definition move_point (m : move) (x : R) : R := fst (fst m) * x + snd (fst m).

(** Coordinate [i] of the moved dimension, from the [n] different points x(0),
    ..., x(n-1) (and x(n), the first point of the next period) of the original. *)
Definition moved_coordinate (per : bool) (n : nat) (x : nat -> R) (m : move) (i : nat) : R :=
  move_point m
    (if per then
       pext n (x n - x 0%nat) x (if Rlt_dec 0 (fst (fst m)) then i + snd m else snd m + n - i)%nat
     else x (if Rlt_dec 0 (fst (fst m)) then i else n - 1 - i)%nat).

(** The original index of the data point with index [i] in the moved dimension. *)
Definition moved_index (per : bool) (n : nat) (m : move) (i : nat) : nat :=
  if per then ((if Rlt_dec 0 (fst (fst m)) then i + snd m else snd m + n - i) mod n)%nat
  else (if Rlt_dec 0 (fst (fst m)) then i else n - 1 - i)%nat.

Definition no_move : move := (1, 0, 0%nat).
Definition move_at (ms : list move) (d : nat) : move := nth d ms no_move.

(** [ranges'] are the coordinates [ranges] moved by [ms]. *)
Definition moved_grid (nd : bool) (per : list bool) (dims : list nat) (ms : list move) (ranges ranges' : list (xrange R)) : Prop :=
  forall d i, (d < length per)%nat -> (i < coords_num nd (nth d per false) (nth d dims 0%nat))%nat ->
    coordinate nd per dims ranges' d i =
    moved_coordinate (nth d per false) (distinct nd (nth d per false) (nth d dims 0%nat)) (coordinate nd per dims ranges d) (move_at ms d) i.

(** [f'] has the values of [f] at the moved points (the repeated last values of
    periodic dimensions are not read). *)
Definition moved_data (nd : bool) (per : list bool) (dims : list nat) (ms : list move) (f f' : mesh R) : Prop :=
  forall idx, length idx = length per ->
    (forall d, (d < length per)%nat -> (nth d idx 0 < distinct nd (nth d per false) (nth d dims 0))%nat) ->
    val_at f' idx =
    val_at f (map (fun d => moved_index (nth d per false) (distinct nd (nth d per false) (nth d dims 0%nat)) (move_at ms d) (nth d idx 0%nat))
                  (seq 0 (length per))).

Definition moved_point (per : list bool) (ms : list move) (xs : list R) : list R :=
  map (fun d => move_point (move_at ms d) (nth d xs 0)) (seq 0 (length per)).
