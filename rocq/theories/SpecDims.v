(** Dimensions in another order, and data of product form. *)
From Coq Require Import List Arith Bool ZArith Reals.
From Verif Require Import Base Num MeshM SpecMesh SpecInterp InterpM.
Import ListNotations.
Open Scope R_scope.

(** The elements of [l] in the order [sigma]. *)
Definition permuted {A} (a : A) (sigma : list nat) (l : list A) : list A := map (fun d => nth d l a) sigma.

(** [f'] has the values of [f] with the indices in the order [sigma]. *)
Definition permuted_data (dims sigma : list nat) (f f' : mesh R) : Prop :=
  forall idx, valid dims idx -> val_at f' (permuted 0%nat sigma idx) = val_at f idx.

(** [f] is the product of values of [f1] and of [f2] of different variables. *)
Definition product_data (dims1 dims2 : list nat) (f1 f2 f : mesh R) : Prop :=
  forall idx1 idx2, valid dims1 idx1 -> valid dims2 idx2 ->
    val_at f (idx1 ++ idx2) = val_at f1 idx1 * val_at f2 idx2.

(** [f] does not depend on the variables after those of [f1]. *)
Definition independent_data (dims1 dims2 : list nat) (f1 f : mesh R) : Prop :=
  forall idx1 idx2, valid dims1 idx1 -> valid dims2 idx2 -> val_at f (idx1 ++ idx2) = val_at f1 idx1.

(** Multilinear interpolation: per dimension the indices of the two neighbours
    and the weight of the second; [v] are the values at the neighbours. *)
Fixpoint multilinear (cells : list (nat * nat * R)) (v : list nat -> R) : R :=
  match cells with
  | [] => v []
  | (i, j, w) :: cells =>
      (1 - w) * multilinear cells (fun idx => v (i :: idx)) + w * multilinear cells (fun idx => v (j :: idx))
  end.

(** [y'] stands for [y] and lies between the coordinates [i] and [i+1] of
    dimension [d]: equal to [y] up to periods, or, without periods, equal to
    [y], where the first and last cells extend to infinity. *)
Definition in_cell (nd : bool) (per : list bool) (dims : list nat) (ranges : list (xrange R)) (d i : nat) (y y' : R) : Prop :=
  let x := coordinate nd per dims ranges d in
  let n := distinct nd (nth d per false) (nth d dims 0%nat) in
  if nth d per false then
    (i < n)%nat /\ (exists z : Z, y' = y + IZR z * (x n - x 0%nat)) /\ x i <= y' <= x (i + 1)%nat
  else (i + 1 < n)%nat /\ y' = y /\ (i = 0%nat \/ x i <= y) /\ ((i + 2)%nat = n \/ y <= x (i + 1)%nat).

(** The cell of dimension [d]: neighbours and weight. *)
Definition cell (nd : bool) (per : list bool) (dims : list nat) (ranges : list (xrange R)) (d i : nat) (y' : R) : nat * nat * R :=
  let x := coordinate nd per dims ranges d in
  let n := distinct nd (nth d per false) (nth d dims 0%nat) in
  (i, if nth d per false then ((i + 1) mod n)%nat else (i + 1)%nat, (y' - x i) / (x (i + 1)%nat - x i)).
