(** Order of approximation of interpolations. *)
From Coq Require Import List Arith Reals.
From Coquelicot Require Import Coquelicot.
From Verif Require Import MeshM SpecMesh InterpM SpecInterp SpecSmooth.
Import ListNotations.
Local Open Scope R_scope.

(** In each of its [n] variables [F] is [k] times differentiable and the [k]-th
    derivative in variable [d] is at most [M d] in absolute value. *)
Definition smooth_along (n k : nat) (F : list R -> R) (M : nat -> R) : Prop :=
  forall d xs, (d < n)%nat -> length xs = n ->
  exists D : nat -> R -> R, (forall t, D 0%nat t = F (with_at xs d t)) /\
    (forall i t, (i < k)%nat -> is_derive (D i) t (D (S i) t)) /\ forall t, Rabs (D k t) <= M d.

(** A constant of the error bounds, by order. *)
Definition spread (p : nat) : R :=
  match p with
  | 0%nat | 1%nat => 1
  | 2%nat => 3 / 2
  | 3%nat => 5 / 3
  | 4%nat => 179 / 72
  | 5%nat => 43 / 15
  | _ => 9233 / 2160
  end.

(** The members of [F] are partial derivatives of the function [F (repeat 0 n)]
    of [n] variables, [F orders] being differentiated [nth d orders 0] times in
    variable [d], with orders up to [m] in each variable. *)
Definition derivative_family (n m : nat) (F : list nat -> list R -> R) : Prop :=
  forall orders xs, length orders = n -> length xs = n -> (forall d, (d < n)%nat -> (nth d orders 0 <= m)%nat) ->
    forall d, (d < n)%nat -> (nth d orders 0 < m)%nat ->
      is_derive (fun x : R => F orders (with_at xs d x)) (nth d xs 0) (F (with_at orders d (S (nth d orders 0%nat))) xs).

(** Neighbouring grid points are at least [h] apart. *)
Definition mesh_gap (nd : bool) (per : list bool) (dims : list nat) (ranges : list (xrange R)) (h : R) : Prop :=
  forall d i, (d < length per)%nat -> (i + 1 < coords_num nd (nth d per false) (nth d dims 0%nat))%nat ->
    h <= coordinate nd per dims ranges d (i + 1) - coordinate nd per dims ranges d i.
