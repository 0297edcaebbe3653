(** Approximation of functions by interpolation of their values. *)
From Coq Require Import List Arith Bool ZArith Reals.
From Coquelicot Require Import Coquelicot.
From Verif Require Import MeshM SpecMesh InterpM SpecInterp SpecCurve SpecSmooth.
Import ListNotations.
Local Open Scope R_scope.

(** The data are the values of [F] at the grid points. *)
Definition sampled (nd : bool) (per : list bool) (dims : list nat) (ranges : list (xrange R)) (F : list R -> R) (f : MeshM.mesh R) : Prop :=
  forall idx, valid dims idx -> val_at f idx = F (grid_point nd per dims ranges idx).

(** The period of dimension [d]. *)
Definition period (nd : bool) (per : list bool) (dims : list nat) (ranges : list (xrange R)) (d : nat) : R :=
  coordinate nd per dims ranges d (distinct nd true (nth d dims 0%nat)) - coordinate nd per dims ranges d 0.

(** [ys] is [xs] up to whole periods. *)
Definition same_point (nd : bool) (per : list bool) (dims : list nat) (ranges : list (xrange R)) (xs ys : list R) : Prop :=
  forall d, (d < length per)%nat ->
    if nth d per false then exists z : Z, nth d ys 0 = nth d xs 0 + IZR z * period nd per dims ranges d
    else nth d ys 0 = nth d xs 0.

(** [F] has the periods of the grid. *)
Definition periodic_function (nd : bool) (per : list bool) (dims : list nat) (ranges : list (xrange R)) (F : list R -> R) : Prop :=
  forall xs ys, length xs = length per -> length ys = length per -> same_point nd per dims ranges xs ys -> F ys = F xs.

(** Neighbouring grid points are at most [h] apart. *)
Definition mesh_width (nd : bool) (per : list bool) (dims : list nat) (ranges : list (xrange R)) (h : R) : Prop :=
  forall d i, (d < length per)%nat -> (i + 1 < coords_num nd (nth d per false) (nth d dims 0%nat))%nat ->
    coordinate nd per dims ranges d (i + 1) - coordinate nd per dims ranges d i <= h.

(** Values of [F] at points of the grid's range whose coordinates differ by at
    most [r] differ by at most [w]. *)
Definition varies (nd : bool) (per : list bool) (dims : list nat) (ranges : list (xrange R)) (F : list R -> R) (r w : R) : Prop :=
  forall xs ys, length xs = length per -> length ys = length per ->
    in_grid nd per dims ranges xs -> in_grid nd per dims ranges ys ->
    (forall d, (d < length per)%nat -> Rabs (nth d xs 0 - nth d ys 0) <= r) -> Rabs (F xs - F ys) <= w.

(** Uniformly continuous functions of [n] variables. *)
Definition uniformly_continuous (n : nat) (F : list R -> R) : Prop :=
  forall eps, 0 < eps -> exists delta, 0 < delta /\
    forall xs ys, length xs = n -> length ys = n ->
      (forall d, (d < n)%nat -> Rabs (nth d xs 0 - nth d ys 0) <= delta) -> Rabs (F xs - F ys) <= eps.

(** Within the grid the second derivative of [F] in variable [d] is at most
    [M d] in absolute value. *)
Definition curvature (nd : bool) (per : list bool) (dims : list nat) (ranges : list (xrange R)) (F : list R -> R) (M : nat -> R) : Prop :=
  forall d xs, (d < length per)%nat -> length xs = length per -> in_grid nd per dims ranges xs ->
  exists F1 F2 : R -> R, forall t,
    (nth d per false = true \/ coordinate nd per dims ranges d 0 <= t <= coordinate nd per dims ranges d (nth d dims 0%nat - 1)) ->
    is_derive (fun t => F (with_at xs d t)) t (F1 t) /\ is_derive F1 t (F2 t) /\ Rabs (F2 t) <= M d.
