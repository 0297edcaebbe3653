(** Specification of calls of the MEX function, independent of the model. *)
From Coq Require Import List Arith Bool ZArith Reals.
From Verif Require Import Num SpecMesh SpecInterp MatlabM.
Import ListNotations.
Open Scope R_scope.

(** Column-major rank: the first index varies fastest. *)
Fixpoint col_major (dims idx : list nat) : nat :=
  match dims, idx with
  | n :: dims, i :: idx => (i + n * col_major dims idx)%nat
  | _, _ => 0%nat
  end.

(** The element of a MATLAB array with multi-index [idx] (counted from 0,
    missing trailing indices 0). *)
Definition elem {A} (def : A) (x : marray A) (idx : list nat) : A :=
  nth (col_major (a_dims x) idx) (a_data x) def.

(** As many elements as the dimensions say. *)
Definition wf_array {A} (x : marray A) : Prop := length (a_data x) = prod (a_dims x).

(** Arguments of the documented shapes for [D] dimensions: the data is a
    D-dimensional array (a column for D = 1), the flags are a column of D
    values, the ranges D x 2 values. *)
Definition shaped_data {T} (D : nat) (per : marray bool) (range mesh : marray T) : Prop :=
  wf_array per /\ wf_array range /\ wf_array mesh /\ a_dims per = [D; 1]%nat /\ a_dims range = [D; 2]%nat /\
  exists ns k, length ns = D /\ Forall (fun n => (2 <= n)%nat) ns /\ a_dims mesh = ns ++ repeat 1%nat k.
(** N points, one in each row, and a column of D orders. *)
Definition shaped_points {T} (D N : nat) (coor : marray T) (deriv : marray nat) : Prop :=
  wf_array coor /\ wf_array deriv /\ a_dims coor = [N; D]%nat /\ a_dims deriv = [D; 1]%nat.

(** Size, flag and order of derivative of dimension [d]. *)
Definition size_of {T} (mesh : marray T) (d : nat) : nat := nth d (a_dims mesh) 0%nat.
Definition flag_of (per : marray bool) (d : nat) : bool := elem false per [d].
Definition order_of (deriv : marray nat) (d : nat) : nat := elem 0%nat deriv [d].

(** Ends and spacing of dimension [d]: n values per period, or n values from
    one end to the other. *)
Definition lo_of (range : marray R) (d : nat) : R := elem 0 range [d; 0%nat].
Definition hi_of (range : marray R) (d : nat) : R := elem 0 range [d; 1%nat].
Definition step_of (per : marray bool) (range mesh : marray R) (d : nat) : R :=
  (hi_of range d - lo_of range d) /
  INR (if flag_of per d then size_of mesh d else size_of mesh d - 1).

(** The point of the grid with multi-index [idx]. *)
Definition node (D : nat) (per : marray bool) (range mesh : marray R) (idx : list nat) : list R :=
  map (fun d => lo_of range d + INR (nth d idx 0%nat) * step_of per range mesh d) (seq 0 D).

(** Row [i] of the points. *)
Definition row_of (D : nat) (coor : marray R) (i : nat) : list R :=
  map (fun d => elem 0 coor [i; d]) (seq 0 D).

(** Enough data for the order, ranges not empty, sizes below 2^64 - 1. *)
Definition good_data (order D : nat) (range mesh : marray R) : Prop :=
  forall d, (d < D)%nat ->
     (order + 1 <= size_of mesh d)%nat /\ (Z.of_nat (size_of mesh d) + 1 < two64)%Z /\ lo_of range d < hi_of range d.
(** Points less than 2^64 - 1 grid steps to the right of the range. *)
Definition good_points (D N : nat) (per : marray bool) (range mesh coor : marray R) : Prop :=
  forall i d, (i < N)%nat -> (d < D)%nat ->
     elem 0 coor [i; d] < lo_of range d + IZR (two64 - 1) * step_of per range mesh d.

(** Coordinate [x] of dimension [d] is not a whole number of half steps from
    the lower end (where the knots are). *)
Definition off_half_steps (per : marray bool) (range mesh : marray R) (d : nat) (x : R) : Prop :=
  forall k : Z, x <> lo_of range d + IZR k * (step_of per range mesh d / 2).
