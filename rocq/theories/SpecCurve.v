(** Vocabulary for vectors of real numbers as values. *)
From Coq Require Import List Arith Reals.
From Verif Require Import SpecBand MeshM SpecMesh InterpM SpecInterp.
Import ListNotations.
Local Open Scope R_scope.

(** Scalar product of the first [n] components. *)
Definition dot (n : nat) (w v : list R) : R := Rsum n (fun j => nth j w 0 * nth j v 0).

(** The affine map with matrix [a] (a list of rows of [n] numbers) and
    translation [b]. *)
Definition affine (n : nat) (a : list (list R)) (b : list R) (v : list R) : list R :=
  map (fun i => dot n (nth i a []) v + nth i b 0) (seq 0 (length b)).

(** The element of a mesh of vectors at a valid index. *)
Definition vec_at (f : mesh (list R)) (idx : list nat) : list R :=
  nth (row_major (m_dims f) idx) (m_data f) [].

(** A point within the range of the data in all non-periodic dimensions. *)
Definition in_grid (nd : bool) (per : list bool) (dims : list nat) (ranges : list (xrange R)) (xs : list R) : Prop :=
  forall d, (d < length per)%nat -> nth d per false = true \/
    coordinate nd per dims ranges d 0 <= nth d xs 0 <= coordinate nd per dims ranges d (nth d dims 0%nat - 1).
