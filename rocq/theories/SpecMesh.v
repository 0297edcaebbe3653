(** Specification of multi-dimensional indexing, independent of the model. *)
From Coq Require Import List Arith Lia.
Import ListNotations.

(** Number of grid points. *)
Fixpoint prod (dims : list nat) : nat :=
  match dims with [] => 1 | n :: l => n * prod l end.

(** [idx] is a valid multi-index for [dims]. *)
Definition valid (dims idx : list nat) : Prop := Forall2 (fun i n => i < n) idx dims.

(** Row-major rank: the last index varies fastest. *)
Fixpoint row_major (dims idx : list nat) : nat :=
  match dims, idx with
  | n :: dims, i :: idx => i * prod dims + row_major dims idx
  | _, _ => 0
  end.

(** The multi-index with component [d] replaced. *)
Fixpoint set_nth (idx : list nat) (d v : nat) : list nat :=
  match idx, d with
  | [], _ => []
  | _ :: l, 0 => v :: l
  | x :: l, S d => x :: set_nth l d v
  end.
