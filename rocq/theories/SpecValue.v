(** Vocabulary for statements about values of another type than the
    coordinates. *)
From Coq Require Import List Arith Bool.
From Verif Require Import Base Num MeshM VecM.
Import ListNotations.

(** Two outcomes agree up to [pi]: both succeed with values related by [pi],
    or both end in the same exception or fault. *)
Definition same_outcome {A B} (pi : A -> B) (r : res A) (r' : res B) : Prop :=
  match r, r' with
  | Ok a, Ok b => b = pi a
  | Throw e, Throw e' => e' = e
  | Fault u, Fault u' => u' = u
  | _, _ => False
  end.

(** [pi] preserves the operations on values used by construction and
    evaluation (a linear map, when the values are vectors). *)
Definition preserves {T V W} (vo : vops T V) (wo : vops T W) (pi : V -> W) : Prop :=
  pi (v_zero vo) = v_zero wo /\
  (forall v t c, pi (v_mac vo v t c) = v_mac wo (pi v) t (pi c)) /\
  (forall v t c, pi (v_msub vo v t c) = v_msub wo (pi v) t (pi c)) /\
  (forall v t, same_outcome pi (v_div vo v t) (v_div wo (pi v) t)).

(** ... and those used by derivatives. *)
Definition preserves_diff {T V W} (vo : vops T V) (wo : vops T W) (pi : V -> W) : Prop :=
  (forall v t c, pi (v_mac_conv vo v t c) = v_mac_conv wo (pi v) t (pi c)) /\
  (forall k a b t, same_outcome pi (v_diff vo k a b t) (v_diff wo k (pi a) (pi b) t)).

(** The mesh with [pi] applied to every element. *)
Definition mesh_map {V W} (pi : V -> W) (m : mesh V) : mesh W :=
  mkMesh (m_dims m) (map pi (m_data m)).

(** Whether a division fails, and how, depends on the divisor only. *)
Definition division_uniform {T} (o : ops T) : Prop :=
  forall a b t, match odiv o a t, odiv o b t with
  | Ok _, Ok _ => True
  | Throw e, Throw e' => e = e'
  | Fault u, Fault u' => u = u'
  | _, _ => False
  end.
