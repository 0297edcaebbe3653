(** Property theorems about Mesh.hpp. *)
From Coq Require Import List Arith ZArith.
From Verif Require Import Base MeshM SpecMesh MeshProofs CheckProofs.
Import ListNotations.

(** C01: multi-index to offset and back. *)
Theorem C01_index_to_offset_and_back : forall dims idx,
  valid dims idx ->
  md_indexing dims idx = Ok (row_major dims idx) /\
  row_major dims idx < md_size dims /\
  md_dimwise_indices dims (row_major dims idx) = Ok idx.
Proof. exact mesh_index_roundtrip. Qed.
Print Assumptions C01_index_to_offset_and_back.
Example C01_example_1 :
  valid [3; 4; 5] [2; 1; 3] /\ md_indexing [3; 4; 5] [2; 1; 3] = Ok 48.
Proof. split; [repeat constructor | reflexivity]. Qed.

Theorem C01_offset_to_index_and_back : forall dims k,
  k < md_size dims ->
  exists idx, md_dimwise_indices dims k = Ok idx /\ valid dims idx /\ md_indexing dims idx = Ok k.
Proof. exact mesh_offset_roundtrip. Qed.
Print Assumptions C01_offset_to_index_and_back.
Example C01_example_2 : 48 < md_size [3; 4; 5] /\ md_dimwise_indices [3; 4; 5] 48 = Ok [2; 1; 3].
Proof. split; [apply Nat.ltb_lt; reflexivity | reflexivity]. Qed.

(** C02: element isolation. *)
Theorem C02_write_then_read : forall (T : Type) (m : mesh T) idx v,
  wf_mesh m -> valid (m_dims m) idx ->
  exists m', mesh_set m idx v = Ok m' /\ m_dims m' = m_dims m /\ wf_mesh m' /\
    mesh_get m' idx = Ok v /\
    (forall idx', valid (m_dims m) idx' -> idx' <> idx ->
       mesh_get m' idx' = mesh_get m idx' /\ exists w, mesh_get m idx' = Ok w).
Proof. exact @mesh_write_read. Qed.
Print Assumptions C02_write_then_read.
Example C02_example :
  wf_mesh (mesh_make 7 [2; 3]) /\ valid [2; 3] [1; 2] /\
  mesh_set (mesh_make 7 [2; 3]) [1; 2] 9 = Ok (mkMesh [2; 3] [7; 7; 7; 7; 7; 9]).
Proof. repeat split; repeat constructor. Qed.

(** C03: checked access. *)
Theorem C03_checked_access : forall dims idx,
  length idx = length dims ->
  (valid dims idx -> md_indexing_safe true dims idx = md_indexing dims idx
                     /\ exists k, md_indexing dims idx = Ok k /\ k < prod dims) /\
  (~ valid dims idx -> md_indexing_safe true dims idx = Throw AssertFailed).
Proof. exact mesh_checked_access. Qed.
Print Assumptions C03_checked_access.
(** An index whose flattened offset is inside the storage but which is invalid. *)
Example C03_example :
  md_indexing [2; 3] [0; 4] = Ok 4 /\ md_indexing_safe true [2; 3] [0; 4] = Throw AssertFailed
  /\ md_indexing_safe true [2; 3] [1; 1] = Ok 4.
Proof. repeat split. Qed.

(** The element access with separate indices: checked in assertion mode, the
    same as the unchecked access otherwise. *)
Theorem C03_checked_element : forall (T : Type) (m : mesh T) idx v,
  wf_mesh m -> length idx = length (m_dims m) ->
  (valid (m_dims m) idx -> mesh_get_safe true m idx = mesh_get m idx /\ mesh_set_safe true m idx v = mesh_set m idx v /\
     exists w, mesh_get m idx = Ok w) /\
  (~ valid (m_dims m) idx -> mesh_get_safe true m idx = Throw AssertFailed /\ mesh_set_safe true m idx v = Throw AssertFailed) /\
  mesh_get_safe false m idx = mesh_get m idx /\ mesh_set_safe false m idx v = mesh_set m idx v.
Proof. exact @mesh_checked_element. Qed.
Print Assumptions C03_checked_element.
Example C03_example_element :
  wf_mesh (mkMesh [2; 3] (seq 10 6)) /\ mesh_get (mkMesh [2; 3] (seq 10 6)) [0; 4] = Ok 14 /\
  mesh_get_safe true (mkMesh [2; 3] (seq 10 6)) [0; 4] = Throw AssertFailed /\
  mesh_get_safe true (mkMesh [2; 3] (seq 10 6)) [1; 1] = Ok 14.
Proof. repeat split. Qed.

(** C04: iterating along one dimension. *)
Theorem C04_line_iteration : forall (T : Type) on (m : mesh T) d idx,
  wf_mesh m -> d < length (m_dims m) -> valid (m_dims m) idx ->
  exists b e,
    mesh_begin on m d idx = Ok b /\ mesh_end m d idx = Ok e /\
    (forall k, k < nth d (m_dims m) 0 ->
       sk_deref m (sk_incs k b) = mesh_get m (set_nth idx d k) /\
       sk_at m b (Z.of_nat k) = mesh_get m (set_nth idx d k) /\
       sk_eqb (sk_incs k b) e = false) /\
    sk_eqb (sk_incs (nth d (m_dims m) 0) b) e = true /\
    (forall j k, sk_diff (sk_add b j) (sk_add b k) = Ok (j - k)%Z).
Proof. exact @mesh_line_walk. Qed.
Print Assumptions C04_line_iteration.
Example C04_example :
  let m := mkMesh [2; 3; 2] (seq 0 12) in
  wf_mesh m /\ valid (m_dims m) [1; 0; 1] /\
  mesh_begin true m 1 [1; 0; 1] = Ok (mkSkip 7 2) /\
  sk_deref m (sk_incs 2 (mkSkip 7 2)) = Ok 11.
Proof. simpl. repeat split; repeat constructor. Qed.

(** Iterator arithmetic: ++ and -- are inverse, it + n and it - n move n
    steps, differences count steps. *)
Theorem C04_iterator_arithmetic : forall it n k,
  sk_dec (sk_inc it) = it /\ sk_inc (sk_dec it) = it /\
  sk_sub (sk_add it n) n = it /\ sk_sub it n = sk_add it (- n) /\
  sk_add it (Z.of_nat k) = sk_incs k it /\ sk_incs k (sk_sub it (Z.of_nat k)) = it /\
  (sk_step it <> 0%Z -> sk_diff (sk_add it n) it = Ok n /\ sk_diff it (sk_sub it n) = Ok n).
Proof. exact iter_arithmetic. Qed.
Print Assumptions C04_iterator_arithmetic.
Example C04_example_arithmetic : sk_step (mkSkip 7 2) <> 0%Z /\ sk_dec (mkSkip 7 2) = mkSkip 5 2.
Proof. split; [discriminate | reflexivity]. Qed.

(** C52: pointers formed by [end(dim, idx)] stay within one past the end. *)
Theorem C52_iterator_end_pointer_refuted :
  exists (m : mesh nat) d idx e,
    wf_mesh m /\ valid (m_dims m) idx /\ mesh_end m d idx = Ok e /\ skip_ptr_ok m e = false.
Proof. exact skip_end_past_storage. Qed.
Print Assumptions C52_iterator_end_pointer_refuted.

(** C55: resizing. *)
Theorem C55_resize : forall (T : Type) (pad : T) (m : mesh T) sizes, wf_mesh m ->
  wf_mesh (mesh_resize pad m sizes) /\ m_dims (mesh_resize pad m sizes) = sizes /\
  (forall a b dims idx, m_dims m = a :: dims -> sizes = b :: dims ->
     (valid (a :: dims) idx -> valid (b :: dims) idx -> mesh_get (mesh_resize pad m sizes) idx = mesh_get m idx) /\
     (~ valid (a :: dims) idx -> valid (b :: dims) idx -> mesh_get (mesh_resize pad m sizes) idx = Ok pad)).
Proof. exact @resize_ok. Qed.
Print Assumptions C55_resize.
Example C55_example :
  wf_mesh (mkMesh [2; 3] (seq 10 6)) /\
  mesh_resize 0 (mkMesh [2; 3] (seq 10 6)) [3; 3] = mkMesh [3; 3] [10; 11; 12; 13; 14; 15; 0; 0; 0].
Proof. repeat split. Qed.
