(** Model of Mesh.hpp. *)
From Coq Require Import List Arith Lia Bool ZArith.
From Verif Require Import Base.
Import ListNotations.

(** ** MeshDimension<D> (Mesh.hpp:11-116)

    The array [dim_size_] is a list [dims] of length D; an [index_type] is a
    list of the same length (guaranteed by the C++ types). *)

(** [MeshDimension::size] (Mesh.hpp:36-40). *)
Definition md_size (dims : list nat) : nat :=
  fold_left (fun s d => s * d) dims 1.

(** [MeshDimension::dim_acc_size] (Mesh.hpp:45-51). *)
Definition md_dim_acc_size (dims : list nat) (dim_ind : nat) : res nat :=
  for_ 0 dim_ind 1 (fun das d =>
    i <- usub (length dims) (d + 1) ;;
    n <- vget dims i ;;
    Ok (das * n)).

(** [MeshDimension::indexing_safe] (Mesh.hpp:69-85); [on]: assertions enabled.
    The test [ind_arr[d_r] >= 0] is trivially true for [size_t]. *)
Definition md_indexing_safe (on : bool) (dims ind_arr : list nat) : res nat :=
  r <- for_ 0 (length dims) (0, 1) (fun s d =>
         let '(ind, sub_mesh_size) := s in
         d_r <- usub (length dims) (d + 1) ;;
         i <- vget ind_arr d_r ;;
         n <- vget dims d_r ;;
         _ <- intp_assert on (i <? n) ;;
         Ok (ind + i * sub_mesh_size, sub_mesh_size * n)) ;;
  Ok (fst r).

(** [MeshDimension::indexing] (Mesh.hpp:87-95). *)
Definition md_indexing (dims ind_arr : list nat) : res nat :=
  r <- for_ 0 (length dims) (0, 1) (fun s d =>
         let '(ind, sub_mesh_size) := s in
         d_r <- usub (length dims) (d + 1) ;;
         i <- vget ind_arr d_r ;;
         n <- vget dims d_r ;;
         Ok (ind + i * sub_mesh_size, sub_mesh_size * n)) ;;
  Ok (fst r).

(** [size_t] remainder and quotient (zero divisor is UB). *)
Definition umod (a b : nat) : res nat := if b =? 0 then Fault IntDivZero else Ok (a mod b).
Definition udiv (a b : nat) : res nat := if b =? 0 then Fault IntDivZero else Ok (a / b).

(** [MeshDimension::dimwise_indices] (Mesh.hpp:102-111).  The array [indices]
    is uninitialised in C++; here it starts as zeros (every entry is
    overwritten). *)
Definition md_dimwise_indices (dims : list nat) (total_ind : nat) : res (list nat) :=
  r <- for_ 0 (length dims) (total_ind, repeat 0 (length dims)) (fun s d =>
         let '(total, indices) := s in
         d_r <- usub (length dims) (d + 1) ;;
         n <- vget dims d_r ;;
         m <- umod total n ;;
         indices' <- vset indices d_r m ;;
         q <- udiv total n ;;
         Ok (q, indices')) ;;
  Ok (snd r).

(** ** Mesh<T, D> (Mesh.hpp:125-383)

    [storage_] (Mesh.hpp:244) and [dimension_] (Mesh.hpp:246).  Allocators do
    not appear in the model. *)
Record mesh (T : Type) : Type := mkMesh { m_dims : list nat; m_data : list T }.
Arguments mkMesh {T}.
Arguments m_dims {T}.
Arguments m_data {T}.

(** Constructor from a [MeshDimension] (Mesh.hpp:249-253); [zero] is
    [val_type{}]. *)
Definition mesh_make {T} (zero : T) (dims : list nat) : mesh T :=
  mkMesh dims (repeat zero (md_size dims)).

(** 1-D constructor from an iterator range (Mesh.hpp:271-274). *)
Definition mesh_of_list {T} (l : list T) : mesh T := mkMesh [length l] l.

(** [Mesh::size], [Mesh::dim_size] (Mesh.hpp:286-290). *)
Definition mesh_size {T} (m : mesh T) : nat := length (m_data m).
Definition mesh_dim_size {T} (m : mesh T) (d : nat) : res nat := vget (m_dims m) d.

(** [Mesh::resize] (Mesh.hpp:300-303).  [std::vector::resize] keeps the old
    prefix and pads: with zeros for [std::allocator], with indeterminate
    values for the control point containers ([default_init_allocator]); the
    padding value is a parameter here. *)
Definition mesh_resize {T} (pad : T) (m : mesh T) (sizes : list nat) : mesh T :=
  mkMesh sizes (firstn (md_size sizes) (m_data m)
                ++ repeat pad (md_size sizes - length (m_data m))).

(** Variadic [operator()(indices...)] (Mesh.hpp:307-315): checked in
    assertion mode. *)
Definition mesh_get_safe {T} (on : bool) (m : mesh T) (idx : list nat) : res T :=
  i <- md_indexing_safe on (m_dims m) idx ;; vget (m_data m) i.
Definition mesh_set_safe {T} (on : bool) (m : mesh T) (idx : list nat) (v : T) : res (mesh T) :=
  i <- md_indexing_safe on (m_dims m) idx ;;
  d <- vset (m_data m) i v ;;
  Ok (mkMesh (m_dims m) d).

(** [operator()(index_type)] (Mesh.hpp:317-323): never checked. *)
Definition mesh_get {T} (m : mesh T) (idx : list nat) : res T :=
  i <- md_indexing (m_dims m) idx ;; vget (m_data m) i.
Definition mesh_set {T} (m : mesh T) (idx : list nat) (v : T) : res (mesh T) :=
  i <- md_indexing (m_dims m) idx ;;
  d <- vset (m_data m) i v ;;
  Ok (mkMesh (m_dims m) d).

(** [skip_iterator] (Mesh.hpp:138-239): an offset into the storage and a
    step.  Pointers are offsets; forming a pointer outside the storage is not
    a fault in this model (see [skip_ptr_ok] below), dereferencing it is. *)
Record skip_iter : Type := mkSkip { sk_off : Z; sk_step : Z }.

(** [operator++], [operator--] (Mesh.hpp:174-194). *)
Definition sk_inc (it : skip_iter) : skip_iter := mkSkip (sk_off it + sk_step it) (sk_step it).
Definition sk_dec (it : skip_iter) : skip_iter := mkSkip (sk_off it - sk_step it) (sk_step it).
(** [operator+=], [operator+], [operator-=], [operator-] (Mesh.hpp:198-217). *)
Definition sk_add (it : skip_iter) (n : Z) : skip_iter :=
  mkSkip (sk_off it + n * sk_step it) (sk_step it).
Definition sk_sub (it : skip_iter) (n : Z) : skip_iter :=
  mkSkip (sk_off it - n * sk_step it) (sk_step it).
(** Iterator difference (Mesh.hpp:219-221); division by a zero step is UB. *)
Definition sk_diff (it other : skip_iter) : res Z :=
  if Z.eqb (sk_step it) 0 then Fault IntDivZero
  else Ok (Z.quot (sk_off it - sk_off other) (sk_step it)).
(** [operator==] (Mesh.hpp:166-169). *)
Definition sk_eqb (it other : skip_iter) : bool :=
  Z.eqb (sk_off it) (sk_off other) && Z.eqb (sk_step it) (sk_step other).
(** [operator*] (Mesh.hpp:163) and [operator[]] (Mesh.hpp:223-225). *)
Definition sk_deref {T} (m : mesh T) (it : skip_iter) : res T :=
  if Z.ltb (sk_off it) 0 then Fault OutOfBounds else vget (m_data m) (Z.to_nat (sk_off it)).
Definition sk_at {T} (m : mesh T) (it : skip_iter) (n : Z) : res T :=
  sk_deref m (sk_add it n).

(** The C++ rule for pointer arithmetic: the pointer must stay between the
    first element and one past the last. *)
Definition skip_ptr_ok {T} (m : mesh T) (it : skip_iter) : bool :=
  Z.leb 0 (sk_off it) && Z.leb (sk_off it) (Z.of_nat (length (m_data m))).

(** [Mesh::begin(dim_ind, indices)] (Mesh.hpp:342-348, 356-363). *)
Definition mesh_begin {T} (on : bool) (m : mesh T) (dim_ind : nat) (indices : list nat)
  : res skip_iter :=
  indices' <- vset indices dim_ind 0 ;;
  off <- md_indexing_safe on (m_dims m) indices' ;;
  k <- usub (length (m_dims m)) (dim_ind + 1) ;;
  st <- md_dim_acc_size (m_dims m) k ;;
  Ok (mkSkip (Z.of_nat off) (Z.of_nat st)).

(** [Mesh::end(dim_ind, indices)] (Mesh.hpp:349-355). *)
Definition mesh_end {T} (m : mesh T) (dim_ind : nat) (indices : list nat) : res skip_iter :=
  n <- vget (m_dims m) dim_ind ;;
  indices' <- vset indices dim_ind n ;;
  off <- md_indexing (m_dims m) indices' ;;
  k <- usub (length (m_dims m)) (dim_ind + 1) ;;
  st <- md_dim_acc_size (m_dims m) k ;;
  Ok (mkSkip (Z.of_nat off) (Z.of_nat st)).

(** [Mesh::iter_indices] (Mesh.hpp:372-382); the argument is the distance of
    the iterator from the start of the storage. *)
Definition mesh_iter_indices {T} (m : mesh T) (off : nat) : res (list nat) :=
  md_dimwise_indices (m_dims m) off.
