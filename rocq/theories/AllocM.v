(** Model of the allocators (aligned-allocator.hpp, util.hpp), of the
    compile-time helpers of util.hpp, and of mesh sizes in 64-bit arithmetic. *)
From Coq Require Import List Arith NArith Bool.
From Verif Require Import Base.
Import ListNotations.

(** [size_t] arithmetic modulo 2^64. *)
Definition W64 : N := (2 ^ 64)%N.
Definition mul64 (a b : N) : N := ((a * b) mod W64)%N.
Definition add64 (a b : N) : N := ((a + b) mod W64)%N.

(** ** AlignedAllocator (aligned-allocator.hpp:28-45, 63-117)

    [sys] stands for the system allocator behind
    [detail::allocate_aligned_memory] (27-37): given an alignment and a byte
    count it returns an address, or nothing on failure. *)

(** [max_size] (87-89); [sz] is [sizeof(T)]. *)
Definition aa_max_size (align sz : N) : N := ((W64 - 1 - align) / sz)%N.

(** [allocate] (97-105): the address and the number of bytes obtained. *)
Definition aa_allocate (sys : N -> N -> option N) (align sz n : N) : res (N * N) :=
  let bytes := mul64 n sz in
  match sys align bytes with
  | None => Throw BadAlloc
  | Some ptr => Ok (ptr, bytes)
  end.

(** What POSIX promises of [posix_memalign]: on success the address is a
    multiple of the alignment, not null, and the block lies in memory. *)
Definition sys_ok (sys : N -> N -> option N) : Prop :=
  forall align bytes p, sys align bytes = Some p -> (p mod align = 0 /\ p <> 0 /\ p + bytes <= W64)%N.

(** ** stack_allocator<T, N> (util.hpp:74-149)

    Positions are counted in elements from the beginning of the buffer, so
    [m_begin] is 0. *)
Record stack_alloc : Type := mkSA { sa_end : nat; sa_sp : nat }.

(** Constructor (97-98). *)
Definition sa_make (N : nat) : stack_alloc := mkSA N 0.
(** Copying (100-104); the template there serves the same type. *)
Definition sa_copy (a : stack_alloc) : stack_alloc := mkSA (sa_end a) (sa_sp a).

(** [allocate] (108-116); [m_end - m_stack_pointer] is converted to
    [size_type]. *)
Definition sa_allocate (a : stack_alloc) (n : nat) : res (nat * stack_alloc) :=
  room <- usub (sa_end a) (sa_sp a) ;;
  if n <=? room then Ok (sa_sp a, mkSA (sa_end a) (sa_sp a + n)) else Throw BadAlloc.

(** [deallocate] (118); moving the pointer before the buffer is undefined. *)
Definition sa_deallocate (a : stack_alloc) (ptr n : nat) : res stack_alloc :=
  sp <- usub (sa_sp a) n ;; Ok (mkSA (sa_end a) sp).

(** A client that releases blocks in reverse order: [live] is its stack of
    blocks.  A request that throws leaves the allocator as it is (the object
    is not assigned before the throw, 110-115). *)
Inductive sa_op : Type := SAlloc (n : nat) | SFree.
Definition sa_client (s : stack_alloc * list (nat * nat)) (op : sa_op) : res (stack_alloc * list (nat * nat)) :=
  let '(a, live) := s in
  match op with
  | SAlloc n =>
      match sa_allocate a n with
      | Ok (p, a') => Ok (a', (p, n) :: live)
      | Throw _ => Ok (a, live)
      | Fault u => Fault u
      end
  | SFree =>
      match live with
      | [] => Ok s
      | (p, n) :: live' => a' <- sa_deallocate a p n ;; Ok (a', live')
      end
  end.

(** ** Helpers *)

(** [util::pow] (util.hpp:43-48), for a type with multiplication [mul] and
    [T1{1}] = [one]. *)
Fixpoint util_pow {T} (mul : T -> T -> T) (one base : T) (exp : nat) : T :=
  match exp with
  | 0 => one
  | S e => mul base (util_pow mul one base e)
  end.

(** [make_index_sequence] (util.hpp:24-34): the indices are put in front. *)
Fixpoint index_sequence (n : nat) (indices : list nat) : list nat :=
  match n with
  | 0 => indices
  | S k => index_sequence k (k :: indices)
  end.

(** [dispatch_indexed] (util.hpp:50-68): the initialisers of a braced list are
    evaluated from left to right.  The arguments have one type here; [func]
    acts on a state and may throw. *)
Definition dispatch_indexed {X S} (func : nat -> X -> S -> res S) (args : list X) (s : S) : res S :=
  foldM (fun s p => func (fst p) (snd p) s) (combine (index_sequence (length args) []) args) s.

(** ** Mesh sizes in [size_t] arithmetic *)

(** [MeshDimension::size] (Mesh.hpp:36-40). *)
Definition size64 (dims : list N) : N := fold_left mul64 dims 1%N.

(** [MeshDimension::indexing] (Mesh.hpp:87-95): from the last dimension to the
    first. *)
Definition index64 (dims idx : list N) : N :=
  fst (fold_left (fun s p => (add64 (fst s) (mul64 (fst p) (snd s)), mul64 (snd s) (snd p)))
                 (rev (combine idx dims)) (0%N, 1%N)).

(** Constructing a mesh (Mesh.hpp:249-253) with elements of [sz] bytes: the
    number of elements stored.  [std::vector] refuses more than [max_size]
    elements and allocates nothing for none. *)
Definition mesh64_make (sys : N -> N -> option N) (align sz : N) (dims : list N) : res N :=
  let n := size64 dims in
  if (n =? 0)%N then Ok 0%N
  else if (aa_max_size align sz <? n)%N then Throw BadAlloc
  else r <- aa_allocate sys align sz n ;; Ok n.

(** [Mesh::operator()] (Mesh.hpp:317-323): position in the storage. *)
Definition mesh64_at (stored : N) (dims idx : list N) : res N :=
  let k := index64 dims idx in
  if (k <? stored)%N then Ok k else Fault OutOfBounds.
