(** Property theorems: allocators, helpers, sizes. *)
From Coq Require Import List Arith NArith Bool.
From Verif Require Import Base MeshM SpecMesh AllocM AllocProofs.
Import ListNotations.

(** C48: whatever the system allocator does within its contract. *)
Theorem C48_exact_bytes : forall sys align sz n,
  (0 < sz)%N -> (align < W64)%N -> (n <= aa_max_size align sz)%N -> sys_ok sys ->
  match aa_allocate sys align sz n with
  | Ok (p, bytes) => bytes = (n * sz)%N /\ (p mod align = 0)%N /\ (p <> 0)%N /\ (p + n * sz <= W64)%N
  | Throw e => e = BadAlloc /\ sys align (n * sz)%N = None
  | Fault _ => False
  end.
Proof. exact aa_exact. Qed.
Print Assumptions C48_exact_bytes.
Example C48_example : (0 < 8)%N /\ (32 < W64)%N /\ (500 <= aa_max_size 32 8)%N /\ sys_ok sys_ex /\
  aa_allocate sys_ex 32 8 500 = Ok (4096, 4000)%N.
Proof. exact ex_aligned. Qed.
(** Beyond [max_size] it is false: fewer bytes than needed are obtained and
    nothing is thrown. *)
Theorem C48_beyond_max_refuted : exists sys align sz n p bytes,
  sys_ok sys /\ aa_allocate sys align sz n = Ok (p, bytes) /\ (bytes < n * sz)%N.
Proof. exact aa_wraps. Qed.
Print Assumptions C48_beyond_max_refuted.

(** C49: after any history of requests and releases in reverse order the live
    blocks are inside the buffer and disjoint; a request throws exactly when
    it does not fit, and otherwise yields a block disjoint from the others. *)
Theorem C49_disjoint : forall N ops, exists a live,
  foldM sa_client ops (sa_make N, []) = Ok (a, live) /\
  List.Forall (inside N) live /\ ForallOrdPairs apart live /\
  forall n, (sa_allocate a n = Throw BadAlloc <-> N < list_sum (map snd live) + n) /\
            (n + list_sum (map snd live) <= N ->
             exists p a', sa_allocate a n = Ok (p, a') /\ inside N (p, n) /\ List.Forall (apart (p, n)) live).
Proof. exact sa_blocks. Qed.
Print Assumptions C49_disjoint.
Example C49_example :
  foldM sa_client [SAlloc 3; SAlloc 4; SFree; SAlloc 9; SAlloc 5] (sa_make 10, []) = Ok (mkSA 10 8, [(3, 5); (0, 3)]).
Proof. exact ex_history. Qed.

(** C58: copies of a stack allocator share the buffer but not the stack
    pointer. *)
Theorem C58_copies_refuted : exists a n p a1 a2, 0 < n /\
  sa_allocate a n = Ok (p, a1) /\ sa_allocate (sa_copy a) n = Ok (p, a2).
Proof. exact sa_copies. Qed.
Print Assumptions C58_copies_refuted.
(** Whatever the state: a copy hands out the block that the original hands
    out, and refuses what the original refuses. *)
Theorem C58_same_block : forall a n,
  match sa_allocate a n with
  | Ok (p, a1) => exists a2, sa_allocate (sa_copy a) n = Ok (p, a2)
  | Throw e => sa_allocate (sa_copy a) n = Throw e
  | Fault u => sa_allocate (sa_copy a) n = Fault u
  end.
Proof. exact sa_same_block. Qed.
Print Assumptions C58_same_block.
Example C58_example : sa_allocate (mkSA 10 3) 5 = Ok (3, mkSA 10 8) /\ sa_allocate (sa_copy (mkSA 10 3)) 5 = Ok (3, mkSA 10 8).
Proof. exact (conj eq_refl eq_refl). Qed.

(** C51: [util::pow] in any type, for naturals, and for [size_t]. *)
Theorem C51_pow :
  (forall (T : Type) (mul : T -> T -> T) one b e, util_pow mul one b e = fold_right mul one (repeat b e)) /\
  (forall b e, util_pow Nat.mul 1 b e = b ^ e) /\
  (forall b e, util_pow mul64 1%N b e = ((b ^ N.of_nat e) mod W64)%N).
Proof. exact pow_facts. Qed.
Print Assumptions C51_pow.
Example C51_example : util_pow Nat.mul 1 4 3 = 64 /\ util_pow mul64 1%N 16%N 17 = 0%N.
Proof. exact (conj eq_refl eq_refl). Qed.
(** [dispatch_indexed] makes the calls one after the other, numbered from 0;
    a call that throws ends it. *)
Theorem C51_dispatch : forall (X S : Type) (func : nat -> X -> S -> res S) args s,
  dispatch_indexed func args s = calls func 0 args s.
Proof. exact dispatch_facts. Qed.
Print Assumptions C51_dispatch.
Theorem C51_dispatch_log : forall (X : Type) (args : list X),
  dispatch_indexed (fun i x l => Ok (l ++ [(i, x)])) args [] = Ok (combine (seq 0 (length args)) args).
Proof. exact dispatch_log0. Qed.
Print Assumptions C51_dispatch_log.
Example C51_example_dispatch :
  dispatch_indexed (fun i x l => Ok (l ++ [(i, x)])) [7; 5; 9] [] = Ok [(0, 7); (1, 5); (2, 9)].
Proof. exact eq_refl. Qed.

(** C59: as long as the number of elements is below 2^64, sizes and offsets
    in [size_t] arithmetic are those of the model.
    Missing: larger sizes, for which it is false. *)
Theorem C59_size_partial : forall dims idx sys align sz stored,
  valid dims idx -> (N.of_nat (md_size dims) < W64)%N ->
  mesh64_make sys align sz (map N.of_nat dims) = Ok stored ->
  stored = N.of_nat (md_size dims) /\
  exists k, md_indexing dims idx = Ok k /\ mesh64_at stored (map N.of_nat dims) (map N.of_nat idx) = Ok (N.of_nat k).
Proof. exact mesh64_agrees. Qed.
Print Assumptions C59_size_partial.
Example C59_example : valid [3; 4; 5] [2; 1; 3] /\ (N.of_nat (md_size [3; 4; 5]%nat) < W64)%N /\
  mesh64_make sys_ex 32 8 (map N.of_nat [3; 4; 5]%nat) = Ok 60%N.
Proof. exact ex_mesh64. Qed.
(** The number of elements wraps around: a mesh is created without error whose
    storage is smaller than its dimensions say. *)
Theorem C59_wrap_refuted : exists sys align sz dims idx stored, sys_ok sys /\
  mesh64_make sys align sz dims = Ok stored /\ Forall2 N.lt idx dims /\
  mesh64_at stored dims idx = Fault OutOfBounds.
Proof. exact mesh64_wraps. Qed.
Print Assumptions C59_wrap_refuted.
