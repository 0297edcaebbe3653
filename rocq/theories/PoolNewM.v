(** Model of the constructor of DedicatedThreadPool while it runs: threads are
    created one after the other and work already (DedicatedThreadPool.hpp:
    91-112), creating one may throw, then the handler 106-111 runs and the
    members are destroyed, first [join_threads] (200-204, 278). *)
From Coq Require Import List Arith Bool.
From Verif Require Import PoolM.
Import ListNotations.

(** [ct_num] is [t_num] (93).  The worker queues exist before the first thread
    (95-97); [pl_pc] of the pool has one entry per thread created so far.
    [ct_failed]: in the handler or behind it.  An exception in the first loop
    (95-97) is the one before the first thread, but for the queues missing
    then, which nobody looks at. *)
Record ctor : Type := mkCtor { ct_num : nat; ct_pool : pool; ct_failed : bool }.

(** Entry of the constructor (91-97); 0 stands for DEFAULT_THREAD_NUM. *)
Definition ctor_enter (num : nat) : ctor :=
  let n := if num =? 0 then 8 else num in
  mkCtor n (mkPool [] None (repeat [] n) [] (repeat (mkStat 0 0 0 0) n) 0 false false [] []) false.

(** [CSpawn]: [threads.emplace_back] (99-100) succeeds; [CThrow]: it throws and
    the handler sets the flag (108); [CNotify]: [notify_all] (109); [CStep],
    [CSpurious]: a worker that exists goes on or wakes up by itself.  Nobody
    can queue a task: the constructor has not returned. *)
Inductive cevent : Type := CSpawn | CThrow | CNotify | CStep (w : nat) | CSpurious (w : nat).

Definition ctor_step (c : ctor) (e : cevent) : option ctor :=
  let s := ct_pool c in
  let on p := option_map (fun s => mkCtor (ct_num c) s (ct_failed c)) p in
  match e with
  | CSpawn =>
      if ct_failed c || (ct_num c <=? length (pl_pc s)) then None
      else Some (mkCtor (ct_num c) (mkPool (pl_main s) (pl_lock s) (pl_q s) (pl_pc s ++ [WTest]) (pl_stat s) (pl_notify s) (pl_term s) (pl_all s) (pl_sub s) (pl_done s)) false)
  | CThrow =>
      if ct_failed c || (ct_num c <=? length (pl_pc s)) then None
      else option_map (fun s => mkCtor (ct_num c) s true) (pool_step s SetTerm)
  | CNotify => on (pool_step s NotifyAll)
  | CStep w => on (pool_step s (Step w))
  | CSpurious w => on (pool_step s (Spurious w))
  end.

Inductive ctor_exec : ctor -> list cevent -> ctor -> Prop :=
| ce_nil c : ctor_exec c [] c
| ce_cons c e c1 es c2 : ctor_step c e = Some c1 -> ctor_exec c1 es c2 -> ctor_exec c (e :: es) c2.

(** The constructor returns (112): all threads exist, nothing was thrown. *)
Definition ctor_returned (c : ctor) : Prop := ct_failed c = false /\ length (pl_pc (ct_pool c)) = ct_num c.

(** The exception leaves the constructor (110, 200-204): every thread has
    been joined. *)
Definition ctor_left (c : ctor) : Prop :=
  ct_failed c = true /\ pl_all (ct_pool c) = false /\ forall w p, nth_error (pl_pc (ct_pool c)) w = Some p -> p = WDone.

(** Nothing can happen any more by itself. *)
Definition ctor_stuck (c : ctor) : Prop :=
  ctor_step c CNotify = None /\ forall w, ctor_step c (CStep w) = None.
