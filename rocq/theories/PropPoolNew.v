(** Property theorems: construction and shutdown of the thread pool. *)
From Coq Require Import List Arith Bool Permutation.
From Verif Require Import PoolM PoolProofs PoolTop PropPoolEx PoolNewM PoolNewProofs PropPoolNewEx.
Import ListNotations.

(** C101: whatever the threads already created do while the others are being
    created, the pool a client gets is one the properties of the pool apply
    to: it could have been reached with all threads there from the start. *)
Theorem C101_returns : forall num es c, ctor_exec (ctor_enter num) es c -> ctor_returned c ->
  exists es', pool_exec (pool_make num) es' (ct_pool c) /\ submitted es' = [].
Proof. exact returned_pool. Qed.
Print Assumptions C101_returns.
Example C101_returns_example : exists c, ctor_exec (ctor_enter 2) [CSpawn; CStep 0; CStep 0; CStep 0; CSpawn; CStep 1] c /\
  ctor_returned c /\ pl_pc (ct_pool c) = [WCheck; WPop] /\ pl_lock (ct_pool c) = Some 0.
Proof. exact ex_returns. Qed.

(** Nothing is executed and nothing is queued before the constructor returns. *)
Theorem C101_no_tasks : forall num es c, ctor_exec (ctor_enter num) es c ->
  pl_done (ct_pool c) = [] /\ pl_main (ct_pool c) = [] /\ concat (pl_q (ct_pool c)) = [] /\ flat_map held (pl_pc (ct_pool c)) = [].
Proof. exact no_tasks. Qed.
Print Assumptions C101_no_tasks.

(** If creating a thread throws at a moment when no worker is between
    evaluating the predicate and falling asleep, then every schedule ends
    (spurious wake-ups allowed for) and at its end all threads created have
    been joined, so that the exception reaches the caller.  Missing: the
    other moments, see the refutation. *)
Theorem C101_failure_partial : forall num es c c1, ctor_exec (ctor_enter num) es c ->
  (forall w, nth_error (pl_pc (ct_pool c)) w <> Some WGoSleep) -> ctor_step c CThrow = Some c1 ->
  exists bound, forall es' c', ctor_exec c1 es' c' ->
    length es' <= bound + 18 * length (filter is_spurious es') /\ (ctor_stuck c' -> ctor_left c').
Proof. exact clean_failure. Qed.
Print Assumptions C101_failure_partial.
Example C101_failure_example : exists c c1, ctor_exec (ctor_enter 3) (CSpawn :: repeat (CStep 0) 10 ++ [CSpawn; CStep 1; CStep 1; CStep 1]) c /\
  pl_pc (ct_pool c) = [WSleep; WCheck] /\ (forall w, nth_error (pl_pc (ct_pool c)) w <> Some WGoSleep) /\ ctor_step c CThrow = Some c1.
Proof. exact ex_failure. Qed.
Example C101_leaves_example : exists c, ctor_exec (ctor_enter 1) [CThrow; CNotify] c /\ ctor_left c.
Proof. exact ex_leaves. Qed.

(** In general it is false: the flag is set and the condition variable
    notified without the mutex, between a worker's test and its falling
    asleep; the constructor then waits for that thread for ever and the
    exception never reaches the caller. *)
Theorem C101_failure_refuted : exists num es c w, ctor_exec (ctor_enter num) es c /\ In CThrow es /\ In CNotify es /\
  ctor_stuck c /\ nth_error (pl_pc (ct_pool c)) w = Some WSleep.
Proof. exact failure_hangs. Qed.
Print Assumptions C101_failure_refuted.

(** C102: once the pool is told to terminate each worker executes at most one
    more task, however many are queued. *)
Theorem C102_tasks : forall s es s', pool_exec s es s' -> pl_term s = true ->
  length (pl_done s') <= length (pl_done s) + length (pl_pc s).
Proof. exact term_tasks. Qed.
Print Assumptions C102_tasks.
Example C102_example : exists s es', pool_exec (pool_make 2) [Submit 1; Submit 2; Submit 3; Step 0; Step 1; SetTerm] s /\ pl_term s = true /\
  exists s', pool_exec s es' s' /\ length (pl_done s') = 2 /\ length (pl_done s) = 0 /\ length (pl_pc s) = 2.
Proof. exact ex_term. Qed.

(** False: that the table of the destructor, printed when everybody has been
    notified and no thread joined, shows what the workers did; here it shows
    nothing submitted or executed and one task is executed. *)
Theorem C102_table_refuted : exists num es s es' s' w, pool_exec (pool_make num) es s /\ In NotifyAll es /\
  pool_exec s es' s' /\ (forall v c, nth_error (pl_pc s') v = Some c -> c = WDone) /\
  map printed (pl_stat s) = [(0, 0, 0, 0)] /\ map printed (pl_stat s') = [(1, 1, 0, 0)] /\ pl_done s' = [w].
Proof. exact table_early. Qed.
Print Assumptions C102_table_refuted.
