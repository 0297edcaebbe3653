(** Property theorems: thread pool. *)
From Coq Require Import List Arith Bool Permutation.
From Verif Require Import PoolM PoolProofs PoolTop PropPoolEx.
Import ListNotations.

(** C37: at any moment the submitted tasks are exactly those in the main
    queue, in the worker queues, in the hands of a worker and executed; if
    they are distinct each is executed at most once and not kept anywhere
    once executed. *)
Theorem C37_exactly_once : forall num es s, pool_exec (pool_make num) es s ->
  Permutation (submitted es) (pl_main s ++ concat (pl_q s) ++ flat_map held (pl_pc s) ++ pl_done s) /\
  (NoDup (submitted es) -> NoDup (pl_done s) /\ forall t, In t (pl_done s) ->
     In t (submitted es) /\ ~ In t (pl_main s) /\ ~ In t (concat (pl_q s)) /\ ~ In t (flat_map held (pl_pc s))).
Proof. exact exactly_once. Qed.
Print Assumptions C37_exactly_once.
(** A task counts as executed only by a worker running it. *)
Theorem C37_future : forall s e s', pool_step s e = Some s' ->
  pl_done s' = pl_done s \/
  exists w t, e = Step w /\ nth_error (pl_pc s) w = Some (WRun t) /\ pl_done s' = pl_done s ++ [t].
Proof. exact done_step. Qed.
Print Assumptions C37_future.
Example C37_example : pool_exec (pool_make 2) ex_steal st_steal /\
  submitted ex_steal = [7; 9] /\ flat_map held (pl_pc st_steal) = [9; 7].
Proof. exact (conj ex_steal_run (conj eq_refl eq_refl)). Qed.

(** C38: unless the pool is being destroyed, as long as a task is not
    executed something can happen. *)
Theorem C38_progress : forall num es s, pool_exec (pool_make num) es s -> pl_term s = false ->
  pl_main s ++ concat (pl_q s) ++ flat_map held (pl_pc s) <> [] ->
  exists e s', internal e = true /\ pool_step s e = Some s'.
Proof. exact progress. Qed.
Print Assumptions C38_progress.
(** Every schedule ends (spurious wake-ups allowed for), and when it can go no
    further all tasks have been executed. *)
Theorem C38_completes : forall num es s, pool_exec (pool_make num) es s -> pl_term s = false ->
  exists bound, forall es' s', pool_exec s es' s' ->
    (forall e, In e es' -> internal e = true \/ spurious e = true) ->
    length es' <= bound + 18 * length (filter spurious es') /\
    (stuck s' -> Permutation (submitted es) (pl_done s')).
Proof. exact completes. Qed.
Print Assumptions C38_completes.
Example C38_example : pool_exec (pool_make 2) ex_steal st_steal /\ pl_term st_steal = false /\
  pl_main st_steal ++ concat (pl_q st_steal) ++ flat_map held (pl_pc st_steal) <> [].
Proof. exact (conj ex_steal_run (conj eq_refl (fun H => eq_ind [9; 7] (fun l => match l with [] => False | _ => True end) I [] H))). Qed.

(** C39: if no worker is between finding nothing to do and waiting when the
    destructor sets the flag, all of them leave their loops.
    Missing: the other case, in which it is false. *)
Theorem C39_shutdown_partial : forall num es s s1, pool_exec (pool_make num) es s ->
  (forall w, nth_error (pl_pc s) w <> Some WGoSleep) -> pool_step s SetTerm = Some s1 ->
  exists bound, forall es' s', pool_exec s1 es' s' ->
    (forall e, In e es' -> internal e = true \/ spurious e = true) ->
    length es' <= bound + 18 * length (filter spurious es') /\
    (stuck s' -> forall w c, nth_error (pl_pc s') w = Some c -> c = WDone).
Proof. exact shutdown. Qed.
Print Assumptions C39_shutdown_partial.
Example C39_example : pool_exec (pool_make 2) (ex_steal ++ ex_finish) st_finish /\
  (forall w, nth_error (pl_pc st_finish) w <> Some WGoSleep) /\ exists s1, pool_step st_finish SetTerm = Some s1.
Proof. exact ex_shutdown. Qed.
(** In general it is false: a worker may miss the notification and sleep for
    ever, so that joining it never returns. *)
Theorem C39_lost_wakeup_refuted : exists num es s w,
  pool_exec (pool_make num) es s /\ In SetTerm es /\ In NotifyAll es /\
  stuck s /\ nth_error (pl_pc s) w = Some WSleep.
Proof. exact lost_wakeup. Qed.
Print Assumptions C39_lost_wakeup_refuted.

(** C40 *)
Theorem C40_counts : forall num es s, pool_exec (pool_make num) es s ->
  (forall w k q, nth_error (pl_stat s) w = Some k -> nth_error (pl_q s) w = Some q ->
     c_submitted k = c_executed k + c_stolen k + length q /\
     forall su ex st sg, printed k = (su, ex, st, sg) -> su + sg = ex + st + length q) /\
  ((forall w t, nth_error (pl_pc s) w <> Some (WStole t)) ->
     list_sum (map c_stolen (pl_stat s)) = list_sum (map c_stealing (pl_stat s))).
Proof. exact counts. Qed.
Print Assumptions C40_counts.
Example C40_example : pool_exec (pool_make 2) (ex_steal ++ ex_finish) st_finish /\
  map printed (pl_stat st_finish) = [(2, 1, 1, 0); (0, 1, 0, 1)].
Proof. exact (conj ex_finish_run eq_refl). Qed.
(** The note printed below the table, Submitted = Executed - Stolen + Stealing,
    is wrong. *)
Theorem C40_note_refuted : exists num es s w k su ex st sg,
  pool_exec (pool_make num) es s /\ pl_main s = [] /\ concat (pl_q s) = [] /\ flat_map held (pl_pc s) = [] /\
  Permutation (submitted es) (pl_done s) /\
  nth_error (pl_stat s) w = Some k /\ printed k = (su, ex, st, sg) /\ su + st <> ex + sg.
Proof. exact note_wrong. Qed.
Print Assumptions C40_note_refuted.

(** C56: tasks still queued when the pool is destroyed are not executed. *)
Theorem C56_dropped_refuted : exists num es s t,
  pool_exec (pool_make num) es s /\ In (Submit t) es /\
  (forall w c, nth_error (pl_pc s) w = Some c -> c = WDone) /\ ~ In t (pl_done s).
Proof. exact dropped. Qed.
Print Assumptions C56_dropped_refuted.

(** C57: the destructor writes the termination flag while a worker may be
    reading it, neither under a mutex nor atomically. *)
Theorem C57_flag_race_refuted : exists num es s w s1 s2 s12,
  pool_exec (pool_make num) es s /\
  nth_error (pl_pc s) w = Some WTest /\
  pool_step s SetTerm = Some s1 /\ pool_step s (Step w) = Some s2 /\ pool_step s2 SetTerm = Some s12 /\
  pool_step s1 (Step w) <> Some s12.
Proof. exact flag_race. Qed.
Print Assumptions C57_flag_race_refuted.
