(** Property theorems: waiting for tasks of the pool, and exceptions. *)
From Coq Require Import List Arith Bool.
From Verif Require Import PoolM PoolUseM SpecPoolUse PoolUseProofs PropPoolUseEx.
Import ListNotations.

(** C96: threads that wait only for tasks they queued, and tasks that do not
    use the pool: however the threads are scheduled and whoever throws, a
    bounded number of steps is possible (spurious wake-ups allowed for), and
    when no more is possible all threads have finished and all tasks queued
    have been executed.
    Missing: tasks that use the pool themselves, for which it is false. *)
Theorem C96_waiting_ends_partial : forall tk num scripts es u,
  (forall l, In l tk -> leaf l) -> (forall l, In l scripts -> own_futures [] l) ->
  usage_exec tk (usage_make num scripts) es u ->
  exists bound, forall es' u', usage_exec tk u es' u' ->
    length es' <= bound * (1 + length (filter uspurious es')) /\
    (ustuck tk u' -> all_finished u' /\ forall i t, In t (nth i (us_mine u') []) -> In t (pl_done (us_pool u'))).
Proof. exact waits_ends. Qed.
Print Assumptions C96_waiting_ends_partial.
(** In particular any number of concurrent calls of [interpolate] and of
    constructors end. *)
Theorem C96_calls_end_partial : forall tk num calls es u, (forall l, In l tk -> leaf l) ->
  usage_exec tk (usage_make num (map call_script calls)) es u ->
  exists bound, forall es' u', usage_exec tk u es' u' ->
    length es' <= bound * (1 + length (filter uspurious es')) /\ (ustuck tk u' -> all_finished u').
Proof. exact calls_end. Qed.
Print Assumptions C96_calls_end_partial.
Example C96_example : (forall l, In l two_tasks -> leaf l) /\ (forall l, In l two_scripts -> own_futures [] l) /\
  usage_exec two_tasks (usage_make 8 two_scripts) (fst (auto_run two_tasks (all_events 2 8) 2000 (usage_make 8 two_scripts))) two_end /\
  ustuck two_tasks two_end /\ us_out two_end = [([], false); ([], true)] /\ us_bad two_end = [3].
Proof. exact (conj two_leaf (conj two_own (conj two_run two_stuck))). Qed.
(** With the library's eight workers, tasks that queue a task and wait for it
    may wait for ever, and so does everybody who waits for them. *)
Theorem C96_nested_refuted : exists tk scripts es u,
  (forall l, In l tk -> own_futures [] l) /\ (forall l, In l scripts -> own_futures [] l) /\
  usage_exec tk (usage_make 8 scripts) es u /\ (forall e, usage_step tk u e = None) /\ ~ all_finished u.
Proof. exact nested_waits. Qed.
Print Assumptions C96_nested_refuted.

(** C97: a thread is left by an exception only if it threw itself or a task it
    waits for did; a thread that waits for all its tasks and reaches its end
    has had all of them executed without an exception.
    Missing: that nothing is left behind, which is false. *)
Theorem C97_reported_partial : forall tk num scripts es u i l rest threw,
  (forall b, In b tk -> leaf b) -> NoDup (concat (map queued scripts)) -> usage_exec tk (usage_make num scripts) es u ->
  nth_error scripts i = Some l -> nth_error (us_out u) i = Some (rest, threw) ->
  (threw = true -> In (AWork false) l \/ exists t, In (AGet t) l /\ In (AWork false) (nth t tk [])) /\
  (threw = false -> rest = [] -> awaits_all l -> forall t, In (AQueue t) l -> In t (pl_done (us_pool u)) /\ ~ In t (us_bad u)).
Proof. exact exceptions. Qed.
Print Assumptions C97_reported_partial.
(** For concurrent calls: a call throws only if one of its own tasks threw,
    and returns only after all its tasks have ended without an exception. *)
Theorem C97_calls_partial : forall tk num calls es u i rounds rest threw,
  (forall l, In l tk -> leaf l) -> NoDup (concat (concat calls)) ->
  usage_exec tk (usage_make num (map call_script calls)) es u ->
  nth_error calls i = Some rounds -> nth_error (us_out u) i = Some (rest, threw) ->
  (threw = true -> exists t, In t (concat rounds) /\ In (AWork false) (nth t tk [])) /\
  (threw = false -> rest = [] -> forall t, In t (concat rounds) -> In t (pl_done (us_pool u)) /\ ~ In t (us_bad u)).
Proof. exact calls_outcome. Qed.
Print Assumptions C97_calls_partial.
Example C97_example : (forall l, In l two_tasks -> leaf l) /\ NoDup (concat (map queued two_scripts)) /\
  usage_exec two_tasks (usage_make 8 two_scripts) (fst (auto_run two_tasks (all_events 2 8) 2000 (usage_make 8 two_scripts))) two_end /\
  ustuck two_tasks two_end /\ us_out two_end = [([], false); ([], true)] /\ us_bad two_end = [3].
Proof. exact (conj two_leaf (conj two_distinct (conj two_run two_stuck))). Qed.
(** A call that is left by the exception of one task may leave another behind,
    which runs when the variables of the call are gone. *)
Theorem C97_left_behind_refuted : exists tk rounds es u t w rest threw,
  (forall l, In l tk -> leaf l) /\ usage_exec tk (usage_make 8 [call_script rounds]) es u /\
  nth_error (us_out u) 0 = Some ([], true) /\ In (AQueue t) (call_script rounds) /\
  nth_error (pl_pc (us_pool u)) w = Some (WRun t) /\ nth_error (us_in u) w = Some (rest, threw) /\ rest <> [].
Proof. exact left_behind. Qed.
Print Assumptions C97_left_behind_refuted.
