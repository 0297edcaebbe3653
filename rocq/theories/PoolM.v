(** Model of DedicatedThreadPool.hpp: a transition system whose steps are the
    atomic actions of the worker threads, of clients and of the destructor.

    Tasks are numbers.  A critical section of the main mutex that makes a
    single access is one step, possible when the mutex is free; longer ones
    are sequences of steps of the owner.  Operations on a worker queue are
    single steps (each locks that queue's own mutex).  The condition variable
    may wake a waiting thread spuriously.  The creation of the
    threads is in PoolNewM, the content of the tasks is in PoolUseM. *)
From Coq Require Import List Arith Lia Bool.
From Verif Require Import Base.
Import ListNotations.

(** Position of a worker in [thread_loop] and the functions it calls
    (DedicatedThreadPool.hpp:207-257). *)
Inductive pc : Type :=
| WTest                (* before [while (!should_terminate)], 243 *)
| WPop                 (* before [worker_queue_ptr->try_pop], 244 *)
| WLockMain            (* before locking in [try_pop_from_main], 209 *)
| WCheck               (* before [main_queue.empty()], 210; mutex held *)
| WBatch (c : nat)     (* in the loop 212-215 after [c] moves; mutex held *)
| WPop2                (* before [try_pop] in line 217 *)
| WSteal (i : nat)     (* iteration [i] of the loop 221-229 *)
| WStole (t : nat)     (* a task was stolen, before line 225 *)
| WRun (t : nat)       (* before [task()], 246 *)
| WLockWait            (* before locking, 248 *)
| WPred                (* before evaluating the predicate, 253; mutex held *)
| WGoSleep             (* predicate was false, not yet asleep; mutex held *)
| WSleep               (* asleep in [cv.wait] *)
| WWoken               (* woken, before locking again *)
| WDone.               (* left the loop *)

(** Debug counters of a worker queue (38-41). *)
Record stat : Type := mkStat { c_submitted : nat; c_executed : nat; c_stolen : nat; c_stealing : nat }.

(** State of the pool (259-278).  [pl_notify]: submissions whose
    [cv.notify_one()] is still to come; [pl_all]: the destructor has yet to
    call [notify_all].  [pl_sub] and [pl_done] record, for the specification,
    the submitted and the executed tasks. *)
Record pool : Type := mkPool {
  pl_main : list nat;
  pl_lock : option nat;
  pl_q : list (list nat);
  pl_pc : list pc;
  pl_stat : list stat;
  pl_notify : nat;
  pl_term : bool;
  pl_all : bool;
  pl_sub : list nat;
  pl_done : list nat;
}.

(** Constructor (91-112); 0 stands for DEFAULT_THREAD_NUM.  A thread that the
    system has not started yet is one that takes no step. *)
Definition pool_make (num : nat) : pool :=
  let n := if num =? 0 then 8 else num in
  mkPool [] None (repeat [] n) (repeat WTest n) (repeat (mkStat 0 0 0 0) n) 0 false false [] [].

(** Updates. *)
Definition set_pc (s : pool) (w : nat) (c : pc) : pool :=
  mkPool (pl_main s) (pl_lock s) (pl_q s) (upd (pl_pc s) w c) (pl_stat s) (pl_notify s) (pl_term s) (pl_all s) (pl_sub s) (pl_done s).
Definition set_lock (s : pool) (l : option nat) : pool :=
  mkPool (pl_main s) l (pl_q s) (pl_pc s) (pl_stat s) (pl_notify s) (pl_term s) (pl_all s) (pl_sub s) (pl_done s).
Definition set_main (s : pool) (m : list nat) : pool :=
  mkPool m (pl_lock s) (pl_q s) (pl_pc s) (pl_stat s) (pl_notify s) (pl_term s) (pl_all s) (pl_sub s) (pl_done s).
Definition set_q (s : pool) (w : nat) (q : list nat) : pool :=
  mkPool (pl_main s) (pl_lock s) (upd (pl_q s) w q) (pl_pc s) (pl_stat s) (pl_notify s) (pl_term s) (pl_all s) (pl_sub s) (pl_done s).
Definition set_stat (s : pool) (w : nat) (f : stat -> stat) : pool :=
  mkPool (pl_main s) (pl_lock s) (pl_q s) (pl_pc s) (upd (pl_stat s) w (f (nth w (pl_stat s) (mkStat 0 0 0 0))))
         (pl_notify s) (pl_term s) (pl_all s) (pl_sub s) (pl_done s).
Definition add_done (s : pool) (t : nat) : pool :=
  mkPool (pl_main s) (pl_lock s) (pl_q s) (pl_pc s) (pl_stat s) (pl_notify s) (pl_term s) (pl_all s) (pl_sub s) (pl_done s ++ [t]).
Definition q_of (s : pool) (w : nat) : list nat := nth w (pl_q s) [].

(** [try_pop] of the own queue (52-61), going to [miss] if it is empty. *)
Definition pop_own (s : pool) (w : nat) (miss : pc) : pool :=
  match rev (q_of s w) with
  | [] => set_pc s w miss
  | t :: r => set_pc (set_stat (set_q s w (rev r)) w
                (fun c => mkStat (c_submitted c) (c_executed c + 1) (c_stolen c) (c_stealing c))) w (WRun t)
  end.

(** Acquiring the main mutex. *)
Definition acquire (s : pool) (w : nat) (next : pc) : option pool :=
  match pl_lock s with None => Some (set_pc (set_lock s (Some w)) w next) | Some _ => None end.

(** One step of worker [w]; [None] while it has to wait. *)
Definition worker_step (s : pool) (w : nat) : option pool :=
  let n := length (pl_q s) in
  match nth_error (pl_pc s) w with
  | None => None
  | Some c =>
    match c with
    | WTest => Some (set_pc s w (if pl_term s then WDone else WPop))
    | WPop => Some (pop_own s w WLockMain)
    | WLockMain => acquire s w WCheck
    | WCheck => Some (match pl_main s with
                      | [] => set_pc (set_lock s None) w (WSteal 0)
                      | _ => set_pc s w (WBatch 0)
                      end)
    | WBatch c => Some (match pl_main s with
                        | t :: m =>
                            if c <? 16 then
                              set_pc (set_stat (set_q (set_main s m) w (q_of s w ++ [t])) w
                                (fun k => mkStat (c_submitted k + 1) (c_executed k) (c_stolen k) (c_stealing k))) w (WBatch (c + 1))
                            else set_pc (set_lock s None) w WPop2
                        | [] => set_pc (set_lock s None) w WPop2
                        end)
    | WPop2 => Some (pop_own s w (WSteal 0))
    | WSteal i =>
        Some (if i <? n - 1 then
                let v := (w + i + 1) mod n in
                match q_of s v with
                | [] => set_pc s w (WSteal (i + 1))
                | t :: r => set_pc (set_stat (set_q s v r) v
                              (fun k => mkStat (c_submitted k) (c_executed k) (c_stolen k + 1) (c_stealing k))) w (WStole t)
                end
              else set_pc s w WLockWait)
    | WStole t => Some (set_pc (set_stat s w
                    (fun k => mkStat (c_submitted k) (c_executed k) (c_stolen k) (c_stealing k + 1))) w (WRun t))
    | WRun t => Some (set_pc (add_done s t) w WTest)
    | WLockWait => acquire s w WPred
    | WPred => Some (if match pl_main s with [] => pl_term s | _ => true end
                     then set_pc (set_lock s None) w WTest
                     else set_pc s w WGoSleep)
    | WGoSleep => Some (set_pc (set_lock s None) w WSleep)
    | WSleep => None
    | WWoken => acquire s w WPred
    | WDone => None
    end
  end.

(** Actions.  [Submit t]: the critical section of [queue_task] (146-152), not
    after destruction has begun; [Notify w]: the [notify_one] (153) of some
    submission wakes worker [w]; [NotifyNone]: it finds nobody waiting;
    [SetTerm], [NotifyAll]: the destructor (118-119); [Spurious w]: worker [w]
    wakes up by itself. *)
Inductive event : Type :=
| Submit (t : nat) | Notify (w : nat) | NotifyNone | Step (w : nat) | Spurious (w : nat) | SetTerm | NotifyAll.

Definition asleep (c : pc) : bool := match c with WSleep => true | _ => false end.
Definition wake (c : pc) : pc := if asleep c then WWoken else c.

Definition pool_step (s : pool) (e : event) : option pool :=
  match e with
  | Submit t =>
      match pl_lock s with
      | None => if pl_term s then None
                else Some (mkPool (pl_main s ++ [t]) None (pl_q s) (pl_pc s) (pl_stat s) (pl_notify s + 1) false (pl_all s) (pl_sub s ++ [t]) (pl_done s))
      | Some _ => None
      end
  | Notify w =>
      if (0 <? pl_notify s) && match nth_error (pl_pc s) w with Some c => asleep c | None => false end
      then Some (mkPool (pl_main s) (pl_lock s) (pl_q s) (upd (pl_pc s) w WWoken) (pl_stat s) (pl_notify s - 1) (pl_term s) (pl_all s) (pl_sub s) (pl_done s))
      else None
  | NotifyNone =>
      if (0 <? pl_notify s) && negb (existsb asleep (pl_pc s))
      then Some (mkPool (pl_main s) (pl_lock s) (pl_q s) (pl_pc s) (pl_stat s) (pl_notify s - 1) (pl_term s) (pl_all s) (pl_sub s) (pl_done s))
      else None
  | Step w => worker_step s w
  | Spurious w =>
      match nth_error (pl_pc s) w with
      | Some WSleep => Some (set_pc s w WWoken)
      | _ => None
      end
  | SetTerm =>
      if pl_term s then None
      else Some (mkPool (pl_main s) (pl_lock s) (pl_q s) (pl_pc s) (pl_stat s) (pl_notify s) true true (pl_sub s) (pl_done s))
  | NotifyAll =>
      if pl_all s
      then Some (mkPool (pl_main s) (pl_lock s) (pl_q s) (map wake (pl_pc s)) (pl_stat s) (pl_notify s) (pl_term s) false (pl_sub s) (pl_done s))
      else None
  end.

Inductive pool_exec : pool -> list event -> pool -> Prop :=
| pe_nil s : pool_exec s [] s
| pe_cons s e s1 es s2 : pool_step s e = Some s1 -> pool_exec s1 es s2 -> pool_exec s (e :: es) s2.

(** Run a list of actions. *)
Fixpoint pool_run (s : pool) (es : list event) : option pool :=
  match es with
  | [] => Some s
  | e :: es => match pool_step s e with Some s1 => pool_run s1 es | None => None end
  end.

(** The statistics line printed by the destructor in debug mode (128-133):
    Submitted, Executed, Stolen, Stealing. *)
Definition printed (c : stat) : nat * nat * nat * nat :=
  (c_submitted c, c_executed c + c_stealing c, c_stolen c, c_stealing c).
