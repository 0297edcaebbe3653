(** Model of the use of the thread pool: threads that queue tasks and wait for
    their futures (InterpolationTemplate.hpp:547-569, BSpline.hpp:735-757),
    and the content of the tasks as far as the pool is concerned.

    A [std::packaged_task] catches what its function throws and the future
    throws it again in [get()]; leaving a function by an exception skips the
    rest of it.  The destruction of the pool is not modelled here (PoolM). *)
From Coq Require Import List Arith Bool.
From Verif Require Import Base PoolM.
Import ListNotations.

(** What a thread or a task does: [queue_task] (DedicatedThreadPool.hpp:142-155),
    [future::get()], a piece of its own work that ends normally or throws. *)
Inductive act : Type := AQueue (t : nat) | AGet (t : nat) | AWork (ok : bool).

(** The rest of its actions and whether it was left by an exception. *)
Definition thread : Type := (list act * bool)%type.

(** The pool, the threads outside it, for each worker the task it is running,
    and the executed tasks that ended with an exception.  [us_mine] is for
    the specification: the tasks each of the threads outside queued. *)
Record usage : Type := mkUse {
  us_pool : pool;
  us_out : list thread;
  us_in : list thread;
  us_bad : list nat;
  us_mine : list (list nat);
}.

(** [num] workers; [scripts]: what the threads outside do. *)
Definition usage_make (num : nat) (scripts : list (list act)) : usage :=
  mkUse (pool_make num) (map (fun l => (l, false)) scripts) (map (fun _ => ([], false)) (pl_pc (pool_make num))) []
        (map (fun _ => []) scripts).

Definition in_done (t : nat) (l : list nat) : bool := existsb (Nat.eqb t) l.

(** One action: the pool, the rest and the tasks queued by it. *)
Definition act_step (s : pool) (bad : list nat) (th : thread) : option (pool * thread * list nat) :=
  match th with
  | (AQueue t :: r, x) => match pool_step s (Submit t) with Some s' => Some (s', (r, x), [t]) | None => None end
  | (AGet t :: r, x) => if in_done t (pl_done s)
                        then Some (s, (if in_done t bad then ([], true) else (r, x)), []) else None
  | (AWork ok :: r, x) => Some (s, (if ok then (r, x) else ([], true)), [])
  | ([], _) => None
  end.

(** [UOut i]: an action of the thread [i] outside the pool; [UIn w]: an action
    of the task that worker [w] is running; [UStep w]: a step of the scheduler
    of worker [w] (thread_loop, 236-257), which has to wait for the end of the
    task; [UNotify], [UNotifyNone], [USpurious]: as in PoolM. *)
Inductive uevent : Type :=
| UOut (i : nat) | UIn (w : nat) | UStep (w : nat) | UNotify (w : nat) | UNotifyNone | USpurious (w : nat).

Section Use.
(** The content of the tasks. *)
Context (tk : list (list act)).

Definition use_pool (u : usage) (s : pool) : usage := mkUse s (us_out u) (us_in u) (us_bad u) (us_mine u).
Definition lift (u : usage) (e : event) : option usage :=
  match pool_step (us_pool u) e with Some s => Some (use_pool u s) | None => None end.

Definition usage_step (u : usage) (e : uevent) : option usage :=
  match e with
  | UOut i =>
      match nth_error (us_out u) i with
      | Some th =>
          match act_step (us_pool u) (us_bad u) th with
          | Some (s, th', q) => Some (mkUse s (upd (us_out u) i th') (us_in u) (us_bad u) (upd (us_mine u) i (nth i (us_mine u) [] ++ q)))
          | None => None
          end
      | None => None
      end
  | UIn w =>
      match nth_error (pl_pc (us_pool u)) w, nth_error (us_in u) w with
      | Some (WRun _), Some th =>
          match act_step (us_pool u) (us_bad u) th with
          | Some (s, th', _) => Some (mkUse s (us_out u) (upd (us_in u) w th') (us_bad u) (us_mine u))
          | None => None
          end
      | _, _ => None
      end
  | UStep w =>
      match pool_step (us_pool u) (Step w) with
      | Some s =>
          match nth_error (pl_pc (us_pool u)) w with
          | Some (WRun t) =>
              match nth w (us_in u) ([], false) with
              | ([], x) => Some (mkUse s (us_out u) (us_in u) (if x then us_bad u ++ [t] else us_bad u) (us_mine u))
              | _ => None
              end
          | _ =>
              match nth_error (pl_pc s) w with
              | Some (WRun t) => Some (mkUse s (us_out u) (upd (us_in u) w (nth t tk [], false)) (us_bad u) (us_mine u))
              | _ => Some (use_pool u s)
              end
          end
      | None => None
      end
  | UNotify w => lift u (Notify w)
  | UNotifyNone => lift u NotifyNone
  | USpurious w => lift u (Spurious w)
  end.

Inductive usage_exec : usage -> list uevent -> usage -> Prop :=
| ue_nil u : usage_exec u [] u
| ue_cons u e u1 es u2 : usage_step u e = Some u1 -> usage_exec u1 es u2 -> usage_exec u (e :: es) u2.

Fixpoint usage_run (u : usage) (es : list uevent) : option usage :=
  match es with
  | [] => Some u
  | e :: es => match usage_step u e with Some u1 => usage_run u1 es | None => None end
  end.
End Use.

(** What a call of [interpolate] or of the constructors does with the pool: in
    each round queue the tasks, work itself ([AWork]), wait for all of them. *)
Definition call_script (rounds : list (list nat)) : list act :=
  concat (map (fun ts => map AQueue ts ++ [AWork true] ++ map AGet ts) rounds).
