(** Specification vocabulary for the use of the thread pool. *)
From Coq Require Import List Arith Bool.
From Verif Require Import PoolM PoolUseM.
Import ListNotations.

(** A thread waits only for tasks it has queued before ([k]: already queued). *)
Fixpoint own_futures (k : list nat) (l : list act) : Prop :=
  match l with
  | [] => True
  | AQueue t :: r => own_futures (t :: k) r
  | AGet t :: r => In t k /\ own_futures k r
  | AWork _ :: r => own_futures k r
  end.
(** It waits for every task it queues. *)
Fixpoint awaits_all (l : list act) : Prop :=
  match l with
  | [] => True
  | AQueue t :: r => In (AGet t) r /\ awaits_all r
  | _ :: r => awaits_all r
  end.
(** The tasks it queues. *)
Definition queued (l : list act) : list nat := flat_map (fun a => match a with AQueue t => [t] | _ => [] end) l.
(** Tasks that do not use the pool themselves. *)
Definition leaf (l : list act) : Prop := forall a, In a l -> exists ok, a = AWork ok.
(** It does not throw by itself. *)
Definition calm (l : list act) : Prop := ~ In (AWork false) l.

Definition uspurious (e : uevent) : bool := match e with USpurious _ => true | _ => false end.
(** Nothing can happen any more, except spurious wake-ups. *)
Definition ustuck (tk : list (list act)) (u : usage) : Prop := forall e, uspurious e = false -> usage_step tk u e = None.
(** All threads outside have come to their end. *)
Definition all_finished (u : usage) : Prop := forall i th, nth_error (us_out u) i = Some th -> fst th = [].
