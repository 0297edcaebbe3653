(** Instances used beside the theorems of PropPoolNew. *)
From Coq Require Import List Arith Bool.
From Verif Require Import PoolM PoolProofs PoolTop PropPoolEx PoolNewM PoolNewProofs.
Import ListNotations.

(** The first worker of two is looking for tasks when the second is created. *)
Lemma ex_returns : exists c, ctor_exec (ctor_enter 2) [CSpawn; CStep 0; CStep 0; CStep 0; CSpawn; CStep 1] c /\
  ctor_returned c /\ pl_pc (ct_pool c) = [WCheck; WPop] /\ pl_lock (ct_pool c) = Some 0.
Proof.
  eexists. split; [repeat (eapply ce_cons; [vm_compute; reflexivity|]); constructor|]. repeat split.
Qed.

(** The third thread of three cannot be created while the first worker sleeps
    and the second holds the mutex. *)
Lemma ex_failure : exists c c1, ctor_exec (ctor_enter 3) (CSpawn :: repeat (CStep 0) 10 ++ [CSpawn; CStep 1; CStep 1; CStep 1]) c /\
  pl_pc (ct_pool c) = [WSleep; WCheck] /\ (forall w, nth_error (pl_pc (ct_pool c)) w <> Some WGoSleep) /\ ctor_step c CThrow = Some c1.
Proof.
  do 2 eexists. split; [cbn [repeat app]; repeat (eapply ce_cons; [vm_compute; reflexivity|]); constructor|].
  split; [reflexivity|]. split; [intros [|[|w]]; try discriminate; destruct w; discriminate|reflexivity].
Qed.

(** It does leave. *)
Lemma ex_leaves : exists c, ctor_exec (ctor_enter 1) [CThrow; CNotify] c /\ ctor_left c.
Proof.
  eexists. split; [repeat (eapply ce_cons; [vm_compute; reflexivity|]); constructor|]. repeat split. intros [|w] p H; discriminate.
Qed.

(** Both workers past the test when the flag is set, three tasks queued. *)
Lemma ex_term : exists s es', pool_exec (pool_make 2) [Submit 1; Submit 2; Submit 3; Step 0; Step 1; SetTerm] s /\ pl_term s = true /\
  exists s', pool_exec s es' s' /\ length (pl_done s') = 2 /\ length (pl_done s) = 0 /\ length (pl_pc s) = 2.
Proof.
  eexists. exists (repeat (Step 0) 10 ++ repeat (Step 1) 7). split; [repeat (eapply pe_cons; [vm_compute; reflexivity|]); constructor|]. split; [reflexivity|].
  eexists. split; [cbn [repeat app]; repeat (eapply pe_cons; [vm_compute; reflexivity|]); constructor|]. repeat split.
Qed.
