(** Facts and example executions of the thread pool used by PropPool. *)
From Coq Require Import List Arith Lia Bool Permutation.
From Verif Require Import Base PoolM PoolProofs PoolTop.
Import ListNotations.

(** The tasks submitted in a sequence of actions. *)
Definition submitted (es : list event) : list nat := flat_map (fun e => match e with Submit t => [t] | _ => [] end) es.

Lemma sub_step s e s' : pool_step s e = Some s' -> pl_sub s' = pl_sub s ++ submitted [e].
Proof.
  intros E. unfold submitted. destruct e as [t|w| |w|w| |]; cbn [flat_map app]; rewrite ?app_nil_r; cbn [pool_step] in E.
  - destruct (pl_lock s); [discriminate|]. destruct (pl_term s); [discriminate|]. injection E as <-. reflexivity.
  - match type of E with (if ?b then _ else _) = _ => destruct b; [injection E as <-; reflexivity|discriminate] end.
  - match type of E with (if ?b then _ else _) = _ => destruct b; [injection E as <-; reflexivity|discriminate] end.
  - unfold worker_step, acquire, pop_own in E. destruct (nth_error (pl_pc s) w) as [c|]; [|discriminate].
    destruct c; repeat match type of E with context [match ?x with _ => _ end] => destruct x end;
      try discriminate E; injection E as <-; reflexivity.
  - destruct (nth_error (pl_pc s) w) as [c|]; [|discriminate]. destruct c; try discriminate. injection E as <-. reflexivity.
  - destruct (pl_term s); [discriminate|]. injection E as <-. reflexivity.
  - destruct (pl_all s); [|discriminate]. injection E as <-. reflexivity.
Qed.

Lemma sub_exec s es s' : pool_exec s es s' -> pl_sub s' = pl_sub s ++ submitted es.
Proof.
  induction 1 as [s|s e s1 es s2 E X IH].
  - cbn. now rewrite app_nil_r.
  - rewrite IH, (sub_step _ _ _ E), <- app_assoc. f_equal. unfold submitted. cbn [flat_map]. rewrite app_nil_r. reflexivity.
Qed.

Lemma sub_make num es s : pool_exec (pool_make num) es s -> pl_sub s = submitted es.
Proof. intros H. rewrite (sub_exec _ _ _ H). reflexivity. Qed.

Lemma exactly_once num es s : pool_exec (pool_make num) es s ->
  Permutation (submitted es) (pl_main s ++ concat (pl_q s) ++ flat_map held (pl_pc s) ++ pl_done s) /\
  (NoDup (submitted es) -> NoDup (pl_done s) /\ forall t, In t (pl_done s) ->
     In t (submitted es) /\ ~ In t (pl_main s) /\ ~ In t (concat (pl_q s)) /\ ~ In t (flat_map held (pl_pc s))).
Proof.
  intros H. assert (P : Permutation (submitted es) (waiting_tasks s ++ pl_done s)).
  { rewrite <- (sub_make _ _ _ H). apply all_accounted. eapply Inv_exec; eauto. apply Inv_make. }
  unfold waiting_tasks in P. rewrite <- !app_assoc in P. split; auto.
  intros N. pose proof (Permutation_NoDup P N) as N2.
  assert (D : forall (a b : list nat), NoDup (a ++ b) -> NoDup b /\ forall t, In t b -> ~ In t a).
  { intros a b. induction a as [|x a IH]; intros Hn; cbn [app] in *; [auto|].
    inversion Hn as [|? ? H1 H2]; subst. destruct (IH H2) as (B1 & B2). split; auto. intros t Ht [->|Hin].
    - apply H1. apply in_or_app. auto.
    - eapply B2; eauto. }
  destruct (D _ _ N2) as (M1 & M2). destruct (D _ _ M1) as (M3 & M4). destruct (D _ _ M3) as (M5 & M6).
  split; auto. intros t Ht. split.
  - apply (Permutation_in t (Permutation_sym P)). rewrite !in_app_iff. auto.
  - split; [|split]; auto.
    + apply M2. rewrite !in_app_iff. auto.
    + apply M4. rewrite !in_app_iff. auto.
Qed.

Lemma done_step s e s' : pool_step s e = Some s' ->
  pl_done s' = pl_done s \/
  exists w t, e = Step w /\ nth_error (pl_pc s) w = Some (WRun t) /\ pl_done s' = pl_done s ++ [t].
Proof.
  intros E. destruct e as [t|w| |w|w| |]; cbn [pool_step] in E; try (left;
   repeat match type of E with context [match ?x with _ => _ end] => destruct x end;
      try discriminate E; injection E as <-; reflexivity).
  unfold worker_step, acquire, pop_own in E. destruct (nth_error (pl_pc s) w) as [c|] eqn:H; [|discriminate].
  destruct c as [| | | |i| |i|t|t| | | | | |]; try (left;
    repeat match type of E with context [match ?x with _ => _ end] => destruct x end;
      try discriminate E; injection E as <-; reflexivity).
  right. exists w, t. injection E as <-. auto.
Qed.

Lemma term_step s e s' : pool_step s e = Some s' -> e <> SetTerm -> pl_term s' = pl_term s.
Proof.
  intros E N. destruct e as [t|w| |w|w| |]; cbn [pool_step] in E; unfold worker_step, acquire, pop_own in E; try congruence;
   try (destruct (pl_lock s); [discriminate|]; destruct (pl_term s) eqn:Ht; [discriminate|]; injection E as <-; reflexivity);
   repeat match type of E with context [match ?x with _ => _ end] => destruct x eqn:? end;
      try discriminate E; injection E as <-; cbn; auto.
Qed.

Lemma progress num es s : pool_exec (pool_make num) es s -> pl_term s = false ->
  pl_main s ++ concat (pl_q s) ++ flat_map held (pl_pc s) <> [] ->
  exists e s', internal e = true /\ pool_step s e = Some s'.
Proof.
  intros H Ht Hw. assert (I : Inv s) by (eapply Inv_exec; eauto; apply Inv_make).
  (* some worker or notification is enabled, found by cases *)
  destruct (pl_notify s) as [|k] eqn:N.
  - destruct (forallb asleep (pl_pc s)) eqn:A.
    + exfalso. apply Hw. apply (stuck_empty s I); auto. intros e Hi. rewrite forallb_forall in A.
      destruct e as [t|w| |w|w| |]; try discriminate Hi; cbn [pool_step].
      * rewrite N. reflexivity.
      * rewrite N. reflexivity.
      * unfold worker_step. destruct (nth_error (pl_pc s) w) as [c|] eqn:E; [|reflexivity].
        specialize (A c (nth_error_In _ _ E)). destruct c; try discriminate A. reflexivity.
      * destruct (pl_all s) eqn:Ha; [|reflexivity]. pose proof (i_all s I Ha). congruence.
    + assert (X : exists c, In c (pl_pc s) /\ asleep c = false).
      { clear -A. induction (pl_pc s) as [|c l IH]; [discriminate|]. cbn [forallb] in A.
        destruct (asleep c) eqn:E; [|exists c; split; [left; auto|auto]]. destruct (IH A) as (d & B & C). exists d. split; [right; auto|auto]. }
      destruct X as (c & Hc & Hs). apply In_nth_error in Hc. destruct Hc as (w & Hw').
      destruct (worker_can s w c I Hw') as (v & Hv).
      * intros ->. discriminate.
      * intros ->. eapply (i_done s I Ht); eauto.
      * destruct (worker_step s v) as [s'|] eqn:E; [|congruence]. exists (Step v), s'. auto.
  - destruct (existsb asleep (pl_pc s)) eqn:A.
    + apply existsb_exists in A. destruct A as (c & Hc & As). apply In_nth_error in Hc. destruct Hc as (w & Hw').
      eexists (Notify w), _. split; auto. cbn [pool_step]. rewrite N, Hw', As. reflexivity.
    + eexists NotifyNone, _. split; auto. cbn [pool_step]. rewrite N, A. reflexivity.
Qed.

Lemma completes num es s : pool_exec (pool_make num) es s -> pl_term s = false ->
  exists bound, forall es' s', pool_exec s es' s' ->
    (forall e, In e es' -> internal e = true \/ spurious e = true) ->
    length es' <= bound + 18 * length (filter spurious es') /\
    (stuck s' -> Permutation (submitted es) (pl_done s')).
Proof.
  intros H Ht. assert (I : Inv s) by (eapply Inv_exec; eauto; apply Inv_make).
  exists (mu s). intros es' s' X A. split.
  - pose proof (exec_bounded s es' s' X I A). lia.
  - intros S. assert (I' : Inv s') by (eapply Inv_exec; eauto).
    assert (T' : pl_term s' = false /\ pl_sub s' = pl_sub s).
    { clear -X A Ht. induction X as [s|s e s1 es s2 E X IH]; auto.
      assert (T1 : pl_term s1 = false).
      { rewrite (term_step _ _ _ E); auto. intros ->. destruct (A SetTerm (or_introl eq_refl)); discriminate. }
      assert (S1 : pl_sub s1 = pl_sub s).
      { rewrite (sub_step _ _ _ E). destruct e as [t|w| |w|w| |]; try (cbn; now rewrite app_nil_r).
        destruct (A (Submit t) (or_introl eq_refl)); discriminate. }
      rewrite <- S1. apply IH; auto. intros e' He'. apply A. right; auto. }
    destruct T' as (T1 & T2). rewrite <- (sub_make _ _ _ H), <- T2.
    pose proof (all_accounted s' I') as P. rewrite (stuck_empty s' I' S T1) in P. exact P.
Qed.

Lemma shutdown num es s s1 : pool_exec (pool_make num) es s ->
  (forall w, nth_error (pl_pc s) w <> Some WGoSleep) -> pool_step s SetTerm = Some s1 ->
  exists bound, forall es' s', pool_exec s1 es' s' ->
    (forall e, In e es' -> internal e = true \/ spurious e = true) ->
    length es' <= bound + 18 * length (filter spurious es') /\
    (stuck s' -> forall w c, nth_error (pl_pc s') w = Some c -> c = WDone).
Proof.
  intros H N E. assert (I : Inv s) by (eapply Inv_exec; eauto; apply Inv_make).
  assert (I1 : Inv s1) by (eapply Inv_step; eauto).
  exists (mu s1). intros es' s' X A. split.
  - pose proof (exec_bounded s1 es' s' X I1 A). lia.
  - intros S. apply (Quit_stuck s'); auto. eapply Inv_exec; eauto. eapply Quit_exec; eauto. eapply SetTerm_Quit; eauto.
Qed.

Lemma counts num es s : pool_exec (pool_make num) es s ->
  (forall w k q, nth_error (pl_stat s) w = Some k -> nth_error (pl_q s) w = Some q ->
     c_submitted k = c_executed k + c_stolen k + length q /\
     forall su ex st sg, printed k = (su, ex, st, sg) -> su + sg = ex + st + length q) /\
  ((forall w t, nth_error (pl_pc s) w <> Some (WStole t)) ->
     list_sum (map c_stolen (pl_stat s)) = list_sum (map c_stealing (pl_stat s))).
Proof.
  intros H. assert (I : Inv s) by (eapply Inv_exec; eauto; apply Inv_make). split.
  - intros w k q Hk Hq. pose proof (i_stat s I w k q Hk Hq) as E. split; auto.
    intros su ex st sg P. unfold printed in P. injection P as <- <- <- <-. lia.
  - intros N. pose proof (i_steal s I) as E. unfold tot in E.
    assert (Z : tot stole (pl_pc s) = 0).
    { apply tot_zero. intros w c Hc. destruct c; auto. exfalso. eapply N; eauto. }
    unfold tot in Z. lia.
Qed.

(** An execution with two workers: worker 0 takes both tasks in a batch, runs
    one, worker 1 steals the other. *)
Definition ex_steal : list event :=
  [Submit 7; NotifyNone; Submit 9; NotifyNone;
   Step 0; Step 0; Step 0; Step 0; Step 0; Step 0; Step 0;   (* test, pop, lock, check, two moves, unlock *)
   Step 0;                                                   (* pops 9 *)
   Step 1; Step 1; Step 1; Step 1; Step 1; Step 1].          (* test, pop, lock, check, steal, count *)
Definition ex_finish : list event := [Step 1; Step 0].

Definition st_steal : pool :=
  mkPool [] None [[]; []] [WRun 9; WRun 7] [mkStat 2 1 1 0; mkStat 0 0 0 1] 0 false false [7; 9] [].
Lemma ex_steal_run : pool_exec (pool_make 2) ex_steal st_steal.
Proof. apply pool_run_exec. vm_compute. reflexivity. Qed.

Definition st_finish : pool :=
  mkPool [] None [[]; []] [WTest; WTest] [mkStat 2 1 1 0; mkStat 0 0 0 1] 0 false false [7; 9] [7; 9].
Lemma ex_finish_run : pool_exec (pool_make 2) (ex_steal ++ ex_finish) st_finish.
Proof. apply pool_run_exec. vm_compute. reflexivity. Qed.

(** The printed note is wrong in that execution: 2 <> 1 - 1 + 0. *)
Lemma note_wrong : exists num es s w k su ex st sg,
  pool_exec (pool_make num) es s /\ pl_main s = [] /\ concat (pl_q s) = [] /\ flat_map held (pl_pc s) = [] /\
  Permutation (submitted es) (pl_done s) /\
  nth_error (pl_stat s) w = Some k /\ printed k = (su, ex, st, sg) /\ su + st <> ex + sg.
Proof.
  exists 2, (ex_steal ++ ex_finish), st_finish, 0, (mkStat 2 1 1 0), 2, 1, 1, 0.
  split; [exact ex_finish_run|]. repeat split; auto. cbn. lia.
Qed.

(** The lost wake-up: worker 0 has found the predicate false when the
    destructor runs. *)
Definition ex_lost : list event :=
  [Step 0; Step 0; Step 0; Step 0; Step 0; Step 0; Step 0; Step 0; SetTerm; NotifyAll; Step 0; Step 1].
Definition st_lost : pool :=
  mkPool [] None [[]; []] [WSleep; WDone] [mkStat 0 0 0 0; mkStat 0 0 0 0] 0 true false [] [].
Lemma lost_wakeup : exists num es s w,
  pool_exec (pool_make num) es s /\ In SetTerm es /\ In NotifyAll es /\
  stuck s /\ nth_error (pl_pc s) w = Some WSleep.
Proof.
  exists 2, ex_lost, st_lost, 0. split; [|split; [|split; [|split]]].
  - apply pool_run_exec. vm_compute. reflexivity.
  - cbn. tauto.
  - cbn. tauto.
  - intros e Hi. destruct e as [t|w| |w|w| |]; try discriminate Hi; try reflexivity.
    destruct w as [|[|[|w]]]; reflexivity.
  - reflexivity.
Qed.

(** A queued task is dropped when the pool is destroyed. *)
Lemma dropped : exists num es s t,
  pool_exec (pool_make num) es s /\ In (Submit t) es /\
  (forall w c, nth_error (pl_pc s) w = Some c -> c = WDone) /\ ~ In t (pl_done s).
Proof.
  exists 2, [Submit 5; NotifyNone; SetTerm; NotifyAll; Step 0; Step 1],
    (mkPool [5] None [[]; []] [WDone; WDone] [mkStat 0 0 0 0; mkStat 0 0 0 0] 0 true false [5] []), 5.
  split; [|split; [|split]].
  - apply pool_run_exec. vm_compute. reflexivity.
  - cbn. tauto.
  - intros [|[|w]] c; cbn; intros E; try (injection E as <-; reflexivity). destruct w; discriminate.
  - cbn. tauto.
Qed.

(** The destructor's write of the flag is not ordered with a worker's read. *)
Lemma flag_race : exists num es s w s1 s2 s12,
  pool_exec (pool_make num) es s /\
  nth_error (pl_pc s) w = Some WTest /\
  pool_step s SetTerm = Some s1 /\ pool_step s (Step w) = Some s2 /\ pool_step s2 SetTerm = Some s12 /\
  pool_step s1 (Step w) <> Some s12.
Proof.
  exists 2, [], (pool_make 2), 1. eexists _, _, _.
  split; [constructor|]. split; [reflexivity|]. split; [reflexivity|]. split; [reflexivity|]. split; [reflexivity|].
  cbn. discriminate.
Qed.

Lemma ex_shutdown : pool_exec (pool_make 2) (ex_steal ++ ex_finish) st_finish /\
  (forall w, nth_error (pl_pc st_finish) w <> Some WGoSleep) /\ exists s1, pool_step st_finish SetTerm = Some s1.
Proof.
  split; [exact ex_finish_run|]. split; [|eexists; reflexivity].
  intros [|[|w]]; try discriminate. destruct w; discriminate.
Qed.
