(** Progress, termination and shutdown of the thread pool. *)
From Coq Require Import List Arith Lia Bool Permutation.
From Verif Require Import Base PoolM PoolProofs.
Import ListNotations.

(** Actions the pool performs by itself, not counting spurious wake-ups. *)
Definition internal (e : event) : bool :=
  match e with Step _ | Notify _ | NotifyNone | NotifyAll => true | _ => false end.
Definition spurious (e : event) : bool := match e with Spurious _ => true | _ => false end.

(** Nothing can happen any more by itself. *)
Definition stuck (s : pool) : Prop := forall e, internal e = true -> pool_step s e = None.

Lemma worker_can s w c : Inv s -> nth_error (pl_pc s) w = Some c -> c <> WSleep -> c <> WDone ->
  exists v, worker_step s v <> None.
Proof.
  intros I H N1 N2. destruct (pl_lock s) as [v|] eqn:L.
  - exists v. destruct (i_lock2 s I v L) as (d & Hd & Ho). unfold worker_step. rewrite Hd.
    destruct d; try discriminate Ho; discriminate.
  - exists w. unfold worker_step, acquire. rewrite H, L. destruct c; try congruence; discriminate.
Qed.

Lemma stuck_sleep s : Inv s -> stuck s -> forall w c, nth_error (pl_pc s) w = Some c -> c = WSleep \/ c = WDone.
Proof.
  intros I S w c H.
  assert (D : (c = WSleep \/ c = WDone) \/ (c <> WSleep /\ c <> WDone)).
  { destruct c; try (right; split; discriminate); auto. }
  destruct D as [D|[N1 N2]]; auto. destruct (worker_can s w c I H N1 N2) as (v & Hv).
  exfalso. apply Hv. apply (S (Step v)). reflexivity.
Qed.

Lemma stuck_notify s : stuck s -> pl_notify s = 0.
Proof.
  intros S. destruct (pl_notify s) as [|k] eqn:N; auto. exfalso.
  destruct (existsb asleep (pl_pc s)) eqn:A.
  - apply existsb_exists in A. destruct A as (c & Hc & As). apply In_nth_error in Hc. destruct Hc as (w & Hw).
    pose proof (S (Notify w) eq_refl) as E. cbn [pool_step] in E. rewrite N, Hw, As in E. discriminate.
  - pose proof (S NotifyNone eq_refl) as E. cbn [pool_step] in E. rewrite N, A in E. discriminate.
Qed.

Lemma tot_zero {A} (f : A -> nat) l : (forall w a, nth_error l w = Some a -> f a = 0) -> tot f l = 0.
Proof.
  unfold tot. induction l as [|x l IH]; intros H; auto. cbn [map list_sum fold_right].
  rewrite (H 0 x eq_refl). unfold list_sum in IH. rewrite IH; auto. intros w a Hw. apply (H (S w) a). exact Hw.
Qed.

Lemma in_tot_pos t (ls : list (list nat)) : tot (cnt t) ls = 0 -> ~ In t (concat ls).
Proof.
  rewrite <- cnt_concat. unfold cnt. intros H. now apply count_occ_not_In in H.
Qed.

Definition waiting_tasks (s : pool) : list nat := pl_main s ++ concat (pl_q s) ++ flat_map held (pl_pc s).

Lemma all_accounted s : Inv s -> Permutation (pl_sub s) (waiting_tasks s ++ pl_done s).
Proof.
  intros I. apply (Permutation_count_occ Nat.eq_dec). intros t.
  change (cnt t (pl_sub s) = cnt t (waiting_tasks s ++ pl_done s)). unfold waiting_tasks.
  rewrite !cnt_app, cnt_concat, cnt_flat_map, (i_cnt s I). lia.
Qed.

Lemma stuck_empty s : Inv s -> stuck s -> pl_term s = false -> waiting_tasks s = [].
Proof.
  intros I S Ht. pose proof (stuck_sleep s I S) as A.
  assert (A' : forall w c, nth_error (pl_pc s) w = Some c -> c = WSleep).
  { intros w c H. destruct (A w c H) as [?|E]; auto. subst c. exfalso. eapply (i_done s I Ht); eauto. }
  assert (M : pl_main s = []).
  { destruct (pl_main s) as [|t m] eqn:E; auto. destruct (i_awake s I Ht) as [B|(w & c & H & B)].
    - rewrite E; discriminate.
    - rewrite (stuck_notify s S) in B. lia.
    - rewrite (A' w c H) in B. discriminate. }
  unfold waiting_tasks. rewrite M. cbn [app].
  assert (Q : concat (pl_q s) = []).
  { destruct (concat (pl_q s)) as [|t r] eqn:E; auto. exfalso.
    apply (in_tot_pos t (pl_q s)); [|rewrite E; left; auto].
    apply tot_zero. intros w q Hq. assert (Hw : w < length (pl_pc s)) by (rewrite (i_pc s I); apply nth_error_Some; congruence).
    destruct (nth_error (pl_pc s) w) as [c|] eqn:H; [|apply nth_error_None in H; lia].
    pose proof (A' w c H). subst c. pose proof (i_own s I w _ H eq_refl). replace q with (@nil nat) by congruence. reflexivity. }
  rewrite Q. cbn [app].
  destruct (flat_map held (pl_pc s)) as [|t r] eqn:E; auto. exfalso.
  assert (H : In t (flat_map held (pl_pc s))) by (rewrite E; left; auto).
  apply in_flat_map in H. destruct H as (c & Hc & Hh). apply In_nth_error in Hc. destruct Hc as (w & Hw).
  rewrite (A' w c Hw) in Hh. destruct Hh.
Qed.

(** Termination measure. *)
Definition rank (tm emp : bool) (n : nat) (c : pc) : nat :=
  match c with
  | WSleep | WDone => 0
  | WRun _ | WGoSleep => 1
  | WStole _ => 2
  | WPred => 16
  | WLockWait | WWoken => 17
  | WSteal i => 18 + (n - i)
  | WTest => if tm then 15 else if emp then 70 + n else 15
  | WPop => if tm then 60 + n else if emp then 69 + n else 14
  | WLockMain => if tm then 59 + n else if emp then 68 + n else 13
  | WCheck => if tm then 58 + n else if emp then 67 + n else 12
  | WBatch c => if tm then 57 + n else if emp then 57 + n else if c <? 16 then 11 else 57 + n
  | WPop2 => 56 + n
  end.

Definition is_nil {A} (l : list A) : bool := match l with [] => true | _ => false end.
Definition b2n (b : bool) : nat := if b then 1 else 0.

Definition jobs (s : pool) : nat :=
  3 * length (pl_main s) + 2 * tot (@length nat) (pl_q s) + tot (fun c => length (held c)) (pl_pc s) + pl_notify s + b2n (pl_all s).
Definition ranks (s : pool) : nat := tot (rank (pl_term s) (is_nil (pl_main s)) (length (pl_q s))) (pl_pc s).
Definition mu (s : pool) : nat := jobs s * (length (pl_q s) * (length (pl_q s) + 71) + 1) + ranks s.

Lemma tot_le {A} (f : A -> nat) b l : (forall a, f a <= b) -> tot f l <= length l * b.
Proof.
  intros H. unfold tot. induction l as [|x l IH]; auto. cbn [map list_sum fold_right length]. unfold list_sum in IH.
  specialize (H x). lia.
Qed.

Lemma rank_le tm emp n c : rank tm emp n c <= n + 71.
Proof. destruct c; cbn [rank]; repeat match goal with |- context [if ?b then _ else _] => destruct b end; lia. Qed.

Lemma mu_jobs s s' : length (pl_pc s') = length (pl_q s) -> length (pl_q s') = length (pl_q s) -> jobs s' < jobs s -> mu s' < mu s.
Proof.
  intros H1 H2 H3. unfold mu. rewrite H2.
  assert (R : ranks s' <= length (pl_q s) * (length (pl_q s) + 71)).
  { unfold ranks. rewrite H2, <- H1. apply tot_le. intros a. rewrite H1. apply rank_le. }
  set (K := length (pl_q s) * (length (pl_q s) + 71)) in *. clearbody K. nia.
Qed.

Lemma mu_move s w c c' lk : nth_error (pl_pc s) w = Some c -> length (held c') = length (held c) ->
  rank (pl_term s) (is_nil (pl_main s)) (length (pl_q s)) c' < rank (pl_term s) (is_nil (pl_main s)) (length (pl_q s)) c ->
  mu (set_pc (set_lock s lk) w c') < mu s.
Proof.
  intros H Hh Hr. unfold mu, jobs, ranks. psimp.
  pose proof (tot_upd (fun c => length (held c)) _ w c c' H) as T1. cbn beta in T1.
  pose proof (tot_upd (rank (pl_term s) (is_nil (pl_main s)) (length (pl_q s))) _ w c c' H) as T2.
  replace (tot (fun c => length (held c)) (upd (pl_pc s) w c')) with (tot (fun c => length (held c)) (pl_pc s)) by lia.
  lia.
Qed.

Lemma set_lock_id s : set_lock s (pl_lock s) = s.
Proof. destruct s; reflexivity. Qed.

Lemma mu_move' s w c c' : nth_error (pl_pc s) w = Some c -> length (held c') = length (held c) ->
  rank (pl_term s) (is_nil (pl_main s)) (length (pl_q s)) c' < rank (pl_term s) (is_nil (pl_main s)) (length (pl_q s)) c ->
  mu (set_pc s w c') < mu s.
Proof. intros. rewrite <- (set_lock_id s) at 1. eapply mu_move; eauto. Qed.

Lemma mu_pop s w c miss : Inv s -> nth_error (pl_pc s) w = Some c -> held c = [] -> held miss = [] ->
  rank (pl_term s) (is_nil (pl_main s)) (length (pl_q s)) miss < rank (pl_term s) (is_nil (pl_main s)) (length (pl_q s)) c ->
  mu (pop_own s w miss) < mu s.
Proof.
  intros I H Hd Hm Hr. destruct (q_lookup s w c I H) as (Q & K). unfold pop_own.
  destruct (rev (q_of s w)) as [|t r] eqn:E.
  - eapply mu_move'; eauto. now rewrite Hd, Hm.
  - assert (E0 : q_of s w = rev r ++ [t]) by (rewrite <- (rev_involutive (q_of s w)), E; reflexivity).
    apply mu_jobs; psimp; rewrite ?upd_length; auto; [apply (i_pc s I)|].
    unfold jobs. psimp.
    pose proof (tot_upd (fun c => length (held c)) _ w c (WRun t) H) as T1. cbn beta in T1. rewrite Hd in T1. psimp. cbn [length] in T1.
    pose proof (tot_upd (@length nat) _ w _ (rev r) Q) as T2. rewrite E0, app_length in T2. cbn [length] in T2. lia.
Qed.

Lemma mu_acquire s w c c' s' : nth_error (pl_pc s) w = Some c -> length (held c') = length (held c) ->
  rank (pl_term s) (is_nil (pl_main s)) (length (pl_q s)) c' < rank (pl_term s) (is_nil (pl_main s)) (length (pl_q s)) c ->
  acquire s w c' = Some s' -> mu s' < mu s.
Proof.
  intros H Hh Hr E. unfold acquire in E. destruct (pl_lock s); [discriminate|]. injection E as <-. eapply mu_move; eauto.
Qed.

Lemma mu_worker s w s' : Inv s -> worker_step s w = Some s' -> mu s' < mu s.
Proof.
  intros I E. unfold worker_step in E. destruct (nth_error (pl_pc s) w) as [c|] eqn:H; [|discriminate].
  destruct (q_lookup s w c I H) as (Q & K). pose proof (i_pc s I) as Lp.
  destruct c as [| | | |i| |i|t|t| | | | | |].
  - injection E as <-. eapply mu_move'; eauto; destruct (pl_term s); auto; cbn [rank]; destruct (is_nil (pl_main s)); lia.
  - injection E as <-. eapply mu_pop; eauto. cbn [rank]. destruct (pl_term s), (is_nil (pl_main s)); lia.
  - eapply (mu_acquire s w _ _ s' H); [| |exact E]; auto. cbn [rank]. destruct (pl_term s), (is_nil (pl_main s)); lia.
  - injection E as <-. destruct (pl_main s) eqn:Hm.
    + eapply mu_move; eauto. rewrite Hm. cbn [rank is_nil]. destruct (pl_term s); lia.
    + eapply mu_move'; eauto. rewrite Hm. cbn [rank is_nil]. destruct (pl_term s); cbn; lia.
  - injection E as <-. destruct (pl_main s) as [|t m] eqn:Hm; [|destruct (i <? 16) eqn:Hi].
    + eapply mu_move; eauto. rewrite Hm. cbn [rank is_nil]. destruct (pl_term s); lia.
    + apply mu_jobs; psimp; rewrite ?upd_length; auto. unfold jobs. psimp. rewrite Hm. cbn [length].
      pose proof (tot_upd (fun c => length (held c)) _ w _ (WBatch (i + 1)) H) as T1. cbn beta in T1. psimp. cbn [length] in T1.
      pose proof (tot_upd (@length nat) _ w _ (q_of s w ++ [t]) Q) as T2. rewrite app_length in T2. cbn [length] in T2. lia.
    + eapply mu_move; eauto. rewrite Hm. cbn [rank is_nil]. rewrite Hi. destruct (pl_term s); lia.
  - injection E as <-. eapply mu_pop; eauto. cbn [rank]. lia.
  - injection E as <-. destruct (i <? length (pl_q s) - 1) eqn:Hi.
    + apply Nat.ltb_lt in Hi. destruct (q_of s ((w + i + 1) mod length (pl_q s))) as [|t r] eqn:Hq.
      * eapply mu_move'; eauto. cbn [rank]. lia.
      * set (v := (w + i + 1) mod length (pl_q s)) in *.
        assert (Hv : v < length (pl_q s)) by (apply Nat.mod_upper_bound; lia).
        assert (Qv : nth_error (pl_q s) v = Some (t :: r)) by (rewrite <- Hq; now apply nth_nth_error).
        apply mu_jobs; psimp; rewrite ?upd_length; auto. unfold jobs. psimp.
        pose proof (tot_upd (fun c => length (held c)) _ w _ (WStole t) H) as T1. cbn beta in T1. psimp. cbn [length] in T1.
        pose proof (tot_upd (@length nat) _ v _ r Qv) as T2. cbn [length] in T2. lia.
    + eapply mu_move'; eauto. cbn [rank]. lia.
  - injection E as <-. unfold mu, jobs, ranks. psimp.
    pose proof (tot_upd (fun c => length (held c)) _ w _ (WRun t) H) as T1. cbn beta in T1. psimp. cbn [length] in T1.
    pose proof (tot_upd (rank (pl_term s) (is_nil (pl_main s)) (length (pl_q s))) _ w _ (WRun t) H) as T2. cbn [rank] in T2.
    replace (tot (fun c => length (held c)) (upd (pl_pc s) w (WRun t))) with (tot (fun c => length (held c)) (pl_pc s)) by lia.
    lia.
  - injection E as <-. apply mu_jobs; psimp; rewrite ?upd_length; auto. unfold jobs. psimp.
    pose proof (tot_upd (fun c => length (held c)) _ w _ WTest H) as T1. cbn beta in T1. psimp. cbn [length] in T1. lia.
  - eapply (mu_acquire s w _ _ s' H); [| |exact E]; auto.
  - injection E as <-. destruct (pl_main s) eqn:Hm; [destruct (pl_term s) eqn:Ht|].
    + eapply mu_move; eauto. rewrite Ht. cbn [rank is_nil]. lia.
    + eapply mu_move'; eauto. cbn [rank]. lia.
    + eapply mu_move; eauto. rewrite Hm. cbn [rank is_nil]. destruct (pl_term s); lia.
  - injection E as <-. eapply mu_move; eauto.
  - discriminate.
  - eapply (mu_acquire s w _ _ s' H); [| |exact E]; auto.
  - discriminate.
Qed.

Lemma mu_internal s e s' : Inv s -> internal e = true -> pool_step s e = Some s' -> mu s' < mu s.
Proof.
  intros I Hi E. pose proof (i_pc s I) as Lp. destruct e as [t|w| |w|w| |]; try discriminate Hi; cbn [pool_step] in E.
  - destruct (0 <? pl_notify s) eqn:Hn; [|discriminate]. apply Nat.ltb_lt in Hn. destruct (nth_error (pl_pc s) w) as [c|] eqn:H; [|discriminate].
    destruct (asleep c) eqn:Hc; [|discriminate]. cbn [andb] in E. injection E as <-.
    assert (c = WSleep) by (destruct c; try discriminate; auto). subst c.
    apply mu_jobs; psimp; rewrite ?upd_length; auto. unfold jobs. psimp.
    pose proof (tot_upd (fun c => length (held c)) _ w _ WWoken H) as T1. cbn beta in T1. psimp. cbn [length] in T1. lia.
  - destruct (0 <? pl_notify s) eqn:Hn; [|discriminate]. apply Nat.ltb_lt in Hn. destruct (existsb asleep (pl_pc s)) eqn:Ha; [discriminate|].
    cbn [andb negb] in E. injection E as <-.
    apply mu_jobs; psimp; auto. unfold jobs. psimp. lia.
  - eapply mu_worker; eauto.
  - destruct (pl_all s) eqn:Ha; [|discriminate]. injection E as <-.
    apply mu_jobs; psimp; rewrite ?map_length; auto. unfold jobs. psimp. rewrite Ha.
    assert (W : tot (fun c => length (held c)) (map wake (pl_pc s)) = tot (fun c => length (held c)) (pl_pc s)).
    { unfold tot. rewrite map_map. f_equal. apply map_ext. intros []; reflexivity. }
    rewrite W. cbn [b2n]. lia.
Qed.

Lemma mu_spurious s w s' : pool_step s (Spurious w) = Some s' -> mu s' = mu s + 17.
Proof.
  intros E. cbn [pool_step] in E. destruct (nth_error (pl_pc s) w) as [c|] eqn:H; [|discriminate]. destruct c; try discriminate.
  injection E as <-. unfold mu, jobs, ranks. psimp.
  pose proof (tot_upd (fun c => length (held c)) _ w _ WWoken H) as T1. cbn beta in T1. psimp. cbn [length] in T1.
  pose proof (tot_upd (rank (pl_term s) (is_nil (pl_main s)) (length (pl_q s))) _ w _ WWoken H) as T2. cbn [rank] in T2.
  replace (tot (fun c => length (held c)) (upd (pl_pc s) w WWoken)) with (tot (fun c => length (held c)) (pl_pc s)) by lia.
  lia.
Qed.

(** An execution without new submissions is finite. *)
Lemma exec_bounded s es s' : pool_exec s es s' -> Inv s ->
  (forall e, In e es -> internal e = true \/ spurious e = true) ->
  length es + mu s' <= mu s + 18 * length (filter spurious es).
Proof.
  induction 1 as [s|s e s1 es s2 E X IH]; intros I H.
  - cbn [length filter]. lia.
  - assert (I1 : Inv s1) by (eapply Inv_step; eauto).
    specialize (IH I1 (fun x Hx => H x (or_intror Hx))).
    destruct (H e (or_introl eq_refl)) as [Hi|Hs].
    + pose proof (mu_internal s e s1 I Hi E). assert (spurious e = false) by (destruct e; try discriminate; auto).
      cbn [length filter]. rewrite H1. lia.
    + destruct e as [t|w| |w|w| |]; try discriminate Hs. pose proof (mu_spurious s w s1 E).
      cbn [length filter spurious]. lia.
Qed.

(** Shutdown: once the flag is set and nobody is between the test of the
    predicate and the wait, everybody leaves. *)
Definition Quit (s : pool) : Prop :=
  pl_term s = true /\ (forall w, nth_error (pl_pc s) w <> Some WGoSleep) /\
  (pl_all s = true \/ forall w, nth_error (pl_pc s) w <> Some WSleep).

Ltac quit_case := match goal with
  | H : nth_error (pl_pc ?s) ?w = Some ?c |- forall v, nth_error (upd (pl_pc ?s) ?w ?d) v <> _ =>
      let v := fresh in intros v; rewrite nth_error_upd; destruct (v =? w); [rewrite H; try discriminate|auto]
  end.

Lemma Quit_move s s' w c d : Quit s -> nth_error (pl_pc s) w = Some c -> pl_term s' = pl_term s -> pl_all s' = pl_all s ->
  pl_pc s' = upd (pl_pc s) w d -> d <> WGoSleep -> d <> WSleep -> Quit s'.
Proof.
  intros (Q1 & Q2 & Q3) H E1 E2 E3 N1 N2. unfold Quit. rewrite E1, E2, E3. split; [auto|split].
  - intros v. rewrite nth_error_upd. destruct (v =? w); [rewrite H; congruence|auto].
  - destruct Q3 as [Q3|Q3]; [auto|right]. intros v. rewrite nth_error_upd. destruct (v =? w); [rewrite H; congruence|auto].
Qed.

Lemma Quit_worker s w s' : Quit s -> worker_step s w = Some s' -> Quit s'.
Proof.
  intros Q E. unfold worker_step in E. destruct (nth_error (pl_pc s) w) as [c|] eqn:H; [|discriminate].
  pose proof Q as (Q1 & Q2 & Q3).
  destruct c as [| | | |i| |i|t|t| | | | | |]; unfold acquire, pop_own in E; rewrite ?Q1 in E; try discriminate E;
    try (destruct (pl_lock s); [discriminate|]); try injection E as <-;
    repeat match goal with |- context [match pl_main s with _ => _ end] => destruct (pl_main s); cbn iota end;
    repeat match goal with |- context [match ?x with _ => _ end] => destruct x end;
    try (eapply Quit_move; [exact Q|exact H|reflexivity|reflexivity|reflexivity|discriminate|discriminate]).
  exfalso. eapply Q2; eauto.
Qed.

Lemma Quit_step s e s' : Quit s -> pool_step s e = Some s' -> Quit s'.
Proof.
  intros Q E. pose proof Q as (Q1 & Q2 & Q3). destruct e as [t|w| |w|w| |]; cbn [pool_step] in E.
  - rewrite Q1 in E. destruct (pl_lock s); discriminate.
  - destruct (0 <? pl_notify s); [|discriminate]. destruct (nth_error (pl_pc s) w) as [c|] eqn:H; [|discriminate].
    destruct (asleep c); [|discriminate]. injection E as <-.
    eapply Quit_move; [exact Q|exact H|reflexivity|reflexivity|reflexivity|discriminate|discriminate].
  - destruct (0 <? pl_notify s); [|discriminate]. destruct (existsb asleep (pl_pc s)); [discriminate|].
    injection E as <-. exact Q.
  - eapply Quit_worker; eauto.
  - destruct (nth_error (pl_pc s) w) as [c|] eqn:H; [|discriminate]. destruct c; try discriminate. injection E as <-.
    eapply Quit_move; [exact Q|exact H|reflexivity|reflexivity|reflexivity|discriminate|discriminate].
  - rewrite Q1 in E. discriminate.
  - destruct (pl_all s) eqn:Ha; [|discriminate]. injection E as <-. unfold Quit. psimp. split; [auto|split].
    + intros w. rewrite nth_error_map. destruct (nth_error (pl_pc s) w) as [c|] eqn:H; [|discriminate].
      specialize (Q2 w). rewrite H in Q2. destruct c; cbn; congruence.
    + right. intros w. rewrite nth_error_map. destruct (nth_error (pl_pc s) w) as [c|]; [|discriminate].
      destruct c; cbn; congruence.
Qed.

Lemma Quit_exec s es s' : pool_exec s es s' -> Quit s -> Quit s'.
Proof. induction 1; auto. intros. apply IHpool_exec. eapply Quit_step; eauto. Qed.

Lemma Quit_stuck s : Inv s -> Quit s -> stuck s -> forall w c, nth_error (pl_pc s) w = Some c -> c = WDone.
Proof.
  intros I (Q1 & Q2 & Q3) S w c H. destruct (stuck_sleep s I S w c H) as [->|]; auto. exfalso.
  destruct Q3 as [Q3|Q3]; [|eapply Q3; eauto].
  pose proof (S NotifyAll eq_refl) as E. cbn [pool_step] in E. rewrite Q3 in E. discriminate.
Qed.

Lemma SetTerm_Quit s s' : (forall w, nth_error (pl_pc s) w <> Some WGoSleep) -> pool_step s SetTerm = Some s' -> Quit s'.
Proof.
  intros N E. cbn [pool_step] in E. destruct (pl_term s); [discriminate|]. injection E as <-.
  unfold Quit. psimp. auto.
Qed.

Lemma pool_run_exec s es s' : pool_run s es = Some s' -> pool_exec s es s'.
Proof.
  revert s. induction es as [|e es IH]; intros s H; cbn [pool_run] in H.
  - injection H as <-. constructor.
  - destruct (pool_step s e) as [s1|] eqn:E; [|discriminate]. econstructor; eauto.
Qed.
