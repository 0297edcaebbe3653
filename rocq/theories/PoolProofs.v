(** Invariants of the thread pool. *)
From Coq Require Import List Arith Lia Bool Permutation.
From Verif Require Import Base PoolM.
Import ListNotations.

Definition tot {A} (f : A -> nat) (l : list A) : nat := list_sum (map f l).

Lemma nth_error_upd {A} (l : list A) i j a :
  nth_error (upd l i a) j = if j =? i then match nth_error l i with Some _ => Some a | None => None end else nth_error l j.
Proof.
  revert i j. induction l as [|x l IH]; intros [|i] [|j]; cbn [upd nth_error Nat.eqb]; auto.
  - destruct (j =? i); auto.
Qed.

Lemma tot_upd {A} (f : A -> nat) (l : list A) w a b :
  nth_error l w = Some a -> tot f (upd l w b) + f a = tot f l + f b.
Proof.
  unfold tot. revert w. induction l as [|x l IH]; intros [|w] H; try discriminate H.
  - cbn [nth_error] in H. injection H as H. subst x. cbn [upd map list_sum fold_right]. lia.
  - cbn [nth_error] in H. cbn [upd map list_sum fold_right]. specialize (IH w H). unfold list_sum in *. lia.
Qed.

Lemma tot_nth_error {A} (f : A -> nat) (l : list A) w a : nth_error l w = Some a -> f a <= tot f l.
Proof.
  unfold tot. revert w. induction l as [|x l IH]; intros [|w] H; try discriminate H.
  - cbn [nth_error] in H. injection H as H. subst x. cbn [map list_sum fold_right]. lia.
  - cbn [map list_sum fold_right]. specialize (IH w H). unfold list_sum in *. lia.
Qed.

Lemma nth_nth_error {A} (l : list A) w d : w < length l -> nth_error l w = Some (nth w l d).
Proof. intros. now apply nth_error_nth'. Qed.

Lemma upd_id_none {A} (l : list A) w a : nth_error l w = None -> upd l w a = l.
Proof.
  revert w. induction l as [|x l IH]; intros [|w] H; cbn [upd nth_error] in *; try discriminate; auto.
  f_equal. now apply IH.
Qed.

(** Number of occurrences of a task. *)
Definition cnt (t : nat) (l : list nat) : nat := count_occ Nat.eq_dec l t.

Lemma cnt_app t a b : cnt t (a ++ b) = cnt t a + cnt t b.
Proof. unfold cnt. apply count_occ_app. Qed.

Lemma cnt_cons t x l : cnt t (x :: l) = cnt t [x] + cnt t l.
Proof. change (x :: l) with ([x] ++ l). apply cnt_app. Qed.

Lemma cnt_nil t : cnt t [] = 0.
Proof. reflexivity. Qed.

Lemma cnt_rev t l : cnt t (rev l) = cnt t l.
Proof.
  induction l as [|x l IH]; auto. cbn [rev]. rewrite cnt_app, (cnt_cons t x l). lia.
Qed.

Lemma cnt_concat t ls : cnt t (concat ls) = tot (cnt t) ls.
Proof.
  unfold tot. induction ls as [|l ls IH]; auto. cbn [concat map list_sum fold_right].
  rewrite cnt_app, IH. reflexivity.
Qed.

Definition held (c : pc) : list nat := match c with WStole t | WRun t => [t] | _ => [] end.

Lemma cnt_flat_map t cs : cnt t (flat_map held cs) = tot (fun c => cnt t (held c)) cs.
Proof.
  unfold tot. induction cs as [|c cs IH]; auto. cbn [flat_map map list_sum fold_right].
  rewrite cnt_app, IH. reflexivity.
Qed.

(** Positions in which the main mutex is held. *)
Definition holds (c : pc) : bool := match c with WCheck | WBatch _ | WPred | WGoSleep => true | _ => false end.
(** Positions in which the own queue is empty. *)
Definition hungry (c : pc) : bool :=
  match c with WLockMain | WCheck | WSteal _ | WStole _ | WLockWait | WPred | WGoSleep | WSleep | WWoken => true | _ => false end.
Definition stole (c : pc) : nat := match c with WStole _ => 1 | _ => 0 end.

Record Inv (s : pool) : Prop := mkInv {
  i_n : 0 < length (pl_q s);
  i_pc : length (pl_pc s) = length (pl_q s);
  i_st : length (pl_stat s) = length (pl_q s);
  i_lock1 : forall w c, nth_error (pl_pc s) w = Some c -> holds c = true -> pl_lock s = Some w;
  i_lock2 : forall w, pl_lock s = Some w -> exists c, nth_error (pl_pc s) w = Some c /\ holds c = true;
  i_cnt : forall t, cnt t (pl_sub s) = cnt t (pl_main s) + tot (cnt t) (pl_q s)
                    + tot (fun c => cnt t (held c)) (pl_pc s) + cnt t (pl_done s);
  i_own : forall w c, nth_error (pl_pc s) w = Some c -> hungry c = true -> nth_error (pl_q s) w = Some [];
  i_go : forall w, nth_error (pl_pc s) w = Some WGoSleep -> pl_main s = [];
  i_done : pl_term s = false -> forall w, nth_error (pl_pc s) w <> Some WDone;
  i_awake : pl_term s = false -> pl_main s <> [] ->
            0 < pl_notify s \/ exists w c, nth_error (pl_pc s) w = Some c /\ asleep c = false;
  i_all : pl_all s = true -> pl_term s = true;
  i_stat : forall w k q, nth_error (pl_stat s) w = Some k -> nth_error (pl_q s) w = Some q ->
            c_submitted k = c_executed k + c_stolen k + length q;
  i_steal : tot c_stolen (pl_stat s) = tot c_stealing (pl_stat s) + tot stole (pl_pc s);
}.

Lemma nth_error_repeat {A} (a : A) n w : nth_error (repeat a n) w = if w <? n then Some a else None.
Proof.
  revert w. induction n as [|n IH]; intros [|w]; cbn [repeat nth_error]; auto.
  rewrite IH. cbn. reflexivity.
Qed.

Lemma tot_repeat {A} (f : A -> nat) a n : tot f (repeat a n) = n * f a.
Proof. unfold tot. induction n as [|n IH]; auto. cbn [repeat map list_sum fold_right]. unfold list_sum in IH. rewrite IH. lia. Qed.

Lemma Inv_make num : Inv (pool_make num).
Proof.
  unfold pool_make. set (n := if num =? 0 then 8 else num).
  assert (Hn : 0 < n) by (unfold n; destruct (Nat.eqb_spec num 0); lia).
  constructor; cbn [pl_main pl_lock pl_q pl_pc pl_stat pl_notify pl_term pl_all pl_sub pl_done];
    rewrite ?repeat_length; try rewrite ?tot_repeat; auto; intros;
    repeat match goal with
           | H : nth_error (repeat _ _) _ = Some _ |- _ => rewrite nth_error_repeat in H; destruct (_ <? n); [injection H as <-|]
           end; try discriminate; try congruence.
  - rewrite !tot_repeat. cbn. rewrite !Nat.mul_0_r. reflexivity.
  - rewrite nth_error_repeat. destruct (_ <? n); congruence.
  - reflexivity.
  - cbn [c_stolen c_stealing stole]. rewrite !Nat.mul_0_r. reflexivity.
Qed.

Ltac psimp := cbn [pl_main pl_lock pl_q pl_pc pl_stat pl_notify pl_term pl_all pl_sub pl_done
  set_pc set_lock set_main set_q set_stat add_done c_submitted c_executed c_stolen c_stealing
  holds hungry stole held asleep wake] in *.

Ltac upd_case :=
  match goal with
  | K : nth_error ?l ?i = Some _, H : nth_error (upd ?l ?i ?a) ?j = Some _ |- _ =>
      rewrite nth_error_upd in H;
      destruct (Nat.eqb_spec j i);
      [subst j; rewrite K in H; first [injection H as H; subst | subst] |]
  end.

Lemma q_lookup s w c : Inv s -> nth_error (pl_pc s) w = Some c ->
  nth_error (pl_q s) w = Some (q_of s w) /\ nth_error (pl_stat s) w = Some (nth w (pl_stat s) (mkStat 0 0 0 0)).
Proof.
  intros I H. assert (Hw : w < length (pl_pc s)) by (apply nth_error_Some; congruence).
  rewrite (i_pc s I) in Hw. split; apply nth_nth_error; [|rewrite (i_st s I)]; exact Hw.
Qed.

Lemma others_unlocked s w c : Inv s -> nth_error (pl_pc s) w = Some c -> holds c = true ->
  forall v d, nth_error (pl_pc s) v = Some d -> v <> w -> holds d = false.
Proof.
  intros I H Hc v d Hv N. destruct (holds d) eqn:E; auto.
  pose proof (i_lock1 s I _ _ H Hc). pose proof (i_lock1 s I _ _ Hv E). congruence.
Qed.

Lemma free_unlocked s : Inv s -> pl_lock s = None ->
  forall v d, nth_error (pl_pc s) v = Some d -> holds d = false.
Proof.
  intros I H v d Hv. destruct (holds d) eqn:E; auto.
  pose proof (i_lock1 s I _ _ Hv E). congruence.
Qed.

(** Moving worker [w] to another position without touching anything else. *)
Lemma Inv_move s w c c' : Inv s -> nth_error (pl_pc s) w = Some c ->
  holds c' = holds c -> held c' = held c -> stole c' = stole c ->
  (hungry c' = true -> nth_error (pl_q s) w = Some []) ->
  (c' = WGoSleep -> pl_main s = []) ->
  (c' = WDone -> pl_term s = true) ->
  (asleep c' = true -> pl_main s = []) ->
  Inv (set_pc s w c').
Proof.
  intros I H Hh Hd Hs Hy Hg Hx Ha. destruct I as [A1 A2 A3 A4 A5 A6 A7 A8 A9 A10 A11 A12 A13].
  constructor; psimp; auto.
  - now rewrite upd_length.
  - intros v d Hv Ho. upd_case; [|eauto]. rewrite Hh in Ho. eauto.
  - intros v Hv. destruct (A5 v Hv) as (d & Hd' & Ho). destruct (Nat.eqb_spec v w) as [->|N].
    + exists c'. rewrite nth_error_upd, Nat.eqb_refl, H. split; congruence.
    + exists d. rewrite nth_error_upd. destruct (Nat.eqb_spec v w); [lia|]. auto.
  - intros t. rewrite A6. pose proof (tot_upd (fun c => cnt t (held c)) _ w c c' H) as T. cbn beta in T. rewrite Hd in T. lia.
  - intros v d Hv Ho. upd_case; [|eauto]. auto.
  - intros v Hv. upd_case; eauto.
  - intros Ht v Hv. upd_case; [|eapply A9; eauto]. specialize (Hx eq_refl). congruence.
  - intros Ht Hm. destruct (A10 Ht Hm) as [B|(v & d & B & E)]; [auto|]. right.
    exists w, c'. rewrite nth_error_upd, Nat.eqb_refl, H. split; auto.
    destruct (asleep c') eqn:E'; auto. specialize (Ha eq_refl). contradiction.
  - rewrite A13. pose proof (tot_upd stole _ w c c' H) as T. lia.
Qed.

(** Acquiring the mutex. *)
Lemma Inv_acquire s w c c' s' : Inv s -> nth_error (pl_pc s) w = Some c ->
  holds c = false -> held c = [] -> stole c = 0 -> hungry c = true -> (c' = WCheck \/ c' = WPred) ->
  acquire s w c' = Some s' -> Inv s'.
Proof.
  intros I H Hh Hd Hs Hy Hc' E. unfold acquire in E. destruct (pl_lock s) eqn:L; [discriminate|]. injection E as <-.
  pose proof (free_unlocked s I L) as F.
  assert (holds c' = true) as K1 by (destruct Hc'; subst; auto).
  assert (held c' = []) as K2 by (destruct Hc'; subst; auto).
  assert (stole c' = 0) as K3 by (destruct Hc'; subst; auto).
  assert (asleep c' = false) as K4 by (destruct Hc'; subst; auto).
  destruct I as [A1 A2 A3 A4 A5 A6 A7 A8 A9 A10 A11 A12 A13].
  constructor; psimp; auto.
  - now rewrite upd_length.
  - intros v d Hv Ho. upd_case; [auto|]. rewrite (F _ _ Hv) in Ho. discriminate.
  - intros v Hv. injection Hv as <-. exists c'. rewrite nth_error_upd, Nat.eqb_refl, H. auto.
  - intros t. rewrite A6. pose proof (tot_upd (fun c => cnt t (held c)) _ w c c' H) as T. cbn beta in T. rewrite Hd, K2 in T. lia.
  - intros v d Hv Ho. upd_case; eauto.
  - intros v Hv. upd_case; eauto. destruct Hc'; discriminate.
  - intros Ht v Hv. upd_case; [destruct Hc'; discriminate|eapply A9; eauto].
  - intros Ht Hm. right. exists w, c'. rewrite nth_error_upd, Nat.eqb_refl, H. auto.
  - rewrite A13. pose proof (tot_upd stole _ w c c' H) as T. lia.
Qed.

(** Releasing the mutex. *)
Lemma Inv_release s w c c' : Inv s -> nth_error (pl_pc s) w = Some c ->
  holds c = true -> holds c' = false -> held c = [] -> held c' = [] -> stole c = 0 -> stole c' = 0 ->
  (hungry c' = true -> nth_error (pl_q s) w = Some []) ->
  c' <> WDone ->
  (asleep c' = true -> pl_main s = []) ->
  Inv (set_pc (set_lock s None) w c').
Proof.
  intros I H Hh Hh' Hd Hd' Hs Hs' Hy Hx Ha. pose proof (others_unlocked s w c I H Hh) as F.
  destruct I as [A1 A2 A3 A4 A5 A6 A7 A8 A9 A10 A11 A12 A13].
  constructor; psimp; auto.
  - now rewrite upd_length.
  - intros v d Hv Ho. upd_case; [congruence|]. rewrite (F v d) in Ho; auto. discriminate.
  - intros v Hv. discriminate.
  - intros t. rewrite A6. pose proof (tot_upd (fun c => cnt t (held c)) _ w c c' H) as T. cbn beta in T. rewrite Hd, Hd' in T. lia.
  - intros v d Hv Ho. upd_case; eauto.
  - intros v Hv. upd_case; eauto.
  - intros Ht v Hv. upd_case; [congruence|eapply A9; eauto].
  - intros Ht Hm. right. exists w, c'. rewrite nth_error_upd, Nat.eqb_refl, H. split; auto.
    destruct (asleep c') eqn:E'; auto. specialize (Ha eq_refl). contradiction.
  - rewrite A13. pose proof (tot_upd stole _ w c c' H) as T. lia.
Qed.

(** Popping from the own queue. *)
Lemma Inv_pop s w c miss : Inv s -> nth_error (pl_pc s) w = Some c ->
  c = WPop \/ c = WPop2 -> miss = WLockMain \/ miss = WSteal 0 -> Inv (pop_own s w miss).
Proof.
  intros I H Hc Hm. destruct (q_lookup s w c I H) as (Q & K). unfold pop_own.
  destruct (rev (q_of s w)) as [|t r] eqn:E.
  - assert (E0 : q_of s w = []) by (rewrite <- (rev_involutive (q_of s w)), E; reflexivity).
    eapply Inv_move; eauto; destruct Hc, Hm; subst; try discriminate; auto; intros; congruence.
  - assert (E0 : q_of s w = rev r ++ [t]) by (rewrite <- (rev_involutive (q_of s w)), E; reflexivity).
    assert (Hc1 : holds c = false /\ held c = [] /\ stole c = 0) by (destruct Hc; subst; auto). clear Hc.
    destruct Hc1 as (C1 & C2 & C3).
    destruct I as [A1 A2 A3 A4 A5 A6 A7 A8 A9 A10 A11 A12 A13].
    constructor; psimp; auto.
    + now rewrite upd_length.
    + now rewrite !upd_length.
    + now rewrite !upd_length.
    + intros v d Hv Ho. upd_case; [discriminate|eauto].
    + intros v Hv. destruct (A5 v Hv) as (d & Hd' & Ho). destruct (Nat.eqb_spec v w) as [->|N]; [congruence|].
      exists d. rewrite nth_error_upd. destruct (Nat.eqb_spec v w); [lia|]. auto.
    + intros x. rewrite A6.
      pose proof (tot_upd (fun c => cnt x (held c)) _ w c (WRun t) H) as T. cbn beta in T. rewrite C2 in T. psimp. rewrite cnt_nil in T.
      pose proof (tot_upd (cnt x) _ w _ (rev r) Q) as T2. rewrite E0, cnt_app in T2. lia.
    + intros v d Hv Ho. upd_case; [discriminate|]. rewrite nth_error_upd. destruct (Nat.eqb_spec v w); [lia|]. eauto.
    + intros v Hv. upd_case; [discriminate|eauto].
    + intros Ht v Hv. upd_case; [discriminate|eapply A9; eauto].
    + intros Ht Hm'. right. exists w, (WRun t). rewrite nth_error_upd, Nat.eqb_refl, H. auto.
    + intros v k q Hk Hq. rewrite nth_error_upd in Hk. rewrite nth_error_upd in Hq. destruct (Nat.eqb_spec v w) as [->|N]; [|eauto].
      rewrite K in Hk. rewrite Q in Hq. injection Hk as <-. injection Hq as <-. psimp.
      pose proof (A12 w _ _ K Q) as L. rewrite E0, app_length in L. cbn [length] in L. lia.
    + pose proof (tot_upd stole _ w c (WRun t) H) as T. psimp.
      pose proof (tot_upd c_stolen _ w _ (mkStat (c_submitted (nth w (pl_stat s) (mkStat 0 0 0 0))) (c_executed (nth w (pl_stat s) (mkStat 0 0 0 0)) + 1) (c_stolen (nth w (pl_stat s) (mkStat 0 0 0 0))) (c_stealing (nth w (pl_stat s) (mkStat 0 0 0 0)))) K) as T1.
      pose proof (tot_upd c_stealing _ w _ (mkStat (c_submitted (nth w (pl_stat s) (mkStat 0 0 0 0))) (c_executed (nth w (pl_stat s) (mkStat 0 0 0 0)) + 1) (c_stolen (nth w (pl_stat s) (mkStat 0 0 0 0))) (c_stealing (nth w (pl_stat s) (mkStat 0 0 0 0)))) K) as T2.
      psimp. lia.
Qed.

Lemma tot_stat (f : stat -> nat) l w k g : nth_error l w = Some k ->
  tot f (upd l w (g (nth w l (mkStat 0 0 0 0)))) + f k = tot f l + f (g k).
Proof.
  intros H. rewrite (nth_error_nth _ _ _ H). now apply tot_upd.
Qed.

(** Moving a task from the main queue to the own queue. *)
Lemma Inv_batch s w i t m : Inv s -> nth_error (pl_pc s) w = Some (WBatch i) -> pl_main s = t :: m ->
  Inv (set_pc (set_stat (set_q (set_main s m) w (q_of s w ++ [t])) w
         (fun k => mkStat (c_submitted k + 1) (c_executed k) (c_stolen k) (c_stealing k))) w (WBatch (i + 1))).
Proof.
  intros I H Hm. destruct (q_lookup s w _ I H) as (Q & K).
  pose proof (others_unlocked s w _ I H eq_refl) as F.
  destruct I as [A1 A2 A3 A4 A5 A6 A7 A8 A9 A10 A11 A12 A13].
  constructor; psimp; auto.
  - now rewrite upd_length.
  - now rewrite !upd_length.
  - now rewrite !upd_length.
  - intros v d Hv Ho. upd_case; eauto.
  - intros v Hv. destruct (A5 v Hv) as (d & Hd' & Ho). destruct (Nat.eqb_spec v w) as [->|N].
    + exists (WBatch (i + 1)). rewrite nth_error_upd, Nat.eqb_refl, H. auto.
    + exists d. rewrite nth_error_upd. destruct (Nat.eqb_spec v w); [lia|]. auto.
  - intros x. rewrite A6. rewrite Hm, cnt_cons.
    pose proof (tot_upd (fun c => cnt x (held c)) _ w _ (WBatch (i + 1)) H) as T. cbn beta in T. psimp.
    pose proof (tot_upd (cnt x) _ w _ (q_of s w ++ [t]) Q) as T2. rewrite cnt_app in T2. lia.
  - intros v d Hv Ho. upd_case; [discriminate|]. rewrite nth_error_upd. destruct (Nat.eqb_spec v w); [lia|]. eauto.
  - intros v Hv. upd_case; [discriminate|]. specialize (F v _ Hv n). discriminate.
  - intros Ht v Hv. upd_case; [discriminate|eapply A9; eauto].
  - intros Ht Hm'. right. exists w, (WBatch (i + 1)). rewrite nth_error_upd, Nat.eqb_refl, H. auto.
  - intros v k q Hk Hq. rewrite nth_error_upd in Hk. rewrite nth_error_upd in Hq. destruct (Nat.eqb_spec v w) as [->|N]; [|eauto].
    rewrite K in Hk. rewrite Q in Hq. injection Hk as <-. injection Hq as <-. psimp.
    pose proof (A12 w _ _ K Q) as L. rewrite app_length. cbn [length]. lia.
  - pose proof (tot_upd stole _ w _ (WBatch (i + 1)) H) as T. psimp.
    pose proof (tot_stat c_stolen _ w _ (fun k => mkStat (c_submitted k + 1) (c_executed k) (c_stolen k) (c_stealing k)) K) as T1.
    pose proof (tot_stat c_stealing _ w _ (fun k => mkStat (c_submitted k + 1) (c_executed k) (c_stolen k) (c_stealing k)) K) as T2.
    psimp. lia.
Qed.

(** Stealing. *)
Lemma Inv_steal s w i v t r : Inv s -> nth_error (pl_pc s) w = Some (WSteal i) -> v < length (pl_q s) -> q_of s v = t :: r ->
  Inv (set_pc (set_stat (set_q s v r) v
         (fun k => mkStat (c_submitted k) (c_executed k) (c_stolen k + 1) (c_stealing k))) w (WStole t)).
Proof.
  intros I H Hv E0. destruct (q_lookup s w _ I H) as (Q & K).
  assert (Qv : nth_error (pl_q s) v = Some (t :: r)) by (rewrite <- E0; now apply nth_nth_error).
  assert (Kv : nth_error (pl_stat s) v = Some (nth v (pl_stat s) (mkStat 0 0 0 0))) by (apply nth_nth_error; rewrite (i_st s I); exact Hv).
  assert (Nv : v <> w).
  { intros ->. pose proof (i_own s I _ _ H eq_refl) as B. congruence. }
  destruct I as [A1 A2 A3 A4 A5 A6 A7 A8 A9 A10 A11 A12 A13].
  constructor; psimp; auto.
  - now rewrite upd_length.
  - now rewrite !upd_length.
  - now rewrite !upd_length.
  - intros u d Hu Ho. upd_case; [discriminate|eauto].
  - intros u Hu. destruct (A5 u Hu) as (d & Hd' & Ho). destruct (Nat.eqb_spec u w) as [->|N].
    + rewrite H in Hd'. injection Hd' as <-. discriminate.
    + exists d. rewrite nth_error_upd. destruct (Nat.eqb_spec u w); [lia|]. auto.
  - intros x. rewrite A6.
    pose proof (tot_upd (fun c => cnt x (held c)) _ w _ (WStole t) H) as T. cbn beta in T. psimp. rewrite cnt_nil in T.
    pose proof (tot_upd (cnt x) _ v _ r Qv) as T2. rewrite cnt_cons in T2. lia.
  - intros u d Hu Ho. rewrite nth_error_upd. destruct (Nat.eqb_spec u v) as [->|N].
    + rewrite nth_error_upd in Hu. destruct (Nat.eqb_spec v w); [contradiction|].
      pose proof (A7 _ _ Hu Ho) as B. congruence.
    + upd_case; eauto.
  - intros u Hu. upd_case; [discriminate|eauto].
  - intros Ht u Hu. upd_case; [discriminate|eapply A9; eauto].
  - intros Ht Hm'. right. exists w, (WStole t). rewrite nth_error_upd, Nat.eqb_refl, H. auto.
  - intros u k q Hk Hq. rewrite nth_error_upd in Hk. rewrite nth_error_upd in Hq. destruct (Nat.eqb_spec u v) as [->|N]; [|eauto].
    rewrite Kv in Hk. rewrite Qv in Hq. injection Hk as <-. injection Hq as <-. psimp.
    pose proof (A12 v _ _ Kv Qv) as L. cbn [length] in L. lia.
  - pose proof (tot_upd stole _ w _ (WStole t) H) as T. psimp.
    pose proof (tot_stat c_stolen _ v _ (fun k => mkStat (c_submitted k) (c_executed k) (c_stolen k + 1) (c_stealing k)) Kv) as T1.
    pose proof (tot_stat c_stealing _ v _ (fun k => mkStat (c_submitted k) (c_executed k) (c_stolen k + 1) (c_stealing k)) Kv) as T2.
    psimp. lia.
Qed.

Lemma Inv_stole s w t : Inv s -> nth_error (pl_pc s) w = Some (WStole t) ->
  Inv (set_pc (set_stat s w (fun k => mkStat (c_submitted k) (c_executed k) (c_stolen k) (c_stealing k + 1))) w (WRun t)).
Proof.
  intros I H. destruct (q_lookup s w _ I H) as (Q & K).
  destruct I as [A1 A2 A3 A4 A5 A6 A7 A8 A9 A10 A11 A12 A13].
  constructor; psimp; auto.
  - now rewrite upd_length.
  - now rewrite !upd_length.
  - intros u d Hu Ho. upd_case; [discriminate|eauto].
  - intros u Hu. destruct (A5 u Hu) as (d & Hd' & Ho). destruct (Nat.eqb_spec u w) as [->|N].
    + rewrite H in Hd'. injection Hd' as <-. discriminate.
    + exists d. rewrite nth_error_upd. destruct (Nat.eqb_spec u w); [lia|]. auto.
  - intros x. rewrite A6.
    pose proof (tot_upd (fun c => cnt x (held c)) _ w _ (WRun t) H) as T. cbn beta in T. psimp. lia.
  - intros u d Hu Ho. upd_case; [discriminate|eauto].
  - intros u Hu. upd_case; [discriminate|eauto].
  - intros Ht u Hu. upd_case; [discriminate|eapply A9; eauto].
  - intros Ht Hm'. right. exists w, (WRun t). rewrite nth_error_upd, Nat.eqb_refl, H. auto.
  - intros u k q Hk Hq. rewrite nth_error_upd in Hk. destruct (Nat.eqb_spec u w) as [->|N]; [|eauto].
    rewrite K in Hk. rewrite Q in Hq. injection Hk as <-. injection Hq as <-. psimp.
    pose proof (A12 w _ _ K Q) as L. lia.
  - pose proof (tot_upd stole _ w _ (WRun t) H) as T. psimp.
    pose proof (tot_stat c_stolen _ w _ (fun k => mkStat (c_submitted k) (c_executed k) (c_stolen k) (c_stealing k + 1)) K) as T1.
    pose proof (tot_stat c_stealing _ w _ (fun k => mkStat (c_submitted k) (c_executed k) (c_stolen k) (c_stealing k + 1)) K) as T2.
    psimp. lia.
Qed.

Lemma Inv_ran s w t : Inv s -> nth_error (pl_pc s) w = Some (WRun t) -> Inv (set_pc (add_done s t) w WTest).
Proof.
  intros I H.
  destruct I as [A1 A2 A3 A4 A5 A6 A7 A8 A9 A10 A11 A12 A13].
  constructor; psimp; auto.
  - now rewrite upd_length.
  - intros u d Hu Ho. upd_case; [discriminate|eauto].
  - intros u Hu. destruct (A5 u Hu) as (d & Hd' & Ho). destruct (Nat.eqb_spec u w) as [->|N].
    + rewrite H in Hd'. injection Hd' as <-. discriminate.
    + exists d. rewrite nth_error_upd. destruct (Nat.eqb_spec u w); [lia|]. auto.
  - intros x. rewrite A6, cnt_app.
    pose proof (tot_upd (fun c => cnt x (held c)) _ w _ WTest H) as T. cbn beta in T. psimp. rewrite cnt_nil in T. lia.
  - intros u d Hu Ho. upd_case; [discriminate|eauto].
  - intros u Hu. upd_case; [discriminate|eauto].
  - intros Ht u Hu. upd_case; [discriminate|eapply A9; eauto].
  - intros Ht Hm'. right. exists w, WTest. rewrite nth_error_upd, Nat.eqb_refl, H. auto.
  - pose proof (tot_upd stole _ w _ WTest H) as T. psimp. lia.
Qed.

Lemma Inv_worker s w s' : Inv s -> worker_step s w = Some s' -> Inv s'.
Proof.
  intros I E. unfold worker_step in E. destruct (nth_error (pl_pc s) w) as [c|] eqn:H; [|discriminate].
  destruct c as [| | | |i| |i|t|t| | | | | |].
  - injection E as <-. destruct (pl_term s) eqn:Ht; eapply Inv_move; eauto; try discriminate; auto.
  - injection E as <-. eapply Inv_pop; eauto.
  - eapply (Inv_acquire s w _ _ s' I H); [| | | | |exact E]; auto.
  - injection E as <-. destruct (pl_main s) eqn:Hm.
    + eapply Inv_release; eauto; try discriminate. intros _. eapply i_own; eauto.
    + eapply Inv_move; eauto; try discriminate.
  - injection E as <-. destruct (pl_main s) as [|t m] eqn:Hm; [|destruct (i <? 16)].
    + eapply Inv_release; eauto; try discriminate.
    + eapply Inv_batch; eauto.
    + eapply Inv_release; eauto; try discriminate.
  - injection E as <-. eapply Inv_pop; eauto.
  - injection E as <-. destruct (i <? length (pl_q s) - 1) eqn:Hi.
    + destruct (q_of s ((w + i + 1) mod length (pl_q s))) as [|t r] eqn:Hq.
      * eapply Inv_move; eauto; try discriminate. intros _. eapply i_own; eauto.
      * eapply Inv_steal; eauto. apply Nat.mod_upper_bound. pose proof (i_n s I). lia.
    + eapply Inv_move; eauto; try discriminate. intros _. eapply i_own; eauto.
  - injection E as <-. eapply Inv_stole; eauto.
  - injection E as <-. eapply Inv_ran; eauto.
  - eapply (Inv_acquire s w _ _ s' I H); [| | | | |exact E]; auto.
  - injection E as <-. destruct (pl_main s) eqn:Hm; [destruct (pl_term s) eqn:Ht|].
    + eapply Inv_release; eauto; try discriminate.
    + eapply Inv_move; eauto; try discriminate. intros _. eapply i_own; eauto.
    + eapply Inv_release; eauto; try discriminate.
  - injection E as <-. eapply Inv_release; eauto; try discriminate. intros _. eapply i_own; eauto.
    intros _. eapply i_go; eauto.
  - discriminate.
  - eapply (Inv_acquire s w _ _ s' I H); [| | | | |exact E]; auto.
  - discriminate.
Qed.

Lemma Inv_step s e s' : Inv s -> pool_step s e = Some s' -> Inv s'.
Proof.
  intros I E. destruct e as [t|w| |w|w| |]; cbn [pool_step] in E.
  - destruct (pl_lock s) eqn:L; [discriminate|]. destruct (pl_term s) eqn:Ht; [discriminate|]. injection E as <-.
    pose proof (free_unlocked s I L) as F.
    destruct I as [A1 A2 A3 A4 A5 A6 A7 A8 A9 A10 A11 A12 A13].
    constructor; psimp; auto.
    + intros w c Hw Hc. rewrite (F _ _ Hw) in Hc. discriminate.
    + discriminate.
    + intros x. rewrite !cnt_app, A6. lia.
    + intros w Hw. pose proof (F _ _ Hw). discriminate.
    + intros _ _. left. lia.
    + intros Ha. specialize (A11 Ha). congruence.
  - destruct (0 <? pl_notify s) eqn:Hn; [|discriminate]. destruct (nth_error (pl_pc s) w) as [c|] eqn:H; [|discriminate].
    destruct (asleep c) eqn:Hc; [|discriminate]. cbn [andb] in E. injection E as <-.
    assert (c = WSleep) by (destruct c; try discriminate; auto). subst c.
    destruct I as [A1 A2 A3 A4 A5 A6 A7 A8 A9 A10 A11 A12 A13].
    constructor; psimp; auto.
    + now rewrite upd_length.
    + intros u d Hu Ho. upd_case; [discriminate|eauto].
    + intros u Hu. destruct (A5 u Hu) as (d & Hd' & Ho). destruct (Nat.eqb_spec u w) as [->|N].
      * rewrite H in Hd'. injection Hd' as <-. discriminate.
      * exists d. rewrite nth_error_upd. destruct (Nat.eqb_spec u w); [lia|]. auto.
    + intros x. rewrite A6.
      pose proof (tot_upd (fun c => cnt x (held c)) _ w _ WWoken H) as T. cbn beta in T. psimp. lia.
    + intros u d Hu Ho. upd_case; eauto.
    + intros u Hu. upd_case; [discriminate|eauto].
    + intros Ht u Hu. upd_case; [discriminate|eapply A9; eauto].
    + intros Ht Hm'. right. exists w, WWoken. rewrite nth_error_upd, Nat.eqb_refl, H. auto.
    + pose proof (tot_upd stole _ w _ WWoken H) as T. psimp. lia.
  - destruct (0 <? pl_notify s) eqn:Hn; [|discriminate]. destruct (existsb asleep (pl_pc s)) eqn:Ha; [discriminate|].
    cbn [andb negb] in E. injection E as <-.
    destruct I as [A1 A2 A3 A4 A5 A6 A7 A8 A9 A10 A11 A12 A13].
    constructor; psimp; auto.
    intros _ _. right. destruct (pl_pc s) as [|c l]; [cbn [length] in A2; lia|].
    exists 0, c. split; auto. cbn [existsb] in Ha. apply orb_false_iff in Ha. tauto.
  - eapply Inv_worker; eauto.
  - destruct (nth_error (pl_pc s) w) as [c|] eqn:H; [|discriminate]. destruct c; try discriminate. injection E as <-.
    eapply Inv_move; eauto; try discriminate. intros _. eapply i_own; eauto.
  - destruct (pl_term s) eqn:Ht; [discriminate|]. injection E as <-.
    destruct I as [A1 A2 A3 A4 A5 A6 A7 A8 A9 A10 A11 A12 A13].
    constructor; psimp; auto; discriminate.
  - destruct (pl_all s) eqn:Ha; [|discriminate]. injection E as <-.
    assert (W : forall u, nth_error (map wake (pl_pc s)) u = option_map wake (nth_error (pl_pc s) u)) by (intros; apply nth_error_map).
    assert (Wh : forall c, holds (wake c) = holds c) by (destruct c; reflexivity).
    assert (Wt : forall f, (forall c, f (wake c) = f c) -> tot f (map wake (pl_pc s)) = tot f (pl_pc s)).
    { intros f Hf. unfold tot. rewrite map_map. f_equal. apply map_ext. exact Hf. }
    pose proof (i_all s I Ha) as Ht.
    destruct I as [A1 A2 A3 A4 A5 A6 A7 A8 A9 A10 A11 A12 A13].
    constructor; psimp; auto; try congruence.
    + now rewrite map_length.
    + intros u d Hu Ho. rewrite W in Hu. destruct (nth_error (pl_pc s) u) as [c|] eqn:H; [|discriminate].
      injection Hu as <-. rewrite Wh in Ho. eauto.
    + intros u Hu. destruct (A5 u Hu) as (d & Hd & Ho). exists (wake d). rewrite W, Hd, Wh. auto.
    + intros x. rewrite A6, Wt; auto. intros []; reflexivity.
    + intros u d Hu Ho. rewrite W in Hu. destruct (nth_error (pl_pc s) u) as [c|] eqn:H; [|discriminate].
      injection Hu as <-. apply (A7 u c); auto. destruct c; auto.
    + intros u Hu. rewrite W in Hu. destruct (nth_error (pl_pc s) u) as [c|] eqn:H; [|discriminate].
      apply (A8 u). rewrite H. destruct c; cbn in *; congruence.
    + rewrite A13, Wt; auto. intros []; reflexivity.
Qed.

Lemma Inv_exec s es s' : pool_exec s es s' -> Inv s -> Inv s'.
Proof. induction 1; auto. intros. apply IHpool_exec. eapply Inv_step; eauto. Qed.
