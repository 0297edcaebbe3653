(** Proofs about the constructor of the pool. *)
From Coq Require Import List Arith Lia Bool Permutation.
From Verif Require Import Base PoolM PoolProofs PoolTop PropPoolEx PoolNewM.
Import ListNotations.

(** The pool with further workers. *)
Definition ext (s : pool) (l : list pc) : pool :=
  mkPool (pl_main s) (pl_lock s) (pl_q s) (pl_pc s ++ l) (pl_stat s) (pl_notify s) (pl_term s) (pl_all s) (pl_sub s) (pl_done s).

Lemma upd_app {A} (v l : list A) i a : i < length v -> upd (v ++ l) i a = upd v i a ++ l.
Proof. revert i; induction v as [|x v IH]; intros i H; simpl in *; [lia|]. destruct i; simpl; auto. f_equal. apply IH. lia. Qed.

Lemma ext_worker s l w s' : worker_step s w = Some s' -> worker_step (ext s l) w = Some (ext s' l).
Proof.
  intros E. unfold worker_step in *. change (pl_pc (ext s l)) with (pl_pc s ++ l).
  destruct (nth_error (pl_pc s) w) as [c|] eqn:H; [|discriminate].
  assert (Hw : w < length (pl_pc s)) by (apply nth_error_Some; congruence).
  rewrite nth_error_app1, H by auto.
  destruct c; unfold pop_own, acquire, set_pc, set_lock, set_main, set_q, set_stat, add_done, q_of, ext in *; cbn [pl_main pl_lock pl_q pl_pc pl_stat pl_notify pl_term pl_all pl_sub pl_done] in *; rewrite ?upd_app by auto.
  all: repeat (match type of E with
    | context [if ?b then _ else _] => destruct b
    | context [match ?x with [] => _ | _ :: _ => _ end] => destruct x
    | context [match ?x with Some _ => _ | None => _ end] => destruct x
    end; rewrite ?upd_app by auto); try discriminate; injection E as <-; reflexivity.
Qed.

Lemma ext_step s l e s' : (forall c, In c l -> wake c = c) ->
  (exists w, e = Step w) \/ (exists w, e = Spurious w) \/ e = SetTerm \/ e = NotifyAll ->
  pool_step s e = Some s' -> pool_step (ext s l) e = Some (ext s' l).
Proof.
  intros Hl K E. destruct K as [(w & ->)|[(w & ->)|[->| ->]]]; cbn [pool_step] in *.
  - apply ext_worker. auto.
  - change (pl_pc (ext s l)) with (pl_pc s ++ l). destruct (nth_error (pl_pc s) w) as [c|] eqn:H; [|discriminate].
    assert (Hw : w < length (pl_pc s)) by (apply nth_error_Some; congruence).
    rewrite nth_error_app1, H by auto. destruct c; try discriminate. injection E as <-. unfold set_pc, ext. cbn [pl_main pl_lock pl_q pl_pc pl_stat pl_notify pl_term pl_all pl_sub pl_done]. rewrite upd_app by auto. reflexivity.
  - unfold ext in *. cbn [pl_main pl_lock pl_q pl_pc pl_stat pl_notify pl_term pl_all pl_sub pl_done]. destruct (pl_term s); [discriminate|]. injection E as <-. reflexivity.
  - unfold ext in *. cbn [pl_main pl_lock pl_q pl_pc pl_stat pl_notify pl_term pl_all pl_sub pl_done]. destruct (pl_all s); [|discriminate]. injection E as <-. cbn [pl_main pl_lock pl_q pl_pc pl_stat pl_notify pl_term pl_all pl_sub pl_done]. rewrite map_app.
    replace (map wake l) with l; [reflexivity|]. symmetry. rewrite <- (map_id l) at 2. apply map_ext_in. auto.
Qed.

(** How steps of the constructor look in the pool with all workers. *)
Definition as_event (e : cevent) : list event :=
  match e with CSpawn => [] | CThrow => [SetTerm] | CNotify => [NotifyAll] | CStep w => [Step w] | CSpurious w => [Spurious w] end.
Definition rest (c : ctor) : nat := ct_num c - length (pl_pc (ct_pool c)).

Lemma exec_app s es1 s1 es2 s2 : pool_exec s es1 s1 -> pool_exec s1 es2 s2 -> pool_exec s (es1 ++ es2) s2.
Proof. induction 1; simpl; auto. intros. econstructor; eauto. Qed.
Lemma exec_one s e s' : pool_step s e = Some s' -> pool_exec s [e] s'.
Proof. intros. econstructor; eauto. constructor. Qed.

Lemma step_len s e s' : pool_step s e = Some s' -> length (pl_pc s') = length (pl_pc s).
Proof.
  destruct e as [t|w| |w|w| |]; cbn [pool_step]; intros E.
  - destruct (pl_lock s); [discriminate|]. destruct (pl_term s); [discriminate|]. injection E as <-. reflexivity.
  - match type of E with (if ?b then _ else _) = _ => destruct b; [injection E as <-; apply upd_length|discriminate] end.
  - match type of E with (if ?b then _ else _) = _ => destruct b; [injection E as <-; reflexivity|discriminate] end.
  - unfold worker_step, acquire, pop_own in E. destruct (nth_error (pl_pc s) w) as [c|]; [|discriminate].
    destruct c; repeat match type of E with
    | context [if ?b then _ else _] => destruct b
    | context [match ?x with [] => _ | _ :: _ => _ end] => destruct x
    | context [match ?x with Some _ => _ | None => _ end] => destruct x
    end; try discriminate; injection E as <-; unfold set_pc; cbn [pl_pc]; rewrite upd_length; reflexivity.
  - destruct (nth_error (pl_pc s) w) as [[]|]; try discriminate. injection E as <-. apply upd_length.
  - destruct (pl_term s); [discriminate|]. injection E as <-. reflexivity.
  - destruct (pl_all s); [|discriminate]. injection E as <-. apply map_length.
Qed.

Lemma wake_rep p n c : wake p = p -> In c (repeat p n) -> wake c = c.
Proof. intros H I. apply repeat_spec in I. congruence. Qed.

Lemma ctor_sim p c e c1 : wake p = p -> (e = CSpawn -> p = WTest) -> ctor_step c e = Some c1 ->
  ct_num c1 = ct_num c /\ pool_exec (ext (ct_pool c) (repeat p (rest c))) (as_event e) (ext (ct_pool c1) (repeat p (rest c1))).
Proof.
  intros Hp Hs E. unfold rest. destruct e as [| | |w|w]; cbn [ctor_step as_event] in *.
  - destruct (ct_failed c || _) eqn:B; [discriminate|]. apply orb_false_elim in B as [_ B]. apply Nat.leb_gt in B. injection E as <-. split; auto. cbn [ct_num ct_pool].
    rewrite (Hs eq_refl). unfold ext at 2. cbn [pl_main pl_lock pl_q pl_pc pl_stat pl_notify pl_term pl_all pl_sub pl_done]. rewrite app_length. cbn [length].
    replace (ct_num c - length (pl_pc (ct_pool c))) with (S (ct_num c - (length (pl_pc (ct_pool c)) + 1))) by lia. rewrite <- app_assoc. constructor.
  - destruct (ct_failed c || _) eqn:B; [discriminate|]. destruct (pool_step (ct_pool c) SetTerm) as [s|] eqn:Q; [|discriminate]. injection E as <-. split; auto. cbn [ct_num ct_pool].
    rewrite (step_len _ _ _ Q). apply exec_one, ext_step; auto. intros x; apply wake_rep; auto.
  - destruct (pool_step (ct_pool c) NotifyAll) as [s|] eqn:Q; [|discriminate]. injection E as <-. split; auto. cbn [ct_num ct_pool].
    rewrite (step_len _ _ _ Q). apply exec_one, ext_step; auto. intros x; apply wake_rep; auto.
  - destruct (pool_step (ct_pool c) (Step w)) as [s|] eqn:Q; [|discriminate]. injection E as <-. split; auto. cbn [ct_num ct_pool].
    rewrite (step_len _ (Step w) _ Q). apply exec_one, ext_step; eauto. intros x; apply wake_rep; auto.
  - destruct (pool_step (ct_pool c) (Spurious w)) as [s|] eqn:Q; [|discriminate]. injection E as <-. split; auto. cbn [ct_num ct_pool].
    rewrite (step_len _ (Spurious w) _ Q). apply exec_one, ext_step; eauto. intros x; apply wake_rep; auto.
Qed.

Lemma ctor_simulates c es c' : ctor_exec c es c' -> ct_num c' = ct_num c /\
  pool_exec (ext (ct_pool c) (repeat WTest (rest c))) (flat_map as_event es) (ext (ct_pool c') (repeat WTest (rest c'))).
Proof.
  induction 1 as [|c e c1 es c2 E _ IH]; [split; auto; constructor|]. destruct (ctor_sim WTest _ _ _ eq_refl (fun _ => eq_refl) E) as (A & B).
  destruct IH as (C & D). split; [congruence|]. cbn [flat_map]. eapply exec_app; eauto.
Qed.

Lemma enter_ext num : ext (ct_pool (ctor_enter num)) (repeat WTest (rest (ctor_enter num))) = pool_make num.
Proof. unfold ext, rest, ctor_enter, pool_make. cbn [ct_pool ct_num pl_main pl_lock pl_q pl_pc pl_stat pl_notify pl_term pl_all pl_sub pl_done length app]. rewrite Nat.sub_0_r. reflexivity. Qed.

Lemma ext_nil s : ext s [] = s.
Proof. unfold ext. rewrite app_nil_r. destruct s; reflexivity. Qed.

Lemma returned_pool num es c : ctor_exec (ctor_enter num) es c -> ctor_returned c ->
  exists es', pool_exec (pool_make num) es' (ct_pool c) /\ submitted es' = [].
Proof.
  intros X (_ & L). destruct (ctor_simulates _ _ _ X) as (N & P). rewrite enter_ext in P. unfold rest in P. rewrite L, Nat.sub_diag in P. cbn [repeat] in P. rewrite ext_nil in P.
  exists (flat_map as_event es). split; auto. clear. unfold submitted. induction es as [|e es IH]; auto. cbn [flat_map]. rewrite flat_map_app, IH. destruct e; reflexivity.
Qed.

Lemma no_tasks num es c : ctor_exec (ctor_enter num) es c ->
  pl_done (ct_pool c) = [] /\ pl_main (ct_pool c) = [] /\ concat (pl_q (ct_pool c)) = [] /\ flat_map held (pl_pc (ct_pool c)) = [].
Proof.
  intros X. destruct (ctor_simulates _ _ _ X) as (N & P). rewrite enter_ext in P. apply exactly_once in P as (P & _).
  replace (submitted (flat_map as_event es)) with (@nil nat) in P
    by (clear; unfold submitted; induction es as [|e es IH]; auto; cbn [flat_map]; rewrite flat_map_app, <- IH; destruct e; reflexivity).
  apply Permutation_nil in P. unfold ext in P. cbn [pl_main pl_q pl_pc pl_done] in P. rewrite flat_map_app in P.
  repeat (apply app_eq_nil in P as [? P]). repeat match goal with H : _ ++ _ = [] |- _ => apply app_eq_nil in H as [? ?] end. auto.
Qed.

(** ** A thread cannot be created *)
Lemma failed_stays c es c' : ctor_exec c es c' -> ct_failed c = true -> ct_failed c' = true /\ ~ In CSpawn es /\ ~ In CThrow es.
Proof.
  induction 1 as [|c e c1 es c2 E _ IH]; intros F; [simpl; tauto|]. destruct e; cbn [ctor_step] in E; rewrite ?F in E; try discriminate.
  all: unfold option_map in E; match type of E with match ?x with _ => _ end = _ => destruct x; [|discriminate] end; injection E as <-;
    destruct (IH ltac:(first [exact F | reflexivity])) as (A & B & C); repeat split; auto; simpl; intros [Q|Q]; try discriminate; auto.
Qed.

Lemma ctor_sim_done c es c' : ctor_exec c es c' -> ct_failed c = true ->
  pool_exec (ext (ct_pool c) (repeat WDone (rest c))) (flat_map as_event es) (ext (ct_pool c') (repeat WDone (rest c'))).
Proof.
  induction 1 as [|c e c1 es c2 E X IH]; intros F; [constructor|].
  assert (F1 : ct_failed c1 = true) by (apply (failed_stays c [e] c1); auto; econstructor; eauto; constructor).
  assert (NS : e <> CSpawn) by (intros ->; cbn [ctor_step] in E; rewrite F in E; discriminate).
  destruct (ctor_sim WDone _ _ _ eq_refl (fun H => False_ind _ (NS H)) E) as (A & B). cbn [flat_map]. eapply exec_app; eauto.
Qed.

(** The threads that were never created leave their loops at once. *)
Lemma drain s m k : pl_term s = true -> exists es, length es = m /\ (forall e, In e es -> internal e = true) /\
  pool_exec (ext s (repeat WDone k ++ repeat WTest m)) es (ext s (repeat WDone (k + m))).
Proof.
  intros T. revert k. induction m as [|m IH]; intros k.
  - exists []. cbn. rewrite app_nil_r, Nat.add_0_r. split; auto. split; [tauto|constructor].
  - destruct (IH (S k)) as (es & L & I & X). exists (Step (length (pl_pc s) + k) :: es). split; [simpl; auto|]. split; [intros e [<-|H]; auto|].
    econstructor; [|replace (k + S m) with (S k + m) by lia; exact X].
    cbn [pool_step]. unfold worker_step. unfold ext at 1. cbn [pl_pc]. rewrite nth_error_app2 by lia. rewrite nth_error_app2 by (rewrite repeat_length; lia).
    rewrite repeat_length. replace (length (pl_pc s) + k - length (pl_pc s) - k) with 0 by lia. cbn [repeat nth_error].
    unfold ext at 1. cbn [pl_term]. rewrite T. f_equal. unfold set_pc, ext. cbn [pl_main pl_lock pl_q pl_pc pl_stat pl_notify pl_term pl_all pl_sub pl_done]. rewrite ?T. f_equal.
    clear. generalize (pl_pc s) as v. intros v. rewrite app_assoc.
    assert (U : forall (a : list pc) x b y, upd (a ++ x :: b) (length a) y = a ++ y :: b) by (induction a; simpl; intros; auto; f_equal; auto).
    replace (length v + k) with (length (v ++ repeat WDone k)) by (rewrite app_length, repeat_length; auto). rewrite U, <- app_assoc. f_equal.
    change (repeat WDone (S k)) with (WDone :: repeat WDone k). rewrite repeat_cons, <- app_assoc. reflexivity.
Qed.

Lemma nth_ext_some s l w c : nth_error (pl_pc s) w = Some c -> nth_error (pl_pc (ext s l)) w = Some c.
Proof. intros H. unfold ext. cbn [pl_pc]. rewrite nth_error_app1; auto. apply nth_error_Some. congruence. Qed.

Lemma no_notify num es c : ctor_exec (ctor_enter num) es c -> pl_notify (ct_pool c) = 0.
Proof.
  assert (G : forall c es c', ctor_exec c es c' -> pl_notify (ct_pool c) = 0 -> pl_notify (ct_pool c') = 0).
  { induction 1 as [|x e x1 es' x2 E _ IH]; auto. intros Z. apply IH. clear IH. destruct e; cbn [ctor_step] in E.
    - destruct (_ || _); [discriminate|]. injection E as <-. auto.
    - destruct (_ || _); [discriminate|]. cbn [pool_step] in E. destruct (pl_term (ct_pool x)); [discriminate|]. injection E as <-. auto.
    - cbn [pool_step] in E. destruct (pl_all (ct_pool x)); [|discriminate]. injection E as <-. auto.
    - cbn [pool_step] in E. destruct (worker_step (ct_pool x) w) as [s'|] eqn:Q; [|discriminate]. injection E as <-. cbn [ct_pool]. rewrite <- Z.
      unfold worker_step, acquire, pop_own in Q. destruct (nth_error (pl_pc (ct_pool x)) w) as [p|]; [|discriminate].
      destruct p; repeat match type of Q with
      | context [if ?b then _ else _] => destruct b
      | context [match ?y with [] => _ | _ :: _ => _ end] => destruct y
      | context [match ?y with Some _ => _ | None => _ end] => destruct y
      end; try discriminate; injection Q as <-; reflexivity.
    - cbn [pool_step] in E. destruct (nth_error (pl_pc (ct_pool x)) w) as [[]|]; try discriminate. injection E as <-. auto. }
  intros X. eapply G; eauto.
Qed.

Definition is_spurious (e : cevent) : bool := match e with CSpurious _ => true | _ => false end.

Lemma clean_failure num es c c1 : ctor_exec (ctor_enter num) es c ->
  (forall w, nth_error (pl_pc (ct_pool c)) w <> Some WGoSleep) -> ctor_step c CThrow = Some c1 ->
  exists bound, forall es' c', ctor_exec c1 es' c' ->
    length es' <= bound + 18 * length (filter is_spurious es') /\ (ctor_stuck c' -> ctor_left c').
Proof.
  intros X NG E. pose proof (ctor_simulates _ _ _ X) as (N & P). rewrite enter_ext in P.
  assert (X1 : ctor_exec (ctor_enter num) (es ++ [CThrow]) c1).
  { clear - X E. induction X; simpl; [econstructor; eauto; constructor|econstructor; eauto]. }
  pose proof (ctor_sim WTest _ _ _ eq_refl (fun _ => eq_refl) E) as (_ & P1). cbn [as_event] in P1.
  assert (ST : pool_step (ext (ct_pool c) (repeat WTest (rest c))) SetTerm = Some (ext (ct_pool c1) (repeat WTest (rest c1)))).
  { inversion P1 as [|? ? q ? ? Q1 Q2]; subst. inversion Q2; subst. auto. }
  assert (F1 : ct_failed c1 = true /\ pl_term (ct_pool c1) = true).
  { cbn [ctor_step pool_step] in E. destruct (_ || _); [discriminate|]. destruct (pl_term (ct_pool c)); [discriminate|]. injection E as <-. auto. }
  destruct F1 as (F1 & T1).
  assert (NG2 : forall w, nth_error (pl_pc (ext (ct_pool c) (repeat WTest (rest c)))) w <> Some WGoSleep).
  { intros w H. unfold ext in H. cbn [pl_pc] in H. destruct (Nat.lt_ge_cases w (length (pl_pc (ct_pool c)))) as [L|L].
    - rewrite nth_error_app1 in H by auto. apply (NG w H).
    - rewrite nth_error_app2 in H by auto. apply nth_error_In, repeat_spec in H. discriminate. }
  destruct (shutdown num _ _ _ P NG2 ST) as (bound & B).
  exists bound. intros es' c' X'. pose proof (ctor_sim_done _ _ _ X' F1) as P'.
  destruct (drain (ct_pool c1) (rest c1) 0 T1) as (dr & Ld & Id & D). cbn [repeat app Nat.add] in D.
  destruct (failed_stays _ _ _ X' F1) as (F' & NS & NT).
  destruct (B (dr ++ flat_map as_event es') _ (exec_app _ _ _ _ _ D P')) as (B1 & B2).
  { intros e H. apply in_app_iff in H as [H|H]; [left; auto|]. apply in_flat_map in H as (x & Hx & He). destruct x; cbn [as_event In] in He; try tauto; destruct He as [<-|[]]; auto. }
  assert (LE : length (flat_map as_event es') = length es' /\ length (filter spurious (flat_map as_event es')) = length (filter is_spurious es')).
  { clear - NS. induction es' as [|e l IH]; auto. destruct IH as (I1 & I2); [intros H; apply NS; right; auto|].
    destruct e; cbn [flat_map as_event app length filter spurious is_spurious]; rewrite ?I1, ?I2; auto. exfalso. apply NS. left. auto. }
  destruct LE as (L1 & L2). rewrite app_length, L1, filter_app, app_length, L2 in B1.
  assert (Z : filter spurious dr = []).
  { clear - Id. induction dr as [|e l IH]; auto. cbn [filter]. pose proof (Id e (or_introl eq_refl)) as Q. destruct e; try discriminate Q; cbn [spurious]; apply IH; intros; apply Id; right; auto. }
  rewrite Z in B1. cbn [length] in B1. split; [lia|].
  intros (S1 & S2).
  assert (NA : pl_all (ct_pool c') = false).
  { cbn [ctor_step pool_step] in S1. destruct (pl_all (ct_pool c')); auto. discriminate. }
  assert (NN : pl_notify (ct_pool c') = 0).
  { apply (no_notify num ((es ++ [CThrow]) ++ es')). clear - X1 X'. revert X1. generalize (es ++ [CThrow]) as l. intros l X1. induction X1; simpl; auto. econstructor; eauto. }
  split; auto. split; auto. intros w p Hp. apply (B2) with (w := w); [|apply nth_ext_some; auto].
  intros e He. destruct e as [t|v| |v|v| |]; try discriminate He; cbn [pool_step].
  - unfold ext at 1. cbn [pl_notify]. rewrite NN. reflexivity.
  - unfold ext at 1. cbn [pl_notify]. rewrite NN. reflexivity.
  - specialize (S2 v). cbn [ctor_step pool_step] in S2. destruct (worker_step (ct_pool c') v) as [q|] eqn:Q; [discriminate|]. clear S2.
    unfold worker_step in Q |- *. unfold ext at 1 2. cbn [pl_pc pl_q]. destruct (nth_error (pl_pc (ct_pool c')) v) as [x|] eqn:Hx.
    + rewrite nth_error_app1, Hx by (apply nth_error_Some; congruence). destruct x; try discriminate Q; auto; unfold acquire in *; unfold ext at 1; cbn [pl_lock]; destruct (pl_lock (ct_pool c')); auto; discriminate.
    + rewrite nth_error_app2 by (apply nth_error_None; auto). destruct (nth_error (repeat WDone (rest c')) (v - length (pl_pc (ct_pool c')))) as [y|] eqn:Hy; auto.
      apply nth_error_In, repeat_spec in Hy. subst y. auto.
  - unfold ext at 1. cbn [pl_all]. rewrite NA. reflexivity.
Qed.

Lemma failure_hangs : exists num es c w, ctor_exec (ctor_enter num) es c /\ In CThrow es /\ In CNotify es /\
  ctor_stuck c /\ nth_error (pl_pc (ct_pool c)) w = Some WSleep.
Proof.
  exists 2, ([CSpawn] ++ repeat (CStep 0) 8 ++ [CThrow; CNotify; CStep 0]). eexists. exists 0.
  split; [|split; [|split; [|split]]].
  - cbn [app repeat]. repeat (eapply ce_cons; [vm_compute; reflexivity|]). constructor.
  - cbn. tauto.
  - cbn. tauto.
  - split; [reflexivity|]. intros w. destruct w as [|w]; [reflexivity|]. cbn. destruct w; reflexivity.
  - reflexivity.
Qed.

(** ** After the flag has been set *)
Definition busy (c : pc) : nat :=
  match c with WPop | WLockMain | WCheck | WBatch _ | WPop2 | WSteal _ | WStole _ | WRun _ => 1 | _ => 0 end.
Definition busy_all (s : pool) : nat := list_sum (map busy (pl_pc s)).

Lemma busy_upd v w c d : nth_error v w = Some c -> list_sum (map busy (upd v w d)) + busy c = list_sum (map busy v) + busy d.
Proof.
  revert w; induction v as [|x v IH]; intros w H; [destruct w; discriminate|]. destruct w; cbn [nth_error upd map list_sum fold_right] in *.
  - injection H as ->. unfold list_sum. lia.
  - specialize (IH w H). unfold list_sum in *. cbn [fold_right]. lia.
Qed.

Lemma term_step s e s' : pool_step s e = Some s' -> pl_term s = true ->
  pl_term s' = true /\ length (pl_done s') + busy_all s' <= length (pl_done s) + busy_all s.
Proof.
  intros E T. unfold busy_all. destruct e as [t|w| |w|w| |]; cbn [pool_step] in E.
  - rewrite T in E. destruct (pl_lock s); discriminate.
  - destruct (0 <? pl_notify s); [|discriminate]. cbn [andb] in E. destruct (nth_error (pl_pc s) w) as [c|] eqn:H; [|discriminate].
    destruct (asleep c) eqn:A; [|discriminate]. injection E as <-. cbn [pl_term pl_done pl_pc]. split; auto. pose proof (busy_upd _ _ _ WWoken H). destruct c; try discriminate A. cbn [busy] in *. lia.
  - destruct (_ && _); [|discriminate]. injection E as <-. auto.
  - unfold worker_step in E. destruct (nth_error (pl_pc s) w) as [c|] eqn:H; [|discriminate].
    pose proof (fun d => busy_upd _ _ _ d H) as U.
    destruct c; cbn [busy] in U; unfold acquire, pop_own in E; rewrite ?T in E; repeat match type of E with
    | context [if ?b then _ else _] => destruct b
    | context [match ?x with [] => _ | _ :: _ => _ end] => destruct x
    | context [match ?x with Some _ => _ | None => _ end] => destruct x
    end; try discriminate; injection E as <-; unfold set_pc, set_lock, set_q, set_main, set_stat, add_done; cbn [pl_term pl_done pl_pc]; (split; [exact T|]);
    rewrite ?app_length; cbn [length]; match goal with |- context [upd _ _ ?d] => specialize (U d); cbn [busy] in U; lia end.
  - destruct (nth_error (pl_pc s) w) as [c|] eqn:H; [|discriminate]. destruct c; try discriminate. injection E as <-. split; [exact T|]. unfold set_pc. cbn [pl_done pl_pc]. pose proof (busy_upd _ _ _ WWoken H). cbn [busy] in *. lia.
  - rewrite T in E. discriminate.
  - destruct (pl_all s); [|discriminate]. injection E as <-. cbn [pl_term pl_done pl_pc]. split; auto. apply Nat.add_le_mono_l. clear. induction (pl_pc s) as [|c l IH]; auto.
    cbn [map]. unfold list_sum in *. cbn [fold_right]. assert (busy (wake c) = busy c) by (destruct c; auto). lia.
Qed.

Lemma term_tasks s es s' : pool_exec s es s' -> pl_term s = true -> length (pl_done s') <= length (pl_done s) + length (pl_pc s).
Proof.
  intros X T. assert (G : length (pl_done s') + busy_all s' <= length (pl_done s) + busy_all s).
  { revert T. induction X as [|s e s1 es s2 E X IH]; auto. intros T. destruct (term_step _ _ _ E T) as (T1 & L). specialize (IH T1). lia. }
  assert (B : busy_all s <= length (pl_pc s)).
  { unfold busy_all. clear. induction (pl_pc s) as [|c l IH]; auto. cbn [map length]. unfold list_sum in *. cbn [fold_right]. assert (busy c <= 1) by (destruct c; cbn; auto). lia. }
  lia.
Qed.

Lemma table_early : exists num es s es' s' w, pool_exec (pool_make num) es s /\ In NotifyAll es /\
  pool_exec s es' s' /\ (forall v c, nth_error (pl_pc s') v = Some c -> c = WDone) /\
  map printed (pl_stat s) = [(0, 0, 0, 0)] /\ map printed (pl_stat s') = [(1, 1, 0, 0)] /\ pl_done s' = [w].
Proof.
  exists 1, [Submit 5; Step 0; SetTerm; NotifyAll]. eexists. exists (repeat (Step 0) 8). eexists. exists 5.
  split; [repeat (eapply pe_cons; [vm_compute; reflexivity|]); constructor|].
  split; [cbn; tauto|].
  split; [cbn [repeat]; repeat (eapply pe_cons; [vm_compute; reflexivity|]); constructor|].
  split; [|split; [reflexivity|split; reflexivity]].
  intros [|v] c H; [injection H as <-; reflexivity|]. destruct v; discriminate.
Qed.
