(** Example executions of threads using the pool, used by PropPoolUse. *)
From Coq Require Import List Arith Lia Bool.
From Verif Require Import Base PoolM PoolProofs PoolUseM SpecPoolUse PoolUseProofs.
Import ListNotations.

Lemma usage_run_exec tk es : forall u u', usage_run tk u es = Some u' -> usage_exec tk u es u'.
Proof.
  induction es as [|e es IH]; intros u u' H; cbn [usage_run] in H; [injection H as <-; constructor|].
  destruct (usage_step tk u e) as [u1|] eqn:E; [|discriminate]. econstructor; eauto.
Qed.

(** A scheduler that always takes the first possible event of a list. *)
Fixpoint pick (tk : list (list act)) (u : usage) (es : list uevent) : option (uevent * usage) :=
  match es with
  | [] => None
  | e :: r => match usage_step tk u e with Some u1 => Some (e, u1) | None => pick tk u r end
  end.
Fixpoint auto_run (tk : list (list act)) (order : list uevent) (fuel : nat) (u : usage) : list uevent * usage :=
  match fuel with
  | O => ([], u)
  | S f => match pick tk u order with
           | Some (e, u1) => let r := auto_run tk order f u1 in (e :: fst r, snd r)
           | None => ([], u)
           end
  end.
Lemma pick_step tk u es e u1 : pick tk u es = Some (e, u1) -> usage_step tk u e = Some u1.
Proof.
  induction es as [|a r IH]; cbn [pick]; [discriminate|]. destruct (usage_step tk u a) as [x|] eqn:E; auto.
  intros H. injection H as <- <-. auto.
Qed.
Lemma auto_exec tk order f : forall u, usage_exec tk u (fst (auto_run tk order f u)) (snd (auto_run tk order f u)).
Proof.
  induction f as [|f IH]; intros u; cbn [auto_run]; [constructor|].
  destruct (pick tk u order) as [[e u1]|] eqn:E; [|constructor]. cbn [fst snd]. econstructor; [eapply pick_step; eauto|apply IH].
Qed.

Definition all_events (no ni : nat) : list uevent :=
  map UOut (seq 0 no) ++ map UNotify (seq 0 ni) ++ [UNotifyNone] ++ map UStep (seq 0 ni) ++ map UIn (seq 0 ni).
Lemma stuck_check tk u : pick tk u (all_events (length (us_out u)) (length (pl_pc (us_pool u)))) = None -> ustuck tk u.
Proof.
  intros H. assert (A : forall e, In e (all_events (length (us_out u)) (length (pl_pc (us_pool u)))) -> usage_step tk u e = None).
  { revert H. generalize (all_events (length (us_out u)) (length (pl_pc (us_pool u)))). intros es. induction es as [|a r IH]; cbn [pick]; intros H e He; [destruct He|].
    destruct (usage_step tk u a) eqn:E; [discriminate|]. destruct He as [<-|He]; auto. }
  unfold all_events in A. intros e He. destruct e as [i|w|w|w| |w]; try discriminate He.
  - destruct (nth_error (us_out u) i) eqn:Hi; [|cbn [usage_step]; rewrite Hi; auto].
    apply A. apply in_or_app. left. apply in_map. apply in_seq. split; [lia|]. apply nth_error_Some. congruence.
  - destruct (nth_error (pl_pc (us_pool u)) w) eqn:Hi; [|cbn [usage_step]; rewrite Hi; auto].
    apply A. do 4 (apply in_or_app; right). apply in_map. apply in_seq. split; [lia|]. apply nth_error_Some. congruence.
  - destruct (nth_error (pl_pc (us_pool u)) w) eqn:Hi; [|cbn [usage_step pool_step]; unfold worker_step; rewrite Hi; auto].
    apply A. do 3 (apply in_or_app; right). apply in_or_app. left. apply in_map. apply in_seq. split; [lia|]. apply nth_error_Some. congruence.
  - destruct (nth_error (pl_pc (us_pool u)) w) eqn:Hi.
    + apply A. apply in_or_app. right. apply in_or_app. left. apply in_map. apply in_seq. split; [lia|]. apply nth_error_Some. congruence.
    + cbn [usage_step]. unfold lift. cbn [pool_step]. rewrite Hi. destruct (0 <? pl_notify (us_pool u)); auto.
  - apply A. apply in_or_app. right. apply in_or_app. right. left. auto.
Qed.

(** Eight tasks, each of which interpolates: it queues a task and waits for
    it.  All workers are taken by the eight. *)
Definition nest_tasks : list (list act) := map (fun i => call_script [[8 + i]]) (seq 0 8) ++ repeat [AWork true] 8.
Definition nest_scripts : list (list act) := [call_script [seq 0 8]].
Definition nest_end : usage := snd (auto_run nest_tasks (all_events 1 8) 300 (usage_make 8 nest_scripts)).
Lemma nested_waits : exists tk scripts es u,
  (forall l, In l tk -> own_futures [] l) /\ (forall l, In l scripts -> own_futures [] l) /\
  usage_exec tk (usage_make 8 scripts) es u /\ (forall e, usage_step tk u e = None) /\ ~ all_finished u.
Proof.
  exists nest_tasks, nest_scripts, (fst (auto_run nest_tasks (all_events 1 8) 300 (usage_make 8 nest_scripts))), nest_end.
  split; [|split; [|split; [|split]]].
  - intros l [H|H]%in_app_or; [apply in_map_iff in H as (i & <- & _); apply call_own|apply repeat_spec in H as ->; cbn; auto].
  - intros l [<-|[]]. apply call_own.
  - exact (auto_exec nest_tasks (all_events 1 8) 300 (usage_make 8 nest_scripts)).
  - intros e. destruct (uspurious e) eqn:Q.
    + destruct e; try discriminate. do 8 (destruct w as [|w]; [vm_compute; reflexivity|]).
      assert (L : length (pl_pc (us_pool nest_end)) = 8) by (vm_compute; reflexivity).
      assert (N : nth_error (pl_pc (us_pool nest_end)) (S (S (S (S (S (S (S (S w)))))))) = None) by (apply nth_error_None; rewrite L; lia).
      revert N. generalize nest_end. intros u N. cbn [usage_step]. unfold lift. cbn [pool_step]. rewrite N. reflexivity.
    + revert e Q. apply stuck_check. vm_compute. reflexivity.
  - intros H. specialize (H 0 (map AGet (seq 0 8), false)). assert (E : nth_error (us_out nest_end) 0 = Some (map AGet (seq 0 8), false)) by (vm_compute; reflexivity).
    specialize (H E). discriminate H.
Qed.

(** The first of two tasks throws; the caller leaves with its exception while
    the second has not begun. *)
Definition left_tasks : list (list act) := [[AWork false]; [AWork true]].
Definition left_scripts : list (list act) := [call_script [[0; 1]]].
Definition left_order : list uevent := [UOut 0; UStep 0; UStep 1; UIn 1].
Definition left_end : usage := snd (auto_run left_tasks left_order 30 (usage_make 8 left_scripts)).
Lemma left_behind : exists tk rounds es u t w rest threw,
  (forall l, In l tk -> leaf l) /\ usage_exec tk (usage_make 8 [call_script rounds]) es u /\
  nth_error (us_out u) 0 = Some ([], true) /\ In (AQueue t) (call_script rounds) /\
  nth_error (pl_pc (us_pool u)) w = Some (WRun t) /\ nth_error (us_in u) w = Some (rest, threw) /\ rest <> [].
Proof.
  exists left_tasks, [[0; 1]], (fst (auto_run left_tasks left_order 30 (usage_make 8 left_scripts))), left_end, 1, 0, [AWork true], false.
  split; [|split; [|split; [|split; [|split; [|split]]]]].
  - intros l [<-|[<-|[]]] a [<-|[]]; eauto.
  - exact (auto_exec left_tasks left_order 30 (usage_make 8 left_scripts)).
  - vm_compute. reflexivity.
  - cbn. auto.
  - vm_compute. reflexivity.
  - vm_compute. reflexivity.
  - discriminate.
Qed.

(** Two threads outside, four tasks. *)
Definition two_tasks : list (list act) := [[AWork true; AWork true]; [AWork true]; [AWork true]; [AWork false]].
Definition two_scripts : list (list act) := [call_script [[0; 1]; [2]]; call_script [[3]]].
Definition two_end : usage := snd (auto_run two_tasks (all_events 2 8) 2000 (usage_make 8 two_scripts)).
Lemma two_run : usage_exec two_tasks (usage_make 8 two_scripts) (fst (auto_run two_tasks (all_events 2 8) 2000 (usage_make 8 two_scripts))) two_end.
Proof. exact (auto_exec two_tasks (all_events 2 8) 2000 (usage_make 8 two_scripts)). Qed.
Lemma two_leaf : forall l, In l two_tasks -> leaf l.
Proof. intros l [<-|[<-|[<-|[<-|[]]]]] a; cbn; intros H; repeat destruct H as [<-|H]; try destruct H; eauto. Qed.
Lemma two_own : forall l, In l two_scripts -> own_futures [] l.
Proof. intros l [<-|[<-|[]]]; apply call_own. Qed.
Lemma two_stuck : ustuck two_tasks two_end /\ us_out two_end = [([], false); ([], true)] /\ us_bad two_end = [3].
Proof. split; [apply stuck_check; vm_compute; reflexivity|]. vm_compute. auto. Qed.
Lemma two_distinct : NoDup (concat (map queued two_scripts)).
Proof. vm_compute. repeat constructor; cbn; intuition discriminate. Qed.

(** The library's calls. *)
Lemma call_queued rounds t : In (AQueue t) (call_script rounds) <-> In t (concat rounds).
Proof.
  unfold call_script. induction rounds as [|ts r IH]; cbn [map concat]; [cbn; tauto|]. rewrite !in_app_iff, IH. split.
  - intros [[H|[[H|[]]|H]]|H]; auto; try discriminate; apply in_map_iff in H as (? & E & H); [injection E as <-; auto|discriminate].
  - intros [H|H]; auto. left. left. apply in_map. auto.
Qed.
Lemma call_get rounds t : In (AGet t) (call_script rounds) <-> In t (concat rounds).
Proof.
  unfold call_script. induction rounds as [|ts r IH]; cbn [map concat]; [cbn; tauto|]. rewrite !in_app_iff, IH. split.
  - intros [[H|[[H|[]]|H]]|H]; auto; try discriminate; apply in_map_iff in H as (? & E & H); [discriminate|injection E as <-; auto].
  - intros [H|H]; auto. left. right. right. apply in_map. auto.
Qed.
Lemma queued_app a b : queued (a ++ b) = queued a ++ queued b.
Proof. apply flat_map_app. Qed.
Lemma queued_gets ts : queued (map AGet ts) = [].
Proof. induction ts; cbn; auto. Qed.
Lemma queued_call rounds : queued (call_script rounds) = concat rounds.
Proof.
  unfold call_script. induction rounds as [|ts r IH]; cbn [map concat]; [reflexivity|]. rewrite !queued_app, IH, queued_map. cbn [app].
  change (queued (AWork true :: map AGet ts)) with (queued (map AGet ts)). rewrite queued_gets, app_nil_r. reflexivity.
Qed.

Lemma calls_end tk num calls es u : (forall l, In l tk -> leaf l) ->
  usage_exec tk (usage_make num (map call_script calls)) es u ->
  exists bound, forall es' u', usage_exec tk u es' u' ->
    length es' <= bound * (1 + length (filter uspurious es')) /\ (ustuck tk u' -> all_finished u').
Proof.
  intros LF X. assert (OF : forall l, In l (map call_script calls) -> own_futures [] l) by (intros l (r & <- & _)%in_map_iff; apply call_own).
  destruct (waits_ends tk num _ es u LF OF X) as (b & B).
  exists b. intros es' u' X'. destruct (B es' u' X') as [B1 B2]. split; auto. intros S. apply B2. auto.
Qed.

Lemma flat_concat (calls : list (list (list nat))) : concat (map (@concat nat) calls) = concat (concat calls).
Proof. induction calls as [|c r IH]; cbn [map concat]; [reflexivity|]. rewrite concat_app, IH. reflexivity. Qed.
Lemma calls_outcome tk num calls es u i rounds rest threw : (forall l, In l tk -> leaf l) -> NoDup (concat (concat calls)) ->
  usage_exec tk (usage_make num (map call_script calls)) es u ->
  nth_error calls i = Some rounds -> nth_error (us_out u) i = Some (rest, threw) ->
  (threw = true -> exists t, In t (concat rounds) /\ In (AWork false) (nth t tk [])) /\
  (threw = false -> rest = [] -> forall t, In t (concat rounds) -> In t (pl_done (us_pool u)) /\ ~ In t (us_bad u)).
Proof.
  intros LF ND X Hc Hi. destruct (exceptions tk num (map call_script calls) es u i (call_script rounds) rest threw) as [A B]; auto.
  - rewrite map_map, (map_ext _ (@concat nat) queued_call), flat_concat. exact ND.
  - rewrite nth_error_map, Hc. reflexivity.
  - split.
    + intros T. destruct (A T) as [C|(t & C & D)]; [exfalso; eapply call_calm; eauto|]. exists t. split; auto. apply call_get. auto.
    + intros F R t Ht. apply B; auto; [apply call_awaits|]. apply call_queued. auto.
Qed.
