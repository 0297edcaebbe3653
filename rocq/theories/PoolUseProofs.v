(** Threads waiting for tasks of the pool. *)
From Coq Require Import List Arith Lia Bool Permutation.
From Verif Require Import Base PoolM PoolProofs PoolTop PoolUseM SpecPoolUse.
Import ListNotations.

Lemma in_done_spec t l : in_done t l = true <-> In t l.
Proof.
  unfold in_done. rewrite existsb_exists. split.
  - intros (x & Hx & E). apply Nat.eqb_eq in E. now subst.
  - intros H. exists t. split; auto. apply Nat.eqb_refl.
Qed.

Section Use.
Context (tk : list (list act)).

(** Each step is at most one step of the pool. *)
Definition pool_same (s s' : pool) : Prop := s' = s \/ exists e, pool_step s e = Some s' /\ (internal e = true \/ spurious e = true \/ exists t, e = Submit t).

Lemma act_pool s bad th s' th' q : act_step s bad th = Some (s', th', q) ->
  (s' = s /\ q = []) \/ exists t, pool_step s (Submit t) = Some s' /\ q = [t].
Proof.
  destruct th as [[|[t|t|ok] r] x]; cbn [act_step]; intros H; try discriminate.
  - destruct (pool_step s (Submit t)) eqn:E; [|discriminate]. injection H as <- <- <-. right. exists t. auto.
  - destruct (in_done t (pl_done s)); [|discriminate]. injection H as <- <- <-. auto.
  - injection H as <- <- <-. auto.
Qed.

Lemma usage_pool u e u' : usage_step tk u e = Some u' -> pool_same (us_pool u) (us_pool u').
Proof.
  destruct e as [i|w|w|w| |w]; cbn [usage_step]; unfold lift; intros H.
  - destruct (nth_error (us_out u) i) as [th|]; [|discriminate].
    destruct (act_step _ _ th) as [[[s th'] q]|] eqn:A; [|discriminate]. injection H as <-.
    destruct (act_pool _ _ _ _ _ _ A) as [(-> & _)|(t & E & _)]; [left; auto|right; exists (Submit t); eauto].
  - destruct (nth_error (pl_pc (us_pool u)) w) as [[]|]; try discriminate. destruct (nth_error (us_in u) w) as [th|]; [|discriminate].
    destruct (act_step _ _ th) as [[[s th'] q]|] eqn:A; [|discriminate]. injection H as <-.
    destruct (act_pool _ _ _ _ _ _ A) as [(-> & _)|(t' & E & _)]; [left; auto|right; exists (Submit t'); eauto].
  - destruct (pool_step (us_pool u) (Step w)) as [s|] eqn:E; [|discriminate]. right. exists (Step w).
    assert (us_pool u' = s); [|subst s; auto].
    destruct (nth_error (pl_pc (us_pool u)) w) as [c|]; [destruct c|];
      try (destruct (nth w (us_in u) ([], false)) as [[|] ?]; [|discriminate]; injection H as <-; reflexivity);
      (destruct (nth_error (pl_pc s) w) as [c'|]; [destruct c'|]; injection H as <-; reflexivity).
  - destruct (pool_step (us_pool u) (Notify w)) as [s|] eqn:E; [|discriminate]. injection H as <-. right. exists (Notify w). auto.
  - destruct (pool_step (us_pool u) NotifyNone) as [s|] eqn:E; [|discriminate]. injection H as <-. right. exists NotifyNone. auto.
  - destruct (pool_step (us_pool u) (Spurious w)) as [s|] eqn:E; [|discriminate]. injection H as <-. right. exists (Spurious w). auto.
Qed.

Lemma worker_keeps s w s' : worker_step s w = Some s' -> pl_term s' = pl_term s /\ pl_sub s' = pl_sub s /\ (forall t, In t (pl_done s) -> In t (pl_done s')).
Proof.
  unfold worker_step. destruct (nth_error (pl_pc s) w) as [c|]; [|discriminate].
  destruct c; unfold acquire, pop_own; intros E; try discriminate E;
    try (destruct (pl_lock s); [discriminate|]); try injection E as <-;
    repeat match goal with |- context [match ?x with _ => _ end] => destruct x eqn:? end; cbn; auto.
  all: split; auto; split; auto; intros; apply in_or_app; auto.
Qed.
Lemma keeps s s' : pool_same s s' -> pl_term s = false -> pl_term s' = false /\ incl (pl_sub s) (pl_sub s') /\ incl (pl_done s) (pl_done s').
Proof.
  intros [->|(e & E & H)] Ht; [split; auto; split; apply incl_refl|].
  destruct e as [t|w| |w|w| |]; cbn [pool_step] in E.
  - destruct (pl_lock s); [discriminate|]. rewrite Ht in E. injection E as <-. cbn. split; auto. split; [apply incl_appl, incl_refl|apply incl_refl].
  - destruct ((0 <? pl_notify s) && _); [|discriminate]. injection E as <-. cbn. split; auto. split; apply incl_refl.
  - destruct ((0 <? pl_notify s) && _); [|discriminate]. injection E as <-. cbn. split; auto. split; apply incl_refl.
  - destruct (worker_keeps _ _ _ E) as (A & B & C). rewrite A, B. split; auto. split; [apply incl_refl|exact C].
  - destruct (nth_error (pl_pc s) w) as [[]|]; try discriminate. injection E as <-. cbn. split; auto. split; apply incl_refl.
  - exfalso. destruct H as [H|[H|(t & H)]]; discriminate.
  - destruct (pl_all s); [|discriminate]. injection E as <-. cbn. split; auto. split; apply incl_refl.
Qed.

Lemma same_Inv s s' : pool_same s s' -> Inv s -> Inv s'.
Proof. intros [->|(e & E & _)] I; auto. eapply Inv_step; eauto. Qed.
Lemma same_len s s' : pool_same s s' -> Inv s -> length (pl_q s') = length (pl_q s).
Proof.
  intros [->|(e & E & H)] I; auto. destruct e as [t|w| |w|w| |]; cbn [pool_step] in E.
  - destruct (pl_lock s); [discriminate|]. destruct (pl_term s); [discriminate|]. injection E as <-. reflexivity.
  - destruct ((0 <? pl_notify s) && _); [|discriminate]. injection E as <-. reflexivity.
  - destruct ((0 <? pl_notify s) && _); [|discriminate]. injection E as <-. reflexivity.
  - unfold worker_step in E. destruct (nth_error (pl_pc s) w) as [c|]; [|discriminate].
    destruct c; unfold acquire, pop_own in E; try discriminate E; try (destruct (pl_lock s); [discriminate|]); try injection E as <-;
    repeat match goal with |- context [match ?x with _ => _ end] => destruct x end; psimp; rewrite ?upd_length; auto.
  - destruct (nth_error (pl_pc s) w) as [[]|]; try discriminate. injection E as <-. reflexivity.
  - destruct (pl_term s); [discriminate|]. injection E as <-. reflexivity.
  - destruct (pl_all s); [|discriminate]. injection E as <-. reflexivity.
Qed.

(** ** Invariant *)
Record UInv (u : usage) : Prop := mkUInv {
  v_pool : Inv (us_pool u);
  v_term : pl_term (us_pool u) = false;
  v_in : length (us_in u) = length (pl_q (us_pool u));
  v_mine : length (us_mine u) = length (us_out u);
  v_leaf : (forall l, In l tk -> leaf l) -> forall w th, nth_error (us_in u) w = Some th -> leaf (fst th);
}.

Lemma UInv_make num scripts : UInv (usage_make num scripts).
Proof.
  constructor; cbn [usage_make us_pool us_in us_out us_mine].
  - apply Inv_make.
  - reflexivity.
  - rewrite map_length. apply (i_pc _ (Inv_make num)).
  - now rewrite !map_length.
  - intros _ w th H a Ha. rewrite nth_error_map in H. destruct (nth_error _ w); [|discriminate]. injection H as <-. destruct Ha.
Qed.

Lemma upd_len {A} (l : list A) i a : length (upd l i a) = length l.
Proof. apply upd_length. Qed.

Lemma leaf_step s bad th s' th' q : act_step s bad th = Some (s', th', q) -> leaf (fst th) -> leaf (fst th').
Proof.
  destruct th as [[|[t|t|ok] r] x]; cbn [act_step fst]; intros H L; try discriminate.
  - destruct (L (AQueue t) (or_introl eq_refl)); discriminate.
  - destruct (L (AGet t) (or_introl eq_refl)); discriminate.
  - injection H as _ <- _. destruct ok; cbn [fst]; intros a Ha; [apply L; right; auto|destruct Ha].
Qed.

Lemma UInv_step u e u' : UInv u -> usage_step tk u e = Some u' -> UInv u'.
Proof.
  intros [A1 A2 A3 A4 A5] E. pose proof (usage_pool u e u' E) as P. pose proof (same_Inv _ _ P A1) as I'.
  pose proof (same_len _ _ P A1) as L. destruct (keeps _ _ P A2) as (T & _ & _).
  assert (B : length (us_in u') = length (us_in u) /\ length (us_mine u') = length (us_mine u) /\ length (us_out u') = length (us_out u) /\
    ((forall l, In l tk -> leaf l) -> forall w th, nth_error (us_in u') w = Some th -> leaf (fst th))).
  { clear P I' L T A3 A4. destruct e as [i|w|w|w| |w]; cbn [usage_step] in E; unfold lift in E.
    - destruct (nth_error (us_out u) i) as [th|]; [|discriminate]. destruct (act_step _ _ th) as [[[s th'] q]|]; [|discriminate]. injection E as <-.
      cbn [us_in us_mine us_out]. rewrite !upd_length. auto.
    - destruct (nth_error (pl_pc (us_pool u)) w) as [[]|]; try discriminate. destruct (nth_error (us_in u) w) as [th|] eqn:Hn; [|discriminate].
      destruct (act_step _ _ th) as [[[s th'] q]|] eqn:A; [|discriminate]. injection E as <-. cbn [us_in us_mine us_out]. rewrite !upd_length. repeat split; auto.
      intros LF v tv Hv. rewrite nth_error_upd in Hv. destruct (v =? w); [|apply (A5 LF v); auto]. rewrite Hn in Hv. injection Hv as <-.
      eapply leaf_step; [exact A|]. apply (A5 LF w); auto.
    - destruct (pool_step (us_pool u) (Step w)) as [s|]; [|discriminate].
      assert (Gen : forall t, u' = mkUse s (us_out u) (upd (us_in u) w (nth t tk [], false)) (us_bad u) (us_mine u) ->
        length (us_in u') = length (us_in u) /\ length (us_mine u') = length (us_mine u) /\ length (us_out u') = length (us_out u) /\
        ((forall l, In l tk -> leaf l) -> forall w th, nth_error (us_in u') w = Some th -> leaf (fst th))).
      { intros t ->. cbn [us_in us_mine us_out]. rewrite upd_length. repeat split; auto. intros LF v tv Hv. rewrite nth_error_upd in Hv.
        destruct (v =? w); [|apply (A5 LF v); auto]. destruct (nth_error (us_in u) w); [|discriminate]. injection Hv as <-. cbn [fst].
        destruct (nth_in_or_default t tk []) as [H|H]; [apply LF; auto|]. rewrite H. intros a []. }
      destruct (nth_error (pl_pc (us_pool u)) w) as [c|]; [destruct c|];
        try (destruct (nth w (us_in u) ([], false)) as [[|] ?]; [|discriminate]; injection E as <-; cbn [us_in us_mine us_out]; auto; fail);
        (destruct (nth_error (pl_pc s) w) as [c'|]; [destruct c'|]; injection E as E; try (eapply Gen; symmetry; exact E); subst u'; cbn [us_in us_mine us_out use_pool]; auto).
    - destruct (pool_step (us_pool u) (Notify w)) as [s|]; [|discriminate]. injection E as <-. cbn. auto.
    - destruct (pool_step (us_pool u) NotifyNone) as [s|]; [|discriminate]. injection E as <-. cbn. auto.
    - destruct (pool_step (us_pool u) (Spurious w)) as [s|]; [|discriminate]. injection E as <-. cbn. auto. }
  destruct B as (B1 & B2 & B3 & B4). constructor; auto; congruence.
Qed.
Lemma UInv_exec u es u' : usage_exec tk u es u' -> UInv u -> UInv u'.
Proof. induction 1; auto. intros. apply IHusage_exec. eapply UInv_step; eauto. Qed.

(** Executed tasks that end with an exception later than they were executed. *)
Definition bad_grows (s : pool) (b b' : list nat) : Prop :=
  incl b b' /\ (NoDup (pl_sub s) -> forall t, In t b' -> In t (pl_done s) -> In t b).
Lemma bad_same s b : bad_grows s b b.
Proof. split; auto. apply incl_refl. Qed.

Lemma held_not_done s w t : Inv s -> NoDup (pl_sub s) -> nth_error (pl_pc s) w = Some (WRun t) -> ~ In t (pl_done s).
Proof.
  intros I N H D. pose proof (proj1 (NoDup_count_occ Nat.eq_dec _) N t) as C. change (cnt t (pl_sub s) <= 1) in C. rewrite (i_cnt s I t) in C.
  pose proof (tot_nth_error (fun c => cnt t (held c)) _ w _ H) as T. cbn [held] in T. unfold cnt at 1 in T. cbn [count_occ] in T. destruct (Nat.eq_dec t t); [|congruence].
  assert (0 < cnt t (pl_done s)) by (apply (count_occ_In Nat.eq_dec); auto). lia.
Qed.

(** ** Facts about one thread that each of its own steps preserves *)
Lemma out_step (P : nat -> pool -> list nat -> list nat -> thread -> Prop) u e u' :
  (forall i s s' b b' m th, pool_same s s' -> Inv s -> pl_term s = false -> bad_grows s b b' -> P i s b m th -> P i s' b' m th) ->
  (forall i s b m th s' th' q, Inv s -> pl_term s = false -> act_step s b th = Some (s', th', q) -> P i s b m th -> P i s' b (m ++ q) th') ->
  UInv u -> usage_step tk u e = Some u' ->
  (forall i th, nth_error (us_out u) i = Some th -> P i (us_pool u) (us_bad u) (nth i (us_mine u) []) th) ->
  forall i th, nth_error (us_out u') i = Some th -> P i (us_pool u') (us_bad u') (nth i (us_mine u') []) th.
Proof.
  intros H1 H2 UI E H i th Hi. pose proof (usage_pool u e u' E) as PS. pose proof (v_term u UI) as Tm. pose proof (v_pool u UI) as I.
  destruct e as [j|w|w|w| |w]; cbn [usage_step] in E; unfold lift in E.
  - destruct (nth_error (us_out u) j) as [tj|] eqn:Hj; [|discriminate]. destruct (act_step _ _ tj) as [[[s th'] q]|] eqn:A; [|discriminate].
    injection E as <-. cbn [us_pool us_out us_bad us_mine] in *. rewrite nth_error_upd in Hi.
    assert (Lj : j < length (us_mine u)) by (rewrite (v_mine u UI); apply nth_error_Some; congruence).
    destruct (Nat.eqb_spec i j) as [->|N].
    + rewrite Hj in Hi. injection Hi as <-. rewrite nth_upd_same by auto. apply (H2 _ _ _ _ tj _ _ _ I Tm A). apply H; auto.
    + rewrite nth_upd_other by auto. apply (H1 _ (us_pool u) s (us_bad u)); auto. apply bad_same.
  - destruct (nth_error (pl_pc (us_pool u)) w) as [[]|]; try discriminate. destruct (nth_error (us_in u) w) as [tj|]; [|discriminate].
    destruct (act_step _ _ tj) as [[[s th'] q]|] eqn:A; [|discriminate]. injection E as <-. cbn [us_pool us_out us_bad us_mine] in *.
    apply (H1 _ (us_pool u) s (us_bad u)); auto. apply bad_same.
  - destruct (pool_step (us_pool u) (Step w)) as [s|]; [|discriminate].
    assert (Q : us_out u' = us_out u /\ us_mine u' = us_mine u /\ bad_grows (us_pool u) (us_bad u) (us_bad u')).
    { destruct (nth_error (pl_pc (us_pool u)) w) as [c|] eqn:Hw; [destruct c|];
        try (destruct (nth w (us_in u) ([], false)) as [[|] [|]]; try discriminate; injection E as <-; cbn; split; auto; split; auto;
             [split; [apply incl_appl, incl_refl|]; intros ND t' [B|[<-|[]]]%in_app_or D; auto; exfalso; eapply held_not_done; eauto|apply bad_same]; fail);
        (destruct (nth_error (pl_pc s) w) as [c'|]; [destruct c'|]; injection E as <-; cbn; split; auto; split; auto; apply bad_same). }
    destruct Q as (Q1 & Q2 & Q3). rewrite Q1 in Hi. rewrite Q2. apply (H1 _ (us_pool u) _ (us_bad u)); auto.
  - destruct (pool_step (us_pool u) (Notify w)) as [s|]; [|discriminate]. injection E as <-. cbn in *. apply (H1 _ (us_pool u) s (us_bad u)); auto. apply bad_same.
  - destruct (pool_step (us_pool u) NotifyNone) as [s|]; [|discriminate]. injection E as <-. cbn in *. apply (H1 _ (us_pool u) s (us_bad u)); auto. apply bad_same.
  - destruct (pool_step (us_pool u) (Spurious w)) as [s|]; [|discriminate]. injection E as <-. cbn in *. apply (H1 _ (us_pool u) s (us_bad u)); auto. apply bad_same.
Qed.

Lemma out_exec (P : nat -> pool -> list nat -> list nat -> thread -> Prop) u es u' :
  (forall i s s' b b' m th, pool_same s s' -> Inv s -> pl_term s = false -> bad_grows s b b' -> P i s b m th -> P i s' b' m th) ->
  (forall i s b m th s' th' q, Inv s -> pl_term s = false -> act_step s b th = Some (s', th', q) -> P i s b m th -> P i s' b (m ++ q) th') ->
  usage_exec tk u es u' -> UInv u ->
  (forall i th, nth_error (us_out u) i = Some th -> P i (us_pool u) (us_bad u) (nth i (us_mine u) []) th) ->
  forall i th, nth_error (us_out u') i = Some th -> P i (us_pool u') (us_bad u') (nth i (us_mine u') []) th.
Proof.
  intros H1 H2 X. induction X as [u|u e u1 es u2 E X IH]; intros UI H; auto.
  apply IH; [eapply UInv_step; eauto|]. eapply out_step; eauto.
Qed.

Lemma submit_sub s t s' : pool_step s (Submit t) = Some s' -> pl_sub s' = pl_sub s ++ [t] /\ pl_done s' = pl_done s.
Proof. cbn [pool_step]. destruct (pl_lock s); [discriminate|]. destruct (pl_term s); [discriminate|]. intros E. injection E as <-. auto. Qed.

(** ** Waiting ends *)
Definition waits (s : pool) (m : list nat) (th : thread) : Prop :=
  incl m (pl_sub s) /\ exists k, incl k (pl_sub s) /\ own_futures k (fst th).
Lemma own_incl l : forall k k', incl k k' -> own_futures k l -> own_futures k' l.
Proof.
  induction l as [|[t|t|ok] l IH]; intros k k' H O; cbn [own_futures] in *; auto.
  - eapply IH; [|exact O]. intros x [->|Hx]; [left; auto|right; auto].
  - destruct O as [O1 O2]. split; auto. eapply IH; eauto.
  - eapply IH; eauto.
Qed.
Lemma waits_out u es u' : usage_exec tk u es u' -> UInv u ->
  (forall i th, nth_error (us_out u) i = Some th -> waits (us_pool u) (nth i (us_mine u) []) th) ->
  forall i th, nth_error (us_out u') i = Some th -> waits (us_pool u') (nth i (us_mine u') []) th.
Proof.
  intros X UI. apply (out_exec (fun _ s _ m th => waits s m th) u es u'); auto.
  - intros _ s s' _ _ m th PS _ Tm _ (A & k & B & C). destruct (keeps _ _ PS Tm) as (_ & S & _). split; [|exists k; split; auto]; eapply incl_tran; eauto.
  - intros _ s b m [[|[t|t|ok] r] x] s' th' q _ Tm E (A & k & B & C); cbn [act_step fst own_futures] in *; try discriminate.
    + destruct (pool_step s (Submit t)) eqn:E1; [|discriminate]. injection E as <- <- <-. destruct (submit_sub _ _ _ E1) as [E2 _].
      unfold waits. rewrite E2. split; [apply incl_app; [apply incl_appl; auto|apply incl_appr, incl_refl]|]. exists (t :: k). split; auto.
      intros y [<-|Hy]; apply in_or_app; [right; left; auto|left; auto].
    + destruct (in_done t (pl_done s)); [|discriminate]. injection E as <- <- <-. rewrite app_nil_r. split; auto. exists k. split; auto.
      destruct (in_done t b); cbn; tauto.
    + injection E as <- <- <-. rewrite app_nil_r. split; auto. exists k. split; auto. destruct ok; cbn; auto.
Qed.

Lemma stuck_pool u : UInv u -> (forall l, In l tk -> leaf l) -> ustuck tk u -> stuck (us_pool u) /\ pl_lock (us_pool u) = None.
Proof.
  intros UI LF S. pose proof (v_pool u UI) as I.
  assert (ST : forall w, worker_step (us_pool u) w = None).
  { intros w. destruct (worker_step (us_pool u) w) as [s|] eqn:E; auto. exfalso. pose proof (S (UStep w) eq_refl) as E1. cbn [usage_step pool_step] in E1. rewrite E in E1.
    destruct (nth_error (pl_pc (us_pool u)) w) as [c|] eqn:Hc; [destruct c|];
      try (destruct (nth_error (pl_pc s) w) as [c'|]; [destruct c'|]; discriminate).
    destruct (nth w (us_in u) ([], false)) as [[|a r] x] eqn:Hn; [discriminate|].
    assert (Lw : w < length (us_in u)). { rewrite (v_in u UI), <- (i_pc _ I). apply nth_error_Some. congruence. }
    pose proof (nth_nth_error (us_in u) w ([], false) Lw) as Hw. rewrite Hn in Hw.
    destruct (v_leaf u UI LF w _ Hw a (or_introl eq_refl)) as (ok & ->).
    pose proof (S (UIn w) eq_refl) as E2. cbn [usage_step] in E2. rewrite Hc, Hw in E2. cbn in E2. discriminate. }
  assert (SP : stuck (us_pool u)).
  { intros [t|w| |w|w| |] Hi; try discriminate Hi.
    - pose proof (S (UNotify w) eq_refl) as E. cbn [usage_step] in E. unfold lift in E. destruct (pool_step (us_pool u) (Notify w)); [discriminate|auto].
    - pose proof (S UNotifyNone eq_refl) as E. cbn [usage_step] in E. unfold lift in E. destruct (pool_step (us_pool u) NotifyNone); [discriminate|auto].
    - apply ST.
    - cbn [pool_step]. destruct (pl_all (us_pool u)) eqn:A; auto. apply (i_all _ I) in A. rewrite (v_term u UI) in A. discriminate. }
  split; auto. destruct (pl_lock (us_pool u)) as [v|] eqn:L; auto. exfalso.
  destruct (i_lock2 _ I v L) as (d & Hd & Ho). specialize (ST v). unfold worker_step in ST. rewrite Hd in ST. destruct d; try discriminate Ho; discriminate.
Qed.

Lemma stuck_finished u : UInv u -> (forall l, In l tk -> leaf l) -> ustuck tk u ->
  (forall i th, nth_error (us_out u) i = Some th -> waits (us_pool u) (nth i (us_mine u) []) th) ->
  all_finished u /\ forall i t, In t (nth i (us_mine u) []) -> In t (pl_done (us_pool u)).
Proof.
  intros UI LF S W. destruct (stuck_pool u UI LF S) as [SP L]. pose proof (v_pool u UI) as I. pose proof (v_term u UI) as Tm.
  pose proof (all_accounted _ I) as PA. rewrite (stuck_empty _ I SP Tm) in PA. cbn [app] in PA.
  split.
  - intros i [[|a r] x] Hi; auto. exfalso. pose proof (S (UOut i) eq_refl) as E. cbn [usage_step] in E. rewrite Hi in E.
    destruct (W i _ Hi) as (_ & k & Hk & O). destruct a as [t|t|ok]; cbn [act_step fst own_futures] in *.
    + cbn [pool_step] in E. rewrite L, Tm in E. discriminate.
    + destruct O as [O _]. assert (D : in_done t (pl_done (us_pool u)) = true) by (apply in_done_spec; eapply Permutation_in; [exact PA|]; apply Hk; auto).
      rewrite D in E. discriminate.
    + discriminate.
  - intros i t Ht. eapply Permutation_in; [exact PA|]. destruct (nth_error (us_out u) i) as [th|] eqn:Hi.
    + destruct (W i th Hi) as (A & _). apply A. auto.
    + apply nth_error_None in Hi. rewrite nth_overflow in Ht by (rewrite (v_mine u UI); auto). destruct Ht.
Qed.

(** ** Termination *)
Definition kk (u : usage) : nat := length (pl_q (us_pool u)) * (length (pl_q (us_pool u)) + 71).
Definition cost (K : nat) (a : act) : nat := match a with AQueue _ => 5 * (K + 1) + 1 | _ => 1 end.
Definition costs (K : nat) (th : thread) : nat := list_sum (map (cost K) (fst th)).
Definition bb : nat := list_max (map (@length act) tk).
Definition xx (u : usage) : nat := mu (us_pool u) + tot (costs (kk u)) (us_out u).
Definition mm (u : usage) : nat := xx u * (bb + 1) + tot (fun th : thread => length (fst th)) (us_in u).

Lemma bb_le t : length (nth t tk []) <= bb.
Proof.
  unfold bb. destruct (Nat.lt_ge_cases t (length tk)) as [H|H]; [|rewrite nth_overflow by auto; cbn; lia].
  assert (F := proj1 (list_max_le (map (@length act) tk) _) (le_n _)). rewrite Forall_forall in F. apply F. apply in_map. apply nth_In. auto.
Qed.
Lemma mu_submit s t s' : Inv s -> pool_step s (Submit t) = Some s' -> mu s' <= mu s + 5 * (length (pl_q s) * (length (pl_q s) + 71) + 1).
Proof.
  intros I E. pose proof (Inv_step _ _ _ I E) as I'. cbn [pool_step] in E. destruct (pl_lock s); [discriminate|]. destruct (pl_term s); [discriminate|]. injection E as <-.
  unfold mu. psimp.
  match goal with |- jobs ?s' * _ + ranks ?s' <= _ => assert (J : jobs s' = jobs s + 4) by (unfold jobs; psimp; rewrite app_length; cbn; lia);
    assert (R : ranks s' <= length (pl_q s) * (length (pl_q s) + 71)) end.
  { unfold ranks. psimp. rewrite <- (i_pc s I). apply tot_le. intros a. apply rank_le. }
  rewrite J. set (K := length (pl_q s) * (length (pl_q s) + 71)) in *. lia.
Qed.
Lemma costs_cons K a r x y : costs K (a :: r, x) = cost K a + costs K (r, y).
Proof. reflexivity. Qed.
Lemma costs_nil K x : costs K ([], x) = 0.
Proof. reflexivity. Qed.
Lemma costs_step s bad th s' th' q K : Inv s -> K = length (pl_q s) * (length (pl_q s) + 71) ->
  act_step s bad th = Some (s', th', q) -> mu s' + costs K th' < mu s + costs K th.
Proof.
  intros I HK. destruct th as [[|[t|t|ok] r] x]; cbn [act_step]; intros E; try discriminate; rewrite (costs_cons K _ r x x); unfold cost.
  - destruct (pool_step s (Submit t)) eqn:E1; [|discriminate]. injection E as <- <- <-. pose proof (mu_submit _ _ _ I E1) as H. rewrite <- HK in H. lia.
  - destruct (in_done t (pl_done s)); [|discriminate]. injection E as <- <- <-. destruct (in_done t bad); rewrite ?costs_nil; lia.
  - injection E as <- <- <-. destruct ok; rewrite ?costs_nil; lia.
Qed.

Lemma mm_step u e u' : UInv u -> (forall l, In l tk -> leaf l) -> usage_step tk u e = Some u' ->
  if uspurious e then mm u' = mm u + 17 * (bb + 1) else mm u' < mm u.
Proof.
  intros UI LF E. pose proof (v_pool u UI) as I. pose proof (usage_pool u e u' E) as PS. pose proof (same_len _ _ PS I) as Ln.
  assert (EK : kk u' = kk u) by (unfold kk; rewrite Ln; auto). unfold mm, xx. rewrite EK.
  destruct e as [i|w|w|w| |w]; cbn [usage_step uspurious] in *; unfold lift in E.
  - destruct (nth_error (us_out u) i) as [th|] eqn:Hi; [|discriminate]. destruct (act_step _ _ th) as [[[s th'] q]|] eqn:A; [|discriminate]. injection E as <-.
    cbn [us_pool us_out us_in] in *. pose proof (costs_step _ _ _ _ _ _ (kk u) I eq_refl A) as C. pose proof (tot_upd (costs (kk u)) _ i th th' Hi) as T. nia.
  - destruct (nth_error (pl_pc (us_pool u)) w) as [[]|]; try discriminate. destruct (nth_error (us_in u) w) as [th|] eqn:Hw; [|discriminate].
    pose proof (v_leaf u UI LF w th Hw) as L. destruct th as [[|a r] x]; [discriminate|]. destruct (L a (or_introl eq_refl)) as (ok & ->). cbn [act_step] in E. injection E as <-.
    cbn [us_pool us_out us_in]. pose proof (tot_upd (fun th : thread => length (fst th)) _ w _ (if ok then (r, x) else ([], true)) Hw) as T. cbn beta in T.
    destruct ok; cbn [fst length] in T; lia.
  - destruct (pool_step (us_pool u) (Step w)) as [s|] eqn:Es; [|discriminate]. pose proof (mu_internal _ _ _ I (eq_refl : internal (Step w) = true) Es) as D.
    assert (Q : us_pool u' = s /\ us_out u' = us_out u /\ tot (fun th : thread => length (fst th)) (us_in u') <= tot (fun th : thread => length (fst th)) (us_in u) + bb).
    { assert (Gen : forall t, tot (fun th : thread => length (fst th)) (upd (us_in u) w (nth t tk [], false)) <= tot (fun th : thread => length (fst th)) (us_in u) + bb).
      { intros t. destruct (nth_error (us_in u) w) as [th|] eqn:Hw.
        - pose proof (tot_upd (fun th : thread => length (fst th)) _ w _ (nth t tk [], false) Hw) as T. cbn beta in T. cbn [fst] in T. pose proof (bb_le t). lia.
        - rewrite upd_id_none by auto. lia. }
      destruct (nth_error (pl_pc (us_pool u)) w) as [c|]; [destruct c|];
        try (destruct (nth w (us_in u) ([], false)) as [[|] ?]; [|discriminate]; injection E as <-; cbn [us_pool us_out us_in]; repeat split; lia);
        (destruct (nth_error (pl_pc s) w) as [c'|]; [destruct c'|]; injection E as <-; cbn [us_pool us_out us_in use_pool]; repeat split; try apply Gen; lia). }
    destruct Q as (Q1 & Q2 & Q3). rewrite Q1, Q2. nia.
  - destruct (pool_step (us_pool u) (Notify w)) as [s|] eqn:Es; [|discriminate]. injection E as <-. pose proof (mu_internal _ _ _ I (eq_refl : internal (Notify w) = true) Es). cbn [use_pool us_pool us_out us_in]. nia.
  - destruct (pool_step (us_pool u) NotifyNone) as [s|] eqn:Es; [|discriminate]. injection E as <-. pose proof (mu_internal _ _ _ I (eq_refl : internal NotifyNone = true) Es). cbn [use_pool us_pool us_out us_in]. nia.
  - destruct (pool_step (us_pool u) (Spurious w)) as [s|] eqn:Es; [|discriminate]. injection E as <-. pose proof (mu_spurious _ _ _ Es). cbn [use_pool us_pool us_out us_in]. nia.
Qed.

Lemma mm_exec u es u' : usage_exec tk u es u' -> UInv u -> (forall l, In l tk -> leaf l) ->
  length es + mm u' <= mm u + (17 * (bb + 1) + 1) * length (filter uspurious es).
Proof.
  induction 1 as [u|u e u1 es u2 E X IH]; intros UI LF; [cbn; lia|].
  specialize (IH (UInv_step _ _ _ UI E) LF). pose proof (mm_step _ _ _ UI LF E) as M. cbn [length filter]. destruct (uspurious e); cbn [length]; lia.
Qed.

Lemma make_nth num scripts i th : nth_error (us_out (usage_make num scripts)) i = Some th -> exists l, nth_error scripts i = Some l /\ th = (l, false).
Proof. cbn. rewrite nth_error_map. destruct (nth_error scripts i) as [l|]; [|discriminate]. intros E. injection E as <-. eauto. Qed.
Lemma mine_nth num scripts i : nth i (us_mine (usage_make num scripts)) [] = [].
Proof. cbn. revert i. induction scripts as [|l r IH]; intros [|i]; cbn; auto. Qed.

Lemma waits_ends num scripts es u : (forall l, In l tk -> leaf l) -> (forall l, In l scripts -> own_futures [] l) ->
  usage_exec tk (usage_make num scripts) es u ->
  exists bound, forall es' u', usage_exec tk u es' u' ->
    length es' <= bound * (1 + length (filter uspurious es')) /\
    (ustuck tk u' -> all_finished u' /\ forall i t, In t (nth i (us_mine u') []) -> In t (pl_done (us_pool u'))).
Proof.
  intros LF OF X. pose proof (UInv_exec _ _ _ X (UInv_make num scripts)) as UI.
  assert (W : forall i th, nth_error (us_out u) i = Some th -> waits (us_pool u) (nth i (us_mine u) []) th).
  { apply (waits_out _ _ _ X (UInv_make num scripts)). intros i th Hi. rewrite mine_nth. split; [intros y []|]. exists []. split; [intros y []|].
    apply make_nth in Hi as (l & Hl & ->). apply OF. eapply nth_error_In; eauto. }
  exists (mm u + (17 * (bb + 1) + 1)). intros es' u' X'. split.
  - pose proof (mm_exec _ _ _ X' UI LF) as M. set (F := length (filter uspurious es')) in *. nia.
  - intros S. apply stuck_finished; auto; [eapply UInv_exec; eauto|]. apply (waits_out _ _ _ X' UI W).
Qed.

(** ** Exceptions *)
Lemma sub_bound u e u' t : UInv u -> (forall l, In l tk -> leaf l) -> usage_step tk u e = Some u' ->
  cnt t (pl_sub (us_pool u')) + tot (fun th : thread => cnt t (queued (fst th))) (us_out u') <=
  cnt t (pl_sub (us_pool u)) + tot (fun th : thread => cnt t (queued (fst th))) (us_out u).
Proof.
  intros UI LF E. destruct e as [i|w|w|w| |w]; cbn [usage_step] in E; unfold lift in E.
  - destruct (nth_error (us_out u) i) as [th|] eqn:Hi; [|discriminate]. destruct (act_step _ _ th) as [[[s th'] q]|] eqn:A; [|discriminate]. injection E as <-.
    cbn [us_pool us_out]. pose proof (tot_upd (fun th : thread => cnt t (queued (fst th))) _ i th th' Hi) as T. cbn beta in T.
    enough (cnt t (pl_sub s) + cnt t (queued (fst th')) <= cnt t (pl_sub (us_pool u)) + cnt t (queued (fst th))) by lia.
    destruct th as [[|[v|v|ok] r] x]; cbn [act_step] in A; try discriminate.
    + destruct (pool_step (us_pool u) (Submit v)) eqn:E1; [|discriminate]. injection A as <- <- <-. destruct (submit_sub _ _ _ E1) as [-> _].
      cbn [fst]. change (queued (AQueue v :: r)) with ([v] ++ queued r). rewrite !cnt_app. lia.
    + destruct (in_done v _); [|discriminate]. injection A as <- <- <-. change (queued (fst (AGet v :: r, x))) with (queued r).
      destruct (in_done v (us_bad u)); cbn [fst]; [change (queued []) with (@nil nat); rewrite cnt_nil|]; lia.
    + injection A as <- <- <-. change (queued (fst (AWork ok :: r, x))) with (queued r).
      destruct ok; cbn [fst]; [|change (queued []) with (@nil nat); rewrite cnt_nil]; lia.
  - destruct (nth_error (pl_pc (us_pool u)) w) as [[]|]; try discriminate. destruct (nth_error (us_in u) w) as [th|] eqn:Hw; [|discriminate].
    pose proof (v_leaf u UI LF w th Hw) as L. destruct th as [[|a r] x]; [discriminate|]. destruct (L a (or_introl eq_refl)) as (ok & ->). cbn [act_step] in E. injection E as <-. cbn [us_pool us_out]. lia.
  - destruct (pool_step (us_pool u) (Step w)) as [s|] eqn:Es; [|discriminate]. destruct (worker_keeps _ _ _ Es) as (_ & K & _).
    assert (Q : us_pool u' = s /\ us_out u' = us_out u).
    { destruct (nth_error (pl_pc (us_pool u)) w) as [c|]; [destruct c|];
        try (destruct (nth w (us_in u) ([], false)) as [[|] ?]; [|discriminate]; injection E as <-; auto; fail);
        (destruct (nth_error (pl_pc s) w) as [c'|]; [destruct c'|]; injection E as <-; auto). }
    destruct Q as [-> ->]. rewrite K. lia.
  - destruct (pool_step (us_pool u) (Notify w)) as [s|] eqn:Es; [|discriminate]. injection E as <-. cbn [pool_step] in Es. destruct ((0 <? _) && _); [|discriminate]. injection Es as <-. apply le_n.
  - destruct (pool_step (us_pool u) NotifyNone) as [s|] eqn:Es; [|discriminate]. injection E as <-. cbn [pool_step] in Es. destruct ((0 <? _) && _); [|discriminate]. injection Es as <-. apply le_n.
  - destruct (pool_step (us_pool u) (Spurious w)) as [s|] eqn:Es; [|discriminate]. injection E as <-. cbn [pool_step] in Es. destruct (nth_error (pl_pc (us_pool u)) w) as [[]|]; try discriminate. injection Es as <-. apply le_n.
Qed.
Lemma sub_bounds u es u' t : usage_exec tk u es u' -> UInv u -> (forall l, In l tk -> leaf l) ->
  cnt t (pl_sub (us_pool u')) + tot (fun th : thread => cnt t (queued (fst th))) (us_out u') <=
  cnt t (pl_sub (us_pool u)) + tot (fun th : thread => cnt t (queued (fst th))) (us_out u).
Proof.
  induction 1 as [u|u e u1 es u2 E X IH]; intros UI LF; [lia|]. pose proof (sub_bound u e u1 t UI LF E). specialize (IH (UInv_step _ _ _ UI E) LF). lia.
Qed.

Lemma sub_nodup num scripts es u : (forall l, In l tk -> leaf l) -> NoDup (concat (map queued scripts)) ->
  usage_exec tk (usage_make num scripts) es u -> NoDup (pl_sub (us_pool u)).
Proof.
  intros LF ND X. apply (NoDup_count_occ Nat.eq_dec). intros t. change (cnt t (pl_sub (us_pool u)) <= 1).
  pose proof (sub_bounds _ _ _ t X (UInv_make num scripts) LF) as B.
  pose proof (proj1 (NoDup_count_occ Nat.eq_dec _) ND t) as C. change (cnt t (concat (map queued scripts)) <= 1) in C. rewrite cnt_concat in C.
  assert (E : tot (fun th : thread => cnt t (queued (fst th))) (us_out (usage_make num scripts)) = tot (cnt t) (map queued scripts)).
  { cbn. unfold tot. rewrite !map_map. reflexivity. }
  rewrite E in B. cbn [usage_make us_pool pool_make pl_sub] in B. rewrite cnt_nil in B. lia.
Qed.

(** What a thread outside knows. *)
Definition knows (scripts : list (list act)) (i : nat) (s : pool) (b m : list nat) (th : thread) : Prop :=
  NoDup (pl_sub s) -> exists l, nth_error scripts i = Some l /\
  if snd th then fst th = [] /\ (In (AWork false) l \/ exists t, In (AGet t) l /\ In t b)
  else (exists d, l = d ++ fst th) /\ m ++ queued (fst th) = queued l /\
       (awaits_all l -> forall t, In t m -> In (AGet t) (fst th) \/ (In t (pl_done s) /\ ~ In t b)).

Lemma sub_prefix s s' : pool_same s s' -> pl_term s = false -> exists q, pl_sub s' = pl_sub s ++ q.
Proof.
  intros [->|(e & E & H)] Ht; [exists []; now rewrite app_nil_r|].
  destruct e as [t|w| |w|w| |]; cbn [pool_step] in E.
  - destruct (pl_lock s); [discriminate|]. rewrite Ht in E. injection E as <-. exists [t]. reflexivity.
  - destruct ((0 <? pl_notify s) && _); [|discriminate]. injection E as <-. exists []. now rewrite app_nil_r.
  - destruct ((0 <? pl_notify s) && _); [|discriminate]. injection E as <-. exists []. now rewrite app_nil_r.
  - destruct (worker_keeps _ _ _ E) as (_ & B & _). exists []. now rewrite B, app_nil_r.
  - destruct (nth_error (pl_pc s) w) as [[]|]; try discriminate. injection E as <-. exists []. now rewrite app_nil_r.
  - destruct H as [H|[H|(t & H)]]; discriminate.
  - destruct (pl_all s); [|discriminate]. injection E as <-. exists []. now rewrite app_nil_r.
Qed.
Lemma nodup_l {A} (l r : list A) : NoDup (l ++ r) -> NoDup l.
Proof. induction l as [|a l IH]; cbn; intros H; [constructor|]. inversion H; subst. constructor; auto. intros Ha. apply H2. apply in_or_app. auto. Qed.

Lemma awaits_in d t r : awaits_all (d ++ AQueue t :: r) -> In (AGet t) r.
Proof. induction d as [|[v|v|ok] d IH]; cbn; tauto. Qed.

Lemma knows_out scripts u es u' : usage_exec tk u es u' -> UInv u ->
  (forall i th, nth_error (us_out u) i = Some th -> knows scripts i (us_pool u) (us_bad u) (nth i (us_mine u) []) th) ->
  forall i th, nth_error (us_out u') i = Some th -> knows scripts i (us_pool u') (us_bad u') (nth i (us_mine u') []) th.
Proof.
  intros X UI. apply (out_exec (knows scripts) u es u'); auto.
  - intros i s s' b b' m th PS _ Tm [G1 G2] K ND. destruct (sub_prefix _ _ PS Tm) as (q & Q). rewrite Q in ND. apply nodup_l in ND.
    destruct (keeps _ _ PS Tm) as (_ & _ & S). destruct (K ND) as (l & Hl & B). exists l. split; auto. destruct (snd th).
    + destruct B as (B1 & [B2|(t & B2 & B3)]); split; auto. right. exists t. split; auto.
    + destruct B as (B1 & B2 & B3). split; [auto|split; auto]. intros AW t Ht. destruct (B3 AW t Ht) as [C|[C D]]; auto. right. split; [apply S; auto|].
      intros Hb. apply D. apply (G2 ND); auto.
  - intros i s b m [[|a r] x] s' th' q _ Tm E K ND; [discriminate|].
    destruct a as [t|t|ok]; cbn [act_step] in E.
    + destruct (pool_step s (Submit t)) eqn:E1; [|discriminate]. injection E as <- <- <-. destruct (submit_sub _ _ _ E1) as [E2 E3]. rewrite E2 in ND. apply nodup_l in ND.
      destruct (K ND) as (l & Hl & B). exists l. split; auto. cbn [fst snd] in *. destruct x; [destruct B as [B _]; discriminate|].
      destruct B as ((d & B1) & B2 & B3). split; [exists (d ++ [AQueue t]); rewrite <- app_assoc; exact B1|]. split; [rewrite <- app_assoc; exact B2|].
      rewrite E3. intros AW v [Hv|[<-|[]]]%in_app_or.
      * destruct (B3 AW v Hv) as [[C|C]|C]; [discriminate|auto|auto].
      * left. rewrite B1 in AW. eapply awaits_in; eauto.
    + destruct (in_done t (pl_done s)) eqn:D; [|discriminate]. injection E as <- <- <-. rewrite app_nil_r. destruct (K ND) as (l & Hl & B). exists l. split; auto.
      destruct (in_done t b) eqn:Db; cbn [fst snd] in *.
      * split; auto. destruct x; [destruct B as [B _]; discriminate|]. destruct B as ((d & B1) & _ & _). right. exists t. split; [rewrite B1; apply in_or_app; right; left; auto|]. apply in_done_spec. auto.
      * destruct x; [destruct B as [B _]; discriminate|]. destruct B as ((d & B1) & B2 & B3). split; [exists (d ++ [AGet t]); rewrite <- app_assoc; exact B1|]. split; [exact B2|].
        intros AW v Hv. destruct (B3 AW v Hv) as [[C|C]|C]; auto. injection C as <-. right. split; [apply in_done_spec; auto|]. intros Hb. apply in_done_spec in Hb. congruence.
    + injection E as <- <- <-. rewrite app_nil_r. destruct (K ND) as (l & Hl & B). exists l. split; auto. cbn [fst snd] in *. destruct x; [destruct B as [B _]; destruct ok; discriminate|].
      destruct B as ((d & B1) & B2 & B3). destruct ok; cbn [fst snd].
      * split; [exists (d ++ [AWork true]); rewrite <- app_assoc; exact B1|]. split; [exact B2|]. intros AW v Hv. destruct (B3 AW v Hv) as [[C|C]|C]; auto. discriminate.
      * split; auto. left. rewrite B1. apply in_or_app. right. left. auto.
Qed.

(** Tasks end with an exception only if they throw. *)
Definition blames (u : usage) : Prop :=
  (forall t, In t (us_bad u) -> In (AWork false) (nth t tk [])) /\
  forall w t th, nth_error (pl_pc (us_pool u)) w = Some (WRun t) -> nth_error (us_in u) w = Some th ->
    incl (fst th) (nth t tk []) /\ (snd th = true -> In (AWork false) (nth t tk [])).
Lemma blames_step u e u' : UInv u -> (forall l, In l tk -> leaf l) -> usage_step tk u e = Some u' -> blames u -> blames u'.
Proof.
  intros UI LF E [B1 B2]. destruct e as [i|w|w|w| |w]; cbn [usage_step] in E; unfold lift in E.
  - destruct (nth_error (us_out u) i) as [th|] eqn:Hi; [|discriminate]. destruct (act_step _ _ th) as [[[s th'] q]|] eqn:A; [|discriminate]. injection E as <-.
    split; cbn [us_bad us_pool us_in]; auto. assert (P : pl_pc s = pl_pc (us_pool u)).
    { destruct th as [[|[t|t|ok] r] x]; cbn [act_step] in A; try discriminate.
      - cbn [pool_step] in A. destruct (pl_lock (us_pool u)); [discriminate|]. destruct (pl_term (us_pool u)); [discriminate|]. injection A as <- <- <-. reflexivity.
      - destruct (in_done t _); [|discriminate]. injection A as <- <- <-. reflexivity.
      - injection A as <- <- <-. reflexivity. }
    rewrite P. auto.
  - destruct (nth_error (pl_pc (us_pool u)) w) as [[]|] eqn:Hc; try discriminate. destruct (nth_error (us_in u) w) as [th|] eqn:Hw; [|discriminate].
    pose proof (v_leaf u UI LF w th Hw) as L. destruct (B2 w _ th Hc Hw) as [I1 I2].
    destruct th as [[|a r] x]; [discriminate|]. destruct (L a (or_introl eq_refl)) as (ok & ->). cbn [act_step] in E. injection E as <-.
    split; cbn [us_bad us_pool us_in]; auto. intros v t' th' Hv Hin. rewrite nth_error_upd in Hin. destruct (Nat.eqb_spec v w) as [->|N]; [|eauto].
    rewrite Hw in Hin. injection Hin as <-. rewrite Hc in Hv. injection Hv as <-. cbn [fst snd] in *.
    destruct ok; cbn [fst snd]; split; auto; try (intros y Hy; apply I1; right; exact Hy); [intros y []|]. intros _. apply I1. left. auto.
  - destruct (pool_step (us_pool u) (Step w)) as [s|] eqn:Es; [|discriminate].
    assert (PO : forall v, v <> w -> nth_error (pl_pc s) v = nth_error (pl_pc (us_pool u)) v).
    { intros v N. cbn [pool_step] in Es. unfold worker_step in Es. apply Nat.eqb_neq in N.
      destruct (nth_error (pl_pc (us_pool u)) w) as [c|]; [|discriminate].
      destruct c; unfold acquire, pop_own in Es; cbv zeta in Es;
        repeat match type of Es with
               | Some (match ?c with _ => _ end) = _ => destruct c eqn:?
               | match ?c with _ => _ end = _ => destruct c eqn:?; try discriminate
               end; try discriminate; injection Es as <-; psimp; rewrite ?nth_error_upd, ?N; auto. }
    destruct (nth_error (pl_pc (us_pool u)) w) as [c|] eqn:Hc.
    + assert (Run : forall t, c = WRun t -> blames u').
      { intros t ->. destruct (nth w (us_in u) ([], false)) as [[|] x] eqn:Hn; [|discriminate]. injection E as <-.
        assert (Lw : w < length (us_in u)). { rewrite (v_in u UI), <- (i_pc _ (v_pool u UI)). apply nth_error_Some. congruence. }
        pose proof (nth_nth_error (us_in u) w ([], false) Lw) as Hw. rewrite Hn in Hw. destruct (B2 w t _ Hc Hw) as [_ I2]. cbn [snd] in I2.
        split; cbn [us_bad us_pool us_in].
        - destruct x; auto. intros t' [H|[<-|[]]]%in_app_or; auto.
        - intros v t' th' Hv Hin. destruct (Nat.eq_dec v w) as [->|N]; [|rewrite PO in Hv by auto; eauto]. exfalso.
          cbn [pool_step] in Es. unfold worker_step in Es. rewrite Hc in Es. injection Es as <-. cbn [pl_pc] in Hv. psimp. rewrite nth_error_upd, Nat.eqb_refl, Hc in Hv. discriminate. }
      destruct c; try (eapply Run; reflexivity);
      (destruct (nth_error (pl_pc s) w) as [c'|] eqn:Hc'; [destruct c'|]; injection E as <-; split; cbn [us_bad us_pool us_in use_pool]; auto;
       intros v t' th' Hv Hin; (destruct (Nat.eq_dec v w) as [->|N];
         [rewrite Hc' in Hv; try discriminate; injection Hv as <-; rewrite nth_error_upd, Nat.eqb_refl in Hin; destruct (nth_error (us_in u) w); try discriminate; injection Hin as <-; cbn; split; (discriminate || apply incl_refl)
         |rewrite ?nth_error_upd, ?(proj2 (Nat.eqb_neq v w) N) in Hin; rewrite PO in Hv by auto; eauto])).
    + exfalso. cbn [pool_step] in Es. unfold worker_step in Es. rewrite Hc in Es. discriminate.
  - destruct (pool_step (us_pool u) (Notify w)) as [s|] eqn:Es; [|discriminate]. injection E as <-. cbn [pool_step] in Es. destruct ((0 <? _) && _) eqn:Q; [|discriminate]. injection Es as <-.
    split; cbn [us_bad us_pool us_in use_pool]; auto. intros v t' th' Hv. cbn [pl_pc] in Hv. psimp. rewrite nth_error_upd in Hv. destruct (Nat.eqb v w); [destruct (nth_error _ w); discriminate|]. eauto.
  - destruct (pool_step (us_pool u) NotifyNone) as [s|] eqn:Es; [|discriminate]. injection E as <-. cbn [pool_step] in Es. destruct ((0 <? _) && _); [|discriminate]. injection Es as <-. split; cbn; auto.
  - destruct (pool_step (us_pool u) (Spurious w)) as [s|] eqn:Es; [|discriminate]. injection E as <-. cbn [pool_step] in Es. destruct (nth_error (pl_pc (us_pool u)) w) as [[]|] eqn:Q; try discriminate. injection Es as <-.
    split; cbn [us_bad us_pool us_in use_pool]; auto. intros v t' th' Hv. cbn [pl_pc] in Hv. psimp. rewrite nth_error_upd in Hv. destruct (Nat.eqb v w); [destruct (nth_error _ w); discriminate|]. eauto.
Qed.
Lemma blames_exec u es u' : usage_exec tk u es u' -> UInv u -> (forall l, In l tk -> leaf l) -> blames u -> blames u'.
Proof. induction 1 as [u|u e u1 es u2 E X IH]; intros UI LF B; auto. apply IH; auto; [eapply UInv_step|eapply blames_step]; eauto. Qed.
Lemma blames_make num scripts : blames (usage_make num scripts).
Proof.
  split; [intros t []|]. intros w t th H. cbn in H. exfalso. apply nth_error_In in H.
  apply repeat_spec in H || apply in_map_iff in H as (? & ? & ?); discriminate.
Qed.

Lemma exceptions num scripts es u i l rest threw :
  (forall b, In b tk -> leaf b) -> NoDup (concat (map queued scripts)) -> usage_exec tk (usage_make num scripts) es u ->
  nth_error scripts i = Some l -> nth_error (us_out u) i = Some (rest, threw) ->
  (threw = true -> In (AWork false) l \/ exists t, In (AGet t) l /\ In (AWork false) (nth t tk [])) /\
  (threw = false -> rest = [] -> awaits_all l -> forall t, In (AQueue t) l -> In t (pl_done (us_pool u)) /\ ~ In t (us_bad u)).
Proof.
  intros LF ND X Hl Hi. pose proof (UInv_make num scripts) as U0. pose proof (sub_nodup _ _ _ _ LF ND X) as NS.
  assert (K : knows scripts i (us_pool u) (us_bad u) (nth i (us_mine u) []) (rest, threw)).
  { revert i l rest threw Hl Hi. intros i l rest threw _ Hi. refine (knows_out scripts _ _ _ X U0 _ i _ Hi). clear. intros i th Hi.
    apply make_nth in Hi as (l & Hl & ->). rewrite mine_nth. intros _. exists l. split; auto. cbn [fst snd]. split; [exists []; auto|]. split; auto. }
  destruct (K NS) as (l' & Hl' & B). rewrite Hl in Hl'. injection Hl' as <-. destruct (blames_exec _ _ _ X U0 LF (blames_make num scripts)) as [B1 _].
  cbn [fst snd] in B. destruct threw; split; try discriminate.
  - intros _. destruct B as (_ & [B|(t & B & C)]); auto. right. exists t. auto.
  - intros _ -> AW t Ht. destruct B as (_ & Q & R). destruct (R AW t) as [[]|R']; auto.
    cbn [queued flat_map] in Q. rewrite app_nil_r in Q. rewrite Q. unfold queued. apply in_flat_map. exists (AQueue t). split; auto. left. auto.
Qed.
End Use.

Lemma own_app l : forall k r, own_futures k (l ++ r) <-> own_futures k l /\ own_futures (rev (queued l) ++ k) r.
Proof.
  induction l as [|[t|t|ok] l IH]; intros k r; cbn [app own_futures queued flat_map rev].
  - tauto.
  - rewrite IH. fold (queued l). cbn [app rev]. rewrite <- app_assoc. cbn. tauto.
  - rewrite IH. fold (queued l). tauto.
  - rewrite IH. fold (queued l). tauto.
Qed.
Lemma queued_map ts : queued (map AQueue ts) = ts.
Proof. induction ts as [|t ts IH]; cbn; auto. f_equal. exact IH. Qed.
Lemma own_queue ts : forall k, own_futures k (map AQueue ts).
Proof. induction ts as [|t ts IH]; intros k; cbn; auto. Qed.
Lemma own_get ts k : incl ts k -> own_futures k (map AGet ts).
Proof. induction ts as [|t ts IH]; intros H; cbn; auto. split; [apply H; left; auto|]. apply IH. intros x Hx. apply H. right. auto. Qed.
Lemma call_own rounds : forall k, own_futures k (call_script rounds).
Proof.
  unfold call_script. induction rounds as [|ts r IH]; intros k; cbn [map concat]; [cbn; auto|].
  rewrite own_app. split; auto. rewrite own_app. split; [apply own_queue|]. cbn [app own_futures]. apply own_get. rewrite queued_map. apply incl_appl. intros x Hx. apply in_rev in Hx. auto.
Qed.
Lemma awaits_app l r : awaits_all l -> awaits_all r -> awaits_all (l ++ r).
Proof. induction l as [|[t|t|ok] l IH]; cbn; intros H1 H2; auto. destruct H1 as [H H1]. split; auto. apply in_or_app. auto. Qed.
Lemma awaits_queue ts r : awaits_all r -> (forall t, In t ts -> In (AGet t) r) -> awaits_all (map AQueue ts ++ r).
Proof. induction ts as [|t ts IH]; cbn; intros H1 H2; auto. split; [apply in_or_app; right; apply H2; auto|auto]. Qed.
Lemma awaits_get ts : awaits_all (map AGet ts).
Proof. induction ts; cbn; auto. Qed.
Lemma call_awaits rounds : awaits_all (call_script rounds).
Proof.
  unfold call_script. induction rounds as [|ts r IH]; cbn [map concat]; [cbn; auto|]. apply awaits_app; auto.
  apply awaits_queue; [cbn; apply awaits_get|]. intros t Ht. right. apply in_map. auto.
Qed.
Lemma call_calm rounds : calm (call_script rounds).
Proof.
  unfold calm, call_script. induction rounds as [|ts r IH]; cbn [map concat]; [auto|]. intros [H|H]%in_app_or; auto.
  apply in_app_or in H as [H|[H|H]]; try discriminate; apply in_map_iff in H as (? & ? & _); discriminate.
Qed.
