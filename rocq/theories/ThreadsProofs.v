(** Programs with disjoint footprints: every interleaving gives the result of
    the sequential execution. *)
From Coq Require Import List Arith Lia Bool ZArith.
From Verif Require Import Base Num MeshM ProgM LUM SplineM InterpM CellM ThreadsM.
Import ListNotations.
Open Scope nat_scope.

Section Within.
Context {T : Type}.

(** All cells a program may ever access. *)
Inductive within {A} (F : loc -> bool) : prog T A -> Prop :=
| w_ret a : within F (Ret a)
| w_rd l k : F l = true -> (forall v, within F (k v)) -> within F (Rd l k)
| w_wr l v k : F l = true -> within F k -> within F (Wr l v k)
| w_throw e : within F (PThrow e)
| w_fault u : within F (PFault u).

Lemma within_bind {A B} F (p : prog T A) (f : A -> prog T B) :
  within F p -> (forall a, within F (f a)) -> within F (pbind p f).
Proof. intros H Hf. induction H; cbn [pbind]; try (constructor; auto); auto. Qed.
Lemma within_lift {A} F (r : res A) : within F (plift (T := T) r).
Proof. destruct r; constructor. Qed.
Lemma within_lift_bind {A B} F (r : res A) (f : A -> prog T B) :
  (forall a, r = Ok a -> within F (f a)) -> within F (pbind (plift r) f).
Proof. intros H. destruct r; cbn [plift pbind]; try constructor. auto. Qed.
Lemma within_piter {I} F (f : I -> prog T unit) l : (forall i, In i l -> within F (f i)) -> within F (piter f l).
Proof.
  induction l; intros H; cbn [piter]; [constructor|].
  apply within_bind; [apply H; simpl; auto|]. intros _. apply IHl. intros; apply H; simpl; auto.
Qed.
Lemma within_pfor F lo hi (f : nat -> prog T unit) : (forall i, lo <= i < hi -> within F (f i)) -> within F (pfor lo hi f).
Proof. intros H. apply within_piter. intros i Hi. apply in_seq in Hi. apply H. lia. Qed.
Lemma within_pfor_down F n (f : nat -> prog T unit) : (forall i, i < n -> within F (f i)) -> within F (pfor_down n f).
Proof. intros H. apply within_piter. intros i Hi. apply in_rev, in_seq in Hi. apply H. lia. Qed.
Lemma within_mono {A} (F G : loc -> bool) (p : prog T A) :
  (forall l, F l = true -> G l = true) -> within F p -> within G p.
Proof. intros HF H. induction H; constructor; auto. Qed.
Lemma within_read F l : F l = true -> within F (pread (T := T) l).
Proof. intros. constructor; auto. intros; constructor. Qed.
Lemma within_write F l v : F l = true -> within F (pwrite (T := T) l v).
Proof. intros. constructor; auto. constructor. Qed.

(** ** Memory *)
Lemma mem_set_fault (m : mem T) l v : mem_get m l = Fault OutOfBounds -> mem_set m l v = Fault OutOfBounds.
Proof.
  unfold mem_get, mem_set, vget, vset. destruct (nth_error m (fst l)); auto.
  destruct (nth_error l0 (snd l)) eqn:E; [discriminate|]. intros _.
  destruct (Nat.ltb_spec (snd l) (length l0)); auto.
  apply nth_error_None in E. lia.
Qed.
Lemma mem_get_cases (m : mem T) l : (mem_ok m l /\ exists v, mem_get m l = Ok v) \/ (~ mem_ok m l /\ mem_get m l = Fault OutOfBounds).
Proof.
  unfold mem_get, mem_ok, vget. destruct (nth_error m (fst l)) as [a|] eqn:E.
  - rewrite (nth_error_nth m (fst l) [] E). destruct (nth_error a (snd l)) eqn:E2.
    + left. split; eauto. apply nth_error_Some. congruence.
    + right. split; auto. apply nth_error_None in E2. lia.
  - right. split; auto. apply nth_error_None in E. rewrite nth_overflow by auto. simpl. lia.
Qed.
Lemma mem_ok_dec (m : mem T) l : {mem_ok m l} + {~ mem_ok m l}.
Proof. unfold mem_ok. apply lt_dec. Qed.
Lemma mem_set_not (m : mem T) l v : ~ mem_ok m l -> mem_set m l v = Fault OutOfBounds.
Proof. intros H. apply mem_set_fault. destruct (mem_get_cases m l) as [[? _]|[_ ?]]; tauto. Qed.
Lemma mem_get_not (m : mem T) l : ~ mem_ok m l -> mem_get m l = Fault OutOfBounds.
Proof. intros H. destruct (mem_get_cases m l) as [[? _]|[_ ?]]; tauto. Qed.

Lemma mem_set_upd (m : mem T) l v : mem_ok m l -> mem_set m l v = Ok (upd m (fst l) (upd (nth (fst l) m []) (snd l) v)).
Proof.
  intros H. pose proof (mem_ok_fst _ _ H). unfold mem_set. rewrite (nth_error_nth' m []) by auto.
  rewrite vset_ok by auto. reflexivity.
Qed.
Lemma mem_set_ok_iff (m m' : mem T) l v l' : mem_set m l v = Ok m' -> mem_ok m' l' <-> mem_ok m l'.
Proof.
  intros E. destruct (mem_ok_dec m l) as [H|H]; [|rewrite mem_set_not in E by auto; discriminate].
  destruct (mem_set_ok v m l v H) as (m1 & E1 & Hk & _). rewrite E in E1. injection E1 as <-. apply Hk.
Qed.
Lemma mem_set_keeps (m m' : mem T) l v l' : mem_set m l v = Ok m' -> mem_ok m l' -> mem_ok m' l'.
Proof. intros E. apply (mem_set_ok_iff m m' l v l' E). Qed.
Lemma mem_set_back (m m' : mem T) l v l' : mem_set m l v = Ok m' -> mem_ok m' l' -> mem_ok m l'.
Proof. intros E. apply (mem_set_ok_iff m m' l v l' E). Qed.
Lemma mem_get_set_other (m m' : mem T) l v l' : mem_set m l v = Ok m' -> l' <> l -> mem_get m' l' = mem_get m l'.
Proof.
  intros E Hne. destruct (mem_ok_dec m l) as [H|H]; [|rewrite mem_set_not in E by auto; discriminate].
  destruct (mem_set_ok v m l v H) as (m1 & E1 & Hk & _ & Hv). rewrite E in E1. injection E1 as <-.
  destruct (mem_ok_dec m l') as [H'|H'].
  - rewrite (mem_get_ok v m l') by auto. rewrite (mem_get_ok v m' l') by (apply Hk; auto). f_equal. rewrite Hv.
    destruct (Nat.eqb_spec (fst l') (fst l)); auto. destruct (Nat.eqb_spec (snd l') (snd l)); auto; cbn [andb].
    exfalso. apply Hne. destruct l, l'; simpl in *; congruence.
  - rewrite !mem_get_not; auto. intros C. apply H'. apply Hk. auto.
Qed.

Lemma upd_comm {X} (v : list X) i j a b : i <> j -> upd (upd v i a) j b = upd (upd v j b) i a.
Proof.
  revert i j; induction v as [|x v IH]; intros [|i] [|j] H; simpl; auto; try lia. f_equal. apply IH. lia.
Qed.
Lemma upd_upd {X} (v : list X) i a b : upd (upd v i a) i b = upd v i b.
Proof. revert i; induction v as [|x v IH]; intros [|i]; simpl; auto. f_equal. apply IH. Qed.
Lemma nth_upd_eq {X} (v : list X) i a d : i < length v -> nth i (upd v i a) d = a.
Proof. intros. rewrite nth_upd, Nat.eqb_refl. destruct (Nat.ltb_spec i (length v)); auto; lia. Qed.
Lemma nth_upd_ne {X} (v : list X) i j a d : j <> i -> nth j (upd v i a) d = nth j v d.
Proof. intros. rewrite nth_upd. destruct (Nat.eqb_spec j i); auto; lia. Qed.

Lemma mem_set_comm (m : mem T) l v l' v' : l' <> l ->
  (m1 <- mem_set m l v ;; mem_set m1 l' v') = (m1 <- mem_set m l' v' ;; mem_set m1 l v).
Proof.
  intros Hne. destruct (mem_ok_dec m l) as [H|H], (mem_ok_dec m l') as [H'|H'].
  - destruct (mem_set m l v) as [m1| |] eqn:E1; try (rewrite mem_set_upd in E1 by auto; discriminate).
    destruct (mem_set m l' v') as [m2| |] eqn:E2; try (rewrite mem_set_upd in E2 by auto; discriminate).
    cbn [bind]. rewrite !mem_set_upd by (eapply mem_set_keeps; eauto).
    rewrite mem_set_upd in E1, E2 by auto. injection E1 as <-. injection E2 as <-. f_equal.
    pose proof (mem_ok_fst _ _ H). pose proof (mem_ok_fst _ _ H').
    destruct (Nat.eq_dec (fst l) (fst l')) as [E|E].
    + rewrite <- E. rewrite !nth_upd_eq by auto. rewrite !upd_upd. f_equal. apply upd_comm.
      intros E'. apply Hne. destruct l, l'; simpl in *; congruence.
    + rewrite !nth_upd_ne by auto. apply upd_comm. auto.
  - rewrite (mem_set_not m l') by auto. destruct (mem_set m l v) as [m1| |] eqn:E1; try (rewrite mem_set_upd in E1 by auto; discriminate).
    cbn [bind]. apply mem_set_not. intros C. apply H'. eapply mem_set_back; eauto.
  - rewrite (mem_set_not m l) by auto. destruct (mem_set m l' v') as [m1| |] eqn:E1; try (rewrite mem_set_upd in E1 by auto; discriminate).
    cbn [bind]. symmetry. apply mem_set_not. intros C. apply H. eapply mem_set_back; eauto.
  - rewrite !mem_set_not by auto. reflexivity.
Qed.

(** ** One program and a foreign write *)
Lemma run_commute {A} F (p : prog T A) l v : within F p -> F l = false -> forall m m', mem_set m l v = Ok m' ->
  run p m' = (r <- run p m ;; m1 <- mem_set (snd r) l v ;; Ok (fst r, m1)).
Proof.
  intros H Hl. induction H; intros m m' E; cbn [run bind].
  - cbn [snd fst]. rewrite E. reflexivity.
  - assert (l0 <> l) by congruence. rewrite (mem_get_set_other m m' l v l0 E) by auto.
    destruct (mem_get m l0); cbn [bind]; auto.
  - assert (Hne : l0 <> l) by congruence. pose proof (mem_set_comm m l v l0 v0 Hne) as C. rewrite E in C. cbn [bind] in C.
    rewrite C. destruct (mem_set m l0 v0) as [m1|e|u] eqn:E1; cbn [bind]; auto.
    destruct (mem_set m1 l v) as [m2|e|u] eqn:E2; cbn [bind].
    + apply IHwithin; auto.
    + exfalso. unfold mem_set, vset in E2. destruct (nth_error m1 (fst l)); [|discriminate].
      destruct (snd l <? length l1); discriminate.
    + exfalso. destruct (mem_ok_dec m1 l) as [H1|H1].
      * rewrite mem_set_upd in E2 by auto. discriminate.
      * apply H1. eapply mem_set_keeps; eauto. destruct (mem_ok_dec m l); auto. rewrite mem_set_not in E by auto. discriminate.
  - reflexivity.
  - reflexivity.
Qed.

Lemma run_get {A} F (p : prog T A) l : within F p -> F l = false -> forall m a m', run p m = Ok (a, m') -> mem_get m' l = mem_get m l.
Proof.
  intros H Hl. induction H; intros m a0 m' E; cbn [run] in E; try discriminate.
  - injection E as _ <-. auto.
  - apply bind_Ok in E as (v & _ & E). eauto.
  - apply bind_Ok in E as (m1 & E1 & E). rewrite (IHwithin _ _ _ E). eapply mem_get_set_other; eauto. congruence.
Qed.

(** ** Sequential execution of a list of programs *)
Definition ser (ps : list (prog T unit)) : prog T unit := piter (fun p => p) ps.

Lemma run_ser_app ps qs m : run (ser (ps ++ qs)) m = (r <- run (ser ps) m ;; run (ser qs) (snd r)).
Proof.
  unfold ser. revert m; induction ps as [|p ps IH]; intros m; cbn [app piter].
  - reflexivity.
  - rewrite !run_bind. destruct (run p m) as [r|e|u]; cbn [bind]; auto.
Qed.

Lemma upd_split {X} (l : list X) i x y : nth_error l i = Some x -> exists a b, l = a ++ x :: b /\ length a = i /\ upd l i y = a ++ y :: b.
Proof.
  revert i; induction l as [|z l IH]; intros [|i] E; simpl in *; try discriminate.
  - injection E as ->. exists [], l. auto.
  - destruct (IH i E) as (a & b & -> & L & U). exists (z :: a), b. simpl. rewrite U. auto.
Qed.

(** Footprints of the threads. *)
Definition footed (F : nat -> loc -> bool) (ps : list (prog T unit)) : Prop :=
  (forall i p, nth_error ps i = Some p -> within (F i) p) /\
  (forall i j l, i <> j -> F i l = true -> F j l = false).

Lemma ser_within F (ps : list (prog T unit)) : footed F ps -> forall a b, ps = a ++ b ->
  forall l i, length a <= i -> F i l = true -> exists G, within G (ser a) /\ G l = false.
Proof.
  intros [HW HD] a b E l i Hi Hl. exists (fun l' => existsb (fun j => F j l') (seq 0 (length a))). split.
  - apply within_piter. intros p Hp. apply In_nth_error in Hp as (j & Ej).
    assert (Hj : j < length a) by (apply nth_error_Some; congruence).
    eapply within_mono; [|apply (HW j)].
    + intros l' Hl'. apply existsb_exists. exists j. split; auto. apply in_seq. lia.
    + rewrite E, nth_error_app1; auto.
  - apply not_true_iff_false. intros C. apply existsb_exists in C as (j & Hj & Hl'). apply in_seq in Hj.
    assert (F i l = false) by (apply (HD j i l); auto; lia). congruence.
Qed.

Lemma footed_upd F ps i p : footed F ps -> (exists q, nth_error ps i = Some q) -> within (F i) p -> footed F (upd ps i p).
Proof.
  intros [HW HD] (q & Eq) Hp. split; auto. intros j r Ej.
  destruct (upd_split ps i q p Eq) as (a & b & -> & L & U). rewrite U in Ej.
  destruct (Nat.lt_ge_cases j (length a)).
  - rewrite nth_error_app1 in Ej by auto. apply HW. rewrite nth_error_app1; auto.
  - rewrite nth_error_app2 in Ej by auto. destruct (j - length a) as [|k] eqn:Ek; simpl in Ej.
    + injection Ej as <-. replace j with i by lia. auto.
    + apply HW. rewrite nth_error_app2 by auto. rewrite Ek. auto.
Qed.

(** The sequential result is invariant under steps. *)
Lemma tstep_ser F c a c' : tstep c a c' -> footed F (fst c) ->
  footed F (fst c') /\ run (ser (fst c')) (snd c') = run (ser (fst c)) (snd c) /\ F (fst a) (snd a) = true.
Proof.
  intros H HF. destruct H as [ps m i l k v Ei Eg|ps m i l v k m' Ei Es]; cbn [fst snd] in *.
  - pose proof HF as [HW HD]. pose proof (HW _ _ Ei) as Wi. inversion Wi as [|l0 k0 Fl Wk| | |]; subst.
    split; [|split; auto].
    + apply footed_upd; eauto.
    + destruct (upd_split ps i _ (k v) Ei) as (a & b & -> & L & U). rewrite U. rewrite !run_ser_app.
      destruct (run (ser a) m) as [[u m1]|e|u] eqn:Ea; cbn [bind]; auto. cbn [snd].
      unfold ser. cbn [piter]. cbn [pbind run].
      destruct (ser_within F _ HF a _ eq_refl l i) as (G & WG & Gl); [lia|auto|].
      rewrite (run_get G (ser a) l WG Gl m u m1 Ea), Eg. cbn [bind]. reflexivity.
  - pose proof HF as [HW HD]. pose proof (HW _ _ Ei) as Wi. inversion Wi as [| |l0 v0 k0 Fl Wk| |]; subst.
    split; [|split; auto].
    + apply footed_upd; eauto.
    + destruct (upd_split ps i _ k Ei) as (a & b & -> & L & U). rewrite U. rewrite !run_ser_app.
      destruct (ser_within F _ HF a _ eq_refl l i) as (G & WG & Gl); [lia|auto|].
      rewrite (run_commute G (ser a) l v WG Gl m m' Es).
      destruct (run (ser a) m) as [[u m1]|e|u] eqn:Ea; cbn [bind]; auto. cbn [snd fst].
      unfold ser. cbn [piter]. cbn [pbind run].
      destruct (mem_set m1 l v); cbn [bind]; auto.
Qed.

Lemma texec_ser F c tr c' : texec c tr c' -> footed F (fst c) ->
  footed F (fst c') /\ run (ser (fst c')) (snd c') = run (ser (fst c)) (snd c) /\
  forall i l, In (i, l) tr -> F i l = true.
Proof.
  intros H. induction H as [c|c1 a c2 tr c3 S E IH]; intros HF.
  - split; [|split]; try (intros i l []); auto.
  - destruct (tstep_ser F _ _ _ S HF) as (F2 & R2 & A2). destruct (IH F2) as (F3 & R3 & A3).
    split; [auto|split; [congruence|]]. intros i l [->|Hi]; auto.
Qed.

Lemma run_finished (ps : list (prog T unit)) m : finished ps -> run (ser ps) m = Ok (tt, m).
Proof.
  induction ps as [|p ps IH]; intros H; cbn [ser piter run]; auto.
  rewrite (H p) by (simpl; auto). cbn [pbind]. apply IH. intros q Hq. apply H; simpl; auto.
Qed.

(** Number of steps of a program run on its own. *)
Fixpoint cost {A} (p : prog T A) (m : mem T) : nat :=
  match p with
  | Rd l k => match mem_get m l with Ok v => S (cost (k v) m) | _ => 0 end
  | Wr l v k => match mem_set m l v with Ok m' => S (cost k m') | _ => 0 end
  | _ => 0
  end.
Definition total (ps : list (prog T unit)) (m : mem T) : nat := list_sum (map (fun p => cost p m) ps).

Lemma cost_set {A} F (p : prog T A) l v : within F p -> F l = false -> forall m m', mem_set m l v = Ok m' -> cost p m' = cost p m.
Proof.
  intros H Hl. induction H; intros m m' E; cbn [cost]; auto.
  - assert (l0 <> l) by congruence. rewrite (mem_get_set_other m m' l v l0 E) by auto.
    destruct (mem_get m l0); auto.
  - assert (Hne : l0 <> l) by congruence. pose proof (mem_set_comm m l v l0 v0 Hne) as C. rewrite E in C. cbn [bind] in C.
    rewrite C. destruct (mem_set m l0 v0) as [m1|e|u] eqn:E1; cbn [bind]; auto.
    destruct (mem_set m1 l v) as [m2|e|u] eqn:E2.
    + f_equal. apply IHwithin; auto.
    + exfalso. unfold mem_set, vset in E2. destruct (nth_error m1 (fst l)); [|discriminate].
      destruct (snd l <? length l1); discriminate.
    + exfalso. destruct (mem_ok_dec m1 l) as [H1|H1].
      * rewrite mem_set_upd in E2 by auto. discriminate.
      * apply H1. eapply mem_set_keeps; eauto. destruct (mem_ok_dec m l); auto. rewrite mem_set_not in E by auto. discriminate.
Qed.

Lemma total_app a b m : total (a ++ b) m = total a m + total b m.
Proof. unfold total. rewrite map_app, list_sum_app. auto. Qed.
Lemma total_cons p b m : total (p :: b) m = cost p m + total b m.
Proof. reflexivity. Qed.
Lemma total_set (ps : list (prog T unit)) l v m m' : (forall p, In p ps -> exists G, within G p /\ G l = false) ->
  mem_set m l v = Ok m' -> total ps m' = total ps m.
Proof.
  intros H E. induction ps as [|p ps IH]; auto. rewrite !total_cons. rewrite IH by (intros; apply H; simpl; auto).
  destruct (H p) as (G & WG & Gl); [simpl; auto|]. rewrite (cost_set G p l v WG Gl m m' E). auto.
Qed.

Lemma tstep_total F c a c' : tstep c a c' -> footed F (fst c) -> total (fst c) (snd c) = S (total (fst c') (snd c')).
Proof.
  intros H [HW HD]. destruct H as [ps m i l k v Ei Eg|ps m i l v k m' Ei Es]; cbn [fst snd] in *.
  - destruct (upd_split ps i _ (k v) Ei) as (a & b & -> & L & U). rewrite U, !total_app, !total_cons.
    cbn [cost]. rewrite Eg. lia.
  - pose proof (HW _ _ Ei) as Wi. inversion Wi as [| |l0 v0 k0 Fl Wk| |]; subst.
    destruct (upd_split ps i _ k Ei) as (a & b & -> & L & U). rewrite U, !total_app, !total_cons.
    cbn [cost]. rewrite Es.
    assert (Ha : forall p, In p a -> exists G, within G p /\ G l = false).
    { intros p Hp. apply In_nth_error in Hp as (j & Ej). assert (Hj : j < length a) by (apply nth_error_Some; congruence).
      exists (F j). split. apply HW. rewrite nth_error_app1; auto. apply (HD i j l); auto; lia. }
    assert (Hb : forall p, In p b -> exists G, within G p /\ G l = false).
    { intros p Hp. apply In_nth_error in Hp as (j & Ej).
      exists (F (length a + S j)). split. apply HW. rewrite nth_error_app2 by lia. replace (length a + S j - length a) with (S j) by lia. auto.
      apply (HD i _ l); auto; lia. }
    rewrite (total_set a l v m m' Ha Es), (total_set b l v m m' Hb Es). lia.
Qed.

Lemma texec_length F c tr c' : texec c tr c' -> footed F (fst c) -> length tr <= total (fst c) (snd c).
Proof.
  intros H. induction H as [c|c1 a c2 tr c3 S E IH]; intros HF; simpl; [lia|].
  rewrite (tstep_total F _ _ _ S HF). destruct (tstep_ser F _ _ _ S HF) as (F2 & _). specialize (IH F2). lia.
Qed.

(** No thread is ever stuck if the sequential execution succeeds. *)
Lemma run_shape {A} (p : prog T A) m a m' : run p m = Ok (a, m') -> forall l, mem_ok m' l <-> mem_ok m l.
Proof.
  revert m; induction p; intros m E l'; cbn [run] in E; try discriminate.
  - injection E as _ <-. tauto.
  - apply bind_Ok in E as (v & _ & E). eauto.
  - apply bind_Ok in E as (m1 & E1 & E). rewrite (IHp _ E l'). eapply mem_set_ok_iff; eauto.
Qed.

Lemma progress (ps : list (prog T unit)) m r : run (ser ps) m = Ok r ->
  forall i p, nth_error ps i = Some p -> p = Ret tt \/ exists l c', tstep (ps, m) (i, l) c'.
Proof.
  intros E i p Ei. destruct (upd_split ps i p p Ei) as (a & b & Eps & L & _).
  rewrite Eps, run_ser_app in E. apply bind_Ok in E as ([u m1] & Ea & E). cbn [snd] in E.
  pose proof (run_shape _ _ _ _ Ea) as Sh. unfold ser in E. cbn [piter] in E.
  destruct p as [[]|l k|l v k|e|f]; cbn [pbind run] in E; try discriminate; auto; right.
  - apply bind_Ok in E as (v & Ev & _). exists l.
    assert (H : mem_ok m l). { apply Sh. destruct (mem_ok_dec m1 l); auto. rewrite mem_get_not in Ev by auto. discriminate. }
    eexists. eapply step_rd; eauto. apply (mem_get_ok v). auto.
  - apply bind_Ok in E as (m2 & Ev & _). exists l.
    assert (H : mem_ok m l). { apply Sh. destruct (mem_ok_dec m1 l); auto. rewrite mem_set_not in Ev by auto. discriminate. }
    eexists. eapply step_wr; eauto. apply mem_set_upd. auto.
Qed.

(** If the sequential execution succeeds there is a complete interleaved one
    (every execution can be completed). *)
Lemma completes F c r : footed F (fst c) -> run (ser (fst c)) (snd c) = Ok r ->
  exists tr qs m', texec c tr (qs, m') /\ finished qs.
Proof.
  remember (total (fst c) (snd c)) as n eqn:En. revert c En.
  induction n as [n IH] using lt_wf_ind. intros [ps m] En HF E. cbn [fst snd] in *.
  destruct (Forall_Exists_dec (fun p : prog T unit => p = Ret tt)) with (l := ps) as [Hall|Hex].
  - intros [[]|l k|l v k|e|f]; auto; right; discriminate.
  - exists [], ps, m. split. constructor. intros p Hp. rewrite List.Forall_forall in Hall. auto.
  - apply List.Exists_exists in Hex as (p & Hp & Hn). apply In_nth_error in Hp as (i & Ei).
    destruct (progress ps m r E i p Ei) as [?|(l & c' & S)]; [congruence|].
    pose proof (tstep_total F _ _ _ S HF) as Tt. cbn [fst snd] in Tt.
    destruct (tstep_ser F _ _ _ S HF) as (F2 & R2 & _).
    destruct (IH (total (fst c') (snd c')) ltac:(lia) c' eq_refl F2) as (tr & qs & m' & X & Fin).
    { rewrite R2. exact E. }
    exists ((i, l) :: tr), qs, m'. split; auto. econstructor; eauto.
Qed.

(** Summary for one group of threads. *)
Lemma interleaving F ps m : footed F ps ->
  forall m', (exists tr qs, texec (ps, m) tr (qs, m') /\ finished qs) <-> run (ser ps) m = Ok (tt, m').
Proof.
  intros HF m'. split.
  - intros (tr & qs & X & Fin). destruct (texec_ser F _ _ _ X HF) as (_ & R & _). cbn [fst snd] in R.
    rewrite <- R. apply run_finished. auto.
  - intros E. destruct (completes F (ps, m) _ HF E) as (tr & qs & m2 & X & Fin).
    destruct (texec_ser F _ _ _ X HF) as (_ & R & _). cbn [fst snd] in R. rewrite (run_finished qs m2 Fin) in R.
    rewrite E in R. injection R as <-. eauto.
Qed.
End Within.
