(** If factorising and solving succeed then all pivots are non-zero. *)
From Coq Require Import List Arith Lia Bool Reals Lra.
From Verif Require Import Base Num MeshM BandM ProgM LUM SpecBand SumR DenseLU BandProofs MulProofs LUProofs.
Import ListNotations.
Local Open Scope R_scope.

Lemma for_post {A} (I : nat -> A -> Prop) lo hi s f r :
  (lo <= hi)%nat -> I lo s ->
  (forall i s s', (lo <= i < hi)%nat -> I i s -> f s i = Ok s' -> I (i + 1)%nat s') ->
  for_ lo hi s f = Ok r -> I hi r.
Proof.
  unfold for_. intros Hle H0 Hst E. remember (hi - lo)%nat as n eqn:En.
  revert lo s Hle H0 Hst E En. induction n; intros lo s Hle H0 Hst E En; simpl in E.
  - inversion E; subst. replace hi with lo by lia. auto.
  - apply bind_Ok in E as (s1 & E1 & E). apply (IHn (S lo) s1); auto; try lia.
    + replace (S lo) with (lo + 1)%nat by lia. eapply Hst; eauto. lia.
    + intros; eapply Hst; eauto. lia.
Qed.

Lemma for_first {A} lo hi (s : A) f u : (lo < hi)%nat -> f s lo = Fault u -> for_ lo hi s f = Fault u.
Proof.
  intros H E. unfold for_. replace (hi - lo)%nat with (S (hi - lo - 1)) by lia. simpl. rewrite E. auto.
Qed.

Lemma for_down_each {A} n (s : A) f r : for_down n s f = Ok r ->
  forall j, (j < n)%nat -> exists s1 s2, f s1 j = Ok s2.
Proof.
  unfold for_down. revert s. induction n; intros s E j Hj; [lia|].
  rewrite seq_S_app, rev_app_distr in E. simpl in E. apply bind_Ok in E as (s1 & E1 & E).
  destruct (Nat.eq_dec j n) as [->|]; eauto. apply (IHn s1 E). lia.
Qed.

Section Zero.
Context {M : Type} (inv : M -> Prop) (abs : M -> mat).
Lemma div_loop_zero D Dd getd get set k lo hi m :
  getter inv abs Dd getd -> getter inv abs D get ->
  inv m -> Dd k k -> D lo k -> (lo < hi)%nat -> abs m k k = 0 ->
  for_ lo hi m (fun m i => div_assign Rops getd get set m i k k) = Fault DivByZero.
Proof.
  intros Hgd Hg Hi Hdd Hd Hlt Hz. apply for_first; auto. unfold div_assign.
  rewrite (Hg m lo k) by auto. cbn [bind]. rewrite (Hgd m k k) by auto. cbn [bind].
  rewrite Hz, Rdiv_zero. reflexivity.
Qed.
End Zero.

Lemma lu_iter_last A n i j : (0 < n)%nat -> (i < n)%nat -> lu_iter A n i j = lu_iter A (n - 1) i j.
Proof. intros Hn Hi. apply lu_iter_row; lia. Qed.

Lemma band_lu_inv on n p q m f :
  wfb n p q m -> (0 < n)%nat -> band_lu Rops on m = Ok f ->
  wfb n p q f /\ forall i j, (i < n)%nat -> (j < n)%nat -> babs 0 f i j = lu_iter (babs 0 m) n i j.
Proof.
  intros Hw Hn E. unfold band_lu in E. pose proof Hw as (En & Ep & Eq & _).
  rewrite En, Ep, Eq in E. rewrite usub_ok in E by lia. cbn [bind] in E.
  eapply (for_post (fun k s => wfb n p q s /\ forall i j, babs 0 s i j = lu_iter (babs 0 m) k i j)) in E.
  - destruct E as [H1 H2]. split; auto. intros i j Hi Hj. rewrite H2, (lu_iter_last _ n) by lia. auto.
  - lia.
  - split; auto.
  - intros k s s' Hk (Hws & Hvs) Es.
    destruct (Req_EM_T (babs 0 s k k) 0) as [Z|NZ].
    + destruct (Nat.eq_dec p 0) as [->|Hp].
      * destruct (band_lu_step on n 0 q s k) as (s2 & E2 & Hw2 & Hv2); auto; try lia.
        rewrite E2 in Es. inversion Es; subst. split; auto. intros i j. rewrite Hv2.
        replace (k + 1)%nat with (S k) by lia. simpl. unfold lu_step. rewrite !Hvs. auto.
      * exfalso.
        rewrite (div_loop_zero (wfb n p q) (babs 0) (in_band n p q) (in_band n p q)) in Es;
          [discriminate|..]; auto; try (unfold in_band; lia); try (intros ? ? ? ? ?; apply (band_get_ok 0 on n p q); auto).
    + destruct (band_lu_step on n p q s k) as (s2 & E2 & Hw2 & Hv2); auto; try lia.
      rewrite E2 in Es. inversion Es; subst. split; auto. intros i j. rewrite Hv2.
      replace (k + 1)%nat with (S k) by lia. simpl. unfold lu_step. rewrite !Hvs. auto.
Qed.

Lemma eband_lu_inv on n p q m f :
  wfe n p q m -> eband_lu Rops on m = Ok f ->
  wfe n p q f /\ forall i j, (i < n)%nat -> (j < n)%nat -> eabs 0 f i j = lu_iter (eabs 0 m) n i j.
Proof.
  intros Hw E. unfold eband_lu in E. destruct (wfe_npq _ _ _ _ Hw) as (En & Ep & Eq).
  pose proof Hw as (_ & Hpn & Hqn & _).
  rewrite En, Ep, Eq in E. rewrite usub_ok in E by lia. cbn [bind] in E.
  eapply (for_post (fun k s => wfe n p q s /\ forall i j, eabs 0 s i j = lu_iter (eabs 0 m) k i j)) in E.
  - destruct E as [H1 H2]. split; auto. intros i j Hi Hj. rewrite H2, (lu_iter_last _ n) by lia. auto.
  - lia.
  - split; auto.
  - intros k s s' Hk (Hws & Hvs) Es.
    assert (C : ((1 <= p + q)%nat -> eabs 0 s k k <> 0) -> wfe n p q s' /\
       (forall i j, eabs 0 s' i j = lu_iter (eabs 0 m) (k + 1) i j)).
    { intros H. destruct (eband_lu_step on n p q s k) as (s2 & E2 & Hw2 & Hv2); auto; try lia.
      rewrite E2 in Es. inversion Es; subst. split; auto. intros i j. rewrite Hv2.
      replace (k + 1)%nat with (S k) by lia. simpl. unfold lu_step. rewrite !Hvs. auto. }
    destruct (Req_EM_T (eabs 0 s k k) 0) as [Z|NZ]; [|auto].
    destruct (Nat.eq_dec (p + q) 0) as [Hpq|Hpq]; [apply C; intros; lia|]. exfalso.
    rewrite !usub_ok in Es by lia. cbn [bind] in Es.
    assert (gB : getter (wfe n p q) (eabs 0) (in_band n p q) (eb_main_get on)) by (intros ? ? ? ? ?; apply (eb_main_get_ok 0 on n p q); auto).
    assert (gS : getter (wfe n p q) (eabs 0) (in_side n p q) (eb_side_get on)) by (intros ? ? ? ? ?; apply (eb_side_get_ok 0 on n p q); auto).
    destruct (Nat.eq_dec p 0) as [->|Hp].
    + rewrite for_empty in Es by lia. cbn [bind] in Es.
      rewrite (div_loop_zero (wfe n 0 q) (eabs 0) (in_side n 0 q) (in_band n 0 q)) in Es;
          [discriminate|..]; auto; try (unfold in_side, in_band; lia).
    + rewrite (div_loop_zero (wfe n p q) (eabs 0) (in_band n p q) (in_band n p q)) in Es;
          [discriminate|..]; auto; try (unfold in_side, in_band; lia).
Qed.

Lemma run_div_inv iter a j m (r : unit * mem R) :
  run (it_div_assign Rops iter (Ok a) j) m = Ok r -> a <> 0.
Proof.
  unfold it_div_assign. cbn [pread pbind plift run]. intros E.
  apply bind_Ok in E as (v & _ & E). cbn [pbind] in E.
  intros ->. rewrite Rdiv_zero in E. cbn [plift pbind run] in E. discriminate.
Qed.

Lemma band_solve_inv on n p q m iter m0 r :
  wfb n p q m -> run (band_solve Rops on m iter) m0 = Ok r ->
  forall j, (j < n)%nat -> babs 0 m j j <> 0.
Proof.
  intros Hw E j Hj. unfold band_solve in E. pose proof Hw as (En & Ep & Eq & _).
  rewrite En, Ep, Eq in E. rewrite run_bind in E. apply bind_Ok in E as ([u m1] & _ & E).
  cbn [fst snd] in E. rewrite run_pfor_down in E. apply bind_Ok in E as (m2 & E & _).
  destruct (for_down_each _ _ _ _ E j Hj) as (s1 & s2 & E1). apply bind_Ok in E1 as (r1 & E1 & _).
  rewrite run_bind in E1. apply bind_Ok in E1 as (r2 & E2 & _).
  rewrite (band_get_ok 0 on n p q) in E2 by (auto; unfold in_band; lia).
  eapply run_div_inv; eauto.
Qed.

Lemma eband_solve_inv on n p q m iter m0 r :
  wfe n p q m -> run (eband_solve Rops on m iter) m0 = Ok r ->
  forall j, (j < n)%nat -> eabs 0 m j j <> 0.
Proof.
  intros Hw E j Hj. unfold eband_solve in E. destruct (wfe_npq _ _ _ _ Hw) as (En & Ep & Eq).
  rewrite En, Ep, Eq in E. rewrite run_bind in E. apply bind_Ok in E as ([u m1] & _ & E).
  cbn [fst snd] in E. rewrite run_pfor_down in E. apply bind_Ok in E as (m2 & E & _).
  destruct (for_down_each _ _ _ _ E j Hj) as (s1 & s2 & E1). apply bind_Ok in E1 as (r1 & E1 & _).
  rewrite run_bind in E1. apply bind_Ok in E1 as (r2 & E2 & _).
  rewrite (eb_main_get_ok 0 on n p q) in E2 by (auto; unfold in_band; lia).
  eapply run_div_inv; eauto.
Qed.

Lemma diag_pivots A F n : (forall i j, (i < n)%nat -> (j < n)%nat -> F i j = lu_iter A n i j) ->
  (forall j, (j < n)%nat -> F j j <> 0) -> pivots_ok A n.
Proof.
  intros HF Hd k Hk. rewrite <- (lu_iter_row A k k n k) by lia. rewrite <- HF by auto. auto.
Qed.

Lemma band_ok_pivots on n p q m f iter m0 r :
  wfb n p q m -> (0 < n)%nat -> band_lu Rops on m = Ok f -> run (band_solve Rops on f iter) m0 = Ok r ->
  pivots_ok (babs 0 m) n.
Proof.
  intros Hw Hn E1 E2. destruct (band_lu_inv on n p q m f Hw Hn E1) as [Hwf HF].
  eapply diag_pivots; eauto. eapply band_solve_inv; eauto.
Qed.

Lemma eband_ok_pivots on n p q m f iter m0 r :
  wfe n p q m -> eband_lu Rops on m = Ok f -> run (eband_solve Rops on f iter) m0 = Ok r ->
  pivots_ok (eabs 0 m) n.
Proof.
  intros Hw E1 E2. destruct (eband_lu_inv on n p q m f Hw E1) as [Hwf HF].
  eapply diag_pivots; eauto. eapply eband_solve_inv; eauto.
Qed.
