(** Coefficients of splines from values and derivatives of a function at one place. *)
From Coq Require Import List Arith Lia Bool ZArith Reals Lra FunctionalExtensionality.
From Coquelicot Require Import Coquelicot.
From Verif Require Import Base Num MeshM SpecMesh MeshProofs SumR SpecSpline SpecSplineObj SplineProofs BasisProofs MulProofs TensorR EvalR PolyProofs SmoothProofs DApproxProofs RateProofs.
Import ListNotations.
Open Scope R_scope.

(** ** Symmetric functions of shifted knots *)
Lemma esym_over t j p : forall m, (p < m)%nat -> esym t j p m = 0.
Proof.
  induction p as [|p IH]; intros m H; cbn [esym].
  - destruct m; [lia|reflexivity].
  - rewrite IH by lia. destruct m; [lia|]. rewrite IH by lia. ring.
Qed.
Lemma bin_over p : forall m, (p < m)%nat -> bin p m = 0.
Proof.
  induction p as [|p IH]; intros m H; cbn [bin].
  - destruct m; [lia|reflexivity].
  - rewrite IH by lia. destruct m; [lia|]. rewrite IH by lia. ring.
Qed.
Lemma bin_0 p : bin p 0 = 1.
Proof. induction p as [|p IH]; cbn [bin]; [reflexivity|]. rewrite IH. ring. Qed.
Lemma bin_full p : bin p p = 1.
Proof. induction p as [|p IH]; cbn [bin]; [reflexivity|]. rewrite IH, bin_over by lia. ring. Qed.
Lemma esym_0 t j p : esym t j p 0 = 1.
Proof. induction p as [|p IH]; cbn [esym]; [reflexivity|]. rewrite IH. ring. Qed.
Lemma bin_next p : forall m, (INR p - INR m) * bin p m = (INR m + 1) * bin p (S m).
Proof.
  induction p as [|p IH]; intros m.
  - destruct m; cbn [bin Nat.eqb]; simpl (INR 0); ring.
  - destruct m as [|m].
    + change (bin (S p) 0) with (bin p 0 + 0). change (bin (S p) 1) with (bin p 1 + bin p 0). rewrite S_INR. specialize (IH 0%nat). simpl (INR 0) in *. lra.
    + change (bin (S p) (S m)) with (bin p (S m) + bin p m). change (bin (S p) (S (S m))) with (bin p (S (S m)) + bin p (S m)).
      pose proof (IH m) as A. pose proof (IH (S m)) as B. rewrite !S_INR in *. nra.
Qed.

Section Shifted.
Variable t : nat -> R.
Definition es (j p m : nat) (x : R) : R := esym (fun i => t i - x) j p m.

Lemma es_derive j p : forall m (x : R), is_derive (fun x : R => es j p (S m) x) x (- (INR p - INR m) * es j p m x).
Proof.
  unfold es. induction p as [|p IH]; intros m x.
  - cbn [esym Nat.eqb]. replace (- (INR 0 - INR m) * (if (m =? 0)%nat then 1 else 0)) with 0 by (destruct m; simpl; ring).
    auto_derive; auto.
  - apply (is_derive_ext (fun x : R => es j p (S m) x + (t (j + p + 1)%nat - x) * es j p m x)); [intros y; reflexivity|].
    assert (D2 : is_derive (fun x : R => (t (j + p + 1)%nat - x)) x (-1)) by (auto_derive; auto; ring).
    assert (D3 : exists l : R, is_derive (fun x : R => es j p m x) x l /\ l = match m with O => 0 | S m' => - (INR p - INR m') * es j p m' x end).
    { destruct m as [|m'].
      - exists 0. split; auto. apply (is_derive_ext (fun _ : R => 1)); [intros; unfold es; rewrite esym_0; reflexivity|auto_derive; auto].
      - eexists. split; [apply IH|reflexivity]. }
    destruct D3 as (l & D3 & El).
    pose proof (is_derive_plus (fun x : R => es j p (S m) x) (fun x : R => (t (j + p + 1)%nat - x) * es j p m x) x _ _ (IH m x) (is_derive_mult (fun x : R => (t (j + p + 1)%nat - x)) (fun x : R => es j p m x) x _ _ D2 D3 Rmult_comm)) as D.
    replace (- (INR (S p) - INR m) * esym (fun i => t i - x) j (S p) m) with
      (plus (- (INR p - INR m) * es j p m x) (plus (mult (-1) (es j p m x)) (mult (t (j + p + 1)%nat - x) l))); [exact D|].
    unfold plus, mult; simpl plus; simpl mult. cbn -[INR esym es]. change (esym (fun i => t i - x) j (S p) m) with (es j p m x + match m with O => 0 | S m' => (t (j + p + 1)%nat - x) * es j p m' x end).
    rewrite S_INR. subst l. destruct m as [|m']; [simpl (INR 0); ring|]. rewrite S_INR. ring.
Qed.

Lemma es_bound j p m x H : 0 <= H -> (forall r, (1 <= r <= p)%nat -> Rabs (t (j + r)%nat - x) <= H) -> Rabs (es j p m x) <= bin p m * H ^ m.
Proof.
  intros H0. revert m. unfold es. induction p as [|p IH]; intros m B; cbn [esym bin].
  - destruct m; cbn [Nat.eqb pow]; rewrite ?Rabs_R0, ?Rabs_R1; lra.
  - specialize (IH) with (m := m) as A1. destruct m as [|m].
    + rewrite !Rplus_0_r. apply IH. intros; apply B; lia.
    + eapply Rle_trans; [apply Rabs_triang|]. rewrite Rmult_plus_distr_r. apply Rplus_le_compat; [apply A1; intros; apply B; lia|].
      rewrite Rabs_mult. replace (bin p m * H ^ S m) with (H * (bin p m * H ^ m)) by (cbn [pow]; ring).
      apply Rmult_le_compat; try apply Rabs_pos; [|apply IH; intros; apply B; lia]. replace (j + p + 1)%nat with (j + (p + 1))%nat by lia. apply B. lia.
Qed.
End Shifted.

(** ** The functional *)
Definition dcoef (t : nat -> R) (p j i : nat) (x : R) : R := es t j p i x / bin p i / INR (fact i).
Definition dual (t : nat -> R) (p j : nat) (D : nat -> R -> R) (x : R) : R := sum (p + 1) (fun i => dcoef t p j i x * D i x).
Definition ball (H : R) (p : nat) : R := sum (p + 1) (fun i => H ^ i / INR (fact i)).

Lemma dcoef_bound t p j i x H : 0 <= H -> (i <= p)%nat -> (forall r, (1 <= r <= p)%nat -> Rabs (t (j + r)%nat - x) <= H) -> Rabs (dcoef t p j i x) <= H ^ i / INR (fact i).
Proof.
  intros H0 Hi B. pose proof (bin_pos p i Hi) as BP. pose proof (INR_fact_lt_0 i) as FP. unfold dcoef, Rdiv.
  rewrite !Rabs_mult, (Rabs_pos_eq (/ bin p i)), (Rabs_pos_eq (/ INR (fact i))) by (left; apply Rinv_0_lt_compat; auto).
  apply Rmult_le_compat_r; [left; apply Rinv_0_lt_compat; auto|]. apply (Rmult_le_reg_r (bin p i)); auto.
  rewrite Rmult_assoc, Rinv_l, Rmult_1_r by lra. rewrite Rmult_comm with (r1 := H ^ i). apply es_bound; auto.
Qed.

Lemma dual_derive t p j D x : (forall i y, (i < S p)%nat -> is_derive (D i) y (D (S i) y)) ->
  is_derive (fun x : R => dual t p j D x) x (es t j p p x / INR (fact p) * D (S p) x).
Proof.
  intros HD. set (g := fun i x => match i with O => 0 | S m => - (dcoef t p j m x * D (S m) x) end).
  assert (T : forall i, (i < p + 1)%nat -> is_derive (fun x : R => dcoef t p j i x * D i x) x (g i x + dcoef t p j i x * D (S i) x)).
  { intros i Hi. assert (DC : is_derive (fun x : R => dcoef t p j i x) x (match i with O => 0 | S m => - dcoef t p j m x end)).
    { destruct i as [|m].
      - apply (is_derive_ext (fun _ : R => dcoef t p j 0 x)); [|auto_derive; auto]. intros y. unfold dcoef, es. rewrite !esym_0. reflexivity.
      - apply (is_derive_ext (fun y : R => (/ bin p (S m) / INR (fact (S m))) * es t j p (S m) y)); [intros y; unfold dcoef, Rdiv; simpl; ring|].
        pose proof (is_derive_scal (fun y : R => es t j p (S m) y) x (/ bin p (S m) / INR (fact (S m))) _ (es_derive t j p m x)) as Q.
        replace (- dcoef t p j m x) with (/ bin p (S m) / INR (fact (S m)) * (- (INR p - INR m) * es t j p m x)); [exact Q|].
        unfold dcoef. pose proof (bin_next p m) as BN. pose proof (bin_pos p m ltac:(lia)). pose proof (bin_pos p (S m) ltac:(lia)).
        rewrite fact_simpl, mult_INR, S_INR. pose proof (INR_fact_lt_0 m). pose proof (pos_INR m).
        apply (Rmult_eq_reg_r (bin p m * bin p (S m) * ((INR m + 1) * INR (fact m)))); [|apply Rgt_not_eq; apply Rmult_lt_0_compat; apply Rmult_lt_0_compat; lra].
        replace (/ bin p (S m) / ((INR m + 1) * INR (fact m)) * (- (INR p - INR m) * es t j p m x) * (bin p m * bin p (S m) * ((INR m + 1) * INR (fact m))))
          with (- ((INR p - INR m) * bin p m) * es t j p m x) by (field; lra).
        rewrite BN. field. lra. }
    pose proof (is_derive_mult (fun x : R => dcoef t p j i x) (D i) x _ _ DC (HD i x ltac:(lia)) Rmult_comm) as Q.
    replace (g i x + dcoef t p j i x * D (S i) x) with (plus (mult (match i with O => 0 | S m => - dcoef t p j m x end) (D i x)) (mult (dcoef t p j i x) (D (S i) x))); [exact Q|].
    unfold plus, mult; simpl plus; simpl mult. cbn -[dcoef]. unfold g. destruct i; ring. }
  replace (es t j p p x / INR (fact p) * D (S p) x) with (sum (p + 1) (fun i => g i x + dcoef t p j i x * D (S i) x)).
  - apply (is_derive_sum (p + 1) (fun i x => dcoef t p j i x * D i x) (fun i => g i x + dcoef t p j i x * D (S i) x)). exact T.
  - assert (E : forall n, sum (n + 1) (fun i => g i x + dcoef t p j i x * D (S i) x) = dcoef t p j n x * D (S n) x).
    { induction n as [|n IH]; [cbn [sum Nat.add g]; ring|]. replace (S n + 1)%nat with (S (n + 1)) by lia. cbn [sum]. rewrite IH. rewrite Nat.add_1_r. cbn [g]. ring. }
    rewrite E. unfold dcoef. rewrite bin_full. field. apply Rgt_not_eq. apply INR_fact_lt_0.
Qed.

Lemma dual_lip t p j D x y H M : (forall i z, (i < S p)%nat -> is_derive (D i) z (D (S i) z)) -> 0 <= H ->
  (forall z, Rmin x y <= z <= Rmax x y -> Rabs (D (S p) z) <= M) -> Rabs (y - x) <= H ->
  (forall z r, Rmin x y <= z <= Rmax x y -> (1 <= r <= p)%nat -> Rabs (t (j + r)%nat - z) <= H) ->
  Rabs (dual t p j D y - dual t p j D x) <= M / INR (fact p) * H ^ (p + 1).
Proof.
  intros HD H0 HM Hxy HB.
  destruct (MVT_gen (fun x : R => dual t p j D x) x y (fun z => es t j p p z / INR (fact p) * D (S p) z)) as (c & Hc & Ec).
  - intros z _. apply dual_derive. auto.
  - intros z _. apply derivable_continuous_pt. eexists. apply is_derive_Reals. apply dual_derive. auto.
  - rewrite Ec. rewrite Rabs_mult. unfold Rdiv. rewrite !Rabs_mult. pose proof (INR_fact_lt_0 p) as FP.
    rewrite (Rabs_pos_eq (/ INR (fact p))) by (left; apply Rinv_0_lt_compat; auto).
    assert (IF : 0 < / INR (fact p)) by (apply Rinv_0_lt_compat; auto).
    pose proof (es_bound t j p p c H H0 (fun r => HB c r Hc)) as E1. rewrite bin_full, Rmult_1_l in E1.
    pose proof (HM c Hc) as E2. pose proof (Rabs_pos (D (S p) c)). pose proof (Rabs_pos (es t j p p c)). pose proof (pow_le H p H0).
    replace (M * / INR (fact p) * H ^ (p + 1)) with ((H ^ p * / INR (fact p) * M) * H) by (rewrite pow_add; ring).
    apply Rmult_le_compat; try apply Rabs_pos; auto.
    + apply Rmult_le_pos; auto. apply Rmult_le_pos; lra.
    + apply Rmult_le_compat; auto; [apply Rmult_le_pos; lra|]. apply Rmult_le_compat_r; lra.
Qed.

(** ** Pieces of knots in order as weights *)
Section Pieces.
Variables (t : nat -> R) (k : nat) (g : R).
Hypothesis TM : forall i j, (i <= j)%nat -> t i <= t j.
Hypothesis G0 : 0 < g.
Hypothesis TG : g <= t (k + 1)%nat - t k.

Lemma moments p a y m : (p <= k)%nat -> (a <= p)%nat -> (m <= p)%nat ->
  sum (p + 1) (fun e => es t (k - p + e) p m y * dp t k a p (k - p + e) y) = bin p m * (if (m =? a)%nat then INR (fact a) else 0).
Proof.
  intros Hk Ha Hm. set (u := fun i => t i - y). set (N := (k + p + 2)%nat).
  assert (M : forall i j, (i <= j < N)%nat -> u i <= u j) by (intros i j H; unfold u; pose proof (TM i j ltac:(lia)); lra).
  assert (S : u k < u (k + 1)%nat) by (unfold u; lra).
  assert (E : forall b x, (b <= p)%nat -> sum (p + 1) (fun e => esym u (k - p + e) p m * dp u k b p (k - p + e) x) = bin p m * Derive_n (fun x => x ^ m) b x).
  { induction b as [|b IH]; intros x Hb.
    - cbn [dp Derive_n]. apply (esym_sum u N k); auto; unfold N; lia.
    - cbn [Derive_n]. rewrite <- Derive_scal. symmetry. apply is_derive_unique.
      apply (is_derive_ext (fun x => sum (p + 1) (fun e => esym u (k - p + e) p m * dp u k b p (k - p + e) x))); [intros; apply IH; lia|].
      apply (is_derive_sum (p + 1) (fun e x => esym u (k - p + e) p m * dp u k b p (k - p + e) x)). intros e He.
      apply (is_derive_scal (fun x => dp u k b p (k - p + e) x)). apply (dp_derive u N); auto; unfold N; lia. }
  transitivity (sum (p + 1) (fun e => esym u (k - p + e) p m * dp u k a p (k - p + e) 0)).
  - apply sum_ext. intros e He. unfold es. f_equal. replace y with (0 + y) at 1 by ring.
    pose proof (dp_shift u t k 0 y a p (k - p + e) 0) as Q. rewrite !Nat.add_0_r in Q. apply Q.
    intros i Hi. rewrite Nat.add_0_r. unfold u. ring.
  - rewrite E by auto. f_equal. rewrite Derive_n_monomial. destruct (Nat.eqb_spec m a) as [->|Ne].
    + rewrite Nat.sub_diag. cbn [pow]. rewrite Rmult_1_r. apply falling_fact.
    + destruct (Nat.lt_ge_cases m a) as [H|H]; [rewrite falling_small by auto; ring|]. rewrite pow_i by lia. ring.
Qed.

Lemma frac_gap i q : (i <= k <= i + q)%nat -> 0 <= frac 1 (t (i + q + 1)%nat - t i) <= / g.
Proof.
  intros H. pose proof (TM i k ltac:(lia)). pose proof (TM (k + 1)%nat (i + q + 1)%nat ltac:(lia)). unfold frac. destruct (Req_EM_T _ 0); [lra|].
  unfold Rdiv. rewrite Rmult_1_l. split; [left; apply Rinv_0_lt_compat; lra|]. apply Rinv_le_contravar; lra.
Qed.

Lemma dp_term a q i y : Rabs (frac 1 (t (i + q + 1)%nat - t i) * dp t k a q i y) <= / g * Rabs (dp t k a q i y).
Proof.
  rewrite Rabs_mult. destruct (Nat.lt_ge_cases k i) as [A|A]; [rewrite dp_support by lia; rewrite Rabs_R0; lra|].
  destruct (Nat.lt_ge_cases (i + q) k) as [B|B]; [rewrite dp_support by lia; rewrite Rabs_R0; lra|].
  pose proof (frac_gap i q ltac:(lia)). rewrite Rabs_pos_eq by lra. apply Rmult_le_compat_r; [apply Rabs_pos|lra].
Qed.

Lemma total y : t k <= y <= t (k + 1)%nat -> forall a p, (p <= k)%nat -> (a <= p)%nat ->
  sum (k + 2) (fun i => Rabs (dp t k a p i y)) <= (2 * INR p / g) ^ a.
Proof.
  intros Hy a. assert (IG : 0 < / g) by (apply Rinv_0_lt_compat; auto). induction a as [|a IH]; intros p Hp Ha.
  - cbn [dp pow]. rewrite (sum_ext _ _ (fun i => piece t k p i y)).
    2: { intros i Hi. apply Rabs_pos_eq. apply (piece_nonneg t (i + k + p + 3)); auto; try lia; try lra. intros u v Huv. apply TM. lia. }
    right. rewrite <- (piece_unity t (k + p + 2) k) with (p := p) (x := y); auto; try lia; try lra.
    2: { intros u v Huv. apply TM. lia. }
    replace (k + 2)%nat with ((k - p) + ((p + 1) + 1))%nat by lia. rewrite sum_app, sum_app. cbn [sum].
    rewrite sum_0 by (intros i Hi; apply piece_support; lia). rewrite (piece_support t k p (k - p + (p + 1 + 0))) by lia. ring.
  - destruct p as [|q]; [lia|]. specialize (IH q ltac:(lia) ltac:(lia)). set (Q := sum (k + 2) (fun i => Rabs (dp t k a q i y))) in *.
    pose proof (pos_INR q) as Q0. assert (Q1 : 0 <= Q) by (apply sum_pos; intros; apply Rabs_pos).
    apply Rle_trans with (sum (k + 2) (fun i => INR (S q) * / g * (Rabs (dp t k a q i y) + Rabs (dp t k a q (i + 1) y)))).
    + apply sum_le. intros i Hi. cbn [dp]. rewrite Rabs_mult, (Rabs_pos_eq (INR (S q))), Rmult_assoc by apply pos_INR. apply Rmult_le_compat_l; [apply pos_INR|].
      unfold Rminus. eapply Rle_trans; [apply Rabs_triang|]. rewrite Rabs_Ropp, Rmult_plus_distr_l.
      pose proof (dp_term a q i y) as A. pose proof (dp_term a q (i + 1) y) as B. fold (Rminus (t (i + S q)%nat) (t i)). fold (Rminus (t (i + S q + 1)%nat) (t (i + 1)%nat)).
      replace (i + S q)%nat with (i + q + 1)%nat by lia. replace (i + q + 1 + 1)%nat with (i + 1 + q + 1)%nat by lia. lra.
    + rewrite sum_scal, sum_plus. fold Q.
      assert (E : sum (k + 2) (fun i => Rabs (dp t k a q (i + 1) y)) <= Q).
      { unfold Q. replace (k + 2)%nat with (S (k + 1)) by lia. rewrite (sum_S_l _ (fun i => Rabs (dp t k a q i y))). cbn [sum].
        rewrite (dp_support t k a q (k + 1 + 1)) by lia. rewrite Rabs_R0.
        rewrite (sum_ext (k + 1) _ (fun i => Rabs (dp t k a q (S i) y))) by (intros i Hi; do 2 f_equal; lia). pose proof (Rabs_pos (dp t k a q 0 y)). lra. }
      cbn [pow]. apply Rle_trans with (INR (S q) * / g * (2 * Q)).
      * apply Rmult_le_compat_l; [apply Rmult_le_pos; [apply pos_INR|lra]|lra].
      * replace (INR (S q) * / g * (2 * Q)) with (2 * INR (S q) / g * Q) by (unfold Rdiv; ring).
        apply Rmult_le_compat_l; [apply Rmult_le_pos; [|lra]; pose proof (pos_INR (S q)); lra|]. eapply Rle_trans; [exact IH|]. apply pow_incr.
        rewrite S_INR. unfold Rdiv. split; [apply Rmult_le_pos; lra|]. apply Rmult_le_compat_r; lra.
Qed.

(** The spline with the coefficients [dual] near the function and its derivatives. *)
Lemma dual_exact p a y D : (p <= k)%nat -> (a <= p)%nat ->
  sum (p + 1) (fun e => dp t k a p (k - p + e) y * dual t p (k - p + e) D y) = D a y.
Proof.
  intros Hk Ha. unfold dual.
  rewrite (sum_ext _ _ (fun e => sum (p + 1) (fun i => dp t k a p (k - p + e) y * (dcoef t p (k - p + e) i y * D i y)))) by (intros e He; rewrite sum_scal; reflexivity).
  rewrite sum_swap. rewrite (sum_single (p + 1) a (fun i => sum (p + 1) (fun e => dp t k a p (k - p + e) y * (dcoef t p (k - p + e) i y * D i y)))).
  - rewrite (sum_ext _ _ (fun e => (es t (k - p + e) p a y * dp t k a p (k - p + e) y) * (/ bin p a / INR (fact a) * D a y))) by (intros e He; unfold dcoef, Rdiv; ring).
    rewrite sum_scal_r, moments by auto. rewrite Nat.eqb_refl. field. split; apply Rgt_not_eq; solve [apply INR_fact_lt_0|apply bin_pos; auto].
  - lia.
  - intros i Hi Ne. rewrite (sum_ext _ _ (fun e => (es t (k - p + e) p i y * dp t k a p (k - p + e) y) * (/ bin p i / INR (fact i) * D i y))) by (intros e He; unfold dcoef, Rdiv; ring).
    rewrite sum_scal_r, moments by (auto; lia). destruct (Nat.eqb_spec i a); [congruence|]. ring.
Qed.

Lemma dual_near p a y D M H : (1 <= p <= k)%nat -> (a <= p)%nat -> t k <= y <= t (k + 1)%nat -> 0 <= H -> 0 <= M ->
  (forall i z, (i < S p)%nat -> is_derive (D i) z (D (S i) z)) ->
  (forall z, t (k + 1 - p)%nat <= z <= t (k + p)%nat -> Rabs (D (S p) z) <= M) ->
  (forall e, (e <= p)%nat -> t (k - p + e + p + 1)%nat - t (k - p + e)%nat <= H) ->
  Rabs (sum (p + 1) (fun e => dp t k a p (k - p + e) y * dual t p (k - p + e) D (t (k - p + e + 1)%nat)) - D a y)
    <= (2 * INR p / g) ^ a * (M / INR (fact p) * H ^ (p + 1)).
Proof.
  intros Hp Ha Hy H0 M0 HD HM HH. rewrite <- (dual_exact p a y D) by (auto; lia). rewrite <- sum_minus.
  eapply Rle_trans; [apply sum_Rabs|].
  assert (E0 : 0 <= M / INR (fact p) * H ^ (p + 1)) by (apply Rmult_le_pos; [apply Rle_mult_inv_pos; [auto|apply INR_fact_lt_0]|apply pow_le; auto]).
  apply Rle_trans with (sum (p + 1) (fun e => Rabs (dp t k a p (k - p + e) y) * (M / INR (fact p) * H ^ (p + 1)))).
  - apply sum_le. intros e He. rewrite <- Rmult_minus_distr_l, Rabs_mult. apply Rmult_le_compat_l; [apply Rabs_pos|].
    pose proof (TM (k - p + e)%nat k ltac:(lia)) as A1. pose proof (TM (k + 1)%nat (k - p + e + p + 1)%nat ltac:(lia)) as A2.
    pose proof (TM (k - p + e)%nat (k - p + e + 1)%nat ltac:(lia)) as A3. pose proof (TM (k - p + e + 1)%nat (k - p + e + p + 1)%nat ltac:(lia)) as A4.
    pose proof (HH e ltac:(lia)) as A5. pose proof (TM (k - p + e + 1)%nat (k + 1)%nat ltac:(lia)) as A6. pose proof (TM (k + 1)%nat (k + p)%nat ltac:(lia)) as A7.
    pose proof (TM (k + 1 - p)%nat (k - p + e + 1)%nat ltac:(lia)) as A8. pose proof (TM (k + 1 - p)%nat k ltac:(lia)) as A9.
    assert (IN : forall z, Rmin y (t (k - p + e + 1)%nat) <= z <= Rmax y (t (k - p + e + 1)%nat) ->
      t (k - p + e)%nat <= z <= t (k - p + e + p + 1)%nat /\ t (k + 1 - p)%nat <= z <= t (k + p)%nat).
    { intros z. unfold Rmin, Rmax. destruct (Rle_dec _ _); lra. }
    apply (dual_lip t p (k - p + e) D y (t (k - p + e + 1)%nat) H M); auto.
    + intros z Hz. apply HM. apply IN. auto.
    + apply Rabs_le. lra.
    + intros z r Hz Hr. destruct (IN z Hz) as [B1 B2]. apply Rabs_le.
      pose proof (TM (k - p + e)%nat (k - p + e + r)%nat ltac:(lia)). pose proof (TM (k - p + e + r)%nat (k - p + e + p + 1)%nat ltac:(lia)). lra.
  - rewrite sum_scal_r. apply Rmult_le_compat_r; auto. eapply Rle_trans; [|apply (total y Hy a p); auto; lia].
    replace (k + 2)%nat with ((k - p) + ((p + 1) + 1))%nat by lia. rewrite (sum_app (k - p)), (sum_app (p + 1) 1).
    assert (0 <= sum (k - p) (fun i => Rabs (dp t k a p i y))) by (apply sum_pos; intros; apply Rabs_pos).
    assert (0 <= sum 1 (fun i => Rabs (dp t k a p (k - p + (p + 1 + i)) y))) by (apply sum_pos; intros; apply Rabs_pos). lra.
Qed.
End Pieces.

(** ** Functionals of several variables *)
Fixpoint lams (q : nat) (fs : list ((nat -> nat -> R) * (nat -> R))) (idx : list nat) (FF : list nat -> list R -> R) : R :=
  match fs, idx with
  | (c, u) :: fs, j :: idx => sum q (fun i => c j i * lams q fs idx (fun o xs => FF (i :: o) (u j :: xs)))
  | _, _ => FF [] []
  end.

Definition dual_dim : Type := ((nat * (nat -> R)) * ((nat -> nat -> R) * (nat -> R)) * (nat * R) * R)%type.
Definition dd_bas (d : dual_dim) := fst (fst (fst d)).
Definition dd_fun (d : dual_dim) := snd (fst (fst d)).
Definition dd_ord (d : dual_dim) := fst (snd (fst d)).
Definition dd_pt (d : dual_dim) := snd (snd (fst d)).
Definition dd_lip (d : dual_dim) := snd d.

Lemma tensor_sums bs (h : nat -> list nat -> R) : forall q, tensor bs (fun idx => sum q (fun i => h i idx)) = sum q (fun i => tensor bs (h i)).
Proof.
  induction q as [|r IHr]; cbn [sum].
  - rewrite (tensor_ext _ _ (fun idx => 0 * 0)) by (intros; ring). rewrite tensor_scal. ring.
  - rewrite tensor_plus, IHr. reflexivity.
Qed.

Section Several.
Variables (q : nat) (Gam Er : R).
Hypothesis G1 : 1 <= Gam.
Hypothesis E0 : 0 <= Er.

Fixpoint fits (ds : list dual_dim) (FF : list nat -> list R -> R) : Prop :=
  match ds with
  | [] => True
  | d :: ds =>
      Rabs (sum (fst (dd_bas d)) (fun j => snd (dd_bas d) j * sum q (fun i => fst (dd_fun d) j i * FF (i :: map dd_ord ds) (snd (dd_fun d) j :: map dd_pt ds)))
            - FF (dd_ord d :: map dd_ord ds) (dd_pt d :: map dd_pt ds)) <= dd_lip d * Er /\
      forall i j, (i < q)%nat -> (j < fst (dd_bas d))%nat -> fits ds (fun o xs => FF (i :: o) (snd (dd_fun d) j :: xs))
  end.
Definition tight (d : dual_dim) : Prop :=
  1 <= dd_lip d /\ sum (fst (dd_bas d)) (fun j => Rabs (snd (dd_bas d) j)) <= dd_lip d /\
  forall j, (j < fst (dd_bas d))%nat -> sum q (fun i => Rabs (fst (dd_fun d) j i)) <= Gam.
Fixpoint prodl (l : list R) : R := match l with [] => 1 | x :: l => x * prodl l end.

Lemma tensor_lams ds : (forall d, In d ds -> tight d) -> forall FF, fits ds FF ->
  Rabs (tensor (map dd_bas ds) (fun idx => lams q (map dd_fun ds) idx FF) - FF (map dd_ord ds) (map dd_pt ds))
    <= prodl (map dd_lip ds) * Gam ^ length ds * (INR (length ds) * Er) /\ 1 <= prodl (map dd_lip ds).
Proof.
  induction ds as [|d ds IH]; intros HT FF HF.
  - cbn [map tensor lams length prodl]. simpl (INR 0). rewrite Rminus_diag_eq, Rabs_R0 by auto. split; lra.
  - destruct HF as [HL HF]. destruct (HT d (or_introl eq_refl)) as (L1 & B1 & C1).
    assert (IH' : forall i j, (i < q)%nat -> (j < fst (dd_bas d))%nat -> _) by (intros i j Hi Hj; exact (proj1 (IH (fun d' H => HT d' (or_intror H)) _ (HF i j Hi Hj)))).
    cbv beta in IH'. cbn [map]. destruct (dd_bas d) as [m b] eqn:Eb. destruct (dd_fun d) as [c u] eqn:Ef. cbn [fst snd] in *. cbn [tensor prodl length].
    set (PL := prodl (map dd_lip ds)) in *. set (n := length ds) in *.
    set (A := fun i j => tensor (map dd_bas ds) (fun idx => lams q (map dd_fun ds) idx (fun o xs => FF (i :: o) (u j :: xs)))).
    set (D := fun i j => FF (i :: map dd_ord ds) (u j :: map dd_pt ds)).
    assert (P1 : 1 <= PL).
    { unfold PL. clear -HT. induction ds as [|e l IHl]; cbn [map prodl]; [lra|]. destruct (HT e ltac:(right; left; auto)) as (Q & _).
      assert (1 <= prodl (map dd_lip l)) by (apply IHl; intros d' [->|H]; apply HT; [left; auto|right; right; auto]). nra. }
    assert (GN : 1 <= Gam ^ n) by (apply pow_R1_Rle; auto). pose proof (pos_INR n) as N0.
    split; [|nra].
    rewrite Rsum_sum.
    rewrite (sum_ext m _ (fun j => b j * sum q (fun i => c j i * A i j))).
    2: { intros j Hj. f_equal. unfold A. cbn [lams]. set (w := fun i => c j i).
         rewrite (tensor_sums (map dd_bas ds) (fun i idx => w i * lams q (map dd_fun ds) idx (fun o xs => FF (i :: o) (u j :: xs)))).
         apply sum_ext. intros i Hi. apply tensor_scal. }
    assert (HD : forall i j, (i < q)%nat -> (j < m)%nat -> Rabs (A i j - D i j) <= PL * Gam ^ n * (INR n * Er)) by (intros i j Hi Hj; apply IH'; auto).
    set (W := PL * Gam ^ n * (INR n * Er)) in *.
    assert (W0 : 0 <= W) by (unfold W; apply Rmult_le_pos; apply Rmult_le_pos; lra).
    assert (S1 : Rabs (sum m (fun j => b j * sum q (fun i => c j i * A i j)) - sum m (fun j => b j * sum q (fun i => c j i * D i j))) <= dd_lip d * (Gam * W)).
    { rewrite <- sum_minus. eapply Rle_trans; [apply sum_Rabs|]. apply Rle_trans with (sum m (fun j => Rabs (b j) * (Gam * W))).
      - apply sum_le. intros j Hj. rewrite <- Rmult_minus_distr_l, Rabs_mult. apply Rmult_le_compat_l; [apply Rabs_pos|].
        rewrite <- sum_minus. eapply Rle_trans; [apply sum_Rabs|]. apply Rle_trans with (sum q (fun i => Rabs (c j i) * W)).
        + apply sum_le. intros i Hi. rewrite <- Rmult_minus_distr_l, Rabs_mult. apply Rmult_le_compat_l; [apply Rabs_pos|]. apply HD; auto.
        + rewrite sum_scal_r. apply Rmult_le_compat_r; auto.
      - rewrite sum_scal_r. apply Rmult_le_compat_r; [apply Rmult_le_pos; lra|auto]. }
    match goal with |- Rabs (?x - ?z) <= _ => replace (x - z) with ((x - sum m (fun j => b j * sum q (fun i => c j i * D i j))) + (sum m (fun j => b j * sum q (fun i => c j i * D i j)) - z)) by ring end.
    eapply Rle_trans; [apply Rabs_triang|]. eapply Rle_trans; [apply Rplus_le_compat; [exact S1|exact HL]|].
    rewrite S_INR. cbn [pow]. unfold W.
    assert (X : 1 <= PL * (Gam * Gam ^ n)) by (assert (1 <= Gam * Gam ^ n) by nra; nra).
    replace (dd_lip d * (Gam * (PL * Gam ^ n * (INR n * Er))) + dd_lip d * Er) with (dd_lip d * (PL * (Gam * Gam ^ n)) * (INR n * Er) + dd_lip d * Er) by ring.
    assert (dd_lip d * Er <= dd_lip d * Er * (PL * (Gam * Gam ^ n))) by (assert (0 <= dd_lip d * Er) by nra; nra).
    replace (dd_lip d * PL * (Gam * Gam ^ n) * ((INR n + 1) * Er)) with (dd_lip d * (PL * (Gam * Gam ^ n)) * (INR n * Er) + dd_lip d * Er * (PL * (Gam * Gam ^ n))) by ring. lra.
Qed.
End Several.
