(** Grids of points in doubles: what the collocation matrices need. *)
From Coq Require Import List Arith Lia Bool ZArith Reals Floats Lra Psatz.
From Flocq Require Import Core BinarySingleNaN PrimFloat Relative Plus_error.
From Verif Require Import Base Num MeshM ProgM BandM LUM SplineM InterpM FloatM SpecBand SpecSpline SpecInterp SpecRound SpecRoundInterp.
From Verif Require Import SumR BandProofs MulProofs KnotProofs CoefProofs FloatProofs RoundDouble RoundLU RoundLUTop GenKnots RoundKnots RoundUniform RoundKnotsTop ExactKnots.
Import ListNotations.
Local Open Scope R_scope.
Local Notation float := PrimFloat.float.

Lemma steps_mono (t : nat -> R) len : (forall i, (i + 1 < len)%nat -> t i <= t (i + 1)%nat) -> forall i j, (i <= j < len)%nat -> t i <= t j.
Proof.
  intros H i j [Hij Hj]. induction Hij as [|j Hij IH]; [lra|]. pose proof (H j ltac:(lia)) as Q. rewrite Nat.add_1_r in Q. specialize (IH ltac:(lia)). lra.
Qed.

(** Means with a margin *)
Lemma mean_low p f c h : (2 <= p)%nat -> 0 <= h -> (forall j, (j + 1 < p)%nat -> f j <= c - h) -> f (p - 1)%nat <= c -> mean p f <= c - h / 2.
Proof.
  intros Hp Hh H1 H2. unfold mean. change Rsum with sum. pose proof (le_INR 2 p Hp) as P. change (INR 2) with 2 in P.
  destruct p as [|q]; [lia|]. cbn [sum]. replace (S q - 1)%nat with q in H2 by lia. rewrite S_INR in *.
  assert (Q : sum q f <= INR q * (c - h)). { rewrite <- sum_const. apply sum_le. intros j Hj. apply H1. lia. }
  apply Rmult_le_reg_r with (INR q + 1); [lra|]. unfold Rdiv at 1. rewrite Rmult_assoc, Rinv_l, Rmult_1_r by lra. nra.
Qed.
Lemma mean_high p f c h : (2 <= p)%nat -> 0 <= h -> (forall j, (1 <= j < p)%nat -> c + h <= f j) -> c <= f 0%nat -> c + h / 2 <= mean p f.
Proof.
  intros Hp Hh H1 H2. unfold mean. change Rsum with sum. pose proof (le_INR 2 p Hp) as P. change (INR 2) with 2 in P.
  assert (Q : forall q, (1 <= q <= p)%nat -> INR q * c + (INR q - 1) * h <= sum q f).
  { induction q as [|q IH]; intros Hq; [lia|]. cbn [sum]. rewrite S_INR. destruct (Nat.eq_dec q 0) as [->|N].
    - cbn [sum INR]. lra.
    - pose proof (IH ltac:(lia)). pose proof (H1 q ltac:(lia)). lra. }
  pose proof (Q p ltac:(lia)). apply Rmult_le_reg_r with (INR p); [lra|]. unfold Rdiv at 2. rewrite Rmult_assoc, Rinv_l, Rmult_1_r by lra. nra.
Qed.

Lemma kn_vals (K : list float) i : kn (map double_val K) i = double_val (nth i K 0%float).
Proof. unfold kn. change 0 with (double_val 0%float) at 1. apply map_nth. Qed.

Lemma small_errors n X h : (1 <= n)%nat -> 0 <= X -> powerRZ 2 (-799) <= h -> INR n * powerRZ 2 (-46) * X <= h ->
  0 < h /\ INR n * powerRZ 2 (-51) * X + powerRZ 2 (-1074) <= h / 4 /\ powerRZ 2 (-49) * X + powerRZ 2 (-1073) <= h / 4 /\ powerRZ 2 (-800) <= h / 2.
Proof.
  intros Hn HX Hh H. rewrite <- !(bpow_powerRZ radix2) in *.
  pose proof (bpow_gt_0 radix2 (-799)) as P. pose proof (le_INR 1 n Hn) as N1. change (INR 1) with 1 in N1.
  assert (E1 : bpow radix2 (-46) = 32 * bpow radix2 (-51)) by (change (-46)%Z with (5 + -51)%Z; rewrite bpow_plus; reflexivity).
  assert (E2 : bpow radix2 (-46) = 8 * bpow radix2 (-49)) by (change (-46)%Z with (3 + -49)%Z; rewrite bpow_plus; reflexivity).
  assert (E3 : bpow radix2 (-799) = 2 * bpow radix2 (-800)) by (change (-799)%Z with (1 + -800)%Z; rewrite bpow_plus; reflexivity).
  assert (E4 : bpow radix2 (-1073) <= bpow radix2 (-802)) by (apply bpow_le; lia).
  assert (E5 : bpow radix2 (-799) = 8 * bpow radix2 (-802)) by (change (-799)%Z with (3 + -802)%Z; rewrite bpow_plus; reflexivity).
  assert (E6 : bpow radix2 (-1074) <= bpow radix2 (-1073)) by (apply bpow_le; lia).
  assert (H' : bpow radix2 (-46) * X <= INR n * bpow radix2 (-46) * X).
  { apply Rmult_le_compat_r; auto. rewrite <- (Rmult_1_l (bpow radix2 (-46))) at 1. apply Rmult_le_compat_r; [apply bpow_ge_0|auto]. }
  rewrite E1 in H. rewrite E2 in H'.
  assert (H2 : INR n * (32 * bpow radix2 (-51)) * X = 32 * (INR n * bpow radix2 (-51) * X)) by ring. rewrite H2 in H.
  rewrite <- E2 in H'. rewrite E1 in H' at 2. rewrite E2 in H'. rewrite H2 in H'. lra.
Qed.

Section Facts.
Context (p : nat) (l K c : list float).
Local Notation n := (length l).
Local Notation t := (kn (map double_val K)).
Local Notation x := (fun i => double_val (nth i l 0%float)).

Lemma fit_wide X : X <= powerRZ 2 900 -> 0 <= X -> (forall a, In a K -> Rabs (double_val a) <= 10 * X + 1) ->
  forall a b, In a K -> In b K -> double_val b - double_val a <= Fbig / 4.
Proof.
  intros HX X0 H a b Ha Hb. apply H in Ha. apply H in Hb. apply Rabs_le_inv in Ha. apply Rabs_le_inv in Hb.
  unfold Fbig. rewrite <- (bpow_powerRZ radix2) in HX.
  assert (E : bpow radix2 1023 = 4 * bpow radix2 1021) by (change 1023%Z with (2 + 1021)%Z; rewrite bpow_plus; reflexivity).
  assert (E1 : bpow radix2 905 <= bpow radix2 1021) by (apply bpow_le; lia).
  assert (E2 : bpow radix2 905 = 32 * bpow radix2 900) by (change 905%Z with (5 + 900)%Z; rewrite bpow_plus; reflexivity).
  assert (E3 : 1 <= bpow radix2 900) by (change 1 with (bpow radix2 0); apply bpow_le; lia). lra.
Qed.

Lemma ap_facts_at X h : (1 <= p)%nat -> (p + 1 <= n)%nat -> INR n <= powerRZ 2 40 -> (forall a, In a l -> double_finite a) ->
  X <= powerRZ 2 900 -> powerRZ 2 (-799) <= h -> INR n * powerRZ 2 (-46) * X <= h -> (forall a, In a l -> Rabs (double_val a) <= X) ->
  (forall i, (i + 1 < n)%nat -> h <= double_val (nth (i + 1) l zero) - double_val (nth i l zero)) -> aperiodic_points Fops p l = Ok (K, c) ->
  (forall i, (p <= i < n)%nat -> h / 2 <= t (i + 1)%nat - t i) /\ c = l /\ (forall a, In a K -> double_finite a) /\ nondecreasing (map double_val K) /\
  (forall a b, In a K -> In b K -> double_val b - double_val a <= Fbig / 4) /\ length K = (n + p + 1)%nat /\
  (forall i, (p <= i < n)%nat -> powerRZ 2 (-800) <= t (i + 1)%nat - t i) /\
  (forall i, (i <= p)%nat -> t i = x 0%nat) /\ (forall i, (n <= i <= n + p)%nat -> t i = x (n - 1)%nat) /\
  (forall i, (1 <= i)%nat -> (i + 1 < n)%nat -> x 0%nat <= x i < x (n - 1)%nat) /\
  (p = 1%nat -> forall i, (1 <= i)%nat -> (i + 1 < n)%nat -> x i = t (i + 1)%nat) /\
  ((2 <= p)%nat -> forall i, (1 <= i)%nat -> (i + 1 < n)%nat -> t (i + 1)%nat <= x i < t (i + p)%nat).
Proof.
  intros P1 Hn Hs Hf HX Hh Hb Ha Hg E.
  assert (Hl : forall a, In a l -> double_finite a /\ Rabs (double_val a) <= X) by auto.
  assert (X0 : 0 <= X). { pose proof (Ha (nth 0 l 0%float) ltac:(apply nth_In; lia)). pose proof (Rabs_pos (double_val (nth 0 l 0%float))). lra. }
  destruct (ap_double l p X Hl HX Hs P1 Hn) as (xs & E' & [Lk N] & A & B).
  assert (xs = K /\ c = l) as [-> ->] by (split; congruence). clear E'.
  destruct (small_errors n X h ltac:(lia) X0 Hh Hb) as (h0 & S1 & _ & S3).
  set (e := INR n * powerRZ 2 (-51) * X + powerRZ 2 (-1074)) in *.
  assert (C := chain_gap x n h).
  assert (Tv : forall i, t i = double_val (nth i K 0%float)) by (intros; apply kn_vals).
  assert (Gp : forall k, (p <= k < n)%nat -> h / 2 <= t (k + 1)%nat - t k).
  { intros k Hk. rewrite !Tv. pose proof (near_gap K (n + p + 1) (ap_knot p n x) e h k (conj Lk N) ltac:(lia) (ap_gap p n x h k P1 Hn ltac:(lra) Hg Hk)). lra. }
  assert (Lo : forall i, (i <= p)%nat -> t i = x 0%nat) by (intros i Hi; rewrite Tv, A by auto; auto).
  assert (Hi' : forall i, (n <= i <= n + p)%nat -> t i = x (n - 1)%nat) by (intros i Hi; rewrite Tv, B by lia; auto).
  assert (In1 : forall i, (1 <= i)%nat -> (i + 1 < n)%nat -> x 0%nat <= x i < x (n - 1)%nat).
  { intros i H1 H2. pose proof (C 0%nat i ltac:(lra) Hg ltac:(lia)). pose proof (C i (n - 1)%nat ltac:(lra) Hg ltac:(lia)). cbv beta in *. lra. }
  assert (Ne : forall k, (k < n + p + 1)%nat -> - e <= t k - ap_knot p n x k <= e).
  { intros k Hk. rewrite Tv. apply Rabs_le_inv. apply N. auto. }
  split; auto. split; auto. split. { intros a Hin. apply (In_nth _ _ 0%float) in Hin as (k & Hk & <-). rewrite Lk in Hk. apply N. auto. }
  split. { intros i j Hij. rewrite map_length, Lk in Hij. revert i j Hij. apply steps_mono. intros i Hi.
    destruct (Nat.lt_ge_cases i p); [rewrite !Lo by lia; lra|]. destruct (Nat.lt_ge_cases i n); [pose proof (Gp i ltac:(lia)); lra|]. rewrite !Hi' by lia. lra. }
  split. { apply (fit_wide X); auto. intros a Hin. apply (In_nth _ _ 0%float) in Hin as (k & Hk & <-). rewrite Lk in Hk.
    assert (Xx : forall i, (i < n)%nat -> - X <= x i <= X) by (intros i Hi; apply Rabs_le_inv; apply Ha; apply nth_In; auto).
    assert (Kk : - X <= ap_knot p n x k <= X).
    { unfold ap_knot. destruct (Nat.leb_spec k p); [apply Xx; lia|]. destruct (Nat.ltb_spec k n); [|apply Xx; lia]. destruct (Nat.eqb_spec p 0); [lia|].
      split; [apply mean_ge|apply mean_le]; auto; intros j Hj; apply Xx; lia. }
    pose proof (Ne k Hk) as Q. rewrite Tv in Q. 
    assert (e <= X + 1). { unfold e. 
      assert (INR n * powerRZ 2 (-51) <= powerRZ 2 (-11)).
      { apply Rle_trans with (powerRZ 2 40 * powerRZ 2 (-51)); [apply Rmult_le_compat_r; auto; rewrite <- (bpow_powerRZ radix2); apply bpow_ge_0|]. rewrite <- powerRZ_add by lra. right. reflexivity. }
      assert (powerRZ 2 (-11) <= 1) by (rewrite <- (bpow_powerRZ radix2); change 1 with (bpow radix2 0); apply bpow_le; lia).
      assert (powerRZ 2 (-1074) <= 1) by (rewrite <- (bpow_powerRZ radix2); change 1 with (bpow radix2 0); apply bpow_le; lia).
      assert (INR n * powerRZ 2 (-51) * X <= 1 * X) by (apply Rmult_le_compat_r; lra). lra. }
    apply Rabs_le. lra. }
  split; auto. split. { intros i Hi. pose proof (Gp i Hi). lra. }
  split; auto. split; auto. split; auto. split.
  { intros Hp1 i H1 H2. symmetry. rewrite Tv. rewrite Hp1 in E. apply (ap_one l K l); [lia| |exact E|exact H1|exact H2].
    intros a Hin. destruct (Hl a Hin) as [G1 G2]. split; auto. eapply Rle_trans; [exact G2|]. eapply Rle_trans; [exact HX|].
    rewrite <- (bpow_powerRZ radix2). apply bpow_le. lia. }
  intros P2 i H1 H2. split.
  - destruct (Nat.le_gt_cases (i + 1) p); [rewrite Lo by lia; apply In1; auto|].
    assert (Q : ap_knot p n x (i + 1) <= x i - h / 2).
    { unfold ap_knot. destruct (Nat.leb_spec (i + 1) p); [lia|]. destruct (Nat.ltb_spec (i + 1) n); [|lia]. destruct (Nat.eqb_spec p 0); [lia|].
      apply mean_low; auto; [lra| |].
      - intros j Hj. pose proof (C (i + 1 - p + j)%nat i ltac:(lra) Hg ltac:(lia)). cbv beta in *. lra.
      - right. do 2 f_equal. lia. }
    pose proof (Ne (i + 1)%nat ltac:(lia)). lra.
  - destruct (Nat.le_gt_cases n (i + p)); [rewrite Hi' by lia; apply In1; auto|].
    assert (Q : x i + h / 2 <= ap_knot p n x (i + p)).
    { unfold ap_knot. destruct (Nat.leb_spec (i + p) p); [lia|]. destruct (Nat.ltb_spec (i + p) n); [|lia]. destruct (Nat.eqb_spec p 0); [lia|].
      apply mean_high; auto; [lra| |].
      - intros j Hj. apply (C i (i + p - p + j)%nat); auto; [lra|lia].
      - right. do 2 f_equal. lia. }
    pose proof (Ne (i + p)%nat ltac:(lia)). lra.
Qed.

Lemma ap_facts : fit_grid p false l -> aperiodic_points Fops p l = Ok (K, c) ->
  c = l /\ (forall a, In a K -> double_finite a) /\ nondecreasing (map double_val K) /\
  (forall a b, In a K -> In b K -> double_val b - double_val a <= Fbig / 4) /\ length K = (n + p + 1)%nat /\
  (forall i, (p <= i < n)%nat -> powerRZ 2 (-800) <= t (i + 1)%nat - t i) /\
  (forall i, (i <= p)%nat -> t i = x 0%nat) /\ (forall i, (n <= i <= n + p)%nat -> t i = x (n - 1)%nat) /\
  (forall i, (1 <= i)%nat -> (i + 1 < n)%nat -> x 0%nat <= x i < x (n - 1)%nat) /\
  (p = 1%nat -> forall i, (1 <= i)%nat -> (i + 1 < n)%nat -> x i = t (i + 1)%nat) /\
  ((2 <= p)%nat -> forall i, (1 <= i)%nat -> (i + 1 < n)%nat -> t (i + 1)%nat <= x i < t (i + p)%nat).
Proof.
  intros [Ho Hs Hf (X & h & HX & Hh & Hb & Ha & Hg) _] E. destruct Ho as [P1 Hn].
  apply (ap_facts_at X h); auto.
Qed.

Lemma per_facts_at X h : (p + 2 <= n)%nat -> INR n <= powerRZ 2 40 -> (forall a, In a l -> double_finite a) ->
  X <= powerRZ 2 900 -> powerRZ 2 (-799) <= h -> INR n * powerRZ 2 (-46) * X <= h -> (forall a, In a l -> Rabs (double_val a) <= X) ->
  (forall i, (i + 1 < n)%nat -> h <= double_val (nth (i + 1) l zero) - double_val (nth i l zero)) ->
  ((p mod 2 = 1)%nat -> double_val (nth (n - 1) l zero - (nth (n - 1) l zero - nth 0 l zero))%float = double_val (nth 0 l zero)) ->
  periodic_points Fops p l = Ok (K, c) ->
  let m := (n - 1)%nat in
  ((forall i, (i + 1 < length K)%nat -> h / 2 <= t (i + 1)%nat - t i) /\ Rabs (t p) <= 4 * X /\ Rabs (t (m + p)%nat) <= 4 * X /\ x (m - 1)%nat + h / 4 <= t (m + p)%nat) /\
  c = l /\ (forall a, In a K -> double_finite a) /\ nondecreasing (map double_val K) /\
  (forall a b, In a K -> In b K -> double_val b - double_val a <= Fbig / 4) /\ length K = (m + 2 * p + 1 + (1 - p mod 2))%nat /\
  (forall i, (i + 1 < length K)%nat -> powerRZ 2 (-800) <= t (i + 1)%nat - t i) /\
  (forall i, (i < m)%nat -> t (i + p)%nat <= x i < t (i + p + 1)%nat) /\
  ((p mod 2 = 1)%nat -> forall i, (i < m)%nat -> x i = t (i + p)%nat).
Proof.
  intros Hn Hs Hf HX Hh Hb Ha Hg Hbk E m.
  assert (Hl : forall a, In a l -> double_finite a /\ Rabs (double_val a) <= X) by auto.
  assert (X0 : 0 <= X). { pose proof (Ha (nth 0 l 0%float) ltac:(apply nth_In; lia)). pose proof (Rabs_pos (double_val (nth 0 l 0%float))). lra. }
  destruct (per_double l p X Hl HX Hs Hn) as (xs & E' & [Lk N]).
  assert (xs = K /\ c = l) as [-> ->] by (split; congruence). clear E'. fold m in N.
  destruct (small_errors n X h ltac:(lia) X0 Hh Hb) as (h0 & _ & S1 & S3).
  set (e := powerRZ 2 (-49) * X + powerRZ 2 (-1073)) in *.
  set (P := double_val (nth m l 0%float) - double_val (nth 0 l 0%float)) in *.
  assert (C := chain_gap x n h).
  assert (Tv : forall i, t i = double_val (nth i K 0%float)) by (intros; apply kn_vals).
  assert (Hgm : forall i, (i + 1 < m + 1)%nat -> h <= x (i + 1)%nat - x i) by (intros i Hi; apply Hg; unfold m in Hi; lia).
  assert (Gp : forall k, (k + 1 < length K)%nat -> h / 2 <= t (k + 1)%nat - t k).
  { intros k Hk. rewrite !Tv. pose proof (near_gap K _ (per_knot p m P x) e h k (conj Lk N) ltac:(lia) (per_gap p m x h k ltac:(unfold m; lia) Hgm)). lra. }
  assert (Ne : forall k, (k < length K)%nat -> - e <= t k - per_knot p m P x k <= e).
  { intros k Hk. rewrite Tv. apply Rabs_le_inv. apply N. lia. }
  assert (Od : (p mod 2 = 1)%nat -> forall i, (i < m)%nat -> x i = t (i + p)%nat).
  { intros Ho i Hi. destruct (per_exact Fops p l K l Ho Hn E) as [X1 X2]. fold m in X1, X2. rewrite Tv. change (o0 Fops) with 0%float in *.
    destruct (Nat.eq_dec i 0) as [->|Ni].
    - cbn [Nat.add]. rewrite X2. symmetry. apply (Hbk Ho).
    - rewrite X1 by lia. do 2 f_equal. lia. }
  pose proof (half_cases p) as HC.
  split. { split; [exact Gp|].
    assert (M0 : (0 < m)%nat) by (unfold m; lia).
    assert (Xx : forall i, (i < n)%nat -> - X <= x i <= X) by (intros i Hi; apply Rabs_le_inv; apply Ha; apply nth_In; auto).
    pose proof (Xx 0%nat ltac:(lia)) as X1. pose proof (Xx m ltac:(unfold m; lia)) as X2. pose proof (Xx (m - 1)%nat ltac:(unfold m; lia)) as X3.
    pose proof (C 0%nat m ltac:(lra) Hg ltac:(unfold m in *; lia)) as X4. pose proof (Hgm (m - 1)%nat ltac:(lia)) as X5. replace (m - 1 + 1)%nat with m in X5 by lia.
    pose proof (Ne p ltac:(lia)) as N1. pose proof (Ne (m + p)%nat ltac:(unfold m; lia)) as N2.
    pose proof (pext_in m x m M0 ltac:(lia)) as Y5. pose proof (pext_in m x (m - 1) M0 ltac:(lia)) as Y1.
    pose proof (pext_add m P x m M0) as Y3. pose proof (pext_add m P x (m - 1) M0) as Y4.
    unfold per_knot in N1, N2. replace (p + m - p - 1)%nat with (m - 1)%nat in N1 by lia. replace (p + m - p)%nat with m in N1 by lia.
    replace (m + p + m - p - 1)%nat with (m - 1 + m)%nat in N2 by lia. replace (m + p + m - p)%nat with (m + m)%nat in N2 by lia.
    cbv beta in Y1, Y5. fold P in Y1, Y5. rewrite Y4, Y3, Y1, Y5 in N2. rewrite Y1, Y5 in N1. cbv beta in *. unfold P in *. destruct (Nat.even p); (split; [apply Rabs_le; lra|]; split; [apply Rabs_le; lra|]; lra). }
  split; auto. split. { intros a Hin. apply (In_nth _ _ 0%float) in Hin as (k & Hk & <-). apply N. lia. }
  split. { intros i j Hij. rewrite map_length in Hij. revert i j Hij. apply steps_mono. intros i Hi. pose proof (Gp i Hi). lra. }
  split. { apply (fit_wide X); auto. intros a Hin. apply (In_nth _ _ 0%float) in Hin as (k & Hk & <-).
    assert (Xx : forall i, (i < n)%nat -> - X <= x i <= X) by (intros i Hi; apply Rabs_le_inv; apply Ha; apply nth_In; auto).
    assert (HP : 0 <= P <= 2 * X).
    { pose proof (Xx 0%nat ltac:(lia)). pose proof (Xx m ltac:(unfold m; lia)). pose proof (C 0%nat m ltac:(lra) Hg ltac:(unfold m; lia)). unfold P. cbv beta in *. lra. }
    assert (Pe : forall i, (i < 4 * m)%nat -> - (7 * X) <= pext m P x i <= 7 * X).
    { intros i Hi. unfold pext. pose proof (Nat.mod_upper_bound i m ltac:(unfold m; lia)) as M1.
      assert (D1 : (i / m <= 3)%nat) by (apply Nat.lt_succ_r, Nat.div_lt_upper_bound; lia).
      apply le_INR in D1. change (INR 3) with (2 + 1) in D1. pose proof (pos_INR (i / m)). pose proof (Xx (i mod m)%nat ltac:(unfold m in *; lia)).
      assert (0 <= INR (i / m) * P <= 3 * (2 * X)) by (split; [apply Rmult_le_pos; lra|apply Rmult_le_compat; lra]). lra. }
    assert (Kk : - (9 * X) <= per_knot p m P x k <= 9 * X).
    { unfold per_knot. pose proof (Pe (k + m - p - 1)%nat ltac:(unfold m in *; lia)). pose proof (Pe (k + m - p)%nat ltac:(unfold m in *; lia)). destruct (Nat.even p); lra. }
    pose proof (Ne k Hk) as Q. rewrite Tv in Q.
    assert (e <= X + 1). { unfold e.
      assert (powerRZ 2 (-49) <= 1) by (rewrite <- (bpow_powerRZ radix2); change 1 with (bpow radix2 0); apply bpow_le; lia).
      assert (powerRZ 2 (-1073) <= 1) by (rewrite <- (bpow_powerRZ radix2); change 1 with (bpow radix2 0); apply bpow_le; lia).
      assert (powerRZ 2 (-49) * X <= 1 * X) by (apply Rmult_le_compat_r; lra). lra. }
    apply Rabs_le. lra. }
  split; [unfold m; lia|]. split. { intros i Hi. pose proof (Gp i Hi). lra. }
  split; auto. intros i Hi.
  destruct HC as [(_ & _ & Hm)|(_ & _ & Hm)].
  - assert (Ev : Nat.even p = true). { apply Nat.even_spec. exists (p / 2)%nat. pose proof (Nat.div_mod p 2 ltac:(lia)). lia. }
    assert (M0 : (0 < m)%nat) by (unfold m; lia).
    assert (Ai : pext m P x (i + m) = x i + P) by (rewrite (pext_add m P x i M0); f_equal; apply (pext_in m x i M0); lia).
    assert (Q1 : per_knot p m P x (i + p) <= x i - h / 2).
    { unfold per_knot. rewrite Ev. replace (i + p + m - p - 1)%nat with (i + m - 1)%nat by lia. replace (i + p + m - p)%nat with (i + m)%nat by lia.
      pose proof (pext_gap m x h (i + m - 1) ltac:(lia) Hgm) as Q. replace (i + m - 1 + 1)%nat with (i + m)%nat in Q by lia. cbv beta in Q. fold P in Q. rewrite Ai in *. cbv beta in *. lra. }
    assert (Q3 : x i + h / 2 <= per_knot p m P x (i + p + 1)).
    { unfold per_knot. rewrite Ev. replace (i + p + 1 + m - p - 1)%nat with (i + m)%nat by lia. replace (i + p + 1 + m - p)%nat with (i + m + 1)%nat by lia.
      pose proof (pext_gap m x h (i + m) ltac:(lia) Hgm) as Q. cbv beta in Q. fold P in Q. rewrite Ai in *. cbv beta in *. lra. }
    pose proof (Ne (i + p)%nat ltac:(unfold m in *; lia)). pose proof (Ne (i + p + 1)%nat ltac:(unfold m in *; lia)). lra.
  - pose proof (Od Hm i Hi). pose proof (Gp (i + p)%nat ltac:(unfold m in *; lia)). lra.
Qed.

Lemma per_facts : fit_grid p true l -> periodic_points Fops p l = Ok (K, c) ->
  let m := (n - 1)%nat in
  c = l /\ (forall a, In a K -> double_finite a) /\ nondecreasing (map double_val K) /\
  (forall a b, In a K -> In b K -> double_val b - double_val a <= Fbig / 4) /\ length K = (m + 2 * p + 1 + (1 - p mod 2))%nat /\
  (forall i, (i + 1 < length K)%nat -> powerRZ 2 (-800) <= t (i + 1)%nat - t i) /\
  (forall i, (i < m)%nat -> t (i + p)%nat <= x i < t (i + p + 1)%nat) /\
  ((p mod 2 = 1)%nat -> forall i, (i < m)%nat -> x i = t (i + p)%nat).
Proof.
  intros [Hn Hs Hf (X & h & HX & Hh & Hb & Ha & Hg) Hbk] E.
  apply (per_facts_at X h); auto.
Qed.
End Facts.
