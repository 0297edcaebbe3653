(** Monotonicity of the knots and their position relative to the data. *)
From Coq Require Import List Arith Lia Bool Reals Lra.
From Verif Require Import SpecBand InterpM SpecInterp SumR MulProofs KnotProofs.
Open Scope R_scope.

Lemma INR_pos p : (0 < p)%nat -> 0 < INR p.
Proof. intros. apply lt_0_INR. auto. Qed.

Lemma mean_lt p f g : (0 < p)%nat -> (forall j, (j < p)%nat -> f j < g j) -> mean p f < mean p g.
Proof.
  intros Hp H. unfold mean. rewrite !Rsum_sum. pose proof (sum_lt p f g Hp H).
  apply Rmult_lt_compat_r; auto. apply Rinv_0_lt_compat, INR_pos; auto.
Qed.

Lemma mean_const p c : (0 < p)%nat -> mean p (fun _ => c) = c.
Proof. intros Hp. unfold mean. rewrite Rsum_sum, sum_const. field. apply not_0_INR. lia. Qed.

Lemma mean_lt_const p f M : (0 < p)%nat -> (forall j, (j < p)%nat -> f j < M) -> mean p f < M.
Proof. intros Hp H. rewrite <- (mean_const p M) by auto. apply mean_lt; auto. Qed.

Lemma mean_gt_const p f M : (0 < p)%nat -> (forall j, (j < p)%nat -> M < f j) -> M < mean p f.
Proof. intros Hp H. rewrite <- (mean_const p M) by auto. apply mean_lt; auto. Qed.

Lemma sum_lt_one n f g k : (k < n)%nat -> (forall i, (i < n)%nat -> f i <= g i) -> f k < g k -> sum n f < sum n g.
Proof.
  intros Hk H Hs. induction n; [lia|]. cbn [sum]. destruct (Nat.eq_dec k n) as [->|Ne].
  - pose proof (sum_le n f g ltac:(intros; apply H; lia)). lra.
  - pose proof (IHn ltac:(lia) ltac:(intros; apply H; lia)). pose proof (H n ltac:(lia)). lra.
Qed.

Lemma mean_lt_one p f g k : (k < p)%nat -> (forall j, (j < p)%nat -> f j <= g j) -> f k < g k -> mean p f < mean p g.
Proof.
  intros Hk H Hs. unfold mean. rewrite !Rsum_sum. pose proof (sum_lt_one p f g k Hk H Hs).
  apply Rmult_lt_compat_r; auto. apply Rinv_0_lt_compat, INR_pos; lia.
Qed.

Lemma mono_steps (t : nat -> R) : (forall i, t i <= t (i + 1)%nat) -> forall i j, (i <= j)%nat -> t i <= t j.
Proof.
  intros H i j Hij. replace j with (i + (j - i))%nat by lia. induction (j - i)%nat as [|d IH].
  - rewrite Nat.add_0_r. lra.
  - replace (i + S d)%nat with (i + d + 1)%nat by lia. pose proof (H (i + d)%nat). lra.
Qed.

Lemma strict_steps (t : nat -> R) : (forall i, t i < t (i + 1)%nat) -> forall i j, (i < j)%nat -> t i < t j.
Proof.
  intros H i j Hij. pose proof (H i).
  assert (t (i + 1)%nat <= t j) by (apply mono_steps; [intros; left; auto|lia]). lra.
Qed.

Lemma strict_steps_on (t : nat -> R) a b : (forall i, (a <= i < b)%nat -> t i < t (i + 1)%nat) ->
  forall i j, (a <= i < j)%nat -> (j <= b)%nat -> t i < t j.
Proof.
  intros H i j Hij Hj. replace j with (i + 1 + (j - i - 1))%nat in * by lia.
  assert (G : (j - i - 1 <= b - i - 1)%nat) by lia. revert G Hj. generalize (j - i - 1)%nat as d.
  induction d as [|d IH]; intros G Hj.
  - rewrite Nat.add_0_r in *. apply H. lia.
  - pose proof (IH ltac:(lia) ltac:(lia)). pose proof (H (i + 1 + d)%nat ltac:(lia)).
    replace (i + 1 + S d)%nat with (i + 1 + d + 1)%nat by lia. lra.
Qed.

(** ** Non-periodic knots *)
Section Ap.
Variables (p n : nat) (x : nat -> R).
Hypothesis Hx : increasing n x.
Hypothesis Hn : (p + 1 <= n)%nat.
Hypothesis Hn2 : (2 <= n)%nat.
Notation t := (ap_knot p n x).

Lemma x_le i j : (i <= j < n)%nat -> x i <= x j.
Proof. intros H. destruct (Nat.eq_dec i j) as [->|]; [lra|]. left. apply Hx. lia. Qed.

Lemma ap_lo i : (i <= p)%nat -> t i = x 0%nat.
Proof. intros. unfold ap_knot. destruct (Nat.leb_spec i p); auto; lia. Qed.
Lemma ap_hi i : (n <= i)%nat -> t i = x (n - 1)%nat.
Proof.
  intros. unfold ap_knot. destruct (Nat.leb_spec i p); [lia|]. destruct (Nat.ltb_spec i n); auto; lia.
Qed.
Lemma ap_mid i : (1 <= p)%nat -> (p < i < n)%nat -> t i = mean p (fun j => x (i - p + j)%nat).
Proof.
  intros. unfold ap_knot. destruct (Nat.leb_spec i p); [lia|]. destruct (Nat.ltb_spec i n); [|lia].
  destruct (Nat.eqb_spec p 0); auto; lia.
Qed.
Lemma ap_mid0 i : p = 0%nat -> (0 < i < n)%nat -> t i = (x (i - 1)%nat + x i) / 2.
Proof.
  intros -> H. unfold ap_knot. destruct (Nat.leb_spec i 0); [lia|]. destruct (Nat.ltb_spec i n); [|lia]. auto.
Qed.

Lemma ap_strict i : (p <= i < n)%nat -> t i < t (i + 1)%nat.
Proof.
  intros Hi. destruct (Nat.eq_dec p 0) as [P0|P0].
  - assert (L : t i <= x i).
    { destruct (Nat.eq_dec i 0) as [->|]; [rewrite ap_lo by lia; lra|]. rewrite ap_mid0 by (auto; lia).
      pose proof (x_le (i - 1) i ltac:(lia)). lra. }
    assert (L2 : i = (n - 1)%nat \/ x i < t (i + 1)%nat).
    { destruct (Nat.eq_dec i (n - 1)); auto. right. rewrite ap_mid0 by (auto; lia).
      replace (i + 1 - 1)%nat with i by lia. pose proof (Hx i (i + 1)%nat ltac:(lia)). lra. }
    destruct L2 as [->|]; [|lra]. rewrite (ap_hi (n - 1 + 1)) by lia.
    rewrite ap_mid0 by (auto; lia). pose proof (Hx (n - 1 - 1)%nat (n - 1)%nat ltac:(lia)). lra.
  - destruct (Nat.eq_dec i p) as [->|].
    + rewrite ap_lo by lia. destruct (Nat.eq_dec (p + 1) n) as [E|E].
      * rewrite ap_hi by lia. apply Hx. lia.
      * rewrite ap_mid by lia. apply mean_gt_const; [lia|]. intros j Hj. apply Hx. lia.
    + rewrite (ap_mid i) by lia. destruct (Nat.eq_dec (i + 1) n) as [E|E].
      * rewrite ap_hi by lia. apply mean_lt_const; [lia|]. intros j Hj. apply Hx. lia.
      * rewrite ap_mid by lia. apply mean_lt; [lia|]. intros j Hj. apply Hx. lia.
Qed.

Lemma ap_step i : t i <= t (i + 1)%nat.
Proof.
  destruct (Nat.le_gt_cases n i).
  - rewrite !ap_hi by lia. lra.
  - destruct (Nat.le_gt_cases p i).
    + left. apply ap_strict. lia.
    + rewrite !ap_lo by lia. lra.
Qed.
Lemma ap_mono i j : (i <= j)%nat -> t i <= t j.
Proof. apply mono_steps. apply ap_step. Qed.

Lemma ap_inner i : (2 <= p)%nat -> (1 <= i)%nat -> (i + 1 < n)%nat -> t (i + 1)%nat < x i < t (i + p)%nat.
Proof.
  intros Hp H1 H2. split.
  - destruct (Nat.le_gt_cases (i + 1) p).
    + rewrite ap_lo by lia. apply Hx. lia.
    + rewrite ap_mid by lia. rewrite <- (mean_const p (x i)) by lia.
      apply (mean_lt_one p _ _ 0); [lia|..].
      * intros j Hj. apply x_le. lia.
      * apply Hx. lia.
  - destruct (Nat.le_gt_cases n (i + p)).
    + rewrite ap_hi by lia. apply Hx. lia.
    + rewrite ap_mid by lia. rewrite <- (mean_const p (x i)) at 1 by lia.
      apply (mean_lt_one p _ _ 1); [lia|..].
      * intros j Hj. apply x_le. lia.
      * apply Hx. lia.
Qed.

Lemma ap_one i : p = 1%nat -> (1 <= i)%nat -> (i + 1 < n)%nat -> t (i + 1)%nat = x i.
Proof.
  intros E H1 H2. rewrite ap_mid by lia. rewrite E. unfold mean. simpl.
  replace (i + 1 - 1 + 0)%nat with i by lia. field.
Qed.

Lemma ap_zero i : p = 0%nat -> (i < n)%nat -> t i <= x i <= t (i + 1)%nat /\
  ((0 < i)%nat -> t i < x i) /\ ((i + 1 < n)%nat -> x i < t (i + 1)%nat).
Proof.
  intros E H.
  assert (L : (0 < i)%nat -> t i < x i).
  { intros. rewrite ap_mid0 by (auto; lia). pose proof (Hx (i - 1)%nat i ltac:(lia)). lra. }
  assert (R : (i + 1 < n)%nat -> x i < t (i + 1)%nat).
  { intros. rewrite ap_mid0 by (auto; lia). replace (i + 1 - 1)%nat with i by lia.
    pose proof (Hx i (i + 1)%nat ltac:(lia)). lra. }
  repeat split; auto.
  - destruct (Nat.eq_dec i 0) as [->|]; [rewrite ap_lo by lia; lra|]. left. apply L. lia.
  - destruct (Nat.eq_dec (i + 1) n) as [E'|]; [|left; apply R; lia].
    rewrite ap_hi by lia. replace (n - 1)%nat with i by lia. lra.
Qed.

(** Schoenberg-Whitney condition. *)
Lemma ap_sw i : (1 <= i)%nat -> (i + 1 < n)%nat -> t i < x i < t (i + p + 1)%nat.
Proof.
  intros H1 H2. destruct (Nat.eq_dec p 0) as [E|E].
  - destruct (ap_zero i E ltac:(lia)) as (_ & A & B). rewrite E at 3. rewrite Nat.add_0_r. split; [apply A|apply B]; lia.
  - destruct (Nat.eq_dec p 1) as [E1|E1].
    + rewrite <- (ap_one i) at 1 2 by (auto; lia). pose proof (ap_strict i ltac:(lia)). pose proof (ap_strict (i + 1) ltac:(lia)).
      replace (i + p + 1)%nat with (i + 1 + 1)%nat by lia. auto.
    + destruct (ap_inner i) as [A B]; try lia. pose proof (ap_step i).
      pose proof (ap_step (i + p)). lra.
Qed.

Lemma x_range i : (1 <= i)%nat -> (i + 1 < n)%nat -> t p < x i < t n.
Proof. intros. rewrite ap_lo, ap_hi by lia. split; apply Hx; lia. Qed.

End Ap.

(** ** Periodic knots *)
Section Per.
Variables (p n : nat) (x : nat -> R).
Hypothesis Hx : increasing (n + 1) x.
Hypothesis Hn : (p + 1 <= n)%nat.
Notation P := (x n - x 0%nat).
Notation t := (per_knot p n P x).

Lemma pext_step i : pext n P x i < pext n P x (i + 1).
Proof.
  pose proof (Nat.div_mod i n ltac:(lia)) as D. pose proof (Nat.mod_upper_bound i n ltac:(lia)) as U.
  unfold pext. set (q := (i / n)%nat) in *. set (r := (i mod n)%nat) in *.
  destruct (Nat.eq_dec (r + 1) n) as [E|E].
  - replace (i + 1)%nat with (0 + (q + 1) * n)%nat by nia.
    rewrite Nat.mod_add, Nat.div_add by lia. rewrite Nat.mod_0_l, Nat.div_0_l by lia.
    replace (0 + (q + 1))%nat with (q + 1)%nat by lia. rewrite plus_INR. simpl.
    pose proof (Hx r n ltac:(lia)). lra.
  - replace (i + 1)%nat with ((r + 1) + q * n)%nat by nia.
    rewrite Nat.mod_add, Nat.div_add by lia. rewrite Nat.mod_small, Nat.div_small by lia.
    replace (0 + q)%nat with q by lia. pose proof (Hx r (r + 1)%nat ltac:(lia)). lra.
Qed.

Lemma per_step i : t i < t (i + 1)%nat.
Proof.
  unfold per_knot.
  replace (i + 1 + n - p - 1)%nat with (i + n - p - 1 + 1)%nat by lia.
  replace (i + 1 + n - p)%nat with (i + n - p + 1)%nat by lia.
  pose proof (pext_step (i + n - p - 1)). pose proof (pext_step (i + n - p)).
  destruct (Nat.even p); lra.
Qed.
Lemma per_strict i j : (i < j)%nat -> t i < t j.
Proof. apply strict_steps. apply per_step. Qed.
Lemma per_mono i j : (i <= j)%nat -> t i <= t j.
Proof. apply mono_steps. intros; left; apply per_step. Qed.

Lemma per_at_odd i : Nat.even p = false -> (i <= n)%nat -> t (i + p)%nat = x i.
Proof.
  intros E Hi. unfold per_knot. rewrite E. replace (i + p + n - p)%nat with (i + n)%nat by lia.
  rewrite pext_add, pext_in by lia. ring.
Qed.

Lemma per_at_even i : Nat.even p = true -> (i <= n)%nat -> t (i + p)%nat < x i < t (i + p + 1)%nat.
Proof.
  intros E Hi. unfold per_knot. rewrite E.
  replace (i + p + n - p)%nat with (i + n)%nat by lia.
  replace (i + p + 1 + n - p - 1)%nat with (i + n)%nat by lia.
  replace (i + p + 1 + n - p)%nat with (i + n + 1)%nat by lia.
  replace (i + p + n - p - 1)%nat with (i + n - 1)%nat by lia.
  pose proof (pext_step (i + n - 1)) as H1. replace (i + n - 1 + 1)%nat with (i + n)%nat in H1 by lia.
  pose proof (pext_step (i + n)) as H2.
  assert (H3 : pext n P x (i + n) = x i + P) by (rewrite pext_add, pext_in by lia; ring).
  lra.
Qed.

Lemma per_at i : (i <= n)%nat -> t (i + p)%nat <= x i < t (i + p + 1)%nat.
Proof.
  intros Hi. destruct (Nat.even p) eqn:E.
  - pose proof (per_at_even i E Hi). lra.
  - pose proof (per_at_odd i E Hi). pose proof (per_step (i + p)). lra.
Qed.

Lemma per_shift i : t (i + n)%nat = t i + P.
Proof. apply per_knot_add. auto. Qed.

End Per.

(** ** Equally spaced data *)
Lemma uniform_increasing a b m n : a < b -> (2 <= m)%nat -> increasing n (grid_of (Uniform a b) m).
Proof.
  intros Hab Hm i j Hij. unfold grid_of. apply Rplus_lt_compat_l. apply Rmult_lt_compat_r.
  - apply Rdiv_lt_0_compat; [lra|]. apply INR_pos. lia.
  - apply lt_INR. lia.
Qed.

Lemma ap_uniform a b p n i : (2 <= n)%nat -> (p + 1 <= n)%nat -> (p < i < n)%nat ->
  ap_knot p n (grid_of (Uniform a b) n) i = a + (INR i - (INR p + 1) / 2) * ((b - a) / INR (n - 1)).
Proof.
  intros Hn Hp Hi. set (dx := (b - a) / INR (n - 1)). unfold grid_of. fold dx.
  unfold ap_knot. destruct (Nat.leb_spec i p); [lia|]. destruct (Nat.ltb_spec i n); [|lia].
  destruct (Nat.eqb_spec p 0) as [->|Hp0].
  - rewrite minus_INR by lia. simpl. lra.
  - rewrite (mean_ext _ _ (fun j => (a + INR (i - p) * dx) + INR j * dx)).
    2:{ intros j Hj. rewrite plus_INR. ring. }
    rewrite mean_affine by lia. rewrite minus_INR by lia. field.
Qed.

Lemma per_uniform a b p n i : (p + 1 <= n)%nat ->
  per_knot p n (b - a) (grid_of (Uniform a b) (n + 1)) i =
  a + (INR i - INR p - (if Nat.even p then / 2 else 0)) * ((b - a) / INR n).
Proof.
  intros Hp. assert (Hn0 : INR n <> 0) by (apply not_0_INR; lia).
  set (dx := (b - a) / INR n). assert (EP : b - a = INR n * dx) by (unfold dx; field; auto).
  assert (Ex : forall i, pext n (b - a) (grid_of (Uniform a b) (n + 1)) i = a + INR i * dx).
  { intros j. unfold grid_of. rewrite EP at 1. replace (n + 1 - 1)%nat with n by lia. fold dx. apply pext_uniform. lia. }
  unfold per_knot. rewrite !Ex, EP. destruct (Nat.even p);
  rewrite !minus_INR, plus_INR by lia; clearbody dx; simpl; field.
Qed.
