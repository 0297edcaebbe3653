(** Knots of constructed functions in doubles. *)
From Coq Require Import List Arith Lia Bool ZArith Reals Floats Lra Psatz.
From Flocq Require Import Core BinarySingleNaN PrimFloat Relative Plus_error.
From Verif Require Import Base Num MeshM ProgM BandM LUM SplineM InterpM FloatM SpecBand SpecSpline SpecInterp SpecRound.
From Verif Require Import SumR BandProofs MulProofs KnotProofs FloatProofs RoundDouble RoundLU RoundLUTop GenKnots RoundKnots RoundUniform.
Import ListNotations.
Local Open Scope R_scope.
Local Notation float := PrimFloat.float.

(** ** Distances of exact knots *)
Lemma chain_gap (x : nat -> R) n g i j : 0 <= g -> (forall i, (i + 1 < n)%nat -> g <= x (i + 1)%nat - x i) -> (i < j < n)%nat -> x i + g <= x j.
Proof.
  intros Hg H [Hij Hj]. induction Hij as [|j Hij IH].
  - pose proof (H i ltac:(lia)) as Q. rewrite Nat.add_1_r in Q. lra.
  - pose proof (H j ltac:(lia)) as Q. rewrite Nat.add_1_r in Q. specialize (IH ltac:(lia)). lra.
Qed.
Lemma mean_ge p f c : (1 <= p)%nat -> (forall j, (j < p)%nat -> c <= f j) -> c <= mean p f.
Proof.
  intros Hp H. unfold mean. change Rsum with sum. pose proof (le_INR 1 p Hp) as P. change (INR 1) with 1 in P.
  apply Rmult_le_reg_r with (INR p); [lra|]. unfold Rdiv. rewrite Rmult_assoc, Rinv_l, Rmult_1_r by lra.
  rewrite Rmult_comm, <- sum_const. apply sum_le. auto.
Qed.
Lemma mean_le p f c : (1 <= p)%nat -> (forall j, (j < p)%nat -> f j <= c) -> mean p f <= c.
Proof.
  intros Hp H. unfold mean. change Rsum with sum. pose proof (le_INR 1 p Hp) as P. change (INR 1) with 1 in P.
  apply Rmult_le_reg_r with (INR p); [lra|]. unfold Rdiv. rewrite Rmult_assoc, Rinv_l, Rmult_1_r by lra.
  rewrite (Rmult_comm c), <- sum_const. apply sum_le. auto.
Qed.
Lemma mean_gap p f h g : (1 <= p)%nat -> (forall j, (j < p)%nat -> f j + g <= h j) -> mean p f + g <= mean p h.
Proof.
  intros Hp H. unfold mean. change Rsum with sum. pose proof (le_INR 1 p Hp) as P. change (INR 1) with 1 in P.
  apply Rmult_le_reg_r with (INR p); [lra|]. unfold Rdiv. rewrite Rmult_plus_distr_r, !Rmult_assoc, Rinv_l, !Rmult_1_r by lra.
  rewrite (Rmult_comm g), <- sum_const, <- sum_plus. apply sum_le. auto.
Qed.
Lemma ap_gap order n x g k : (1 <= order)%nat -> (order + 1 <= n)%nat -> 0 <= g ->
  (forall i, (i + 1 < n)%nat -> g <= x (i + 1)%nat - x i) -> (order <= k < n)%nat ->
  ap_knot order n x k + g <= ap_knot order n x (k + 1).
Proof.
  intros Ho Hn Hg H Hk. pose proof (chain_gap x n g) as C. unfold ap_knot.
  destruct (Nat.leb_spec (k + 1) order); [lia|]. destruct (Nat.eqb_spec order 0) as [Z|Z]; [lia|].
  destruct (Nat.leb_spec k order) as [K1|K1].
  - destruct (Nat.ltb_spec (k + 1) n).
    + apply mean_ge; auto. intros j Hj. apply C; auto. lia.
    + apply C; auto. lia.
  - destruct (Nat.ltb_spec k n); [|lia]. destruct (Nat.ltb_spec (k + 1) n).
    + apply mean_gap; auto. intros j Hj. apply C; auto. lia.
    + apply Rle_trans with ((x (n - 1)%nat - g) + g); [|lra]. apply Rplus_le_compat_r. apply mean_le; auto. intros j Hj.
      pose proof (C (k - order + j)%nat (n - 1)%nat Hg H ltac:(lia)). lra.
Qed.
Lemma pext_gap m x g i : (1 <= m)%nat -> (forall i, (i + 1 < m + 1)%nat -> g <= x (i + 1)%nat - x i) ->
  pext m (x m - x 0%nat) x i + g <= pext m (x m - x 0%nat) x (i + 1).
Proof.
  intros Hm H. unfold pext. pose proof (Nat.div_mod i m ltac:(lia)) as E. pose proof (Nat.mod_upper_bound i m ltac:(lia)) as L.
  set (q := (i / m)%nat) in *. set (r := (i mod m)%nat) in *.
  destruct (Nat.eq_dec (r + 1) m) as [R1|R1].
  - assert (E1 : (i + 1 = 0 + (q + 1) * m)%nat) by nia. rewrite E1 at 1 2. rewrite Nat.mod_add, Nat.div_add by lia.
    rewrite Nat.mod_0_l, Nat.div_0_l by lia. rewrite Nat.add_0_l, plus_INR. change (INR 1) with 1.
    pose proof (H r ltac:(lia)) as Q. rewrite R1 in Q. lra.
  - assert (E1 : (i + 1 = (r + 1) + q * m)%nat) by nia. rewrite E1. rewrite Nat.mod_add, Nat.div_add by lia.
    rewrite Nat.mod_small, Nat.div_small by lia. rewrite Nat.add_0_l. pose proof (H r ltac:(lia)). lra.
Qed.
Lemma per_gap order m x g k : (order + 1 <= m)%nat -> (forall i, (i + 1 < m + 1)%nat -> g <= x (i + 1)%nat - x i) ->
  per_knot order m (x m - x 0%nat) x k + g <= per_knot order m (x m - x 0%nat) x (k + 1).
Proof.
  intros Ho H. unfold per_knot.
  pose proof (pext_gap m x g (k + m - order - 1) ltac:(lia) H) as Q1. pose proof (pext_gap m x g (k + m - order) ltac:(lia) H) as Q2.
  replace (k + 1 + m - order - 1)%nat with (k + m - order - 1 + 1)%nat by lia. replace (k + 1 + m - order)%nat with (k + m - order + 1)%nat by lia.
  destruct (Nat.even order); lra.
Qed.
Lemma near_gap t len K e g k : knots_near t len K e -> (k + 1 < len)%nat -> K k + g <= K (k + 1)%nat ->
  g - 2 * e <= double_val (nth (k + 1) t 0%float) - double_val (nth k t 0%float).
Proof.
  intros [_ H] Hk G. destruct (H k ltac:(lia)) as [_ A]. destruct (H (k + 1)%nat Hk) as [_ B].
  apply Rabs_le_inv in A. apply Rabs_le_inv in B. lra.
Qed.

(** ** Points *)
Lemma fu_pow n : INR n <= powerRZ 2 40 -> 0 <= (1 + Fu) ^ (2 * n) - 1 <= INR n * powerRZ 2 (-51) /\ (1 + Fu) ^ (2 * n) <= 2.
Proof.
  intros Hn. destruct Fu_val as [Eu [H0 H1]]. pose proof (pos_INR n) as Pn.
  assert (Q : INR n * Fu <= powerRZ 2 (-13)).
  { apply Rle_trans with (powerRZ 2 40 * Fu); [apply Rmult_le_compat_r; lra|]. rewrite Eu, <- powerRZ_add by lra. right. reflexivity. }
  assert (Q2 : powerRZ 2 (-13) <= / 8000) by (rewrite <- (bpow_powerRZ radix2); change (bpow radix2 (-13)) with (/ 8192); lra).
  set (t := INR (2 * n) * Fu). assert (Et : t = 2 * (INR n * Fu)) by (unfold t; rewrite mult_INR; simpl; ring).
  assert (T0 : 0 <= INR n * Fu) by (apply Rmult_le_pos; lra).
  pose proof (exp_pow Fu (2 * n) ltac:(lra)) as E. pose proof (exp_small t ltac:(lra)) as E2. fold t in E.
  assert (E4 : powerRZ 2 (-51) = 4 * Fu) by (rewrite Eu, <- !(bpow_powerRZ radix2); change (-51)%Z with (2 + -53)%Z; rewrite bpow_plus; change (bpow radix2 2) with 4; reflexivity).
  rewrite E4. pose proof (pow_ge1 Fu (2 * n) ltac:(lra)). split; [split|]; lra.
Qed.
Lemma eta_double : 2 * Feta = powerRZ 2 (-1074) /\ 0 < Feta.
Proof. unfold Feta. rewrite bpow_powerRZ. cbn [radix_val radix2]. split; [field|]. rewrite <- (bpow_powerRZ radix2). pose proof (bpow_gt_0 radix2 (-1074)). lra. Qed.
Lemma big_double p q : (p + q <= 1023)%Z -> powerRZ 2 p * powerRZ 2 q <= Fbig.
Proof. intros H. rewrite <- powerRZ_add by lra. rewrite <- (bpow_powerRZ radix2). apply bpow_le. lia. Qed.

Section Points.
Context (l : list float) (order : nat) (X : R).
Local Notation n := (length l).
Local Notation vl := (fun i => double_val (nth i l 0%float)).
Context (Hl : forall a, In a l -> double_finite a /\ Rabs (double_val a) <= X) (HX : X <= powerRZ 2 900) (Hn : INR n <= powerRZ 2 40).

Lemma ap_double : (1 <= order)%nat -> (order + 1 <= n)%nat ->
  exists xs, aperiodic_points Fops order l = Ok (xs, l) /\ 
    knots_near xs (n + order + 1) (ap_knot order n vl) (INR n * powerRZ 2 (-51) * X + powerRZ 2 (-1074)) /\
    (forall k, (k <= order)%nat -> nth k xs 0%float = nth 0 l 0%float) /\
    (forall k, (n <= k < n + order + 1)%nat -> nth k xs 0%float = nth (n - 1) l 0%float).
Proof using All.
  intros Ho Hn'. destruct (fu_pow n Hn) as [[P0 P1] P2]. destruct eta_double as [E1 E2].
  assert (X0 : 0 <= X). { destruct (Hl (nth 0 l 0%float)) as [_ A]; [apply nth_In; lia|]. pose proof (Rabs_pos (double_val (nth 0 l 0%float))). lra. }
  assert (Oo : INR order <= powerRZ 2 40) by (eapply Rle_trans; [apply le_INR|exact Hn]; lia). pose proof (pos_INR order) as Po.
  assert (Big : INR order * X * (1 + Fu) ^ (2 * n) <= Fbig).
  { apply Rle_trans with (powerRZ 2 40 * powerRZ 2 900 * 2).
    - apply Rmult_le_compat; [apply Rmult_le_pos; auto| |apply Rmult_le_compat; auto|exact P2]. lra.
    - rewrite <- powerRZ_add by lra. replace (powerRZ 2 (40 + 900) * 2) with (powerRZ 2 (40 + 900) * powerRZ 2 1) by (rewrite powerRZ_1; reflexivity). apply big_double. lia. }
  destruct (knots_ap Fops double_val double_finite Fu Feta Fbig F_rounding l X Hl order Ho Hn') as (xs & E & L & A & B & C); auto.
  { apply Fnat_exact. pose proof (nat_small order 40 Oo ltac:(lia)). lia. }
  exists xs. split; auto. split; [|auto]. split; auto. intros k Hk. destruct (C k Hk) as [G Q]. split; auto.
  eapply Rle_trans; [exact Q|]. assert (((1 + Fu) ^ (2 * n) - 1) * X <= INR n * powerRZ 2 (-51) * X) by (apply Rmult_le_compat_r; auto). lra.
Qed.
Lemma per_double : (order + 2 <= n)%nat ->
  exists xs, periodic_points Fops order l = Ok (xs, l) /\ 
    knots_near xs (n + 2 * order + (1 - order mod 2)) (per_knot order (n - 1) (vl (n - 1)%nat - vl 0%nat) vl) (powerRZ 2 (-49) * X + powerRZ 2 (-1073)).
Proof using All.
  intros Hn'. destruct eta_double as [E1 E2].
  assert (X0 : 0 <= X). { destruct (Hl (nth 0 l 0%float)) as [_ A]; [apply nth_In; lia|]. pose proof (Rabs_pos (double_val (nth 0 l 0%float))). lra. }
  assert (Big : 8 * X <= Fbig).
  { apply Rle_trans with (powerRZ 2 3 * powerRZ 2 900); [change 8 with (powerRZ 2 3) || idtac; replace (powerRZ 2 3) with 8 by (simpl; lra); lra|]. apply big_double. lia. }
  assert (Et : Feta <= 1).
  { unfold Feta. assert (bpow radix2 (-1074) <= bpow radix2 0) by (apply bpow_le; lia). change (bpow radix2 0) with 1 in *. lra. }
  destruct (knots_per Fops double_val double_finite Fu Feta Fbig F_rounding l X Hl order Hn') as (xs & E & L & C); auto; [exact half_val|].
  exists xs. split; auto. split; [lia|]. intros k Hk. destruct (C k ltac:(lia)) as [G Q]. split; [exact G|].
  eapply Rle_trans; [exact Q|].
  assert (E4 : powerRZ 2 (-49) = 16 * Fu) by (rewrite (proj1 Fu_val), <- !(bpow_powerRZ radix2); change (-49)%Z with (4 + -53)%Z; rewrite bpow_plus; change (bpow radix2 4) with 16; reflexivity).
  assert (E5 : powerRZ 2 (-1073) = 4 * Feta).
  { replace (4 * Feta) with (2 * (2 * Feta)) by ring. rewrite E1. rewrite <- !(bpow_powerRZ radix2). change (-1073)%Z with (1 + -1074)%Z. rewrite bpow_plus. change (bpow radix2 1) with 2. reflexivity. }
  rewrite E4, E5. destruct Fu_val as [_ [U0 _]]. assert (0 <= Fu * X) by (apply Rmult_le_pos; lra). lra.
Qed.
End Points.

(** ** Constructed functions *)
Lemma points_ap_make on nd order per f ranges g d l X :
  interp_make Fops on nd order per f ranges = Ok g ->
  nth_error ranges d = Some (Points l) -> nth_error per d = Some false ->
  (1 <= order)%nat -> (order + 1 <= length l)%nat -> INR (length l) <= powerRZ 2 40 ->
  (forall a, In a l -> double_finite a /\ Rabs (double_val a) <= X) -> X <= powerRZ 2 900 ->
  let t := nth d (sp_knots (if_spline g)) [] in
  let x := fun i => double_val (nth i l 0%float) in
  let e := INR (length l) * powerRZ 2 (-51) * X + powerRZ 2 (-1074) in
  knots_near t (length l + order + 1) (ap_knot order (length l) x) e /\
  (forall k, (k <= order)%nat -> nth k t 0%float = nth 0 l 0%float) /\
  (forall k, (length l <= k < length l + order + 1)%nat -> nth k t 0%float = nth (length l - 1) l 0%float) /\
  forall gap, 0 <= gap -> (forall i, (i + 1 < length l)%nat -> gap <= x (i + 1)%nat - x i) ->
    forall k, (order <= k < length l)%nat -> gap - 2 * e <= double_val (nth (k + 1) t 0%float) - double_val (nth k t 0%float).
Proof.
  intros E Er Ep Ho Hn Hs Hl HX t x e.
  apply make_knots in E as (_ & _ & coords & E). destruct (E d) as (r & p & sz & R1 & R2 & _ & R4); [apply nth_error_Some; congruence|].
  rewrite Er in R1. inversion R1; subst r. rewrite Ep in R2. inversion R2; subst p. destruct R4 as [R4 _]. apply points_inv in R4.
  destruct (ap_double l order X Hl HX Hs Ho Hn) as (xs & E' & N & A & B).
  assert (Et : t = xs) by (unfold t; cbv beta iota in R4; congruence). rewrite Et. split; [exact N|]. split; [exact A|]. split; [exact B|].
  intros gap Hg H k Hk. eapply near_gap; [exact N|lia|]. apply ap_gap; auto.
Qed.
Lemma points_per_make on nd order per f ranges g d l X :
  interp_make Fops on nd order per f ranges = Ok g ->
  nth_error ranges d = Some (Points l) -> nth_error per d = Some true ->
  (order + 2 <= length l)%nat -> INR (length l) <= powerRZ 2 40 ->
  (forall a, In a l -> double_finite a /\ Rabs (double_val a) <= X) -> X <= powerRZ 2 900 ->
  let t := nth d (sp_knots (if_spline g)) [] in
  let x := fun i => double_val (nth i l 0%float) in
  let m := (length l - 1)%nat in
  let len := (length l + 2 * order + (1 - order mod 2))%nat in
  let e := powerRZ 2 (-49) * X + powerRZ 2 (-1073) in
  knots_near t len (per_knot order m (x m - x 0%nat) x) e /\
  forall gap, (forall i, (i + 1 < length l)%nat -> gap <= x (i + 1)%nat - x i) ->
    forall k, (k + 1 < len)%nat -> gap - 2 * e <= double_val (nth (k + 1) t 0%float) - double_val (nth k t 0%float).
Proof.
  intros E Er Ep Hn Hs Hl HX t x m len e.
  apply make_knots in E as (_ & _ & coords & E). destruct (E d) as (r & p & sz & R1 & R2 & _ & R4); [apply nth_error_Some; congruence|].
  rewrite Er in R1. inversion R1; subst r. rewrite Ep in R2. inversion R2; subst p. destruct R4 as [R4 _]. apply points_inv in R4.
  destruct (per_double l order X Hl HX Hs Hn) as (xs & E' & N).
  assert (Et : t = xs) by (unfold t; cbv beta iota in R4; congruence). rewrite Et. split; [exact N|].
  intros gap H k Hk. eapply near_gap; [exact N|exact Hk|]. apply per_gap; [unfold m; lia|]. intros i Hi. apply H. unfold m in Hi. lia.
Qed.
Lemma uniform_ap_make on nd order per f ranges g d n a b X :
  interp_make Fops on nd order per f ranges = Ok g ->
  nth_error ranges d = Some (Uniform a b) -> nth_error per d = Some false -> nth_error (m_dims f) d = Some n ->
  (2 <= n)%nat -> (order + 1 <= n)%nat -> INR n <= powerRZ 2 40 ->
  double_finite a -> double_finite b -> Rabs (double_val a) <= X -> Rabs (double_val b) <= X -> X <= powerRZ 2 1000 ->
  powerRZ 2 (-900) <= double_val b - double_val a ->
  let t := nth d (sp_knots (if_spline g)) [] in
  knots_near t (n + order + 1) (ap_knot order n (grid_of (Uniform (double_val a) (double_val b)) n)) (powerRZ 2 (-48) * X) /\
  (forall k, (k <= order)%nat -> nth k t 0%float = a) /\ (forall k, (n <= k < n + order + 1)%nat -> nth k t 0%float = b) /\
  forall j k, (j <= k < n + order + 1)%nat -> double_val (nth j t 0%float) <= double_val (nth k t 0%float).
Proof.
  intros E Er Ep Es Hn Ho Hs Ha Hb HA HB HX HD t.
  apply make_knots in E as (_ & _ & coords & E). destruct (E d) as (r & p & sz & R1 & R2 & R3 & R4); [apply nth_error_Some; congruence|].
  rewrite Er in R1. inversion R1; subst r. rewrite Ep in R2. inversion R2; subst p. rewrite Es in R3. inversion R3; subst sz. destruct R4 as [R4 _].
  destruct (uniform_ap_double nd order n a b X Hn Ho Hs Ha Hb HA HB HX HD) as (xs & h & E' & L & A & B & C & S & _).
  assert (Et : t = xs) by (unfold t; cbv beta iota in R4; congruence). rewrite Et. split; [split; auto|]. auto.
Qed.
Lemma uniform_per_make on (nd : bool) order per f ranges g d m a b X :
  interp_make Fops on nd order per f ranges = Ok g ->
  nth_error ranges d = Some (Uniform a b) -> nth_error per d = Some true -> nth_error (m_dims f) d = Some (m + (if nd then 0 else 1))%nat ->
  (order + 1 <= m)%nat -> INR m <= powerRZ 2 40 ->
  double_finite a -> double_finite b -> Rabs (double_val a) <= X -> Rabs (double_val b) <= X -> X <= powerRZ 2 1000 ->
  powerRZ 2 (-900) <= double_val b - double_val a ->
  let t := nth d (sp_knots (if_spline g)) [] in
  let len := (m + 2 * order + 1 + (1 - order mod 2))%nat in
  knots_near t len (per_knot order m (double_val b - double_val a) (grid_of (Uniform (double_val a) (double_val b)) (m + 1))) (powerRZ 2 (-48) * X) /\
  forall j k, (j <= k < len)%nat -> double_val (nth j t 0%float) <= double_val (nth k t 0%float).
Proof.
  intros E Er Ep Es Ho Hs Ha Hb HA HB HX HD t len.
  apply make_knots in E as (_ & _ & coords & E). destruct (E d) as (r & p & sz & R1 & R2 & R3 & R4); [apply nth_error_Some; congruence|].
  rewrite Er in R1. inversion R1; subst r. rewrite Ep in R2. inversion R2; subst p. rewrite Es in R3. inversion R3; subst sz. destruct R4 as [R4 _].
  destruct (uniform_per_double nd order m a b X Ho Hs Ha Hb HA HB HX HD) as (xs & h & E' & L & C & S & _).
  assert (Et : t = xs) by (unfold t; cbv beta iota in R4; congruence). rewrite Et. split; [split; auto|]. auto.
Qed.
