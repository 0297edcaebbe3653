(** Rounding errors of the band solvers: the classical backward analysis of
    Gaussian elimination, with underflow, for the elimination order of the
    code. *)
From Coq Require Import List Arith Lia Bool Reals Lra.
From Verif Require Import Base Num SpecBand SumR DenseLU MulProofs SpecRound GenLU.
Import ListNotations.
Local Open Scope R_scope.

Lemma pow_ge1 w k : 0 <= w -> 1 <= (1 + w) ^ k.
Proof. intros. apply pow_R1_Rle. lra. Qed.
Lemma pow_mono w j k : 0 <= w -> (j <= k)%nat -> (1 + w) ^ j <= (1 + w) ^ k.
Proof. intros. apply Rle_pow; auto; lra. Qed.

Lemma chain c a w eta : forall k, 0 <= w -> 0 <= eta ->
  (forall t, (t < k)%nat -> Rabs (c t - a t - c (S t)) <= w * (Rabs (c (S t)) + Rabs (a t)) + eta) ->
  Rabs (c O - sum k a - c k) <= ((1 + w) ^ k - 1) * (Rabs (c k) + sum k (fun t => Rabs (a t))) + INR k * (1 + w) ^ k * eta.
Proof.
  intros k Hw He. induction k; intros H.
  - cbn [sum pow INR]. rewrite Rminus_0_r. rewrite Rminus_diag_eq by reflexivity. rewrite Rabs_R0. lra.
  - specialize (IHk ltac:(intros; apply H; lia)). specialize (H k ltac:(lia)).
    cbn [sum]. rewrite S_INR. cbn [pow].
    pose proof (pow_ge1 w k Hw) as Hp.
    assert (S1 : 0 <= sum k (fun t => Rabs (a t))) by (apply sum_pos; intros; apply Rabs_pos).
    pose proof (Rabs_pos (c k)). pose proof (Rabs_pos (c (S k))). pose proof (Rabs_pos (a k)). pose proof (pos_INR k).
    assert (T1 : Rabs (c O - (sum k a + a k) - c (S k)) <= Rabs (c O - sum k a - c k) + Rabs (c k - a k - c (S k))).
    { replace (c O - (sum k a + a k) - c (S k)) with ((c O - sum k a - c k) + (c k - a k - c (S k))) by ring. apply Rabs_triang. }
    assert (T2 : Rabs (c k) <= Rabs (c (S k)) + Rabs (a k) + (w * (Rabs (c (S k)) + Rabs (a k)) + eta)).
    { replace (c k) with (c (S k) + a k + (c k - a k - c (S k))) at 1 by ring.
      eapply Rle_trans; [apply Rabs_triang|]. pose proof (Rabs_triang (c (S k)) (a k)). lra. }
    set (P := (1 + w) ^ k) in *. set (S0 := sum k (fun t => Rabs (a t))) in *.
    set (C := Rabs (c (S k))) in *. set (Z := Rabs (a k)) in *.
    assert ((P - 1) * (Rabs (c k) + S0) <= (P - 1) * ((1 + w) * (C + (S0 + Z)) + eta)).
    { apply Rmult_le_compat_l; [lra|]. assert (0 <= w * S0) by (apply Rmult_le_pos; auto). nra. }
    assert (INR k * P * eta <= INR k * ((1 + w) * P) * eta).
    { apply Rmult_le_compat_r; auto. apply Rmult_le_compat_l; auto. nra. }
    assert (P * eta <= (1 + w) * P * eta) by (apply Rmult_le_compat_r; auto; nra).
    assert (0 <= w * S0) by (apply Rmult_le_pos; auto).
    nra.
Qed.

(** One subtraction of a product, one division. *)
Section Steps.
Context {T : Type} (o : ops T) (val : T -> R) (good : T -> Prop) (u eta : R) (Hr : strict_rounding o val good u eta).
Local Notation w := (u / (1 - u)).

Lemma w_pos : 0 <= w.
Proof using All. destruct (sr_u _ _ _ _ _ Hr). apply Rmult_le_pos; [lra|]. left. apply Rinv_0_lt_compat. lra. Qed.
Lemma u_w : u <= w /\ 1 + w = / (1 - u).
Proof using All.
  destruct (sr_u _ _ _ _ _ Hr). assert (1 + w = / (1 - u)) as E by (field; lra). split; auto.
  assert (w - u = u * w) as D by (field; lra). pose proof w_pos. assert (0 <= u * w) by (apply Rmult_le_pos; lra). lra.
Qed.

Lemma sub_step_err c l x : good (osub o c (omul o l x)) ->
  good c /\ good l /\ good x /\
  Rabs (val c - val l * val x - val (osub o c (omul o l x))) <=
    w * (Rabs (val (osub o c (omul o l x))) + Rabs (val l * val x)) + eta.
Proof using All.
  intros G. destruct (sr_sub _ _ _ _ _ Hr _ _ G) as (Gc & Gp & E1). destruct (sr_mul _ _ _ _ _ Hr _ _ Gp) as (Gl & Gx & E2).
  do 3 (split; auto).
  set (c' := val (osub o c (omul o l x))) in *. set (p := val (omul o l x)) in *. set (a := val l * val x) in *. set (vc := val c) in *.
  destruct (sr_u _ _ _ _ _ Hr) as [U0 U1]. destruct u_w as [Uw Ew]. pose proof w_pos as W.
  assert (B : Rabs (vc - p) <= (1 + w) * Rabs c').
  { assert ((1 - u) * Rabs (vc - p) <= Rabs c').
    { pose proof (Rabs_triang c' (vc - p - c')). replace (c' + (vc - p - c')) with (vc - p) in H by ring.
      replace (Rabs (vc - p - c')) with (Rabs (c' - (vc - p))) in H by (rewrite Rabs_minus_sym; reflexivity). lra. }
    apply Rmult_le_reg_l with (1 - u); [lra|]. rewrite Ew. replace ((1 - u) * (/ (1 - u) * Rabs c')) with (Rabs c') by (field; lra). auto. }
  assert (D : Rabs (c' - (vc - p)) <= w * Rabs c').
  { eapply Rle_trans; [exact E1|]. apply Rle_trans with (u * ((1 + w) * Rabs c')); [apply Rmult_le_compat_l; auto|].
    right. field. lra. }
  pose proof (Rabs_pos c'). pose proof (Rabs_pos a).
  replace (vc - a - c') with (- (c' - (vc - p)) + (p - a)) by ring.
  eapply Rle_trans; [apply Rabs_triang|]. rewrite Rabs_Ropp.
  assert (u * Rabs a <= w * Rabs a) by (apply Rmult_le_compat_r; auto). lra.
Qed.

Lemma div_err c d r : odiv o c d = Ok r -> good d -> good r ->
  good c /\ val d <> 0 /\ Rabs (val c - val r * val d) <= w * Rabs (val r * val d) + eta * Rabs (val d) * (1 + w).
Proof using All.
  intros E Gd Gr. destruct (sr_div _ _ _ _ _ Hr c d) as (r' & E' & H). rewrite E in E'. injection E' as <-.
  destruct (H Gd Gr) as (Gc & Nd & B). split; auto. split; auto.
  destruct (sr_u _ _ _ _ _ Hr) as [U0 U1]. destruct u_w as [Uw Ew]. pose proof w_pos as W. pose proof (sr_eta _ _ _ _ _ Hr) as He.
  set (vc := val c) in *. set (vd := val d) in *. set (vr := val r) in *.
  assert (B1 : Rabs (vc - vr * vd) <= u * Rabs vc + eta * Rabs vd).
  { replace (vc - vr * vd) with (- (vr - vc / vd) * vd) by (field; auto). rewrite Rabs_mult, Rabs_Ropp.
    apply Rle_trans with ((u * Rabs (vc / vd) + eta) * Rabs vd); [apply Rmult_le_compat_r; auto; apply Rabs_pos|].
    right. unfold Rdiv. rewrite Rabs_mult, Rabs_inv. field. apply Rabs_no_R0; auto. }
  pose proof (Rabs_pos vc). pose proof (Rabs_pos vd). pose proof (Rabs_pos (vr * vd)).
  assert (B2 : (1 - u) * Rabs vc <= Rabs (vr * vd) + eta * Rabs vd).
  { pose proof (Rabs_triang (vr * vd) (vc - vr * vd)). replace (vr * vd + (vc - vr * vd)) with vc in H3 by ring. lra. }
  assert (B3 : Rabs vc <= (1 + w) * (Rabs (vr * vd) + eta * Rabs vd)).
  { apply Rmult_le_reg_l with (1 - u); [lra|]. rewrite Ew. replace ((1 - u) * (/ (1 - u) * (Rabs (vr * vd) + eta * Rabs vd))) with (Rabs (vr * vd) + eta * Rabs vd) by (field; lra). auto. }
  apply Rle_trans with (u * ((1 + w) * (Rabs (vr * vd) + eta * Rabs vd)) + eta * Rabs vd).
  { eapply Rle_trans; [exact B1|]. apply Rplus_le_compat_r. apply Rmult_le_compat_l; auto. }
  right. field. lra.
Qed.

(** A chain of subtractions followed by a division. *)
Lemma chain_div c a l d k :
  (forall t, (t < k)%nat -> Rabs (c t - a t - c (S t)) <= w * (Rabs (c (S t)) + Rabs (a t)) + eta) ->
  Rabs (c k - l * d) <= w * Rabs (l * d) + eta * Rabs d * (1 + w) ->
  Rabs (c O - (sum k a + l * d)) <= ((1 + w) ^ S k - 1) * (sum k (fun t => Rabs (a t)) + Rabs (l * d)) + INR (S k) * (1 + w) ^ S k * eta * (1 + Rabs d).
Proof using All.
  intros H D. pose proof w_pos as W. pose proof (sr_eta _ _ _ _ _ Hr) as He.
  pose proof (chain c a w eta k W He H) as C. pose proof (pow_ge1 w k W) as Hp.
  assert (S1 : 0 <= sum k (fun t => Rabs (a t))) by (apply sum_pos; intros; apply Rabs_pos).
  assert (T1 : Rabs (c O - (sum k a + l * d)) <= Rabs (c O - sum k a - c k) + Rabs (c k - l * d)).
  { replace (c O - (sum k a + l * d)) with ((c O - sum k a - c k) + (c k - l * d)) by ring. apply Rabs_triang. }
  assert (T2 : Rabs (c k) <= Rabs (l * d) + Rabs (c k - l * d)).
  { replace (c k) with (l * d + (c k - l * d)) at 1 by ring. apply Rabs_triang. }
  pose proof (Rabs_pos (l * d)). pose proof (Rabs_pos d). pose proof (pos_INR k).
  rewrite S_INR. cbn [pow].
  set (P := (1 + w) ^ k) in *. set (S0 := sum k (fun t => Rabs (a t))) in *. set (L := Rabs (l * d)) in *. set (D0 := Rabs d) in *.
  set (om := w) in *. clearbody om P S0 L D0.
  assert (0 <= eta * D0) by (apply Rmult_le_pos; auto).
  assert (A1 : (P - 1) * (Rabs (c k) + S0) <= (P - 1) * ((1 + om) * L + eta * D0 * (1 + om) + S0)) by (apply Rmult_le_compat_l; lra).
  assert (0 <= om * S0) by (apply Rmult_le_pos; auto). assert (0 <= om * (eta * D0)) by (apply Rmult_le_pos; auto).
  assert (A2 : INR k * P * eta <= INR k * ((1 + om) * P) * eta).
  { apply Rmult_le_compat_r; auto. apply Rmult_le_compat_l; auto. nra. }
  assert (A3 : 0 <= INR k * ((1 + om) * P) * eta * D0).
  { apply Rmult_le_pos; auto. apply Rmult_le_pos; auto. apply Rmult_le_pos; auto. apply Rmult_le_pos; lra. }
  assert (A4 : 0 <= (1 + om) * P * eta) by (apply Rmult_le_pos; auto; apply Rmult_le_pos; lra).
  assert (A5 : 0 <= P * om * S0) by (apply Rmult_le_pos; auto; apply Rmult_le_pos; lra).
  nra.
Qed.
End Steps.

(** The elimination. *)
Section Factor.
Context {T : Type} (o : ops T) (val : T -> R) (good : T -> Prop) (u eta : R) (Hr : strict_rounding o val good u eta).
Context (dv : T -> T -> T) (Hdv : forall a b, odiv o a b = Ok (dv a b)).
Context (n : nat) (rw cl : nat -> nat -> bool).
Context (Hrw : forall k i, rw k i = true -> (k < i < n)%nat) (Hcl : forall k i, cl k i = true -> (k < i < n)%nat).
Context (Mrw : forall t k i, (t < k < i)%nat -> rw t i = true -> rw k i = true) (Mcl : forall t k i, (t < k < i)%nat -> cl t i = true -> cl k i = true).
Local Notation w := (u / (1 - u)).

Lemma bound_mono k S0 d : (k <= n)%nat -> 0 <= S0 -> 0 <= d ->
  ((1 + w) ^ k - 1) * S0 + INR k * (1 + w) ^ k * eta * (1 + d) <= solve_growth u n * S0 + INR n * (1 + solve_growth u n) * eta * (1 + d).
Proof using All.
  intros Hk HS Hd. pose proof (w_pos o val good u eta Hr) as W. pose proof (sr_eta _ _ _ _ _ Hr) as He.
  pose proof (pow_mono w k n W Hk) as P. pose proof (pow_ge1 w k W) as P1. pose proof (le_INR _ _ Hk) as I. pose proof (pos_INR k).
  unfold solve_growth. replace (1 + ((1 + w) ^ n - 1)) with ((1 + w) ^ n) by ring.
  apply Rplus_le_compat; [apply Rmult_le_compat_r; lra|].
  apply Rmult_le_compat_r; [lra|]. apply Rmult_le_compat_r; auto. apply Rmult_le_compat; lra.
Qed.

Section Matrix.
Context (A : nat -> nat -> T).
Context (ZL : forall i k, (k < i < n)%nat -> rw k i = false -> A i k = o0 o).
Context (ZU : forall k j, (k < j < n)%nat -> cl k j = false -> A k j = o0 o).
Local Notation M := (giter o dv rw cl A).
Local Notation F := (giter o dv rw cl A (n - 1)).
Context (GF : forall i j, (i < n)%nat -> (j < n)%nat -> good (F i j)).

Lemma M_S k i j : M (S k) i j = gstep o dv rw cl k (M k) i j.
Proof. reflexivity. Qed.
Lemma M_row k i j : (i <= k)%nat -> M (S k) i j = M k i j.
Proof using Hrw. intros H. rewrite M_S. unfold gstep. destruct (rw k i) eqn:E; auto. apply Hrw in E. lia. Qed.
Lemma M_col k i j : (j < k)%nat -> M (S k) i j = M k i j.
Proof using Hcl.
  intros H. rewrite M_S. unfold gstep. destruct (rw k i); auto. destruct (Nat.eqb_spec j k); [lia|].
  destruct (cl k j) eqn:E; auto. apply Hcl in E. lia.
Qed.
Lemma M_stab K k i j : (k <= K)%nat -> (i <= k \/ j < k)%nat -> M K i j = M k i j.
Proof using Hrw Hcl.
  intros H C. induction H as [|K H IH]; auto. rewrite <- IH. destruct C; [apply M_row|apply M_col]; lia.
Qed.
Lemma F_upper i j : (i <= n - 1)%nat -> F i j = M i i j.
Proof using Hrw Hcl. intros. apply M_stab; lia. Qed.
Lemma F_lower i j : (j < n - 1)%nat -> F i j = M (S j) i j.
Proof using Hrw Hcl. intros. apply M_stab; lia. Qed.

Lemma M_zero_lower t i k : (k < i < n)%nat -> rw k i = false -> M t i k = o0 o.
Proof using Hrw Hcl Mrw ZL.
  intros H E. induction t; [apply ZL; auto|].
  destruct (Nat.lt_ge_cases k t); [rewrite M_col; auto|]. rewrite M_S. unfold gstep.
  destruct (rw t i) eqn:Et; auto. destruct (Nat.eq_dec t k) as [->|]; [congruence|].
  rewrite (Mrw t k i) in E by (auto; lia). discriminate.
Qed.
Lemma M_zero_upper t k j : (k < j < n)%nat -> cl k j = false -> M t k j = o0 o.
Proof using Hrw Hcl Mcl ZU.
  intros H E. induction t; [apply ZU; auto|].
  destruct (Nat.le_gt_cases k t); [rewrite M_row; auto|]. rewrite M_S. unfold gstep.
  destruct (rw t k); auto. destruct (Nat.eqb_spec j t); [lia|]. destruct (cl t j) eqn:Et; auto.
  rewrite (Mcl t k j) in E by (auto; lia). discriminate.
Qed.

Lemma M_good : forall m i j, (m <= n - 1)%nat -> (i < n)%nat -> (j < n)%nat -> good (M (n - 1 - m) i j).
Proof using All.
  induction m; intros i j Hm Hi Hj; [rewrite Nat.sub_0_r; apply GF; auto|].
  set (k := (n - 1 - S m)%nat). assert (IH : forall i j, (i < n)%nat -> (j < n)%nat -> good (M (S k) i j)).
  { intros. replace (S k) with (n - 1 - m)%nat by (unfold k; lia). apply IHm; auto; lia. }
  assert (Hk : (k < n)%nat) by (unfold k; lia).
  assert (Gk : good (M k k k)) by (rewrite <- M_row by lia; apply IH; auto).
  pose proof (IH i j Hi Hj) as G. rewrite M_S in G. unfold gstep in G.
  destruct (rw k i); auto. destruct (Nat.eqb_spec j k) as [->|].
  - apply (div_err o val good u eta Hr _ _ _ (Hdv _ _)) in G; auto. apply G.
  - destruct (cl k j); auto. apply (sub_step_err o val good u eta Hr) in G. apply G.
Qed.
Lemma M_good' k i j : (k <= n - 1)%nat -> (i < n)%nat -> (j < n)%nat -> good (M k i j).
Proof using All. intros. replace k with (n - 1 - (n - 1 - k))%nat by lia. apply M_good; lia. Qed.

Lemma M_step t i j : (t < i < n)%nat -> (t < j < n)%nat ->
  Rabs (val (M t i j) - val (F i t) * val (F t j) - val (M (S t) i j)) <=
    w * (Rabs (val (M (S t) i j)) + Rabs (val (F i t) * val (F t j))) + eta.
Proof using All.
  intros Hi Hj. rewrite (F_lower i t) by lia. rewrite (F_upper t j) by lia.
  pose proof (w_pos o val good u eta Hr) as W. pose proof (sr_eta _ _ _ _ _ Hr) as He. destruct (sr_0 _ _ _ _ _ Hr) as [_ Z0].
  destruct (rw t i) eqn:E1.
  - assert (El : M (S t) i t = dv (M t i t) (M t t t)) by (rewrite M_S; unfold gstep; rewrite E1, Nat.eqb_refl; reflexivity).
    destruct (cl t j) eqn:E2.
    + assert (Es : M (S t) i j = osub o (M t i j) (omul o (M (S t) i t) (M t t j))).
      { rewrite El, M_S. unfold gstep. rewrite E1, E2. destruct (Nat.eqb_spec j t); [lia|reflexivity]. }
      assert (G : good (M (S t) i j)) by (apply M_good'; lia). rewrite Es in G |- *.
      apply (sub_step_err o val good u eta Hr) in G. apply G.
    + assert (Es : M (S t) i j = M t i j).
      { rewrite M_S. unfold gstep. rewrite E1, E2. destruct (Nat.eqb_spec j t); [lia|reflexivity]. }
      rewrite Es, (M_zero_upper t t j), Z0 by auto. rewrite Rmult_0_r, Rabs_R0.
      rewrite Rminus_0_r. rewrite Rminus_diag_eq, Rabs_R0 by auto. rewrite Rplus_0_r. assert (0 <= w * Rabs (val (M t i j))) by (apply Rmult_le_pos; auto; apply Rabs_pos). lra.
  - assert (Es : M (S t) i j = M t i j) by (rewrite M_S; unfold gstep; rewrite E1; reflexivity).
    rewrite Es, (M_zero_lower (S t) i t), Z0 by auto. rewrite Rmult_0_l, Rabs_R0.
    rewrite Rminus_0_r. rewrite Rminus_diag_eq, Rabs_R0 by auto. rewrite Rplus_0_r. assert (0 <= w * Rabs (val (M t i j))) by (apply Rmult_le_pos; auto; apply Rabs_pos). lra.
Qed.

Local Notation vF := (fun i j => val (F i j)).
Lemma lu_sum i j f : (i < n)%nat -> (j < n)%nat -> f 0 = 0 -> (i <= j)%nat ->
  sum n (fun t => f (lower vF i t * upper vF t j)) = sum i (fun t => f (val (F i t) * val (F t j))) + f (val (F i j)).
Proof using.
  intros Hi Hj F0 Hij. rewrite (sum_trunc (S i) n); [|lia|intros t Ht; unfold lower; destruct (Nat.ltb_spec t i); [lia|]; destruct (Nat.eqb_spec t i); [lia|]; rewrite Rmult_0_l; auto].
  cbn [sum]. f_equal.
  - apply sum_ext. intros t Ht. unfold lower, upper. destruct (Nat.ltb_spec t i); [|lia]. destruct (Nat.leb_spec t j); [|lia]. reflexivity.
  - unfold lower, upper. rewrite Nat.ltb_irrefl, Nat.eqb_refl. destruct (Nat.leb_spec i j); [|lia]. f_equal. ring.
Qed.
Lemma lu_sum' i j f : (i < n)%nat -> (j < n)%nat -> f 0 = 0 -> (j < i)%nat ->
  sum n (fun t => f (lower vF i t * upper vF t j)) = sum j (fun t => f (val (F i t) * val (F t j))) + f (val (F i j) * val (F j j)).
Proof using.
  intros Hi Hj F0 Hij. rewrite (sum_trunc (S j) n); [|lia|intros t Ht; unfold upper; destruct (Nat.leb_spec t j); [lia|]; rewrite Rmult_0_r; auto].
  cbn [sum]. f_equal.
  - apply sum_ext. intros t Ht. unfold lower, upper. destruct (Nat.ltb_spec t i); [|lia]. destruct (Nat.leb_spec t j); [|lia]. reflexivity.
  - unfold lower, upper. destruct (Nat.ltb_spec j i); [|lia]. rewrite Nat.leb_refl. reflexivity.
Qed.

Lemma factor_error i j : (i < n)%nat -> (j < n)%nat ->
  Rabs (val (A i j) - sum n (fun t => lower vF i t * upper vF t j)) <=
    solve_growth u n * sum n (fun t => Rabs (lower vF i t * upper vF t j)) + INR n * (1 + solve_growth u n) * eta * (1 + Rabs (val (F j j))).
Proof using All.
  intros Hi Hj. destruct (Nat.le_gt_cases i j) as [H|H].
  - rewrite (lu_sum i j (fun x => x)), (lu_sum i j Rabs) by (auto using Rabs_R0).
    pose proof (chain (fun t => val (M t i j)) (fun t => val (F i t) * val (F t j)) w eta i (w_pos o val good u eta Hr) (sr_eta _ _ _ _ _ Hr)
      ltac:(intros; apply M_step; lia)) as C. cbv beta in C.
    replace (M O i j) with (A i j) in C by reflexivity. rewrite <- (F_upper i j) in C by lia.
    replace (val (A i j) - (sum i (fun t => val (F i t) * val (F t j)) + val (F i j))) with (val (A i j) - sum i (fun t => val (F i t) * val (F t j)) - val (F i j)) by ring.
    eapply Rle_trans; [exact C|]. rewrite (Rplus_comm (Rabs (val (F i j)))).
    set (S0 := sum i _ + _). assert (HS : 0 <= S0) by (unfold S0; apply Rplus_le_le_0_compat; [apply sum_pos; intros|]; apply Rabs_pos).
    eapply Rle_trans; [|apply (bound_mono i S0 (Rabs (val (F j j)))); auto; [lia|apply Rabs_pos]].
    apply Rplus_le_compat_l. pose proof (w_pos o val good u eta Hr) as W.
    rewrite <- (Rmult_1_r (INR i * (1 + w) ^ i * eta)) at 1. apply Rmult_le_compat_l; [|pose proof (Rabs_pos (val (F j j))); lra].
    apply Rmult_le_pos; [|apply (sr_eta _ _ _ _ _ Hr)]. apply Rmult_le_pos; [apply pos_INR|]. pose proof (pow_ge1 w i W). lra.
  - rewrite (lu_sum' i j (fun x => x)), (lu_sum' i j Rabs) by (auto using Rabs_R0).
    pose proof (chain_div o val good u eta Hr (fun t => val (M t i j)) (fun t => val (F i t) * val (F t j)) (val (F i j)) (val (F j j)) j
      ltac:(intros; apply M_step; lia)) as C. cbv beta in C. replace (M O i j) with (A i j) in C by reflexivity.
    eapply Rle_trans; [apply C|].
    + rewrite (F_upper j j), (F_lower i j) by lia. destruct (rw j i) eqn:E.
      * assert (El : M (S j) i j = dv (M j i j) (M j j j)) by (rewrite M_S; unfold gstep; rewrite E, Nat.eqb_refl; reflexivity).
        destruct (div_err o val good u eta Hr (M j i j) (M j j j) (M (S j) i j)) as (_ & _ & D); auto.
        { rewrite El. apply Hdv. } { apply M_good'; lia. } { apply M_good'; lia. }
      * destruct (sr_0 _ _ _ _ _ Hr) as [_ Z0]. rewrite !M_zero_lower, !Z0 by auto. rewrite Rmult_0_l, Rminus_0_r, Rabs_R0.
        pose proof (w_pos o val good u eta Hr) as W. pose proof (sr_eta _ _ _ _ _ Hr) as He. pose proof (Rabs_pos (val (M j j j))).
        assert (0 <= eta * Rabs (val (M j j j)) * (1 + w)) by (apply Rmult_le_pos; [apply Rmult_le_pos; auto|lra]). lra.
    + apply bound_mono; [lia| |apply Rabs_pos]. apply Rplus_le_le_0_compat; [apply sum_pos; intros|]; apply Rabs_pos.
Qed.
End Matrix.

(** The substitutions. *)
Section Subst.
Context (F : nat -> nat -> T) (GF : forall i j, (i < n)%nat -> (j < n)%nat -> good (F i j)).
Context (FL : forall i k, (k < i < n)%nat -> rw k i = false -> F i k = o0 o).
Context (FU : forall k j, (k < j < n)%nat -> cl k j = false -> F k j = o0 o).
Local Notation vF := (fun i j => val (F i j)).

Section Forward.
Context (b : nat -> T).
Local Notation V := (fiter o rw F b).
Lemma V_S k i : V (S k) i = fstep o rw F k (V k) i.
Proof. reflexivity. Qed.
Lemma V_stab K k i : (i <= k)%nat -> (k <= K)%nat -> V K i = V k i.
Proof using Hrw.
  intros H H'. induction H' as [|K H' IH]; auto. rewrite V_S. unfold fstep. destruct (rw K i) eqn:E; auto. apply Hrw in E. lia.
Qed.
Context (GV : forall i, (i < n)%nat -> good (V n i)).
Lemma V_good : forall m i, (m <= n)%nat -> (i < n)%nat -> good (V (n - m) i).
Proof using All.
  induction m; intros i Hm Hi; [rewrite Nat.sub_0_r; apply GV; auto|].
  set (k := (n - S m)%nat). pose proof (IHm i ltac:(lia) Hi) as G. replace (n - m)%nat with (S k) in G by (unfold k; lia).
  rewrite V_S in G. unfold fstep in G. destruct (rw k i); auto.
  apply (sub_step_err o val good u eta Hr) in G. apply G.
Qed.
Lemma forward_error i : (i < n)%nat ->
  Rabs (val (b i) - sum n (fun j => lower vF i j * val (V n j))) <=
    solve_growth u n * sum n (fun j => Rabs (lower vF i j) * Rabs (val (V n j))) + INR n * (1 + solve_growth u n) * eta.
Proof using All.
  intros Hi. pose proof (w_pos o val good u eta Hr) as W. pose proof (sr_eta _ _ _ _ _ Hr) as He. destruct (sr_0 _ _ _ _ _ Hr) as [_ Z0].
  assert (S1 : sum n (fun j => lower vF i j * val (V n j)) = sum i (fun j => val (F i j) * val (V n j)) + val (V n i)).
  { rewrite (sum_trunc (S i) n); [|lia|intros t Ht; unfold lower; destruct (Nat.ltb_spec t i); [lia|]; destruct (Nat.eqb_spec t i); [lia|]; ring].
    cbn [sum]. f_equal; [apply sum_ext; intros t Ht|]; unfold lower.
    - destruct (Nat.ltb_spec t i); [|lia]. reflexivity.
    - rewrite Nat.ltb_irrefl, Nat.eqb_refl. ring. }
  assert (S2 : sum n (fun j => Rabs (lower vF i j) * Rabs (val (V n j))) = sum i (fun j => Rabs (val (F i j) * val (V n j))) + Rabs (val (V n i))).
  { rewrite (sum_trunc (S i) n); [|lia|intros t Ht; unfold lower; destruct (Nat.ltb_spec t i); [lia|]; destruct (Nat.eqb_spec t i); [lia|]; rewrite Rabs_R0; ring].
    cbn [sum]. f_equal; [apply sum_ext; intros t Ht|]; unfold lower.
    - destruct (Nat.ltb_spec t i); [|lia]. rewrite Rabs_mult. reflexivity.
    - rewrite Nat.ltb_irrefl, Nat.eqb_refl, Rabs_R1. ring. }
  rewrite S1, S2.
  pose proof (chain (fun t => val (V t i)) (fun t => val (F i t) * val (V n t)) w eta i W He) as C. cbv beta in C.
  replace (V O i) with (b i) in C by reflexivity. rewrite <- (V_stab n i i) in C by lia.
  replace (val (b i) - (sum i (fun j => val (F i j) * val (V n j)) + val (V n i))) with (val (b i) - sum i (fun j => val (F i j) * val (V n j)) - val (V n i)) by ring.
  eapply Rle_trans; [apply C|].
  - intros t Ht. rewrite (V_stab n t t) by lia. destruct (rw t i) eqn:E.
    + assert (Es : V (S t) i = osub o (V t i) (omul o (F i t) (V t t))) by (rewrite V_S; unfold fstep; rewrite E; reflexivity).
      assert (G : good (V (S t) i)) by (replace (S t) with (n - (n - S t))%nat by lia; apply V_good; lia).
      rewrite Es in G |- *. apply (sub_step_err o val good u eta Hr) in G. apply G.
    + assert (Es : V (S t) i = V t i) by (rewrite V_S; unfold fstep; rewrite E; reflexivity).
      rewrite Es, (FL i t), Z0 by auto. rewrite Rmult_0_l, Rabs_R0, Rminus_0_r, Rminus_diag_eq, Rabs_R0 by auto.
      assert (0 <= w * (Rabs (val (V t i)) + 0)) by (apply Rmult_le_pos; auto; pose proof (Rabs_pos (val (V t i))); lra). lra.
  - rewrite (Rplus_comm (Rabs _)). set (S0 := sum i _ + _). assert (HS : 0 <= S0) by (unfold S0; apply Rplus_le_le_0_compat; [apply sum_pos; intros|]; apply Rabs_pos).
    pose proof (bound_mono i S0 0 ltac:(lia) HS ltac:(lra)) as B. rewrite Rplus_0_r, !Rmult_1_r in B. exact B.
Qed.
End Forward.

Section Backward.
Context (y : nat -> T).
Local Notation X := (biter o dv cl F n y).
Lemma X_S m i : X (S m) i = bstep o dv cl F (n - S m) (X m) i.
Proof. reflexivity. Qed.
Lemma X_stab K m i : (n - m <= i)%nat -> (m <= K)%nat -> (K <= n)%nat -> X K i = X m i.
Proof using Hcl.
  intros H H' HK. induction H' as [|K H' IH]; auto. rewrite X_S. unfold bstep.
  destruct (Nat.eqb_spec i (n - S K)); [lia|]. destruct (cl i (n - S K)) eqn:E; [apply Hcl in E; lia|]. apply IH. lia.
Qed.
Context (GX : forall i, (i < n)%nat -> good (X n i)).
Lemma X_good : forall d i, (d <= n)%nat -> (i < n)%nat -> good (X (n - d) i).
Proof using All.
  induction d; intros i Hd Hi; [rewrite Nat.sub_0_r; apply GX; auto|].
  set (m := (n - S d)%nat). pose proof (IHd i ltac:(lia) Hi) as G. replace (n - d)%nat with (S m) in G by (unfold m; lia).
  rewrite X_S in G. unfold bstep in G. destruct (Nat.eqb_spec i (n - S m)) as [->|].
  - apply (div_err o val good u eta Hr _ _ _ (Hdv _ _)) in G; [apply G|apply GF; unfold m; lia].
  - destruct (cl i (n - S m)); auto. apply (sub_step_err o val good u eta Hr) in G. apply G.
Qed.
Lemma X_good' m i : (m <= n)%nat -> (i < n)%nat -> good (X m i).
Proof using All. intros. replace m with (n - (n - m))%nat by lia. apply X_good; lia. Qed.

Lemma sum_down i f : (i < n)%nat -> sum n (fun j => if (i <? j)%nat then f j else 0) = sum (n - 1 - i) (fun m => f (n - 1 - m)%nat).
Proof using.
  intros Hi. assert (E : forall d, (d + i = n - 1)%nat -> sum n (fun j => if (i <? j)%nat then f j else 0) = sum d (fun m => f (n - 1 - m)%nat)).
  { intros d Hd. replace n with (i + 1 + d)%nat by lia. rewrite sum_app. rewrite sum_0 by (intros t Ht; destruct (Nat.ltb_spec i t); [lia|reflexivity]). rewrite Rplus_0_l.
    rewrite (sum_ext d _ (fun t => f (i + 1 + t)%nat)) by (intros t Ht; destruct (Nat.ltb_spec i (i + 1 + t)); [reflexivity|lia]).
    clear Hi Hd. induction d; [reflexivity|]. rewrite (sum_S_l d (fun m => f (i + 1 + S d - 1 - m)%nat)). cbn [sum]. rewrite IHd. rewrite Rplus_comm. f_equal.
    - f_equal. lia.
    - apply sum_ext. intros t Ht. f_equal. lia. }
  apply E. lia.
Qed.

Lemma backward_error i : (i < n)%nat ->
  Rabs (val (y i) - sum n (fun j => upper vF i j * val (X n j))) <=
    solve_growth u n * sum n (fun j => Rabs (upper vF i j) * Rabs (val (X n j))) + INR n * (1 + solve_growth u n) * eta * (1 + Rabs (val (F i i))).
Proof using All.
  intros Hi. pose proof (w_pos o val good u eta Hr) as W. pose proof (sr_eta _ _ _ _ _ Hr) as He. destruct (sr_0 _ _ _ _ _ Hr) as [_ Z0].
  assert (S1 : forall f : R -> R, f 0 = 0 -> sum n (fun j => f (upper vF i j * val (X n j))) =
     sum (n - 1 - i) (fun m => f (val (F i (n - 1 - m)%nat) * val (X n (n - 1 - m)%nat))) + f (val (X n i) * val (F i i))).
  { intros f F0. rewrite <- (sum_down i (fun j => f (val (F i j) * val (X n j)))) by auto.
    rewrite (sum_ext n _ (fun j => (if (i <? j)%nat then f (val (F i j) * val (X n j)) else 0) + (if (j =? i)%nat then f (val (X n i) * val (F i i)) else 0))).
    - rewrite sum_plus. f_equal. rewrite (sum_single n i); auto; [rewrite Nat.eqb_refl; reflexivity|].
      intros j Hj Hne. destruct (Nat.eqb_spec j i); [lia|reflexivity].
    - intros j Hj. unfold upper. destruct (Nat.leb_spec i j), (Nat.ltb_spec i j), (Nat.eqb_spec j i); try lia; rewrite ?Rmult_0_l, ?F0; try lra.
      subst j. rewrite Rplus_0_l. f_equal. ring. }
  rewrite (S1 (fun x => x)) by auto.
  rewrite (sum_ext n _ (fun j => Rabs (upper vF i j * val (X n j)))) by (intros; rewrite Rabs_mult; reflexivity).
  rewrite (S1 Rabs) by (apply Rabs_R0).
  pose proof (chain_div o val good u eta Hr (fun m => val (X m i)) (fun m => val (F i (n - 1 - m)%nat) * val (X n (n - 1 - m)%nat)) (val (X n i)) (val (F i i)) (n - 1 - i)) as C.
  cbv beta in C. replace (X O i) with (y i) in C by reflexivity.
  eapply Rle_trans; [apply C|].
  - intros m Hm. rewrite (X_stab n (S m) (n - 1 - m)) by lia.
    assert (Ex : X (S m) (n - 1 - m)%nat = dv (X m (n - 1 - m)%nat) (F (n - 1 - m)%nat (n - 1 - m)%nat)).
    { rewrite X_S. unfold bstep. replace (n - S m)%nat with (n - 1 - m)%nat by lia. rewrite Nat.eqb_refl. reflexivity. }
    destruct (cl i (n - 1 - m)) eqn:E.
    + assert (Es : X (S m) i = osub o (X m i) (omul o (F i (n - 1 - m)%nat) (X (S m) (n - 1 - m)%nat))).
      { rewrite Ex, X_S. unfold bstep. replace (n - S m)%nat with (n - 1 - m)%nat by lia. rewrite E. destruct (Nat.eqb_spec i (n - 1 - m)); [lia|reflexivity]. }
      assert (G : good (X (S m) i)) by (apply X_good'; lia). rewrite Es in G |- *. apply (sub_step_err o val good u eta Hr) in G. apply G.
    + assert (Es : X (S m) i = X m i).
      { rewrite X_S. unfold bstep. replace (n - S m)%nat with (n - 1 - m)%nat by lia. rewrite E. destruct (Nat.eqb_spec i (n - 1 - m)); [lia|reflexivity]. }
      rewrite Es, (FU i (n - 1 - m)), Z0 by (auto; lia). rewrite Rmult_0_l, Rabs_R0, Rminus_0_r, Rminus_diag_eq, Rabs_R0 by auto.
      assert (0 <= w * (Rabs (val (X m i)) + 0)) by (apply Rmult_le_pos; auto; pose proof (Rabs_pos (val (X m i))); lra). lra.
  - rewrite (X_stab n (n - i) i) by lia.
    assert (Ex : X (n - i)%nat i = dv (X (n - 1 - i)%nat i) (F i i)).
    { replace (n - i)%nat with (S (n - 1 - i)) by lia. rewrite X_S. unfold bstep. replace (n - S (n - 1 - i))%nat with i by lia. rewrite Nat.eqb_refl. reflexivity. }
    destruct (div_err o val good u eta Hr (X (n - 1 - i)%nat i) (F i i) (X (n - i)%nat i)) as (_ & _ & D); auto.
    { rewrite Ex. apply Hdv. } { apply X_good'; lia. }
  - apply bound_mono; [lia| |apply Rabs_pos]. apply Rplus_le_le_0_compat; [apply sum_pos; intros|]; apply Rabs_pos.
Qed.
End Backward.
End Subst.

Lemma growth_pos : 0 <= solve_growth u n.
Proof using All. unfold solve_growth. pose proof (pow_ge1 w n (w_pos o val good u eta Hr)). lra. Qed.

Section Solve.
Context (A : nat -> nat -> T) (b : nat -> T).
Context (ZL : forall i k, (k < i < n)%nat -> rw k i = false -> A i k = o0 o).
Context (ZU : forall k j, (k < j < n)%nat -> cl k j = false -> A k j = o0 o).
Local Notation F := (giter o dv rw cl A (n - 1)).
Local Notation y := (fiter o rw F b n).
Local Notation x := (biter o dv cl F n y n).
Local Notation vF := (fun i j => val (F i j)).
Context (GF : forall i j, (i < n)%nat -> (j < n)%nat -> good (F i j)) (GX : forall i, (i < n)%nat -> good (x i)).

Lemma residual_error i : (i < n)%nat ->
  Rabs (sum n (fun j => val (A i j) * val (x j)) - val (b i)) <= residual_bound u eta n vF (fun j => val (x j)) i.
Proof using All.
  intros Hi. pose proof growth_pos as Hg. pose proof (sr_eta _ _ _ _ _ Hr) as He.
  pose proof (M_zero_lower A ZL (n - 1)) as FL. pose proof (M_zero_upper A ZU (n - 1)) as FU.
  pose proof (factor_error A ZL ZU GF) as E1.
  pose proof (backward_error F GF FL FU y GX) as E2.
  assert (GY : forall i, (i < n)%nat -> good (y i)).
  { intros k Hk. pose proof (X_good F GF FL FU y GX n k ltac:(lia) Hk) as G. rewrite Nat.sub_diag in G. exact G. }
  pose proof (forward_error F GF FL FU b GY) as E3.
  unfold residual_bound. cbv zeta. change Rsum with sum.
  set (g := solve_growth u n) in *. set (e := INR n * (1 + g) * eta) in *.
  assert (He' : 0 <= e) by (unfold e; apply Rmult_le_pos; auto; apply Rmult_le_pos; [apply pos_INR|lra]).
  set (L := lower vF) in *. set (U := upper vF) in *.
  set (vx := fun j => val (x j)) in *. set (vy := fun j => val (y j)) in *.
  change (fun j => val (A i j) * val (x j)) with (fun j => val (A i j) * vx j).
  set (Y := fun k => sum n (fun j => Rabs (U k j) * Rabs (vx j))).
  set (d := fun k => 1 + Rabs (val (F k k))).
  assert (Hd : forall k, 0 <= d k) by (intros; unfold d; pose proof (Rabs_pos (val (F k k))); lra).
  assert (HY : forall k, 0 <= Y k) by (intros; apply sum_pos; intros; apply Rmult_le_pos; apply Rabs_pos).
  assert (T2 : forall k, (k < n)%nat -> Rabs (vy k - sum n (fun j => U k j * vx j)) <= g * Y k + e * d k) by (intros; apply E2; auto).
  assert (T3 : Rabs (val (b i) - sum n (fun j => L i j * vy j)) <= g * sum n (fun j => Rabs (L i j) * Rabs (vy j)) + e) by (apply E3; auto).
  assert (T4 : forall k, (k < n)%nat -> Rabs (vy k) <= (1 + g) * Y k + e * d k).
  { intros k Hk. specialize (T2 k Hk). replace (vy k) with (sum n (fun j => U k j * vx j) + (vy k - sum n (fun j => U k j * vx j))) by ring.
    eapply Rle_trans; [apply Rabs_triang|]. assert (Rabs (sum n (fun j => U k j * vx j)) <= Y k).
    { eapply Rle_trans; [apply sum_Rabs|]. right. apply sum_ext. intros. apply Rabs_mult. } lra. }
  assert (T1 : Rabs (sum n (fun j => val (A i j) * vx j) - sum n (fun k => L i k * sum n (fun j => U k j * vx j))) <=
     g * sum n (fun k => Rabs (L i k) * Y k) + e * sum n (fun j => Rabs (vx j) * d j)).
  { replace (sum n (fun k => L i k * sum n (fun j => U k j * vx j))) with (sum n (fun j => sum n (fun k => L i k * U k j) * vx j)).
    2:{ rewrite (sum_ext n (fun k => L i k * _) (fun k => sum n (fun j => L i k * U k j * vx j))) by (intros; rewrite <- sum_scal; apply sum_ext; intros; ring).
        rewrite sum_swap. apply sum_ext. intros. rewrite <- sum_scal_r. reflexivity. }
    replace (sum n (fun k => Rabs (L i k) * Y k)) with (sum n (fun j => sum n (fun k => Rabs (L i k * U k j)) * Rabs (vx j))).
    2:{ unfold Y. rewrite (sum_ext n (fun k => Rabs (L i k) * _) (fun k => sum n (fun j => Rabs (L i k * U k j) * Rabs (vx j)))) by (intros; rewrite <- sum_scal; apply sum_ext; intros; rewrite Rabs_mult; ring).
        rewrite sum_swap. apply sum_ext. intros. rewrite <- sum_scal_r. reflexivity. }
    rewrite <- sum_minus. eapply Rle_trans; [apply sum_Rabs|]. rewrite <- !sum_scal, <- sum_plus. apply sum_le. intros j Hj.
    rewrite <- Rmult_minus_distr_r, Rabs_mult. specialize (E1 i j Hi Hj).
    eapply Rle_trans; [apply Rmult_le_compat_r; [apply Rabs_pos|exact E1]|]. right. unfold d. ring. }
  assert (T5 : Rabs (sum n (fun k => L i k * sum n (fun j => U k j * vx j)) - sum n (fun j => L i j * vy j)) <=
     g * sum n (fun k => Rabs (L i k) * Y k) + e * sum n (fun k => Rabs (L i k) * d k)).
  { rewrite <- sum_minus. eapply Rle_trans; [apply sum_Rabs|]. rewrite <- !sum_scal, <- sum_plus. apply sum_le. intros k Hk.
    rewrite <- Rmult_minus_distr_l, Rabs_mult. rewrite Rabs_minus_sym. specialize (T2 k Hk).
    eapply Rle_trans; [apply Rmult_le_compat_l; [apply Rabs_pos|exact T2]|]. right. ring. }
  assert (T6 : sum n (fun j => Rabs (L i j) * Rabs (vy j)) <= (1 + g) * sum n (fun k => Rabs (L i k) * Y k) + e * sum n (fun k => Rabs (L i k) * d k)).
  { rewrite <- !sum_scal, <- sum_plus. apply sum_le. intros k Hk. specialize (T4 k Hk).
    eapply Rle_trans; [apply Rmult_le_compat_l; [apply Rabs_pos|exact T4]|]. right. ring. }
  replace (sum n (fun j => val (A i j) * vx j) - val (b i)) with
    ((sum n (fun j => val (A i j) * vx j) - sum n (fun k => L i k * sum n (fun j => U k j * vx j))) +
     ((sum n (fun k => L i k * sum n (fun j => U k j * vx j)) - sum n (fun j => L i j * vy j)) + - (val (b i) - sum n (fun j => L i j * vy j)))) by ring.
  eapply Rle_trans; [apply Rabs_triang|]. eapply Rle_trans; [apply Rplus_le_compat_l, Rabs_triang|]. rewrite Rabs_Ropp.
  set (W := sum n (fun k => Rabs (L i k) * Y k)) in *. set (D := sum n (fun k => Rabs (L i k) * d k)) in *. set (DX := sum n (fun j => Rabs (vx j) * d j)) in *.
  assert (g * sum n (fun j => Rabs (L i j) * Rabs (vy j)) <= g * ((1 + g) * W + e * D)) by (apply Rmult_le_compat_l; auto).
  match goal with |- _ <= ?r => change r with ((3 * g + g * g) * W + e * (1 + (1 + g) * D + DX)) end.
  lra.
Qed.
End Solve.
End Factor.
