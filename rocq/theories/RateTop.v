(** Order of approximation: equally spaced periodic points. *)
From Coq Require Import List Arith Lia Bool ZArith Reals Lra FunctionalExtensionality.
From Coquelicot Require Import Coquelicot.
From Verif Require Import Base Num MeshM SpecMesh MeshProofs ProgM BandM LUM SplineM InterpM.
From Verif Require Import SumR DenseLU SpecBand BandProofs MulProofs LUProofs LUConv SpecSpline SpecSplineObj SplineProofs BasisProofs BetaProofs TensorR EvalProofs EvalR DerivProofs DerivLoops SplineTop SplineCalc SpecInterp KnotProofs KnotShape CoefProofs SolverProofs RoundProofs SolveProofs BuildProofs WeightProofs InterpProofs PerDom PerPD InterpTop InterpFinal PolyProofs SymBasis SymProofs SpecDims LinProofs RoundTensor RoundDerivLoops
  SpecCurve VecTop MonoTop SpecStab StabProofs StabTop SpecApprox ApproxProofs ApproxTop SpecSmooth SmoothProofs SmoothTop SpecDApprox DApproxProofs DApproxTop SpecRate RateProofs SpecInterp.
Import ListNotations.
Open Scope R_scope.

Lemma family_periodic (D : nat -> R -> R) k P : (forall i t, (i < k)%nat -> is_derive (D i) t (D (S i) t)) ->
  (forall t, D 0%nat (t + P) = D 0%nat t) -> forall i, (i <= k)%nat -> forall t, D i (t + P) = D i t.
Proof.
  intros HD H0. induction i as [|i IH]; intros Hi t; [apply H0|].
  pose proof (HD i t ltac:(lia)) as A.
  assert (B : is_derive (D i) t (D (S i) (t + P))).
  { apply (is_derive_ext (fun t => D i (t + P))); [intros u; apply IH; lia|].
    replace (D (S i) (t + P)) with (scal 1 (D (S i) (t + P))) by apply (scal_one (K := R_Ring)).
    apply (is_derive_comp (D i) (fun t => t + P)); [apply HD; lia|auto_derive; auto]. }
  apply is_derive_unique in A. apply is_derive_unique in B. congruence.
Qed.
Lemma periods (D : R -> R) P : (forall t, D (t + P) = D t) -> forall z t, D (t + IZR z * P) = D t.
Proof.
  intros H. assert (N : forall n t, D (t + INR n * P) = D t).
  { induction n as [|n IH]; intros t; [f_equal; simpl; ring|]. rewrite S_INR. replace (t + (INR n + 1) * P) with (t + INR n * P + P) by ring. rewrite H. apply IH. }
  intros z t. destruct z as [|q|q].
  - f_equal. ring.
  - rewrite <- positive_nat_Z, <- INR_IZR_INZ. apply N.
  - rewrite <- (N (Pos.to_nat q) (t + _)). f_equal. rewrite INR_IZR_INZ, positive_nat_Z. change (Z.neg q) with (- Z.pos q)%Z. rewrite opp_IZR. ring.
Qed.

Lemma tensor_bound bs : forall (L : nat -> R) c B,
  (forall d, (d < length bs)%nat -> sum (fst (nth d bs (0%nat, fun _ => 0))) (fun i => Rabs (snd (nth d bs (0%nat, fun _ => 0)) i)) <= L d) ->
  (forall idx, valid (map fst bs) idx -> Rabs (c idx) <= B) -> 0 <= B -> (forall d, 0 <= L d) ->
  Rabs (tensor bs c) <= prodn (length bs) L * B.
Proof.
  induction bs as [|[n b] bs IH]; intros L c B H HB B0 HL; cbn [tensor length].
  - cbn [prodn]. rewrite Rmult_1_l. apply HB. constructor; auto.
  - rewrite Rsum_sum, prodn_S_l. eapply Rle_trans; [apply sum_Rabs|].
    apply Rle_trans with (sum n (fun i => Rabs (b i) * (prodn (length bs) (fun d => L (S d)) * B))).
    + apply sum_le. intros i Hi. rewrite Rabs_mult. apply Rmult_le_compat_l; [apply Rabs_pos|]. apply IH; auto.
      * intros d Hd. apply (H (S d)). simpl. lia.
      * intros idx V. apply HB. constructor; auto.
    + rewrite sum_scal_r, Rmult_assoc. apply Rmult_le_compat_r.
      * apply Rmult_le_pos; auto. clear - HL. generalize (length bs). induction n as [|n IHn]; cbn [prodn]; [lra|]. apply Rmult_le_pos; auto.
      * apply (H 0%nat). simpl. lia.
Qed.

Section Top.
Variables (on nd : bool) (p : nat) (per : list bool) (dims : list nat) (ranges : list (xrange R)) (f : MeshM.mesh R)
  (g : interp R) (mats : list mat).
Hypothesis GI : good_input nd p per dims ranges.
Hypothesis Ef : m_dims f = dims.
Hypothesis Wf : wf_mesh f.
Hypothesis Eg : interp_make Rops on nd p per f ranges = Ok g.
Hypothesis IP : interpolant nd p per dims ranges f g mats.
Hypothesis UP : uniform_periodic per ranges.
Hypothesis Hp : (1 <= p <= 6)%nat.
Let n := length per.
Let W := ddims nd per dims.
Let s := if_spline g.
Let sd := st nd per dims ranges.
Let ps := pos nd p per dims ranges.
Let kd := kk nd p per dims ranges.
Let hs := map sd (seq 0 n).

Section Point.
Variable xs : list R.
Hypothesis Lx : length xs = n.
Let ky (d : nat) : nat := snd (loc s d (nth d xs 0)).
Let yy (d : nat) : R := fst (loc s d (nth d xs 0)).

Lemma kd_line d i : kd d i = (lo ranges d - (INR p + half p) * sd d) + INR i * sd d.
Proof. unfold kd, kk. fold W. fold sd. ring. Qed.

Lemma line_bound d a : (d < n)%nat -> (a <= p)%nat ->
  sum (nth d W 0%nat) (fun j => Rabs (gam (kd d) (ky d) (nth d W 0%nat) (nbasis s d) (yy d) p a j)) <= (2 / sd d) ^ a.
Proof.
  intros Hd Ha. destruct (dim_facts nd p per dims ranges f g mats GI IP UP d Hd) as (Hs & HN & _). fold W sd in Hs, HN.
  destruct (point_facts on nd p per dims ranges f g mats GI Ef Wf Eg IP UP xs Lx d Hd) as (K1 & K2 & K3 & K4 & K5 & _). fold s kd in K1, K2, K5. fold (ky d) (yy d) in K1, K2, K5.
  eapply Rle_trans; [|apply (piece_total (kd d) (ky d) p (yy d) (sd d) _ K1 Hs (kd_line d) K5 a Ha)].
  set (N := nth d W 0%nat) in *. set (MM := nbasis s d) in *.
  apply Rle_trans with (sum MM (fun i => Rabs (dp (kd d) (ky d) a p i (yy d)))).
  - apply Rle_trans with (sum N (fun j => sum MM (fun i => if (i mod N =? j)%nat then Rabs (dp (kd d) (ky d) a p i (yy d)) else 0))).
    + apply sum_le. intros j Hj. unfold gam. eapply Rle_trans; [apply sum_Rabs|]. apply sum_le. intros i Hi. destruct (_ =? _)%nat; [lra|]. rewrite Rabs_R0. lra.
    + rewrite sum_swap. apply sum_le. intros i Hi. right.
      rewrite (sum_single N (i mod N) (fun j => if (i mod N =? j)%nat then Rabs (dp (kd d) (ky d) a p i (yy d)) else 0)).
      * rewrite Nat.eqb_refl. auto.
      * apply Nat.mod_upper_bound. lia.
      * intros j Hj Hne. destruct (Nat.eqb_spec (i mod N) j); auto; congruence.
  - replace MM with ((ky d + 1) + (MM - (ky d + 1)))%nat by lia. rewrite sum_app.
    rewrite (sum_0 (MM - (ky d + 1))) by (intros i Hi; rewrite dp_support by lia; apply Rabs_R0).
    replace (ky d + 2)%nat with ((ky d + 1) + 1)%nat by lia. rewrite (sum_app (ky d + 1) 1). cbn [sum]. pose proof (Rabs_pos (dp (kd d) (ky d) a p (ky d + 1 + 0) (yy d))). lra.
Qed.

Lemma line_rate d a (D : nat -> R -> R) M h : (d < n)%nat -> (a <= p)%nat -> sd d <= h ->
  (forall i t, (i < S p)%nat -> is_derive (D i) t (D (S i) t)) -> (forall t, Rabs (D (S p) t) <= M) ->
  (forall t, D 0%nat (t + period nd per dims ranges d) = D 0%nat t) ->
  Rabs (sum (nth d W 0%nat) (fun j => gam (kd d) (ky d) (nth d W 0%nat) (nbasis s d) (yy d) p a j *
      sum (qn p) (fun l => qw p l * D 0%nat (ps d j + (INR l - INR (p / 2)) * sd d))) - D a (nth d xs 0))
    <= (2 / sd d) ^ a * spread p * (M / INR (fact (p + 1)) * (INR (2 * p + 1) / 2 * h) ^ (p + 1)).
Proof.
  intros Hd Ha Hsh HD HM PD. destruct (dim_facts nd p per dims ranges f g mats GI IP UP d Hd) as (Hs & HN & _). fold W sd in Hs, HN.
  destruct (point_facts on nd p per dims ranges f g mats GI Ef Wf Eg IP UP xs Lx d Hd) as (K1 & K2 & K3 & K4 & K5 & (z & Ez)). fold s kd in K1, K2, K5, Ez. fold (ky d) (yy d) in K1, K2, K5, Ez.
  set (N := nth d W 0%nat) in *. set (MM := nbasis s d) in *. set (P := period nd per dims ranges d) in *.
  assert (HKp : forall q r, kd d (q + r) - kd d q = INR r * sd d) by (intros; rewrite !kd_line, plus_INR; ring).
  rewrite gam_sum by (auto; lia).
  rewrite <- (periods (D a) P) with (z := z) (t := nth d xs 0) by (apply (family_periodic D (S p) P); auto). rewrite <- Ez.
  set (c := lo ranges d - (INR p + half p) * sd d).
  assert (EV : forall i, sum (qn p) (fun l => qw p l * D 0%nat (ps d (i mod N) + (INR l - INR (p / 2)) * sd d)) =
     sum (qn p) (fun l => qw p l * D 0%nat (ps d i + (INR l - INR (p / 2)) * sd d))).
  { intros i. apply sum_ext. intros l Hl. f_equal. destruct (pos_mod nd p per dims ranges f g mats GI IP UP xs Lx d i Hd) as (z2 & E2). fold W in E2. fold N ps P in E2.
    rewrite <- E2. rewrite <- (periods (D 0%nat) P PD z2). f_equal. ring. }
  rewrite (sum_ext MM _ (fun i => dp (kd d) (ky d) a p i (yy d) * sum (qn p) (fun l => qw p l * D 0%nat (ps d i + (INR l - INR (p / 2)) * sd d)))) by (intros i Hi; rewrite EV; auto).
  replace MM with ((ky d - p) + ((p + 1) + (MM - (ky d + 1))))%nat by lia. rewrite sum_app, sum_app.
  rewrite (sum_0 (ky d - p)) by (intros i Hi; rewrite dp_support by lia; ring).
  rewrite (sum_0 (MM - (ky d + 1))) by (intros i Hi; rewrite dp_support by lia; ring). rewrite Rplus_0_l, Rplus_0_r.
  pose proof (rate_one (kd d) (ky d) p a (yy d) (sd d) c M ((2 / sd d) ^ a) D (fun e => dp (kd d) (ky d) a p (ky d - p + e) (yy d)) Hp Ha K1 Hs (kd_line d) K5 HD HM
    (piece_moments (kd d) (ky d) p a (yy d) (sd d) c K1 Ha Hs (kd_line d))) as RO.
  assert (HL : sum (p + 1) (fun e => Rabs (dp (kd d) (ky d) a p (ky d - p + e) (yy d))) <= (2 / sd d) ^ a).
  { eapply Rle_trans; [|apply (piece_total (kd d) (ky d) p (yy d) (sd d) _ K1 Hs (kd_line d) K5 a Ha)].
    replace (ky d + 2)%nat with ((ky d - p) + ((p + 1) + 1))%nat by lia. rewrite (sum_app (ky d - p)), (sum_app (p + 1) 1).
    assert (0 <= sum (ky d - p) (fun i => Rabs (dp (kd d) (ky d) a p i (yy d)))) by (apply sum_pos; intros; apply Rabs_pos).
    assert (0 <= sum 1 (fun i => Rabs (dp (kd d) (ky d) a p (ky d - p + (p + 1 + i)) (yy d)))) by (apply sum_pos; intros; apply Rabs_pos). lra. }
  specialize (RO HL).
  rewrite (sum_ext (p + 1) _ (fun e => dp (kd d) (ky d) a p (ky d - p + e) (yy d) * sum (qn p) (fun l => qw p l * D 0%nat (pt (ky d) p (sd d) c e l)))).
  - eapply Rle_trans; [exact RO|]. apply Rmult_le_compat_l.
    + apply Rmult_le_pos; [|pose proof (spread_ge p); lra]. apply pow_le. apply Rle_mult_inv_pos; lra.
    + apply Rmult_le_compat_l; [apply Rle_mult_inv_pos; [eapply Rle_trans; [apply Rabs_pos|apply (HM 0)]|apply INR_fact_lt_0]|].
      apply pow_incr. pose proof (pos_INR (2 * p + 1)). split; nra.
  - intros e He. f_equal. apply sum_ext. intros l Hl. do 2 f_equal. unfold pt, xi, ps.
    rewrite (pos_knot on nd p per dims ranges f g mats GI Eg IP xs Lx [] ltac:(intros; apply Nat.le_0_l)). fold kd sd. rewrite kd_line. fold c.
    rewrite (plus_INR p). simpl (INR 1). field.
Qed.

(** Derivatives of the spline with the control points [quasi]. *)
Definition guess (F : list R -> R) (idx : list nat) : R := quasi p hs F (map (fun d => ps d (nth d idx 0%nat)) (seq 0 n)).

Lemma guess_rate (a : list nat) (G : nat -> list R -> R) (L M : nat -> R) h : length a = n -> mesh_width nd per dims ranges h ->
  (forall d, (d < n)%nat -> (nth d a 0 <= p)%nat /\ (2 / sd d) ^ nth d a 0%nat <= L d /\ 1 <= L d) ->
  (forall d zs, (d < n)%nat -> length zs = n -> exists D : nat -> R -> R, (forall t, D 0%nat t = G (S d) (with_at zs d t)) /\
     (forall t, D (nth d a 0%nat) t = G d (with_at zs d t)) /\ (forall i t, (i < S p)%nat -> is_derive (D i) t (D (S i) t)) /\
     (forall t, Rabs (D (S p) t) <= M d) /\ forall t, D 0%nat (t + period nd per dims ranges d) = D 0%nat t) ->
  Rabs (tensor (dbas s xs a) (guess (G n)) - G 0%nat xs) <=
    spread p ^ n * prodn n L * sum n (fun d => spread p * (M d / INR (fact (p + 1)) * (INR (2 * p + 1) / 2 * h) ^ (p + 1))).
Proof.
  intros La MW HL HG. rewrite (dbas_theta on nd p per dims ranges f g mats GI Ef Wf Eg IP UP xs Lx a) by auto.
  set (bs := theta nd p per dims ranges g xs (fun _ => 0%nat) (fun e => nth e a 0%nat)).
  assert (LB : length bs = n) by apply theta_length.
  assert (NB : forall d, (d < n)%nat -> nth d bs (0%nat, fun _ => 0) =
    (nth d W 0%nat, gam (kd d) (ky d) (nth d W 0%nat) (nbasis s d) (yy d) p (nth d a 0%nat))).
  { intros d Hd. unfold bs. rewrite theta_nth by auto. rewrite Nat.sub_0_r. reflexivity. }
  assert (LH : length hs = n) by apply length_map_seq.
  unfold guess. rewrite <- LB. apply tensor_rate; rewrite ?LB; auto.
  - intros d Hd. destruct (HL d Hd) as (A1 & A2 & A3). split; [|split; auto].
    + destruct (HG d xs Hd Lx) as (D & _ & _ & _ & HM & _). assert (0 <= M d) by (eapply Rle_trans; [apply Rabs_pos|apply (HM 0)]).
      assert (0 <= h). { pose proof (st_le nd p per dims ranges f g mats GI IP UP xs Lx h MW d Hd). destruct (dim_facts nd p per dims ranges f g mats GI IP UP d Hd) as (Q & _). lra. }
      pose proof (spread_ge p). apply Rmult_le_pos; [lra|]. apply Rmult_le_pos; [apply Rle_mult_inv_pos; [auto|apply INR_fact_lt_0]|].
      apply pow_le. pose proof (pos_INR (2 * p + 1)). nra.
    + rewrite NB by auto. cbn [fst snd]. eapply Rle_trans; [apply line_bound; auto|auto].
  - intros d zs Hd Lz. destruct (HL d Hd) as (A1 & A2 & A3). destruct (HG d zs Hd Lz) as (D & D0 & Da & HD & HM & PD). rewrite NB by auto. cbn [fst snd].
    replace (nth d hs 0) with (sd d) by (unfold hs; rewrite nth_map_seq by auto; reflexivity).
    rewrite (sum_ext (nth d W 0%nat) _ (fun j => gam (kd d) (ky d) (nth d W 0%nat) (nbasis s d) (yy d) p (nth d a 0%nat) j *
      sum (qn p) (fun l => qw p l * D 0%nat (ps d j + (INR l - INR (p / 2)) * sd d)))).
    2: { intros j Hj. f_equal. apply sum_ext. intros l Hl. rewrite D0. reflexivity. }
    rewrite <- Da. eapply Rle_trans; [apply (line_rate d (nth d a 0%nat) D (M d) h); auto; apply (st_le nd p per dims ranges f g mats GI IP UP xs Lx h MW d Hd)|].
    assert (0 <= M d) by (eapply Rle_trans; [apply Rabs_pos|apply (HM 0)]).
    assert (0 <= h). { pose proof (st_le nd p per dims ranges f g mats GI IP UP xs Lx h MW d Hd). destruct (dim_facts nd p per dims ranges f g mats GI IP UP d Hd) as (Q & _). lra. }
    pose proof (spread_ge p). rewrite <- (Rmult_assoc (L d)). apply Rmult_le_compat_r; [apply Rmult_le_pos; [apply Rle_mult_inv_pos; [auto|apply INR_fact_lt_0]|]|].
    + apply pow_le. pose proof (pos_INR (2 * p + 1)). nra.
    + apply Rmult_le_compat_r; [lra|auto].
Qed.
End Point.

(** The control points near those of [quasi]; values and derivatives. *)
Variables (F : list R -> R) (M : nat -> R) (h : R).
Hypothesis SA : sampled nd per dims ranges F f.
Hypothesis PF : periodic_function nd per dims ranges F.
Hypothesis MW : mesh_width nd per dims ranges h.
Hypothesis SM : smooth_along n (S p) F M.
Definition err (d : nat) : R := M d / INR (fact (p + 1)) * (INR (2 * p + 1) / 2 * h) ^ (p + 1).

Lemma prodn_1 m : prodn m (fun _ => 1) = 1.
Proof. induction m as [|m IH]; cbn [prodn]; [auto|]. rewrite IH. ring. Qed.

Lemma value_rate xs : length xs = n -> Rabs (tensor (dbas s xs (repeat 0%nat (sp_dim s))) (guess F) - F xs) <= spread p ^ S n * sum n err.
Proof.
  intros Lx. pose proof (s_dim _ _ _ _ _ _ _ _ IP) as SD. fold s in SD. rewrite SD.
  eapply Rle_trans; [apply (guess_rate xs Lx (repeat 0%nat n) (fun _ => F) (fun _ => 1) M h); auto|].
  - apply repeat_length.
  - intros d Hd. rewrite nth_repeat. cbn [pow]. split; [lia|lra].
  - intros d zs Hd Lz. destruct (SM d zs Hd Lz) as (D & D0 & HD & HM). exists D. rewrite nth_repeat. split; auto. split; auto. split; auto. split; auto.
    intros t. rewrite !D0. apply PF; try (rewrite with_length; auto; fold n; lia).
    intros e He. rewrite !with_nth by (fold n in He |- *; lia). rewrite (all_per per ranges UP e He).
    destruct (Nat.eqb_spec e d) as [->|]; [exists 1%Z; ring|exists 0%Z; ring].
  - right. rewrite prodn_1. rewrite (sum_ext n _ (fun d => spread p * err d)) by (intros d Hd; unfold err; ring). rewrite sum_scal. cbn [pow]. ring.
Qed.

Lemma control_rate idx : valid W idx -> Rabs (ctrl_at Rops s idx - guess F idx) <= amplification p ^ n * (spread p ^ S n * sum n err).
Proof.
  intros V. apply (guess_control nd p per dims ranges f g mats GI IP F (spread p ^ S n * sum n err) (guess F)); auto.
  - intros xs Lx _. apply value_rate. auto.
  - unfold amplification. generalize p. clear. intros q. do 6 (destruct q as [|q]; [lra|]). lra.
  - intros d A Hd CG. apply (uniform_stable nd p per dims ranges d A); auto. lia.
Qed.

Lemma uniform_rate xs : length xs = n -> countable_point nd per dims ranges xs ->
  exists v, interp_eval Rops g xs = Ok v /\ Rabs (v - F xs) <= (1 + amplification p ^ n) * (spread p ^ S n * sum n err).
Proof.
  intros Lx C. apply (guess_stable on nd p per dims ranges f g mats GI Ef Wf Eg IP F (spread p ^ S n * sum n err) (guess F)); auto.
  - intros zs Lz _. apply value_rate. auto.
  - unfold amplification. generalize p. clear. intros q. do 6 (destruct q as [|q]; [lra|]). lra.
  - intros d A Hd CG. apply (uniform_stable nd p per dims ranges d A); auto. lia.
  - intros d Hd. left. apply (all_per per ranges UP). auto.
Qed.

(** ** Derivatives *)
Variables (a : list nat) (h0 : R) (G : nat -> list R -> R).
Hypothesis La : length a = n.
Hypothesis Ha : forall d, (d < n)%nat -> (nth d a 0 <= p)%nat.
Hypothesis H0 : 0 < h0.
Hypothesis MG : forall d, (d < n)%nat -> h0 <= sd d.
Hypothesis GF : forall zs, G n zs = F zs.
Hypothesis HG : forall d zs, (d < n)%nat -> length zs = n -> exists D : nat -> R -> R, (forall t, D 0%nat t = G (S d) (with_at zs d t)) /\
     (forall t, D (nth d a 0%nat) t = G d (with_at zs d t)) /\ (forall i t, (i < S p)%nat -> is_derive (D i) t (D (S i) t)) /\
     (forall t, Rabs (D (S p) t) <= M d) /\ forall t, D 0%nat (t + period nd per dims ranges d) = D 0%nat t.

Lemma prodn_pow b : forall l, prodn (length l) (fun d => b ^ nth d l 0%nat) = b ^ fold_right Nat.add 0%nat l.
Proof. induction l as [|x l IH]; [reflexivity|]. cbn [length]. rewrite prodn_S_l. cbn [nth fold_right]. rewrite IH, pow_add. reflexivity. Qed.

Lemma derivative_rate xs : length xs = n -> countable_point nd per dims ranges xs ->
  exists v, interp_derivative Rops on g xs a = Ok v /\
    Rabs (v - G 0%nat xs) <= (1 + amplification p ^ n) * (spread p ^ S n * (1 + 2 / h0) ^ fold_right Nat.add 0%nat a * sum n err).
Proof.
  intros Lx C. eexists. split; [apply (s_derivative nd p per dims ranges f g mats GI IP on xs a Lx La C)|]. fold s.
  assert (I0 : 0 < / h0) by (apply Rinv_0_lt_compat; auto). set (b := 1 + 2 / h0). assert (Hb : 1 <= b) by (unfold b, Rdiv; lra).
  set (L := fun d => b ^ nth d a 0%nat).
  assert (HL : forall d, (d < n)%nat -> (nth d a 0 <= p)%nat /\ (2 / sd d) ^ nth d a 0%nat <= L d /\ 1 <= L d).
  { intros d Hd. split; auto. split; [|apply pow_R1_Rle; auto]. unfold L. apply pow_incr.
    specialize (MG d Hd). assert (0 < sd d) by lra. assert (/ sd d <= / h0) by (apply Rinv_le_contravar; auto). assert (0 < / sd d) by (apply Rinv_0_lt_compat; auto).
    unfold b, Rdiv. split; lra. }
  assert (EP : prodn n L = b ^ fold_right Nat.add 0%nat a) by (unfold L; rewrite <- La; apply prodn_pow).
  assert (E0 : forall d, (d < n)%nat -> 0 <= err d).
  { intros d Hd. destruct (HG d xs Hd Lx) as (D & _ & _ & _ & HM & _). assert (0 <= M d) by (eapply Rle_trans; [apply Rabs_pos|apply (HM 0)]).
    assert (0 <= h). { pose proof (st_le nd p per dims ranges f g mats GI IP UP xs Lx h MW d Hd) as Q. fold sd in Q. specialize (MG d Hd). lra. }
    unfold err. apply Rmult_le_pos; [apply Rle_mult_inv_pos; [auto|apply INR_fact_lt_0]|]. apply pow_le. pose proof (pos_INR (2 * p + 1)). nra. }
  assert (ES : 0 <= sum n err) by (apply sum_pos; auto). pose proof (spread_ge p) as SG.
  assert (SP : 0 <= spread p ^ S n) by (apply pow_le; lra).
  pose proof (guess_rate xs Lx a G L M h La MW HL HG) as R1.
  rewrite (sum_ext n _ (fun d => spread p * err d)) in R1 by (intros d Hd; unfold err; ring). rewrite sum_scal in R1.
  assert (AP : 0 <= amplification p ^ n).
  { apply pow_le. unfold amplification. generalize p. clear. intros q. do 6 (destruct q as [|q]; [lra|]). lra. }
  assert (R2 : Rabs (tensor (dbas s xs a) (fun idx => ctrl_at Rops s idx - guess F idx)) <= prodn n L * (amplification p ^ n * (spread p ^ S n * sum n err))).
  { rewrite (dbas_theta on nd p per dims ranges f g mats GI Ef Wf Eg IP UP xs Lx a) by auto.
    replace (prodn n L) with (prodn (length (theta nd p per dims ranges g xs (fun _ => 0%nat) (fun e => nth e a 0%nat))) L) by (rewrite theta_length; reflexivity).
    apply tensor_bound.
    - rewrite theta_length. intros d Hd. rewrite theta_nth by auto. cbn [fst snd]. rewrite Nat.sub_0_r. destruct (HL d Hd) as (A1 & A2 & A3).
      eapply Rle_trans; [apply (line_bound xs Lx d (nth d a 0%nat)); auto|auto].
    - rewrite (theta_dims nd p per dims ranges g xs). intros idx V. apply control_rate. auto.
    - apply Rmult_le_pos; auto. apply Rmult_le_pos; auto.
    - intros d. unfold L. apply pow_le. lra. }
  replace (tensor (dbas s xs a) (ctrl_at Rops s) - G 0%nat xs) with
    (tensor (dbas s xs a) (fun idx => ctrl_at Rops s idx - guess F idx) + (tensor (dbas s xs a) (guess (G n)) - G 0%nat xs)).
  2: { replace (G n) with F by (apply functional_extensionality; intros; auto). rewrite <- tensor_minus. ring. }
  eapply Rle_trans; [apply Rabs_triang|]. rewrite EP in R1, R2. cbn [pow] in R1, R2 |- *. lra.
Qed.
End Top.
