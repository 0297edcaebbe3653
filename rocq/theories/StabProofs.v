(** Bounds for the solutions of the linear systems by diagonal dominance. *)
From Coq Require Import List Arith Lia Bool ZArith Reals Lra.
From Verif Require Import Base Num MeshM SplineM InterpM SpecMesh SpecBand SpecSpline SpecSplineObj SpecInterp SpecStab
  MeshProofs SumR DenseLU MulProofs SplineProofs TensorR BasisProofs BetaProofs SplineTop RoundTensor KnotProofs KnotShape CoefProofs SolverProofs SolveProofs
  BuildProofs WeightProofs InterpProofs InterpTop InterpFinal PerDom PerPD.
Import ListNotations.
Open Scope R_scope.

(** ** One matrix *)
Definition stable (n : nat) (A : mat) (K : R) : Prop := forall y B,
  (forall i, (i < n)%nat -> Rabs (mv n A y i) <= B) -> forall i, (i < n)%nat -> Rabs (y i) <= K * B.

Lemma argmax (f : nat -> R) : forall n, (0 < n)%nat -> exists r, (r < n)%nat /\ forall i, (i < n)%nat -> f i <= f r.
Proof.
  induction n as [|n IH]; intros Hn; [lia|]. destruct n as [|n].
  - exists 0%nat. split; auto. intros i Hi. replace i with 0%nat by lia. lra.
  - destruct (IH ltac:(lia)) as (r & Hr & Hm). destruct (Rle_or_lt (f (S n)) (f r)).
    + exists r. split; [lia|]. intros i Hi. destruct (Nat.eq_dec i (S n)) as [->|]; auto. apply Hm. lia.
    + exists (S n). split; [lia|]. intros i Hi. destruct (Nat.eq_dec i (S n)) as [->|]; [lra|].
      specialize (Hm i ltac:(lia)). lra.
Qed.

(** Rows of weights with more than half of the weight on the diagonal. *)
Lemma stable_weights n A b : / 2 < b ->
  (forall r, (r < n)%nat -> (forall j, (j < n)%nat -> 0 <= A r j) /\ sum n (A r) = 1 /\ b <= A r r) ->
  stable n A (/ (2 * b - 1)).
Proof.
  intros Hb HA y B HB i Hi. destruct (argmax (fun j => Rabs (y j)) n ltac:(lia)) as (r & Hr & Hm).
  destruct (HA r Hr) as (Hn & H1 & Hd). specialize (HB r Hr).
  assert (E : mv n A y r = A r r * y r + sum n (fun j => if (j =? r)%nat then 0 else A r j * y j)).
  { unfold mv. transitivity (sum n (fun j => if (j =? r)%nat then A r j * y j else 0) + sum n (fun j => if (j =? r)%nat then 0 else A r j * y j)).
    - rewrite <- sum_plus. apply sum_ext. intros j Hj. destruct (j =? r)%nat; lra.
    - f_equal. rewrite (sum_single n r); auto; [rewrite Nat.eqb_refl; auto|]. intros j Hj Ne. destruct (Nat.eqb_spec j r); [lia|auto]. }
  assert (E1 : 1 = A r r + sum n (fun j => if (j =? r)%nat then 0 else A r j)).
  { rewrite <- H1. transitivity (sum n (fun j => if (j =? r)%nat then A r j else 0) + sum n (fun j => if (j =? r)%nat then 0 else A r j)).
    - rewrite <- sum_plus. apply sum_ext. intros j Hj. destruct (j =? r)%nat; lra.
    - f_equal. rewrite (sum_single n r); auto; [rewrite Nat.eqb_refl; auto|]. intros j Hj Ne. destruct (Nat.eqb_spec j r); [lia|auto]. }
  assert (O : Rabs (sum n (fun j => if (j =? r)%nat then 0 else A r j * y j)) <= (1 - A r r) * Rabs (y r)).
  { apply Rle_trans with (sum n (fun j => (if (j =? r)%nat then 0 else A r j) * Rabs (y r))).
    - eapply Rle_trans; [apply sum_Rabs|]. apply sum_le. intros j Hj. destruct (j =? r)%nat.
      + rewrite Rabs_R0. lra.
      + rewrite Rabs_mult, (Rabs_pos_eq (A r j)) by auto. apply Rmult_le_compat_l; auto.
    - rewrite sum_scal_r. right. f_equal. lra. }
  assert (L : (2 * b - 1) * Rabs (y r) <= B).
  { set (S := sum n (fun j => if (j =? r)%nat then 0 else A r j * y j)) in *.
    assert (A r r * Rabs (y r) <= Rabs (mv n A y r) + Rabs S).
    { rewrite <- (Rabs_pos_eq (A r r)) at 1 by lra. rewrite <- Rabs_mult.
      replace (A r r * y r) with (mv n A y r + - S) by (rewrite E; ring).
      eapply Rle_trans; [apply Rabs_triang|]. rewrite Rabs_Ropp. lra. }
    pose proof (Rabs_pos (y r)). nra. }
  apply Rle_trans with (Rabs (y r)); [apply Hm; auto|].
  apply (Rmult_le_reg_l (2 * b - 1)); [lra|]. rewrite <- Rmult_assoc, Rinv_r, Rmult_1_l by lra. exact L.
Qed.

(** ** Tensor products *)
Lemma tensor_stable K dims mats c B : Forall2 (fun n A => stable n A K) dims mats -> 
  (forall idx, valid dims idx -> Rabs (tensor (mrow dims mats idx) c) <= B) ->
  forall idx, valid dims idx -> Rabs (c idx) <= K ^ length dims * B.
Proof.
  intros H; revert c B; induction H as [|n A dims mats Hp HF IH]; intros c B Hc idx Hv.
  - inversion Hv; subst. cbn [length pow]. rewrite Rmult_1_l. apply (Hc []). constructor.
  - destruct idx as [|k idx]; [inversion Hv|]. apply valid_cons in Hv as [Hk Hv].
    cbn [length pow]. replace (K * K ^ length dims * B) with (K ^ length dims * (K * B)) by ring.
    apply (IH (fun idx => c (k :: idx)) (K * B)); auto. intros idx' Hv'.
    apply (Hp (fun k => tensor (mrow dims mats idx') (fun idx => c (k :: idx))) B); auto.
    intros i Hi. pose proof (Hc (i :: idx')) as H0. cbn [mrow tensor] in H0. rewrite Rsum_sum in H0. unfold mv. apply H0.
    apply valid_cons. auto.
Qed.

(** ** Equally spaced periodic points *)
Definition centre (p : nat) : R := ub (if Nat.even p then / 2 else 0) p (p - p / 2).

Lemma centre_values p : (p <= 6)%nat -> / 2 < centre p /\ / (2 * centre p - 1) = amplification p.
Proof.
  intros Hp. assert (C : centre p = match p with 0%nat | 1%nat => 1 | 2%nat => 3 / 4 | 3%nat => 2 / 3 | 4%nat => 115 / 192 | 5%nat => 11 / 20 | _ => 5887 / 11520 end).
  { do 7 (destruct p as [|p]; [unfold centre; cbn -[INR Rdiv Rinv]; rewrite ?INR_IZR_INZ; cbn -[Rdiv Rinv]; lra || field|]). lia. }
  rewrite C. do 7 (destruct p as [|p]; [split; [lra|unfold amplification; try field; lra]|]). lia.
Qed.

Lemma uniform_rows p N a b A : (p + 1 <= N)%nat -> a < b ->
  col_good p true N (grid_of (Uniform a b) (N + 1)) A ->
  forall r, (r < N)%nat -> (forall j, (j < N)%nat -> 0 <= A r j) /\ sum N (A r) = 1 /\ A r r = centre p.
Proof.
  intros Hp Hab HC r Hr. set (x := grid_of (Uniform a b) (N + 1)) in *.
  assert (Hx : increasing (N + 1) x) by (apply uniform_increasing; auto; lia).
  destruct (rowof_onto p N r Hp Hr) as (i & Hi & Er).
  destruct (HC i Hi) as (k & Hk & EA). apply row_seg in Hk; auto. subst k. rewrite Er in EA.
  set (K := knots_for p true N x) in *.
  pose proof (pk_len p N x) as LK. fold K in LK. pose proof (half_cases p) as HHC.
  pose proof (per_at p N x Hx Hp i ltac:(lia)) as PA.
  assert (KA : forall i, (i < N + 2 * p + 1 + (1 - p mod 2))%nat -> kn K i = per_knot p N (x N - x 0%nat) x i) by (intros; apply pk_at; auto).
  assert (HN : 0 < INR N) by (apply lt_0_INR; lia).
  set (hh := (b - a) / INR N).
  assert (Hh : hh <> 0). { unfold hh. apply Rgt_not_eq. apply Rdiv_lt_0_compat; lra. }
  set (th := if Nat.even p then / 2 else 0).
  set (c := a - (INR p + th) * hh).
  assert (EP : x N - x 0%nat = b - a).
  { unfold x, grid_of. replace (N + 1 - 1)%nat with N by lia. simpl (INR 0). field. lra. }
  split; [|split].
  - intros j Hj. rewrite EA by auto. apply sum_pos. intros e He. destruct (_ =? _)%nat; [|lra].
    apply (piece_nonneg (kn K) (N + 2 * p + 1 + (1 - p mod 2)) (i + p)); try lia.
    + intros u v Huv. rewrite !KA by lia. apply per_mono; auto; lia.
    + rewrite !KA by lia. apply per_step; auto.
    + rewrite !KA by lia. lra.
  - rewrite <- (row_unity p N x Hp Hx i (x i) Hi). fold K.
    rewrite (sum_ext N _ (fun j => sum (p + 1) (fun e => if ((i + e) mod N =? j)%nat then piece (kn K) (i + p) p (i + e) (x i) else 0))).
    + rewrite sum_swap. apply sum_ext. intros e He.
      rewrite (sum_single N ((i + e) mod N) (fun j => if ((i + e) mod N =? j)%nat then _ else 0)).
      * rewrite Nat.eqb_refl. reflexivity.
      * apply Nat.mod_upper_bound; lia.
      * intros j Hj Hne. destruct (Nat.eqb_spec ((i + e) mod N) j); auto; congruence.
    + intros j Hj. rewrite EA by auto. unfold Bmat. apply sum_ext. intros e He.
      replace (i + p - p + e)%nat with (i + e)%nat by lia. reflexivity.
  - rewrite EA by auto. unfold Bmat. rewrite (sum_single (p + 1) (p / 2)).
    + replace (i + p - p + p / 2)%nat with (i + p / 2)%nat by lia. unfold rowof in Er. rewrite Er, Nat.eqb_refl.
      rewrite (piece_ext (kn K) (fun i => c + INR i * hh)).
      * replace (x i) with (c + INR (i + p) * hh + th * hh).
        -- rewrite uniform_piece by (auto; lia). unfold centre. fold th. f_equal. lia.
        -- unfold x, grid_of, c. replace (N + 1 - 1)%nat with N by lia. fold hh. rewrite plus_INR. ring.
      * intros i' Hi'. rewrite KA by lia. rewrite EP. unfold x. rewrite per_uniform by auto. fold hh th. unfold c. ring.
    + lia.
    + intros e He Hne. destruct (Nat.eqb_spec ((i + p - p + e) mod N) r) as [E|]; auto.
      exfalso. apply Hne. rewrite <- Er in E. unfold rowof in E. replace (i + p - p + e)%nat with (i + e)%nat in E by lia.
      revert E. clear -He Hp HHC Hi. intros E.
      pose proof (Nat.div_mod (i + e) N ltac:(lia)). pose proof (Nat.div_mod (i + p / 2) N ltac:(lia)).
      assert ((i + e) / N <= 1)%nat by (apply Nat.lt_succ_r, Nat.div_lt_upper_bound; lia).
      assert ((i + p / 2) / N <= 1)%nat by (apply Nat.lt_succ_r, Nat.div_lt_upper_bound; lia).
      set (u := ((i + e) / N)%nat) in *. set (v := ((i + p / 2) / N)%nat) in *.
      destruct u as [|[|]]; destruct v as [|[|]]; lia.
Qed.
