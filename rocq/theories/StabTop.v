(** Errors of the data are amplified by a bounded factor. *)
From Coq Require Import List Arith Lia Bool ZArith Reals Lra.
From Coquelicot Require Import Coquelicot.
From Verif Require Import Base Num MeshM SplineM InterpM SpecMesh SpecBand SpecSpline SpecSplineObj SpecInterp SpecCurve SpecStab
  MeshProofs SumR DenseLU MulProofs SplineProofs TensorR BasisProofs BetaProofs SplineTop RoundTensor KnotProofs KnotShape CoefProofs SolverProofs SolveProofs
  BuildProofs WeightProofs InterpProofs InterpTop InterpFinal PerDom PerPD EvalProofs VecTop StabProofs.
Import ListNotations.
Open Scope R_scope.

Section Noise.
Variables (on nd : bool) (p : nat) (per : list bool) (dims : list nat) (ranges : list (xrange R)) (K : R).
Hypothesis GI : good_input nd p per dims ranges.
Hypothesis ST : forall d A, (d < length per)%nat ->
  col_good p (nth d per false) (nth d (ddims nd per dims) 0%nat) (gridx nd (nth d per false) (nth d dims 0%nat) (nth d ranges (Points []))) A ->
  stable (nth d (ddims nd per dims) 0%nat) A K.

Lemma noise f1 f2 g1 g2 eps :
  m_dims f1 = dims -> wf_mesh f1 -> m_dims f2 = dims -> wf_mesh f2 ->
  interp_make Rops on nd p per f1 ranges = Ok g1 -> interp_make Rops on nd p per f2 ranges = Ok g2 ->
  (forall idx, valid dims idx -> Rabs (val_at f1 idx - val_at f2 idx) <= eps) ->
  forall xs, length xs = length per -> countable_point nd per dims ranges xs -> in_grid nd per dims ranges xs ->
  exists u v, interp_eval Rops g1 xs = Ok u /\ interp_eval Rops g2 xs = Ok v /\ Rabs (u - v) <= K ^ length per * eps.
Proof.
  intros E1 W1 E2 W2 M1 M2 He xs Lx C Ig. pose proof (same_grid_refl nd per dims ranges) as SG.
  destruct (transfer nd p per dims ranges ranges GI GI SG on on f1 f2 g1 E1 W1 E2 W2 M1) as (mats & g2' & IP1 & M2' & IP2).
  rewrite M2 in M2'. injection M2' as <-.
  destruct (same_shape nd p per dims ranges ranges GI SG f1 g1 mats f2 g2 IP1 IP2) as (T1 & T2 & T3 & T4 & T5).
  set (W := ddims nd per dims) in *.
  assert (HC : forall idx, valid W idx -> Rabs (ctrl_at Rops (if_spline g1) idx - ctrl_at Rops (if_spline g2) idx) <= K ^ length per * eps).
  { replace (length per) with (length W) by apply ddims_length.
    apply (tensor_stable K W mats (fun idx => ctrl_at Rops (if_spline g1) idx - ctrl_at Rops (if_spline g2) idx)).
    - assert (LW : length W = length per) by apply ddims_length.
      pose proof (ip_mats _ _ _ _ _ _ _ _ IP1) as Lm.
      assert (PV : forall d, (d < length W)%nat -> stable (nth d W 0%nat) (mat_at mats d) K).
      { intros d Hd. rewrite LW in Hd. apply ST; auto. apply (ip_col _ _ _ _ _ _ _ _ IP1); auto. }
      unfold mat_at in PV. rewrite <- LW in Lm. revert Lm PV. clear. generalize mats. induction W as [|n l IH]; intros [|A m] Lm PV; simpl in *; try discriminate; constructor.
      + apply (PV 0%nat). lia.
      + apply IH; [lia|]. intros d Hd. apply (PV (S d)). lia.
    - intros idx V. destruct (rows_onto nd p per dims ranges GI idx V) as (idx' & V' & <-).
      rewrite <- tensor_minus. pose proof (ip_eqs _ _ _ _ _ _ _ _ IP1 idx' V') as Q1. pose proof (ip_eqs _ _ _ _ _ _ _ _ IP2 idx' V') as Q2. fold W in Q1, Q2. rewrite Q1, Q2. apply He.
      apply (valid_W_dims nd per dims (proj1 (proj2 GI))); auto. }
  exists (sval (if_spline g1) xs), (sval (if_spline g2) xs).
  split; [apply (s_eval nd p per dims ranges f1 g1 mats GI IP1); auto|].
  split; [apply (s_eval nd p per dims ranges f2 g2 mats GI IP2); auto|].
  pose proof (s_good nd p per dims ranges f1 g1 mats GI IP1) as G. pose proof (s_dim _ _ _ _ _ _ _ _ IP1) as SD.
  rewrite !sval_dbas. replace (sp_dim (if_spline g2)) with (sp_dim (if_spline g1)) by (unfold sp_dim; rewrite T2; auto).
  rewrite <- (dbas_shape (if_spline g1) (if_spline g2)) by auto. rewrite tensor_minus.
  apply Rabs_le. apply tensor_hull.
  - intros d Hd. unfold dbas in Hd |- *. rewrite length_map_seq in Hd. rewrite !nth_map_seq by auto. cbn [fst snd]. rewrite nth_repeat. cbn [Derive_n].
    destruct (loc_spec (if_spline g1) d (nth d xs 0) G Hd) as [Hw (H1 & H2 & H3 & H4)].
    pose proof (loc_in_segment (if_spline g1) d (nth d xs 0) G Hd (grid_in_range on nd p per dims ranges f1 g1 xs GI E1 W1 M1 Ig d ltac:(lia))).
    split. apply sum_bpoly; auto. intros i Hi. apply bpoly_nonneg; auto.
  - rewrite (dbas_dims nd p per dims ranges f1 g1 mats IP1). intros idx V. apply Rabs_le_between. apply HC. exact V.
Qed.
End Noise.

Lemma uniform_stable nd p per dims ranges d A :
  good_input nd p per dims ranges -> (p <= 6)%nat -> uniform_periodic per ranges -> (d < length per)%nat ->
  col_good p (nth d per false) (nth d (ddims nd per dims) 0%nat) (gridx nd (nth d per false) (nth d dims 0%nat) (nth d ranges (Points []))) A ->
  stable (nth d (ddims nd per dims) 0%nat) A (amplification p).
Proof.
  intros GI Hp UP Hd CG. destruct (UP d Hd) as (Ep & a & b & Er).
  pose proof (W_big nd p per dims ranges GI d Hd) as HW.
  destruct GI as (_ & _ & _ & GG). pose proof (GG d Hd) as GD. rewrite Ep, Er in GD.
  rewrite (ddims_nth nd per dims d Hd) in HW, CG |- *. rewrite Ep in HW, CG |- *. rewrite Er in CG. unfold gridx in CG.
  assert (Hab : a < b) by (destruct GD as (_ & _ & ?); auto).
  destruct (centre_values p Hp) as [CV <-].
  assert (EC : coords_num nd true (nth d dims 0%nat) = (distinct nd true (nth d dims 0%nat) + 1)%nat).
  { unfold coords_num, distinct in *. destruct nd; cbn [andb negb] in *; lia. }
  rewrite EC in CG. apply stable_weights; auto. intros r Hr.
  destruct (uniform_rows p _ a b A HW Hab CG r Hr) as (A1 & A2 & A3). split; auto. split; auto. lra.
Qed.

Lemma uniform_noise on nd p per dims ranges f1 f2 g1 g2 eps :
  good_input nd p per dims ranges -> (p <= 6)%nat -> uniform_periodic per ranges ->
  m_dims f1 = dims -> wf_mesh f1 -> m_dims f2 = dims -> wf_mesh f2 ->
  interp_make Rops on nd p per f1 ranges = Ok g1 -> interp_make Rops on nd p per f2 ranges = Ok g2 ->
  (forall idx, valid dims idx -> Rabs (val_at f1 idx - val_at f2 idx) <= eps) ->
  forall xs, length xs = length per -> countable_point nd per dims ranges xs ->
  exists u v, interp_eval Rops g1 xs = Ok u /\ interp_eval Rops g2 xs = Ok v /\ Rabs (u - v) <= amplification p ^ length per * eps.
Proof.
  intros GI Hp UP E1 W1 E2 W2 M1 M2 He xs Lx C.
  apply (noise on nd p per dims ranges (amplification p) GI) with (f1 := f1) (f2 := f2); auto.
  - intros d A Hd CG. apply (uniform_stable nd p per dims ranges d A); auto.
  - intros d Hd. left. apply UP; auto.
Qed.

Lemma uniform_bound on nd p per dims ranges f g B :
  good_input nd p per dims ranges -> (p <= 6)%nat -> uniform_periodic per ranges ->
  m_dims f = dims -> wf_mesh f -> interp_make Rops on nd p per f ranges = Ok g ->
  (forall idx, valid dims idx -> Rabs (val_at f idx) <= B) ->
  forall xs, length xs = length per -> countable_point nd per dims ranges xs ->
  exists u, interp_eval Rops g xs = Ok u /\ Rabs u <= amplification p ^ length per * B.
Proof.
  intros GI Hp UP E W M HB xs Lx C. set (z := mkMesh dims (repeat 0 (length (m_data f)))).
  assert (Wz : wf_mesh z) by (unfold wf_mesh, z; cbn; rewrite repeat_length, W, E; auto).
  destruct (transfer nd p per dims ranges ranges GI GI (same_grid_refl nd per dims ranges) on on f z g E W eq_refl Wz M) as (mats & g' & _ & M' & _).
  destruct (uniform_noise on nd p per dims ranges f z g g' B GI Hp UP E W eq_refl Wz M M') with (xs := xs) as (u & v & Hu & Hv & H); auto.
  - intros idx V. replace (val_at z idx) with 0 by (unfold val_at, z; cbn; symmetry; apply nth_repeat).
    rewrite Rminus_0_r. auto.
  - exists u. split; auto.
    destruct (constant_data on nd p per dims ranges z g' 0 GI eq_refl Wz) with (xs := xs) (orders := repeat 0%nat (length per)) as [Hz _]; auto.
    + intros v0 Hv0. apply repeat_spec in Hv0. auto.
    + apply repeat_length.
    + rewrite Hz in Hv. injection Hv as <-. rewrite Rminus_0_r in H. auto.
Qed.
