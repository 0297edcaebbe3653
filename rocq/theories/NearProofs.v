(** A spline that nearly satisfies the interpolation conditions is near the
    interpolation. *)
From Coq Require Import List Arith Lia Bool ZArith Reals Lra FunctionalExtensionality.
From Coquelicot Require Import Coquelicot.
From Verif Require Import Base Num MeshM SplineM InterpM SpecMesh SpecBand SpecSpline SpecSplineObj SpecInterp SpecCurve SpecStab
  MeshProofs SumR DenseLU MulProofs SplineProofs TensorR BasisProofs BetaProofs SplineTop RoundTensor KnotProofs KnotShape CoefProofs SolverProofs SolveProofs
  BuildProofs WeightProofs InterpProofs InterpTop InterpFinal PerDom PerPD EvalProofs EvalR AffineProofs PolyProofs VecTop StabProofs StabTop SpecInterp.
Import ListNotations.
Open Scope R_scope.

Section Near.
Variables (on nd : bool) (p : nat) (per : list bool) (dims : list nat) (ranges : list (xrange R)) (K : R) (f : mesh R) (g : interp R) (s0 : spline R).
Hypothesis GI : good_input nd p per dims ranges.
Hypothesis ST : forall d A, (d < length per)%nat ->
  col_good p (nth d per false) (nth d (ddims nd per dims) 0%nat) (gridx nd (nth d per false) (nth d dims 0%nat) (nth d ranges (Points []))) A ->
  stable (nth d (ddims nd per dims) 0%nat) A K.
Hypothesis Ef : m_dims f = dims.
Hypothesis Wf : wf_mesh f.
Hypothesis EG : interp_make Rops on nd p per f ranges = Ok g.
Hypothesis E1 : sp_order s0 = sp_order (if_spline g).
Hypothesis E2 : sp_per s0 = sp_per (if_spline g).
Hypothesis E3 : sp_knots s0 = sp_knots (if_spline g).
Hypothesis E4 : sp_range s0 = sp_range (if_spline g).
Hypothesis E5 : m_dims (sp_ctrl s0) = m_dims (sp_ctrl (if_spline g)).
Hypothesis Ws : wf_mesh (sp_ctrl s0).
Variable eps : R.
Hypothesis Hs : forall idx, valid (ddims nd per dims) idx -> exists w, spline_eval_plain Rops s0 (grid_point nd per dims ranges idx) = Ok w /\ Rabs (w - val_at f idx) <= eps.

Lemma stable_all mats : interpolant nd p per dims ranges f g mats -> Forall2 (fun n A => stable n A K) (ddims nd per dims) mats.
Proof using ST.
  intros IP. assert (LW : length (ddims nd per dims) = length per) by apply ddims_length.
  pose proof (ip_mats _ _ _ _ _ _ _ _ IP) as Lm.
  assert (PV : forall d, (d < length (ddims nd per dims))%nat -> stable (nth d (ddims nd per dims) 0%nat) (mat_at mats d) K).
  { intros d Hd. rewrite LW in Hd. apply ST; auto. apply (ip_col _ _ _ _ _ _ _ _ IP); auto. }
  unfold mat_at in PV. rewrite <- LW in Lm. revert Lm PV. generalize (ddims nd per dims) as W. clear. intros W. generalize mats. induction W as [|n l IH]; intros [|A m] Lm PV; simpl in *; try discriminate; constructor.
  - apply (PV 0%nat). lia.
  - apply IH; [lia|]. intros d Hd. apply (PV (S d)). lia.
Qed.

Lemma near_shape : good_spline s0 /\ sp_dim s0 = length per.
Proof using GI Ef Wf EG E1 E2 E3 E4 E5 Ws.
  destruct (interp_make_spec on nd p per dims ranges f GI Ef Wf) as (mats & _ & _ & HG & _). pose proof (HG g EG) as IP.
  split; [apply (good_spline_shape (if_spline g)); auto; apply (s_good nd p per dims ranges f g mats GI IP)|].
  rewrite <- (s_dim _ _ _ _ _ _ _ _ IP). unfold sp_dim. rewrite E2. auto.
Qed.

Lemma near_ctrl idx : valid (ddims nd per dims) idx -> Rabs (ctrl_at Rops s0 idx - ctrl_at Rops (if_spline g) idx) <= K ^ length per * eps.
Proof using All.
  destruct (interp_make_spec on nd p per dims ranges f GI Ef Wf) as (mats & _ & _ & HG & _). pose proof (HG g EG) as IP.
  destruct near_shape as [G0 SD0]. replace (length per) with (length (ddims nd per dims)) by apply ddims_length.
  apply (tensor_stable K (ddims nd per dims) mats (fun idx => ctrl_at Rops s0 idx - ctrl_at Rops (if_spline g) idx)); [apply stable_all; auto|]. clear idx.
  intros idx V. destruct (rows_onto nd p per dims ranges GI idx V) as (idx' & V' & <-).
  rewrite <- tensor_minus. rewrite (ip_eqs _ _ _ _ _ _ _ _ IP idx' V').
  rewrite (mrow_beta nd p per dims ranges f g mats GI IP _ idx' V').
  assert (Lg : length (grid_point nd per dims ranges idx') = length per) by (unfold grid_point; rewrite map_length, seq_length; auto).
  destruct (Hs idx' V') as (w & Hw & Hd). rewrite eval_sval in Hw by (auto; lia). injection Hw as <-.
  match goal with |- Rabs (?a - _) <= _ => replace a with (sval s0 (grid_point nd per dims ranges idx')); [exact Hd|] end.
  unfold sval. rewrite SD0. f_equal. apply map_ext_seq. intros d Hd'.
  unfold grid_point. rewrite map_seq_nth by auto. f_equal.
  - unfold num_of. rewrite E5. reflexivity.
  - apply functional_extensionality. intros j. unfold beta, bpoly, loc, nbasis, widx, knot_of, per_of, num_of. rewrite E1, E2, E3, E4, E5. reflexivity.
Qed.

Lemma near_value xs : length xs = length per -> countable_point nd per dims ranges xs -> in_grid nd per dims ranges xs ->
  exists v, interp_eval Rops g xs = Ok v /\ Rabs (sval s0 xs - v) <= K ^ length per * eps.
Proof using All.
  intros Lx C Ig.
  destruct (interp_make_spec on nd p per dims ranges f GI Ef Wf) as (mats & _ & _ & HG & _). pose proof (HG g EG) as IP.
  exists (sval (if_spline g) xs). split; [apply (s_eval nd p per dims ranges f g mats GI IP); auto|].
  pose proof (s_good nd p per dims ranges f g mats GI IP) as G. pose proof (s_dim _ _ _ _ _ _ _ _ IP) as SD. destruct near_shape as [G0 SD0].
  rewrite !sval_dbas. replace (sp_dim s0) with (sp_dim (if_spline g)) by lia.
  rewrite <- (dbas_shape (if_spline g) s0) by auto. rewrite tensor_minus.
  apply Rabs_le. apply tensor_hull.
  - intros d Hd. unfold dbas in Hd |- *. rewrite length_map_seq in Hd. rewrite !nth_map_seq by auto. cbn [fst snd]. rewrite nth_repeat. cbn [Derive_n].
    destruct (loc_spec (if_spline g) d (nth d xs 0) G Hd) as [Hw (H1 & H2 & H3 & H4)].
    pose proof (loc_in_segment (if_spline g) d (nth d xs 0) G Hd (grid_in_range on nd p per dims ranges f g xs GI Ef Wf EG Ig d ltac:(lia))).
    split. apply sum_bpoly; auto. intros i Hi. apply bpoly_nonneg; auto.
  - rewrite (dbas_dims nd p per dims ranges f g mats IP). intros idx V. apply Rabs_le_between. apply near_ctrl. exact V.
Qed.

Lemma exact_ctrl B : (forall idx, valid (ddims nd per dims) idx -> Rabs (val_at f idx) <= B) ->
  forall idx, valid (ddims nd per dims) idx -> Rabs (ctrl_at Rops (if_spline g) idx) <= K ^ length per * B.
Proof using GI ST Ef Wf EG.
  intros HB. destruct (interp_make_spec on nd p per dims ranges f GI Ef Wf) as (mats & _ & _ & HG & _). pose proof (HG g EG) as IP.
  replace (length per) with (length (ddims nd per dims)) by apply ddims_length.
  apply (tensor_stable K (ddims nd per dims) mats (ctrl_at Rops (if_spline g))); [apply stable_all; auto|].
  intros idx V. destruct (rows_onto nd p per dims ranges GI idx V) as (idx' & V' & <-).
  rewrite (ip_eqs _ _ _ _ _ _ _ _ IP idx' V'). auto.
Qed.
End Near.
