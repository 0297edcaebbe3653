(** Monotone control points and data, values of order 1 between the data. *)
From Coq Require Import List Arith Lia Bool ZArith Reals Lra FunctionalExtensionality.
From Verif Require Import Base Num MeshM SplineM InterpM SpecMesh SpecBand SpecSpline SpecSplineObj SpecCalc SpecInterp SpecCurve SpecSmooth SpecMono
  MeshProofs SumR MulProofs SplineProofs TensorR BasisProofs EvalProofs EvalR BetaProofs SplineTop SplineCalc
  BuildProofs InterpProofs InterpTop PolyProofs LinProofs VecTop SmoothTop MonoProofs.
Import ListNotations.
Open Scope R_scope.

Lemma spline_mono_dec s d xs y :
  good_spline s -> (d < sp_dim s)%nat -> per_of s d = false -> strict_knots s d ->
  length xs = sp_dim s -> nth d xs 0 <= y ->
  (forall e, (e < sp_dim s)%nat -> e <> d -> in_range s e (nth e xs 0)) ->
  (sp_order s <= 1)%nat \/ (in_range s d (nth d xs 0) /\ in_range s d y) ->
  forall c, decreasing_along (m_dims (sp_ctrl s)) c d ->
  tensor (map (fun e => (num_of s e, fun j => beta s e j (nth e (with_at xs d y) 0))) (seq 0 (sp_dim s))) c <=
  tensor (map (fun e => (num_of s e, fun j => beta s e j (nth e xs 0))) (seq 0 (sp_dim s))) c.
Proof.
  intros G Hd Ep SK Lx Hxy Ho Hr c Hc.
  pose proof (spline_mono s d G Hd Ep SK xs y Lx Hxy Ho Hr (fun idx => -1 * c idx)) as M.
  rewrite !tensor_scal in M. assert (I : increasing_along (m_dims (sp_ctrl s)) (fun idx => -1 * c idx) d).
  { intros idx V H. specialize (Hc idx V H). lra. }
  specialize (M I). lra.
Qed.

Lemma spline_monotone s d xs y :
  good_spline s -> (d < sp_dim s)%nat -> per_of s d = false -> strict_knots s d ->
  length xs = sp_dim s -> nth d xs 0 <= y ->
  (forall e, (e < sp_dim s)%nat -> in_range s e (nth e xs 0)) -> in_range s d y ->
  exists u v, spline_eval_plain Rops s xs = Ok u /\ spline_eval_plain Rops s (with_at xs d y) = Ok v /\
    (increasing_along (m_dims (sp_ctrl s)) (ctrl_at Rops s) d -> u <= v) /\
    (decreasing_along (m_dims (sp_ctrl s)) (ctrl_at Rops s) d -> v <= u).
Proof.
  intros G Hd Ep SK Lx Hxy Hr Hy. exists (sval s xs), (sval s (with_at xs d y)).
  split; [apply eval_sval; auto|]. split; [apply eval_sval; auto; rewrite with_length; auto; lia|].
  split; intros H.
  - apply spline_mono; auto.
  - apply spline_mono_dec; auto.
Qed.

Section Linear.
Variables (on nd : bool) (per : list bool) (dims : list nat) (ranges : list (xrange R)) (f : mesh R) (g : interp R).
Hypothesis GI : good_input nd 1 per dims ranges.
Hypothesis Ef : m_dims f = dims.
Hypothesis Wf : wf_mesh f.
Hypothesis E : interp_make Rops on nd 1 per f ranges = Ok g.
Let s := if_spline g.

Lemma linear_value xs : length xs = length per -> countable_point nd per dims ranges xs ->
  interp_eval Rops g xs = Ok (tensor (map (fun e => (num_of s e, fun j => beta s e j (nth e xs 0))) (seq 0 (sp_dim s))) (val_at f)).
Proof.
  intros Lx C. destruct (interp_make_spec on nd 1 per dims ranges f GI Ef Wf) as (mats & _ & _ & HG & _). pose proof (HG g E) as IP.
  destruct (reproduce on nd 1 per dims ranges f g mats GI IP (val_at f)) with (xs := xs) (orders := repeat 0%nat (length per)) as [R _]; auto; [|apply repeat_length|].
  - apply (linear_at_data nd per dims ranges f g mats GI IP).
  - rewrite R. f_equal. unfold dbas. fold s. f_equal. apply map_ext_seq. intros e He. f_equal. apply functional_extensionality. intros j.
    rewrite nth_repeat. reflexivity.
Qed.

Lemma distinct_le p n : (distinct nd p n <= n)%nat.
Proof. unfold distinct. destruct (p && negb nd)%bool; lia. Qed.

Lemma ctrl_dims : m_dims (sp_ctrl s) = ddims nd per dims /\ sp_dim s = length per /\ good_spline s /\ sp_order s = 1%nat /\
  (forall d, per_of s d = nth d per false) /\ (forall d, (d < length per)%nat -> strict_knots s d).
Proof.
  destruct (interp_make_spec on nd 1 per dims ranges f GI Ef Wf) as (mats & _ & _ & HG & _). pose proof (HG g E) as IP.
  split; [apply (ip_ctrl _ _ _ _ _ _ _ _ IP)|]. split; [apply (s_dim _ _ _ _ _ _ _ _ IP)|].
  split; [apply (s_good nd 1 per dims ranges f g mats GI IP)|]. split; [apply (s_order _ _ _ _ _ _ _ _ IP)|].
  split; [apply (s_per_of _ _ _ _ _ _ _ _ IP)|].
  intros d Hd i Hi. unfold s in Hi. rewrite (s_order _ _ _ _ _ _ _ _ IP) in Hi. apply (s_strict nd 1 per dims ranges f g mats GI IP); auto.
Qed.

Lemma ctrl_valid idx : valid (ddims nd per dims) idx -> valid dims idx.
Proof.
  intros V. assert (Ld : length dims = length per) by (destruct GI as (_ & ? & _); auto).
  pose proof (valid_length _ _ V) as Li. rewrite ddims_length in Li.
  rewrite valid_nth in V by (rewrite ddims_length; auto). apply valid_nth; [lia|]. intros d Hd.
  rewrite ddims_length in V. specialize (V d ltac:(lia)). rewrite ddims_nth in V by lia.
  pose proof (distinct_le (nth d per false) (nth d dims 0%nat)). lia.
Qed.

Lemma linear_monotone d xs y : (d < length per)%nat -> nth d per false = false ->
  length xs = length per -> nth d xs 0 <= y ->
  countable_point nd per dims ranges xs -> countable_point nd per dims ranges (with_at xs d y) ->
  (forall e, (e < length per)%nat -> e <> d -> nth e per false = true \/
     coordinate nd per dims ranges e 0 <= nth e xs 0 <= coordinate nd per dims ranges e (nth e dims 0%nat - 1)) ->
  exists u v, interp_eval Rops g xs = Ok u /\ interp_eval Rops g (with_at xs d y) = Ok v /\
    (increasing_along dims (val_at f) d -> u <= v) /\ (decreasing_along dims (val_at f) d -> v <= u).
Proof.
  intros Hd Ep Lx Hxy C C' Hg. destruct ctrl_dims as (ED & SD & G & SO & SP & SK).
  eexists _, _. split; [apply linear_value; auto|]. split; [apply linear_value; auto; rewrite with_length; auto; lia|].
  assert (Hr : forall e, (e < sp_dim s)%nat -> e <> d -> in_range s e (nth e xs 0)).
  { intros e He Ne. rewrite SD in He.
    replace (nth e xs 0) with (nth e (with_at xs d (coordinate nd per dims ranges d 0)) 0)
      by (rewrite with_nth by lia; destruct (Nat.eqb_spec e d); [lia|auto]).
    apply (grid_in_range on nd 1 per dims ranges f g); auto. intros e' He'. rewrite with_nth by lia.
    destruct (Nat.eqb_spec e' d) as [->|]; [|apply Hg; auto]. right. split; [lra|].
    pose proof (s_incr nd 1 per dims ranges GI d Hd) as Hx. rewrite Ep in Hx. rewrite ddims_nth, Ep in Hx by auto.
    pose proof (s_N nd 1 per dims ranges GI d Hd) as HN. rewrite ddims_nth, Ep in HN by auto.
    unfold distinct in Hx, HN. cbn in Hx, HN. left. apply Hx. lia. }
  assert (Dd : nth d (ddims nd per dims) 0%nat = nth d dims 0%nat) by (rewrite ddims_nth, Ep by auto; reflexivity).
  split; intros H.
  - apply spline_mono; auto; try lia.
    + rewrite SP; auto.
    + rewrite ED. intros idx V Hi. rewrite Dd in Hi. apply H; auto. apply ctrl_valid; auto.
  - apply spline_mono_dec; auto; try lia.
    + rewrite SP; auto.
    + rewrite ED. intros idx V Hi. rewrite Dd in Hi. apply H; auto. apply ctrl_valid; auto.
Qed.

Lemma linear_between xs lo hi : length xs = length per -> countable_point nd per dims ranges xs -> in_grid nd per dims ranges xs ->
  (forall idx, valid dims idx -> lo <= val_at f idx <= hi) ->
  exists u, interp_eval Rops g xs = Ok u /\ lo <= u <= hi.
Proof.
  intros Lx C Ig Hf. destruct ctrl_dims as (ED & SD & G & SO & SP & SK).
  eexists. split; [apply linear_value; auto|]. apply tensor_hull.
  - intros d Hd. rewrite length_map_seq in Hd. rewrite !nth_map_seq by auto. cbn [fst snd].
    destruct (loc_spec s d (nth d xs 0) G Hd) as [Hw (H1 & H2 & H3 & H4)].
    pose proof (loc_in_segment s d (nth d xs 0) G Hd (grid_in_range on nd 1 per dims ranges f g xs GI Ef Wf E Ig d ltac:(lia))).
    unfold beta. split. apply sum_bpoly; auto. intros i Hi. apply bpoly_nonneg; auto.
  - intros idx Hv. apply Hf. apply ctrl_valid. rewrite <- ED. rewrite map_map in Hv. cbn [fst] in Hv.
    replace (m_dims (sp_ctrl s)) with (map (fun d => num_of s d) (seq 0 (sp_dim s))); auto.
    apply (nth_ext' _ _ 0%nat). rewrite length_map_seq. symmetry. apply (wf_dims _ (gs_wf _ G)).
    intros d Hd. rewrite length_map_seq in Hd. rewrite nth_map_seq by auto. reflexivity.
Qed.
End Linear.
