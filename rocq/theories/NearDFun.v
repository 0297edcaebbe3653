(** Derivatives in doubles and the function behind the data. *)
From Coq Require Import List Arith Lia Bool ZArith Reals Floats Lra.
From Verif Require Import Base Num MeshM SpecMesh MeshProofs SplineM InterpM FloatM SpecSpline SpecSplineObj SpecInterp SpecCurve SpecStab SpecApprox SpecSmooth SpecTame SpecRate SpecRound SpecRoundD SpecRoundInterp SpecNear SpecNearFun SpecNearDFun.
From Verif Require Import SumR DenseLU BuildProofs WeightProofs InterpProofs InterpTop InterpFinal PolyProofs VecTop StabProofs StabTop RoundTensor TensorR RoundProofs LinProofs TameTop RateTop RateFinal DualTop NearTop NearDeriv NearFun SpecInterp.
Import ListNotations.
Local Open Scope R_scope.
Local Notation float := PrimFloat.float.

(** ** Errors of the data in the derivatives of exact interpolation *)
Section Noise.
Context (on nd : bool) (p : nat) (per : list bool) (dims : list nat) (ranges : list (xrange R)) (K : R).
Hypothesis GI : good_input nd p per dims ranges.
Hypothesis ST : forall d A, (d < length per)%nat ->
  col_good p (nth d per false) (nth d (ddims nd per dims) 0%nat) (gridx nd (nth d per false) (nth d dims 0%nat) (nth d ranges (Points []))) A ->
  stable (nth d (ddims nd per dims) 0%nat) A K.

Lemma dnoise f1 f2 g1 g2 eps h0 orders : (1 <= p)%nat -> 0 < h0 ->
  (forall d k, (d < length per)%nat -> (p <= k)%nat -> (nth d per false = true \/ k < nth d (ddims nd per dims) 0)%nat -> h0 <= kf nd p per dims ranges d (k + 1)%nat - kf nd p per dims ranges d k) ->
  length orders = length per -> (forall d, (d < length per)%nat -> (nth d orders 0 <= p)%nat) ->
  m_dims f1 = dims -> wf_mesh f1 -> m_dims f2 = dims -> wf_mesh f2 ->
  interp_make Rops on nd p per f1 ranges = Ok g1 -> interp_make Rops on nd p per f2 ranges = Ok g2 ->
  (forall idx, valid dims idx -> Rabs (val_at f1 idx - val_at f2 idx) <= eps) ->
  forall xs, length xs = length per -> countable_point nd per dims ranges xs -> in_grid nd per dims ranges xs ->
  exists u v, interp_derivative Rops on g1 xs orders = Ok u /\ interp_derivative Rops on g2 xs orders = Ok v /\
    Rabs (u - v) <= (1 + 2 * INR p / h0) ^ fold_right Nat.add 0%nat orders * (K ^ length per * eps).
Proof using GI ST.
  intros P1 H0 HG Lo Ho E1 W1 E2 W2 M1 M2 He xs Lx C Ig. pose proof (same_grid_refl nd per dims ranges) as SG.
  destruct (transfer nd p per dims ranges ranges GI GI SG on on f1 f2 g1 E1 W1 E2 W2 M1) as (mats & g2' & IP1 & M2' & IP2).
  rewrite M2 in M2'. injection M2' as <-.
  destruct (same_shape nd p per dims ranges ranges GI SG f1 g1 mats f2 g2 IP1 IP2) as (T1 & T2 & T3 & T4 & T5).
  set (W := ddims nd per dims) in *.
  assert (HC : forall idx, valid W idx -> Rabs (ctrl_at Rops (if_spline g1) idx - ctrl_at Rops (if_spline g2) idx) <= K ^ length per * eps).
  { replace (length per) with (length W) by apply ddims_length.
    apply (tensor_stable K W mats (fun idx => ctrl_at Rops (if_spline g1) idx - ctrl_at Rops (if_spline g2) idx)).
    - assert (LW : length W = length per) by apply ddims_length.
      pose proof (ip_mats _ _ _ _ _ _ _ _ IP1) as Lm.
      assert (PV : forall d, (d < length W)%nat -> stable (nth d W 0%nat) (mat_at mats d) K).
      { intros d Hd. rewrite LW in Hd. apply ST; auto. apply (ip_col _ _ _ _ _ _ _ _ IP1); auto. }
      unfold mat_at in PV. rewrite <- LW in Lm. revert Lm PV. clear. generalize mats. induction W as [|n l IH]; intros [|A m] Lm PV; simpl in *; try discriminate; constructor.
      + apply (PV 0%nat). lia.
      + apply IH; [lia|]. intros d Hd. apply (PV (S d)). lia.
    - intros idx V. destruct (rows_onto nd p per dims ranges GI idx V) as (idx' & V' & <-).
      rewrite <- tensor_minus. pose proof (ip_eqs _ _ _ _ _ _ _ _ IP1 idx' V') as Q1. pose proof (ip_eqs _ _ _ _ _ _ _ _ IP2 idx' V') as Q2. fold W in Q1, Q2. rewrite Q1, Q2. apply He.
      apply (valid_W_dims nd per dims (proj1 (proj2 GI))); auto. }
  eexists. eexists. split; [apply (s_derivative nd p per dims ranges f1 g1 mats GI IP1 on); auto|].
  split; [apply (s_derivative nd p per dims ranges f2 g2 mats GI IP2 on); auto|].
  rewrite <- (dbas_shape (if_spline g1) (if_spline g2)) by auto. rewrite tensor_minus.
  apply (wts_bound on nd p per dims ranges f1 g1 mats GI E1 W1 M1 IP1 P1 h0 H0 HG xs Lx Ig orders Lo Ho); auto.
  destruct (row_major_surj W 0) as (idx & V & _).
  - apply prod_pos. apply Forall_forall. intros q Hq. apply (In_nth _ _ 0%nat) in Hq as (d & Hd & <-). unfold W in Hd |- *. rewrite ddims_length in Hd. pose proof (s_N nd p per dims ranges GI d Hd). lia.
  - eapply Rle_trans; [apply Rabs_pos|apply (HC idx V)].
Qed.
End Noise.

Lemma tame_dnoise on nd p per dims ranges f1 f2 g1 g2 eps h0 orders :
  good_input nd p per dims ranges -> (p = 2 \/ p = 3)%nat -> tame nd p per dims ranges ->
  0 < h0 -> mesh_gap nd per dims ranges h0 -> length orders = length per -> (forall d, (d < length per)%nat -> (nth d orders 0 <= p)%nat) ->
  m_dims f1 = dims -> wf_mesh f1 -> m_dims f2 = dims -> wf_mesh f2 ->
  interp_make Rops on nd p per f1 ranges = Ok g1 -> interp_make Rops on nd p per f2 ranges = Ok g2 ->
  (forall idx, valid dims idx -> Rabs (val_at f1 idx - val_at f2 idx) <= eps) ->
  forall xs, length xs = length per -> countable_point nd per dims ranges xs -> in_grid nd per dims ranges xs ->
  exists u v, interp_derivative Rops on g1 xs orders = Ok u /\ interp_derivative Rops on g2 xs orders = Ok v /\
    Rabs (u - v) <= (1 + 2 * INR p / h0) ^ order_sum orders * (tame_factor p ^ length per * eps).
Proof.
  intros GI P23 HT H0 MG Lo Ho E1 W1 E2 W2 M1 M2 He.
  apply (dnoise on nd p per dims ranges (tame_factor p) GI) with (f1 := f1) (f2 := f2); auto; try lia.
  - intros d A Hd CG. apply (tame_stable nd p per dims ranges d A); auto.
  - apply (plain_gap nd p per dims ranges h0 GI); auto; try lia. intros d Hd. specialize (HT d Hd). destruct (nth d per false); auto.
Qed.
Lemma uniform_dnoise on nd p per dims ranges f1 f2 g1 g2 eps h0 orders :
  good_input nd p per dims ranges -> (1 <= p <= 6)%nat -> uniform_periodic per ranges ->
  0 < h0 -> mesh_gap nd per dims ranges h0 -> length orders = length per -> (forall d, (d < length per)%nat -> (nth d orders 0 <= p)%nat) ->
  m_dims f1 = dims -> wf_mesh f1 -> m_dims f2 = dims -> wf_mesh f2 ->
  interp_make Rops on nd p per f1 ranges = Ok g1 -> interp_make Rops on nd p per f2 ranges = Ok g2 ->
  (forall idx, valid dims idx -> Rabs (val_at f1 idx - val_at f2 idx) <= eps) ->
  forall xs, length xs = length per -> countable_point nd per dims ranges xs ->
  exists u v, interp_derivative Rops on g1 xs orders = Ok u /\ interp_derivative Rops on g2 xs orders = Ok v /\
    Rabs (u - v) <= (1 + 2 * INR p / h0) ^ order_sum orders * (amplification p ^ length per * eps).
Proof.
  intros GI P6 HT H0 MG Lo Ho E1 W1 E2 W2 M1 M2 He xs Lx C.
  apply (dnoise on nd p per dims ranges (amplification p) GI) with (f1 := f1) (f2 := f2); auto; try lia.
  - intros d A Hd CG. apply (uniform_stable nd p per dims ranges d A); auto. lia.
  - apply (plain_gap nd p per dims ranges h0 GI); auto; try lia. intros d Hd. left. apply (HT d Hd).
  - intros d Hd. left. apply (HT d Hd).
Qed.

(** ** Doubles *)
Lemma dround_le L a b k C e q e' : L * (a * C + k * (b * C + e) + q) + e' = L * ((a + k * b) * C + k * e + q) + e'.
Proof. ring. Qed.

Lemma tame_dfun on nd p per dims ls t U G B f g ranges F eps h h0 M orders xs xs' : (p = 2 \/ p = 3)%nat ->
  computed on nd p per dims ls t U G (tame_factor p) B f g ranges -> tame nd p per dims ranges ->
  nearly_sampled nd per dims ranges (F (repeat 0%nat (length per))) f eps -> periodic_function nd per dims ranges (F (repeat 0%nat (length per))) ->
  mesh_width nd per dims ranges h -> 0 < h0 -> mesh_gap nd per dims ranges h0 -> derivative_family (length per) (p + 1) F ->
  (forall o xs, length o = length per -> length xs = length per -> (forall d, (d < length per)%nat -> (nth d o 0 <= p + 1)%nat) ->
    in_grid nd per dims ranges xs -> Rabs (F o xs) <= M) ->
  length orders = length per -> (forall d, (d < length per)%nat -> (nth d orders 0 <= p)%nat) ->
  let L := 1 + 2 * INR p / h0 in let m := order_sum orders in
  2 * tame_factor p ^ length per * (B + powerRZ 2 (-1031)) * L ^ m <= powerRZ 2 900 -> L ^ m <= powerRZ 2 900 ->
  reduced per ls g xs xs' -> countable_point nd per dims ranges (map double_val xs') ->
  exists v, interp_derivative Fops on g xs orders = Ok v /\ double_finite v /\
    Rabs (double_val v - F orders (map double_val xs')) <=
      (1 + tame_factor p ^ length per) * (L ^ m * (sum (p + 1) (fun i => (2 * INR p * h) ^ i / INR (fact i)) ^ length per *
          (INR (length per) * (M / INR (fact p) * (2 * INR p * h) ^ (p + 1))))) +
      L ^ m * (tame_factor p ^ length per * eps) + derivative_rounding p (length per) U G (tame_factor p) B L m.
Proof.
  intros P23 CP TM NS PF MW H0 MG DF BD Lo Ho L m B1 B2 RD CT.
  pose proof (cp_twin _ _ _ _ _ _ _ _ _ _ _ _ _ _ CP) as TW. pose proof (tw_input _ _ _ _ _ _ _ _ TW) as GI.
  pose proof (cp_dims _ _ _ _ _ _ _ _ _ _ _ _ _ _ CP) as Ed. pose proof (cp_mesh _ _ _ _ _ _ _ _ _ _ _ _ _ _ CP) as Wf.
  assert (SV : solvable p per ranges) by (intros d Hd; right; left; lia).
  destruct (make_ok on nd p per dims ranges (real_data f) GI SV Ed (real_wf f Wf)) as [gr EG].
  destruct (samples nd per dims ranges (F (repeat 0%nat (length per)))) as (fs & Es & Ws & Ss).
  destruct (make_ok on nd p per dims ranges fs GI SV Es Ws) as [gs ES].
  pose proof (reduced_in _ _ _ _ _ _ _ _ _ _ _ _ _ _ CP xs xs' RD) as IG.
  assert (Lx : length (map double_val xs') = length per) by (rewrite map_length; apply RD).
  pose proof (tame_control on nd p per dims ls t U G B f g ranges (real_data f) gr (cp_template _ _ _ _ _ _ _ _ _ _ _ _ _ _ CP) Ed Wf (cp_made _ _ _ _ _ _ _ _ _ _ _ _ _ _ CP) TW P23 TM EG
    (cp_data _ _ _ _ _ _ _ _ _ _ _ _ _ _ CP) (cp_finite _ _ _ _ _ _ _ _ _ _ _ _ _ _ CP) (cp_small _ _ _ _ _ _ _ _ _ _ _ _ _ _ CP)) as CB.
  destruct (tame_derivative on nd p per dims ls t U G (2 * tame_factor p ^ length per * (B + powerRZ 2 (-1031))) f g ranges (real_data f) gr h0 orders xs xs' (cp_template _ _ _ _ _ _ _ _ _ _ _ _ _ _ CP) Ed Wf (cp_made _ _ _ _ _ _ _ _ _ _ _ _ _ _ CP) TW P23 TM EG H0 MG Lo Ho
      (cp_bound _ _ _ _ _ _ _ _ _ _ _ _ _ _ CP (tame_pos p)) B1 B2) as (v & w & Ev & Fv & Ew & Hvw); auto.
  { intros a Ha. split; [apply CP; auto|auto]. }
  exists v. split; [auto|]. split; [auto|].
  destruct (tame_dnoise on nd p per dims ranges (real_data f) fs gr gs eps h0 orders GI P23 TM H0 MG Lo Ho Ed (real_wf f Wf) Es Ws EG ES (near_samples _ _ _ _ _ _ _ _ NS Ss) _ Lx CT IG) as (w' & u & Ew' & Eu & Hwu).
  rewrite Ew in Ew'. injection Ew' as <-.
  destruct (tame_rate on nd p per dims ranges F fs gs h h0 M orders GI P23 TM Es Ws ES Ss PF MW H0 MG DF BD Lo Ho _ Lx CT IG) as (u' & Eu' & Hu).
  rewrite Eu in Eu'. injection Eu' as <-. fold L in Hvw, Hwu, Hu. fold m in Hvw, Hwu. change (fold_right Nat.add 0%nat orders) with m in Hu. rewrite dround_le in Hvw.
  apply (three _ _ _ _ _ _ _ Hvw Hwu Hu).
Qed.

Lemma uniform_dfun on nd p per dims ls t U G B f g ranges F eps h h0 M orders xs xs' : (1 <= p <= 6)%nat ->
  computed on nd p per dims ls t U G (amplification p) B f g ranges -> uniform_periodic per ranges ->
  nearly_sampled nd per dims ranges (F (repeat 0%nat (length per))) f eps -> periodic_function nd per dims ranges (F (repeat 0%nat (length per))) ->
  mesh_width nd per dims ranges h -> 0 < h0 -> mesh_gap nd per dims ranges h0 -> derivative_family (length per) (p + 1) F ->
  (forall o xs, length o = length per -> length xs = length per -> (forall d, (d < length per)%nat -> (nth d o 0 <= p + 1)%nat) -> Rabs (F o xs) <= M) ->
  length orders = length per -> (forall d, (d < length per)%nat -> (nth d orders 0 <= p)%nat) ->
  let L := 1 + 2 * INR p / h0 in let m := order_sum orders in
  2 * amplification p ^ length per * (B + powerRZ 2 (-1031)) * L ^ m <= powerRZ 2 900 -> L ^ m <= powerRZ 2 900 ->
  reduced per ls g xs xs' -> countable_point nd per dims ranges (map double_val xs') ->
  exists v, interp_derivative Fops on g xs orders = Ok v /\ double_finite v /\
    Rabs (double_val v - F orders (map double_val xs')) <=
      (1 + amplification p ^ length per) * (spread p ^ (length per + 1) * (1 + 2 / h0) ^ m *
        (INR (length per) * (M / INR (fact (p + 1)) * (INR (2 * p + 1) / 2 * h) ^ (p + 1)))) +
      L ^ m * (amplification p ^ length per * eps) + derivative_rounding p (length per) U G (amplification p) B L m.
Proof.
  intros P6 CP TM NS PF MW H0 MG DF BD Lo Ho L m B1 B2 RD CT. assert (P6' : (p <= 6)%nat) by lia.
  pose proof (cp_twin _ _ _ _ _ _ _ _ _ _ _ _ _ _ CP) as TW. pose proof (tw_input _ _ _ _ _ _ _ _ TW) as GI.
  pose proof (cp_dims _ _ _ _ _ _ _ _ _ _ _ _ _ _ CP) as Ed. pose proof (cp_mesh _ _ _ _ _ _ _ _ _ _ _ _ _ _ CP) as Wf.
  assert (SV : solvable p per ranges) by (intros d Hd; right; right; apply TM; auto).
  destruct (make_ok on nd p per dims ranges (real_data f) GI SV Ed (real_wf f Wf)) as [gr EG].
  destruct (samples nd per dims ranges (F (repeat 0%nat (length per)))) as (fs & Es & Ws & Ss).
  destruct (make_ok on nd p per dims ranges fs GI SV Es Ws) as [gs ES].
  assert (Lx : length (map double_val xs') = length per) by (rewrite map_length; apply RD).
  pose proof (uniform_control on nd p per dims ls t U G B f g ranges (real_data f) gr (cp_template _ _ _ _ _ _ _ _ _ _ _ _ _ _ CP) Ed Wf (cp_made _ _ _ _ _ _ _ _ _ _ _ _ _ _ CP) TW P6' TM EG
    (cp_data _ _ _ _ _ _ _ _ _ _ _ _ _ _ CP) (cp_finite _ _ _ _ _ _ _ _ _ _ _ _ _ _ CP) (cp_small _ _ _ _ _ _ _ _ _ _ _ _ _ _ CP)) as CB.
  destruct (uniform_derivative on nd p per dims ls t U G (2 * amplification p ^ length per * (B + powerRZ 2 (-1031))) f g ranges (real_data f) gr h0 orders xs xs' (cp_template _ _ _ _ _ _ _ _ _ _ _ _ _ _ CP) Ed Wf (cp_made _ _ _ _ _ _ _ _ _ _ _ _ _ _ CP) TW P6 TM EG H0 MG Lo Ho
      (cp_bound _ _ _ _ _ _ _ _ _ _ _ _ _ _ CP (amp_pos p)) B1 B2) as (v & w & Ev & Fv & Ew & Hvw); auto.
  { intros a Ha. split; [apply CP; auto|auto]. }
  exists v. split; [auto|]. split; [auto|].
  destruct (uniform_dnoise on nd p per dims ranges (real_data f) fs gr gs eps h0 orders GI P6 TM H0 MG Lo Ho Ed (real_wf f Wf) Es Ws EG ES (near_samples _ _ _ _ _ _ _ _ NS Ss) _ Lx CT) as (w' & u & Ew' & Eu & Hwu).
  rewrite Ew in Ew'. injection Ew' as <-.
  destruct (uniform_dorder on nd p per dims ranges F fs gs h h0 M orders GI P6 TM Es Ws ES Ss PF MW H0 MG DF BD Lo Ho _ Lx CT) as (u' & Eu' & Hu).
  rewrite Eu in Eu'. injection Eu' as <-. fold L in Hvw, Hwu. fold m in Hvw, Hwu. change (fold_right Nat.add 0%nat orders) with m in Hu. rewrite dround_le in Hvw.
  apply (three _ _ _ _ _ _ _ Hvw Hwu Hu).
Qed.
