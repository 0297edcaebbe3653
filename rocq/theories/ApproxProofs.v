(** Interpolation approximates the function behind the data. *)
From Coq Require Import List Arith Lia Bool ZArith Reals Lra FunctionalExtensionality.
From Coquelicot Require Import Coquelicot.
From Verif Require Import Base Num MeshM SpecMesh MeshProofs ProgM BandM LUM SplineM InterpM.
From Verif Require Import SumR DenseLU SpecBand BandProofs MulProofs LUProofs LUConv SpecSpline SpecSplineObj SplineProofs BasisProofs BetaProofs TensorR EvalProofs EvalR SplineTop SplineCalc SpecInterp KnotProofs KnotShape CoefProofs SolverProofs RoundProofs SolveProofs BuildProofs WeightProofs InterpProofs PerDom PerPD InterpTop InterpFinal PolyProofs SymBasis SymProofs SpecDims LinProofs RoundTensor
  SpecCurve VecTop MonoTop SpecStab StabProofs StabTop SpecApprox.
Import ListNotations.
Open Scope R_scope.

(** A mean over the support of the weights. *)
Lemma tensor_support bs c lo hi :
  (forall d, (d < length bs)%nat ->
     sum (fst (nth d bs (0%nat, fun _ => 0))) (snd (nth d bs (0%nat, fun _ => 0))) = 1 /\
     forall i, (i < fst (nth d bs (0%nat, fun _ => 0%R)))%nat -> 0 <= snd (nth d bs (0%nat, fun _ => 0)) i) ->
  (forall idx, valid (map fst bs) idx -> (forall d, (d < length bs)%nat -> snd (nth d bs (0%nat, fun _ => 0)) (nth d idx 0%nat) <> 0) -> lo <= c idx <= hi) ->
  lo <= tensor bs c <= hi.
Proof.
  revert c. induction bs as [|[n b] bs IH]; intros c Hb Hc.
  - cbn [tensor]. apply Hc; [constructor|]. intros d Hd. simpl in Hd. lia.
  - cbn [tensor]. rewrite Rsum_sum. destruct (Hb 0%nat ltac:(simpl; lia)) as [H1 H2]. cbn [nth fst snd] in H1, H2.
    assert (Q : forall i, (i < n)%nat -> b i * lo <= b i * tensor bs (fun idx => c (i :: idx)) <= b i * hi).
    { intros i Hi. destruct (Req_dec (b i) 0) as [->|Hn]; [lra|]. specialize (H2 i Hi).
      assert (lo <= tensor bs (fun idx => c (i :: idx)) <= hi); [|split; apply Rmult_le_compat_l; tauto].
      apply IH.
      - intros d Hd. apply (Hb (S d)). simpl. lia.
      - intros idx V Hs. apply Hc; [apply valid_cons; auto|]. intros [|d] Hd; [exact Hn|]. apply Hs. simpl in Hd. lia. }
    replace lo with (sum n (fun i => b i * lo)) by (rewrite sum_scal_r, H1; ring).
    replace hi with (sum n (fun i => b i * hi)) by (rewrite sum_scal_r, H1; ring).
    split; apply sum_le; intros i Hi; apply Q; auto.
Qed.

Lemma increasing_le m x i j : increasing m x -> (i <= j < m)%nat -> x i <= x j.
Proof. intros H Hi. destruct (Nat.eq_dec i j) as [->|]; [lra|]. left. apply H. lia. Qed.

Section Approx.
Variables (on nd : bool) (p : nat) (per : list bool) (dims : list nat) (ranges : list (xrange R)) (f : MeshM.mesh R)
  (g : interp R) (mats : list mat).
Hypothesis GI : good_input nd p per dims ranges.
Hypothesis Ef : m_dims f = dims.
Hypothesis Wf : wf_mesh f.
Hypothesis Eg : interp_make Rops on nd p per f ranges = Ok g.
Hypothesis IP : interpolant nd p per dims ranges f g mats.
Variables (F : list R -> R) (r w : R) (pos : nat -> nat -> R).
Hypothesis HF : periodic_function nd per dims ranges F.
Hypothesis HV : varies nd per dims ranges F r w.
(** Coefficient [j] of dimension [d] belongs to the place [pos d j]; basis
    functions vanish farther than [r] from their place. *)
Hypothesis Hpos : forall d j, (d < length per)%nat -> (j < nth d (ddims nd per dims) 0)%nat -> nth d per false = false ->
  coordinate nd per dims ranges d 0 <= pos d j <= coordinate nd per dims ranges d (nth d dims 0%nat - 1).
Hypothesis near : forall d j y, (d < length per)%nat -> (j < nth d (ddims nd per dims) 0)%nat ->
  (nth d per false = true \/ coordinate nd per dims ranges d 0 <= y <= coordinate nd per dims ranges d (nth d dims 0%nat - 1)) ->
  beta (if_spline g) d j y <> 0 ->
  if nth d per false then exists z : Z, Rabs (y - (pos d j + IZR z * period nd per dims ranges d)) <= r
  else Rabs (y - pos d j) <= r.
Let s := if_spline g.
Definition places (idx : list nat) : list R := map (fun d => pos d (nth d idx 0%nat)) (seq 0 (length per)).

Lemma choose_list (n : nat) (P : nat -> R -> Prop) : (forall d, (d < n)%nat -> exists v, P d v) ->
  exists l, length l = n /\ forall d, (d < n)%nat -> P d (nth d l 0).
Proof.
  induction n as [|n IH]; intros H.
  - exists []. split; auto. intros; lia.
  - destruct IH as (l & Ll & Hl); [intros; apply H; lia|]. destruct (H n ltac:(lia)) as (v & Hv).
    exists (l ++ [v]). split; [rewrite app_length; simpl; lia|]. intros d Hd.
    destruct (Nat.eq_dec d n) as [->|]; [rewrite app_nth2, Ll, Nat.sub_diag by lia; exact Hv|rewrite app_nth1 by lia; apply Hl; lia].
Qed.

Lemma mean_near xs : length xs = length per -> in_grid nd per dims ranges xs ->
  Rabs (tensor (dbas s xs (repeat 0%nat (sp_dim s))) (fun idx => F (places idx)) - F xs) <= w.
Proof.
  intros Lx Ig. pose proof (s_good nd p per dims ranges f g mats GI IP) as G. pose proof (s_dim _ _ _ _ _ _ _ _ IP) as SD. fold s in G, SD.
  assert (D : forall d, (d < length per)%nat -> nth d (dbas s xs (repeat 0%nat (sp_dim s))) (0%nat, fun _ => 0) =
     (num_of s d, fun j => beta s d j (nth d xs 0))).
  { intros d Hd. unfold dbas. rewrite nth_map_seq by lia. f_equal. apply functional_extensionality. intros j. rewrite nth_repeat. reflexivity. }
  assert (LD : length (dbas s xs (repeat 0%nat (sp_dim s))) = length per) by (unfold dbas; rewrite length_map_seq; auto).
  assert (Q : F xs - w <= tensor (dbas s xs (repeat 0%nat (sp_dim s))) (fun idx => F (places idx)) <= F xs + w); [|apply Rabs_le; lra].
  apply tensor_support.
  - intros d Hd. rewrite LD in Hd. rewrite D by auto. cbn [fst snd].
    destruct (loc_spec s d (nth d xs 0) G ltac:(lia)) as [Hw (H1 & H2 & H3 & H4)].
    pose proof (loc_in_segment s d (nth d xs 0) G ltac:(lia) (grid_in_range on nd p per dims ranges f g xs GI Ef Wf Eg Ig d ltac:(lia))).
    unfold beta. split; [apply sum_bpoly; auto; lia|]. intros i Hi. apply bpoly_nonneg; auto; lia.
  - rewrite (dbas_dims nd p per dims ranges f g mats IP). intros idx V Hs. rewrite LD in Hs.
    pose proof (valid_length _ _ V) as Li. rewrite ddims_length in Li. rewrite valid_nth in V by (rewrite ddims_length; auto). rewrite ddims_length in V.
    destruct (choose_list (length per) (fun d v => Rabs (nth d xs 0 - v) <= r /\
        if nth d per false then exists z : Z, v = pos d (nth d idx 0%nat) + IZR z * period nd per dims ranges d else v = pos d (nth d idx 0%nat))) as (ys & Ly & Hy).
    { intros d Hd. specialize (Hs d Hd). rewrite D in Hs by auto. cbn [snd] in Hs.
      pose proof (near d _ _ Hd (V d Hd) (Ig d Hd) Hs) as N. destruct (nth d per false).
      - destruct N as (z & N). eexists. split; [exact N|]. exists z. reflexivity.
      - eexists. split; [exact N|reflexivity]. }
    assert (EF : F ys = F (places idx)).
    { apply HF; auto; [unfold places; rewrite length_map_seq; auto|]. intros d Hd. destruct (Hy d Hd) as [_ Q]. unfold places. rewrite nth_map_seq by auto. exact Q. }
    assert (B : Rabs (F xs - F ys) <= w).
    { apply HV; auto; [|intros d Hd; apply (Hy d Hd)]. intros d Hd. destruct (nth d per false) eqn:Ep; [left; auto|right].
      destruct (Hy d Hd) as [_ Q]. rewrite Ep in Q. rewrite Q. apply Hpos; auto. }
    rewrite <- EF. apply Rabs_le_between in B. lra.
Qed.

End Approx.

(** If some spline of the grid is near the function, so is the interpolation
    of its values. *)
Section Stable.
Variables (on nd : bool) (p : nat) (per : list bool) (dims : list nat) (ranges : list (xrange R)) (f : MeshM.mesh R)
  (g : interp R) (mats : list mat).
Hypothesis GI : good_input nd p per dims ranges.
Hypothesis Ef : m_dims f = dims.
Hypothesis Wf : wf_mesh f.
Hypothesis Eg : interp_make Rops on nd p per f ranges = Ok g.
Hypothesis IP : interpolant nd p per dims ranges f g mats.
Variables (F : list R -> R) (w : R) (guess : list nat -> R).
Let s := if_spline g.
Hypothesis MN : forall xs, length xs = length per -> in_grid nd per dims ranges xs ->
  Rabs (tensor (dbas s xs (repeat 0%nat (sp_dim s))) guess - F xs) <= w.

Lemma guess_control K : 0 <= K ->
  (forall d A, (d < length per)%nat ->
    col_good p (nth d per false) (nth d (ddims nd per dims) 0%nat) (gridx nd (nth d per false) (nth d dims 0%nat) (nth d ranges (Points []))) A ->
    stable (nth d (ddims nd per dims) 0%nat) A K) ->
  sampled nd per dims ranges F f ->
  forall idx, valid (ddims nd per dims) idx -> Rabs (ctrl_at Rops s idx - guess idx) <= K ^ length per * w.
Proof.
  intros HK ST SA. set (W := ddims nd per dims). assert (LW : length W = length per) by apply ddims_length.
  pose proof (s_dim _ _ _ _ _ _ _ _ IP) as SD. fold s in SD.
  rewrite <- LW. apply (tensor_stable K W mats (fun idx => ctrl_at Rops s idx - guess idx)).
    - pose proof (ip_mats _ _ _ _ _ _ _ _ IP) as Lm.
      assert (PV : forall d, (d < length W)%nat -> stable (nth d W 0%nat) (mat_at mats d) K).
      { intros d Hd. rewrite LW in Hd. apply ST; auto. apply (ip_col _ _ _ _ _ _ _ _ IP); auto. }
      unfold mat_at in PV. rewrite <- LW in Lm. revert Lm PV. clear. generalize mats. induction W as [|n l IH]; intros [|A m] Lm PV; simpl in *; try discriminate; constructor.
      + apply (PV 0%nat). lia.
      + apply IH; [lia|]. intros d Hd. apply (PV (S d)). lia.
    - intros idx V. destruct (rows_onto nd p per dims ranges GI idx V) as (idx' & V' & <-).
      rewrite <- tensor_minus. pose proof (ip_eqs _ _ _ _ _ _ _ _ IP idx' V') as Q1. fold W in Q1. fold s in Q1. rewrite Q1.
      assert (V2 : valid dims idx') by (apply (valid_W_dims nd per dims (proj1 (proj2 GI))); auto).
      rewrite (SA idx' V2). rewrite Rabs_minus_sym. 
      pose proof (mrow_beta nd p per dims ranges f g mats GI IP guess idx' V') as Q2. fold W in Q2. rewrite Q2.
      assert (Lg : length (grid_point nd per dims ranges idx') = length per) by (unfold grid_point; rewrite length_map_seq; auto).
      pose proof (MN (grid_point nd per dims ranges idx') Lg) as M.
      replace (tensor (map (fun d => (num_of (if_spline g) d, fun j => beta (if_spline g) d j (xs_of nd per dims ranges d (nth d idx' 0%nat)))) (seq 0 (length per))) guess)
        with (tensor (dbas s (grid_point nd per dims ranges idx') (repeat 0%nat (sp_dim s))) guess).
      + apply M. intros d Hd. destruct (nth d per false) eqn:Ep; [left; auto|right]. unfold grid_point. rewrite nth_map_seq by auto.
        rewrite valid_nth in V2 by (rewrite (valid_length _ _ V2); auto). destruct GI as (_ & Ld & _). specialize (V2 d ltac:(lia)).
        pose proof (s_incr nd p per dims ranges GI d Hd) as Hx. rewrite Ep in Hx. rewrite ddims_nth in Hx by auto. rewrite Ep in Hx.
        change (xs_of nd per dims ranges d) with (coordinate nd per dims ranges d) in Hx. unfold distinct in Hx. cbn [andb] in Hx.
        split; apply increasing_le with (m := nth d dims 0%nat); auto; lia.
      + f_equal. unfold dbas. rewrite SD. apply map_ext_seq. intros d Hd. f_equal. apply functional_extensionality. intros j.
        unfold grid_point. rewrite nth_repeat, nth_map_seq by auto. reflexivity.
Qed.

Lemma guess_stable K xs : 0 <= K ->
  (forall d A, (d < length per)%nat ->
    col_good p (nth d per false) (nth d (ddims nd per dims) 0%nat) (gridx nd (nth d per false) (nth d dims 0%nat) (nth d ranges (Points []))) A ->
    stable (nth d (ddims nd per dims) 0%nat) A K) ->
  sampled nd per dims ranges F f ->
  length xs = length per -> countable_point nd per dims ranges xs -> in_grid nd per dims ranges xs ->
  exists v, interp_eval Rops g xs = Ok v /\ Rabs (v - F xs) <= (1 + K ^ length per) * w.
Proof.
  intros HK ST SA Lx C Ig. exists (sval s xs). split; [apply (s_eval nd p per dims ranges f g mats GI IP); auto|].
  pose proof (s_good nd p per dims ranges f g mats GI IP) as G.
  pose proof (s_dim _ _ _ _ _ _ _ _ IP) as SD. fold s in SD.
  pose proof (guess_control K HK ST SA) as HC.
  pose proof (MN xs Lx Ig) as M. rewrite sval_dbas.
  set (bs := dbas s xs (repeat 0%nat (sp_dim s))) in *.
  assert (T : Rabs (tensor bs (ctrl_at Rops s) - tensor bs guess) <= K ^ length per * w).
  { rewrite tensor_minus. apply Rabs_le. apply tensor_hull.
    - intros d Hd. unfold bs, dbas in Hd |- *. rewrite length_map_seq in Hd. rewrite !nth_map_seq by auto. cbn [fst snd]. rewrite nth_repeat. cbn [Derive_n].
      destruct (loc_spec s d (nth d xs 0) G Hd) as [Hw (H1 & H2 & H3 & H4)].
      pose proof (loc_in_segment s d (nth d xs 0) G Hd (grid_in_range on nd p per dims ranges f g xs GI Ef Wf Eg Ig d ltac:(lia))).
      split. apply sum_bpoly; auto. intros i Hi. apply bpoly_nonneg; auto.
    - unfold bs. rewrite (dbas_dims nd p per dims ranges f g mats IP). intros idx V. apply Rabs_le_between. apply HC. exact V. }
  replace (tensor bs (ctrl_at Rops s) - F xs) with
    ((tensor bs (ctrl_at Rops s) - tensor bs guess) + (tensor bs guess - F xs)) by ring.
  eapply Rle_trans; [apply Rabs_triang|]. lra.
Qed.
End Stable.

Lemma approx_stable on nd p per dims ranges f g mats : good_input nd p per dims ranges -> m_dims f = dims -> wf_mesh f ->
  interp_make Rops on nd p per f ranges = Ok g -> interpolant nd p per dims ranges f g mats -> forall F w pos,
  (forall xs, length xs = length per -> in_grid nd per dims ranges xs ->
    Rabs (tensor (dbas (if_spline g) xs (repeat 0%nat (sp_dim (if_spline g)))) (fun idx => F (places per pos idx)) - F xs) <= w) ->
  forall K xs, 0 <= K ->
  (forall d A, (d < length per)%nat ->
    col_good p (nth d per false) (nth d (ddims nd per dims) 0%nat) (gridx nd (nth d per false) (nth d dims 0%nat) (nth d ranges (Points []))) A ->
    stable (nth d (ddims nd per dims) 0%nat) A K) ->
  sampled nd per dims ranges F f ->
  length xs = length per -> countable_point nd per dims ranges xs -> in_grid nd per dims ranges xs ->
  exists v, interp_eval Rops g xs = Ok v /\ Rabs (v - F xs) <= (1 + K ^ length per) * w.
Proof.
  intros GI Ef Wf Eg IP F w pos MN. exact (guess_stable on nd p per dims ranges f g mats GI Ef Wf Eg IP F w (fun idx => F (places per pos idx)) MN).
Qed.
