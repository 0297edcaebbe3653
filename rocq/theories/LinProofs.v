(** Order 1 is multilinear interpolation. *)
From Coq Require Import List Arith Lia Bool ZArith Reals Lra FunctionalExtensionality.
From Coquelicot Require Import Coquelicot.
From Verif Require Import Base Num MeshM SpecMesh MeshProofs ProgM BandM LUM SplineM InterpM.
From Verif Require Import SumR DenseLU SpecBand BandProofs MulProofs LUProofs LUConv SpecSpline SpecSplineObj SplineProofs BasisProofs BetaProofs TensorR EvalR SplineTop SplineCalc SpecInterp KnotProofs KnotShape CoefProofs SolverProofs RoundProofs SolveProofs BuildProofs WeightProofs InterpProofs PerDom InterpTop InterpFinal PolyProofs SymBasis SymProofs SpecDims.
Import ListNotations.
Open Scope R_scope.

Lemma piece_1_lo t k y : t k < t (k + 1)%nat -> (1 <= k)%nat ->
  piece t k 1 (k - 1) y = 1 - (y - t k) / (t (k + 1)%nat - t k).
Proof.
  intros H Hk. rewrite piece_S. unfold piece; cbn [cox].
  destruct (Nat.eqb_spec (k - 1) k); [lia|]. replace (k - 1 + 1)%nat with k by lia. rewrite Nat.eqb_refl.
  replace (k - 1 + 1 + 1)%nat with (k + 1)%nat by lia. rewrite Rmult_0_r, Rplus_0_l, Rmult_1_r. unfold frac. destruct (Req_EM_T _ _); [lra|]. field. lra.
Qed.
Lemma piece_1_hi t k y : t k < t (k + 1)%nat -> piece t k 1 k y = (y - t k) / (t (k + 1)%nat - t k).
Proof.
  intros H. rewrite piece_S. unfold piece; cbn [cox]. rewrite Nat.eqb_refl. destruct (Nat.eqb_spec (k + 1) k); [lia|].
  unfold frac. destruct (Req_EM_T (t (k + 1)%nat - t k) 0); [lra|]. ring.
Qed.

Lemma sum_two n (i j : nat) a b F : (i < n)%nat -> (j < n)%nat ->
  sum n (fun k => ((if (i =? k)%nat then a else 0) + (if (j =? k)%nat then b else 0)) * F k) = a * F i + b * F j.
Proof.
  intros Hi Hj.
  transitivity (sum n (fun k => (if (i =? k)%nat then a else 0) * F k) + sum n (fun k => (if (j =? k)%nat then b else 0) * F k)).
  { rewrite <- sum_plus. apply sum_ext. intros; ring. }
  f_equal.
  - rewrite (sum_single n i); auto; [rewrite Nat.eqb_refl; auto|]. intros k _ Hk. destruct (Nat.eqb_spec i k); [lia|]. ring.
  - rewrite (sum_single n j); auto; [rewrite Nat.eqb_refl; auto|]. intros k _ Hk. destruct (Nat.eqb_spec j k); [lia|]. ring.
Qed.

Section Linear.
Variables (on nd : bool) (per : list bool) (dims : list nat) (ranges : list (xrange R)) (f : MeshM.mesh R)
  (g : interp R) (mats : list mat).
Hypothesis GI : good_input nd 1 per dims ranges.
Hypothesis IP : interpolant nd 1 per dims ranges f g mats.
Let W := ddims nd per dims.
Let s := if_spline g.

Lemma ap_1 N x i : increasing N x -> (2 <= N)%nat -> (i < N)%nat -> ap_knot 1 N x (i + 1) = x i.
Proof.
  intros Hx HN Hi. unfold ap_knot. destruct (Nat.leb_spec (i + 1) 1); [f_equal; lia|]. destruct (Nat.ltb_spec (i + 1) N).
  - cbn [Nat.eqb]. unfold mean. simpl. replace (i + 1 - 1 + 0)%nat with i by lia. field.
  - f_equal. lia.
Qed.

Lemma beta_linear d i y y' : (d < length per)%nat -> in_cell nd per dims ranges d i y y' ->
  let '(a, b, w) := cell nd per dims ranges d i y' in
  (a < nth d W 0)%nat /\ (b < nth d W 0)%nat /\
  forall j, (j < nth d W 0)%nat -> beta s d j y = (if (a =? j)%nat then 1 - w else 0) + (if (b =? j)%nat then w else 0).
Proof.
  intros Hd HI. unfold in_cell in HI. unfold cell. rewrite <- ddims_nth in HI |- * by auto. fold W in HI. fold W.
  change (coordinate nd per dims ranges d) with (xs_of nd per dims ranges d) in *. set (x := xs_of nd per dims ranges d) in *. set (N := nth d W 0%nat) in *.
  pose proof (s_N nd 1 per dims ranges GI d Hd) as HN. fold W in HN. fold N in HN.
  pose proof (s_incr nd 1 per dims ranges GI d Hd) as Hx. fold W in Hx. fold N in Hx. fold x in Hx.
  destruct (nth d per false) eqn:E.
  - destruct HI as (Hi & (z & Hz) & Hy). split; auto. split; [apply Nat.mod_upper_bound; lia|]. intros j Hj.
    pose proof (beta_per nd 1 per dims ranges f g mats GI IP ltac:(lia) d Hd j y (i + 1) z E ltac:(lia)) as B.
    fold W in B. fold N in B. fold x in B. fold s in B. rewrite <- Hz in B.
    assert (K1 : forall m, (m <= N)%nat -> per_knot 1 N (x N - x 0%nat) x (m + 1) = x m) by (intros; apply per_at_odd; auto).
    rewrite !K1 in B by lia. rewrite B by auto. unfold wbas. cbn [sum Nat.add].
    replace (i + 1 - 1 + 0)%nat with i by lia. replace (i + 1 - 1 + 1)%nat with (i + 1)%nat by lia. rewrite (Nat.mod_small i N) by auto.
    assert (LT : x i < x (i + 1)%nat) by (apply Hx; lia).
    replace i with (i + 1 - 1)%nat at 3 by lia.
    rewrite piece_1_lo, piece_1_hi by (rewrite ?K1 by lia; auto; lia). rewrite !K1 by lia. rewrite Rplus_0_l. reflexivity.
  - destruct HI as (Hi & -> & H1 & H2). split; [lia|]. split; auto. intros j Hj.
    pose proof (beta_ap nd 1 per dims ranges f g mats GI IP ltac:(lia) d Hd j y (i + 1) E) as B.
    fold W in B. fold N in B. fold x in B. fold s in B.
    assert (K1 : forall m, (m < N)%nat -> ap_knot 1 N x (m + 1) = x m) by (intros; apply ap_1; auto; lia).
    rewrite !K1 in B by lia. rewrite B; auto; try lia; try (destruct H1; [left; lia|auto]); try (destruct H2; [left; lia|auto]).
    assert (LT : x i < x (i + 1)%nat) by (apply Hx; lia).
    destruct (Nat.eqb_spec i j) as [->|Ni].
    + destruct (Nat.eqb_spec (j + 1) j); [lia|]. rewrite Rplus_0_r. replace j with (j + 1 - 1)%nat at 2 by lia.
      rewrite piece_1_lo by (rewrite ?K1 by lia; auto; lia). rewrite !K1 by lia. reflexivity.
    + destruct (Nat.eqb_spec (i + 1) j) as [<-|Nj].
      * rewrite piece_1_hi by (rewrite ?K1 by lia; auto). rewrite !K1 by lia. ring.
      * rewrite piece_support by lia. ring.
Qed.

Lemma tensor_linear l : forall xs is ys c,
  (forall k, (k < length l)%nat -> (nth k l 0%nat < length per)%nat /\ in_cell nd per dims ranges (nth k l 0%nat) (nth k is 0%nat) (nth k xs 0) (nth k ys 0)) ->
  length xs = length l -> length is = length l -> length ys = length l ->
  tensor (map2 (fun d y => (num_of s d, fun j => beta s d j y)) l xs) c =
  multilinear (map2 (fun d iy => cell nd per dims ranges d (fst iy) (snd iy)) l (combine is ys)) c.
Proof.
  induction l as [|d l IH]; intros [|x xs] [|i is] [|y ys] c H L1 L2 L3; try discriminate; [reflexivity|].
  cbn [map2 combine tensor multilinear fst snd].
  destruct (H 0%nat ltac:(simpl; lia)) as [Hd HC]. cbn [nth] in Hd, HC. pose proof (beta_linear d i x y Hd HC) as B.
  destruct (cell nd per dims ranges d i y) as [[a b] w]. destruct B as (Ha & Hb & B).
  rewrite Rsum_sum. assert (EN : num_of s d = nth d W 0%nat) by apply (s_num _ _ _ _ _ _ _ _ IP). rewrite EN.
  assert (H' : forall k, (k < length l)%nat -> (nth k l 0%nat < length per)%nat /\ in_cell nd per dims ranges (nth k l 0%nat) (nth k is 0%nat) (nth k xs 0) (nth k ys 0))
    by (intros k Hk; apply (H (S k)); simpl; lia).
  transitivity (sum (nth d W 0%nat) (fun k => ((if (a =? k)%nat then 1 - w else 0) + (if (b =? k)%nat then w else 0)) *
     multilinear (map2 (fun d iy => cell nd per dims ranges d (fst iy) (snd iy)) l (combine is ys)) (fun idx => c (k :: idx)))).
  - apply sum_ext. intros k Hk. rewrite B by auto. f_equal. apply IH; auto.
  - rewrite (sum_two (nth d W 0%nat) a b (1 - w) w (fun k => multilinear (map2 (fun d iy => cell nd per dims ranges d (fst iy) (snd iy)) l (combine is ys)) (fun idx => c (k :: idx)))) by auto. reflexivity.
Qed.
End Linear.

Lemma linear_basis nd per dims ranges f g mats :
  good_input nd 1 per dims ranges -> interpolant nd 1 per dims ranges f g mats ->
  forall xs is ys c, (forall d, (d < length per)%nat -> in_cell nd per dims ranges d (nth d is 0%nat) (nth d xs 0) (nth d ys 0)) ->
    tensor (dbas (if_spline g) xs (repeat 0%nat (length per))) c =
    multilinear (map (fun d => cell nd per dims ranges d (nth d is 0%nat) (nth d ys 0)) (seq 0 (length per))) c.
Proof.
  intros GI IP. pose proof (s_dim _ _ _ _ _ _ _ _ IP) as SD.
  intros xs0 is0 ys0 c H. pose proof (tensor_linear nd per dims ranges f g mats GI IP (seq 0 (length per))
      (map (fun d => nth d xs0 0) (seq 0 (length per))) (map (fun d => nth d is0 0%nat) (seq 0 (length per))) (map (fun d => nth d ys0 0) (seq 0 (length per))) c) as T.
    rewrite seq_length in T.
    replace (dbas (if_spline g) xs0 (repeat 0%nat (length per))) with
      (map2 (fun d y => (num_of (if_spline g) d, fun j => beta (if_spline g) d j y)) (seq 0 (length per)) (map (fun d => nth d xs0 0) (seq 0 (length per)))).
    - etransitivity; [apply T; try (rewrite map_length, seq_length; auto; fail)|].
      + intros k Hk. rewrite !map_seq_nth by auto. rewrite seq_nth by auto. split; [auto|]. apply H. auto.
      + f_equal. generalize (seq 0 (length per)) as l. induction l as [|d l IH]; [reflexivity|]. cbn [map combine map2 fst snd]. rewrite IH. reflexivity.
    - unfold dbas. rewrite SD. generalize (seq 0 (length per)) as l. induction l as [|d l IH]; [reflexivity|]. cbn [map map2]. rewrite IH. f_equal. f_equal.
      apply functional_extensionality. intros j. rewrite nth_repeat. reflexivity. 
Qed.

(** The data are the coefficients. *)
Lemma linear_at_data nd per dims ranges f g mats :
  good_input nd 1 per dims ranges -> interpolant nd 1 per dims ranges f g mats ->
  forall idx, valid (ddims nd per dims) idx -> val_at f idx =
    tensor (dbas (if_spline g) (grid_point nd per dims ranges idx) (repeat 0%nat (length per))) (val_at f).
Proof.
  intros GI IP. pose proof (linear_basis nd per dims ranges f g mats GI IP) as TL.
  intros idx V. pose proof (valid_length _ _ V) as Li. rewrite ddims_length in Li. rewrite valid_nth in V by (rewrite ddims_length; auto). rewrite ddims_length in V.
    set (N := fun d => distinct nd (nth d per false) (nth d dims 0%nat)).
    set (js := map (fun d => if nth d per false then nth d idx 0%nat else if (nth d idx 0 + 1 =? N d)%nat then (nth d idx 0 - 1)%nat else nth d idx 0%nat) (seq 0 (length per))).
    assert (HI : forall d, (d < length per)%nat -> in_cell nd per dims ranges d (nth d js 0%nat) (nth d (grid_point nd per dims ranges idx) 0) (nth d (grid_point nd per dims ranges idx) 0)).
    { intros d Hd. specialize (V d Hd). rewrite ddims_nth in V by auto.
      pose proof (s_N nd 1 per dims ranges GI d Hd) as HN. rewrite ddims_nth in HN by auto.
      pose proof (s_incr nd 1 per dims ranges GI d Hd) as Hx. rewrite ddims_nth in Hx by auto. change (xs_of nd per dims ranges d) with (coordinate nd per dims ranges d) in Hx.
      unfold in_cell, js, grid_point. rewrite !map_seq_nth by auto. unfold N. destruct (nth d per false) eqn:Ep.
      - split; auto. split; [exists 0%Z; ring|]. pose proof (Hx (nth d idx 0%nat) (nth d idx 0 + 1)%nat ltac:(lia)). lra.
      - destruct (Nat.eqb_spec (nth d idx 0%nat + 1) (distinct nd false (nth d dims 0%nat))) as [Q|Q].
        + split; [lia|]. split; auto. split; [right|left; lia]. left. apply Hx. lia.
        + split; [lia|]. split; auto. split; [right; lra|right]. left. apply Hx. lia. }
    rewrite (TL _ js (grid_point nd per dims ranges idx)) by auto.
    assert (ML : forall l (c : list nat -> R), (forall d, In d l -> (d < length per)%nat) ->
      multilinear (map (fun d => cell nd per dims ranges d (nth d js 0%nat) (nth d (grid_point nd per dims ranges idx) 0)) l) c = c (map (fun d => nth d idx 0%nat) l)).
    { induction l as [|d l IH]; intros c Hl; [reflexivity|]. pose proof (Hl d (or_introl eq_refl)) as Hd. cbn [map multilinear].
      pose proof (HI d Hd) as HId. unfold in_cell in HId. unfold cell. 
      specialize (V d Hd). rewrite ddims_nth in V by auto.
      pose proof (s_incr nd 1 per dims ranges GI d Hd) as Hx. rewrite ddims_nth in Hx by auto. change (xs_of nd per dims ranges d) with (coordinate nd per dims ranges d) in Hx.
      rewrite !(IH (fun idx => c (_ :: idx))) by (intros; apply Hl; right; auto).
      unfold js, grid_point in HId. rewrite !map_seq_nth in HId by auto. unfold js, grid_point. rewrite !map_seq_nth by auto. unfold N in *.
      set (x := coordinate nd per dims ranges d) in *.
      destruct (nth d per false) eqn:Ep.
      - replace (x (nth d idx 0%nat) - x (nth d idx 0%nat)) with 0 by ring. unfold Rdiv. ring.
      - destruct (Nat.eqb_spec (nth d idx 0%nat + 1) (distinct nd false (nth d dims 0%nat))) as [Q|Q].
        + assert (x (nth d idx 0 - 1)%nat < x (nth d idx 0%nat)) by (apply Hx; lia).
          replace (nth d idx 0 - 1 + 1)%nat with (nth d idx 0%nat) by lia. field. lra.
        + replace (x (nth d idx 0%nat) - x (nth d idx 0%nat)) with 0 by ring. unfold Rdiv. ring. }
    rewrite ML by (intros d Hd; apply in_seq in Hd; lia). f_equal.
    apply (nth_ext' _ _ 0%nat); [rewrite map_length, seq_length; auto|]. intros d Hd. rewrite map_seq_nth by lia. auto.
Qed.

Theorem linear_interpolation on nd per dims ranges f g :
  good_input nd 1 per dims ranges -> m_dims f = dims -> wf_mesh f ->
  interp_make Rops on nd 1 per f ranges = Ok g ->
  forall xs is ys, length xs = length per -> countable_point nd per dims ranges xs ->
    (forall d, (d < length per)%nat -> in_cell nd per dims ranges d (nth d is 0%nat) (nth d xs 0) (nth d ys 0)) ->
    interp_eval Rops g xs =
    Ok (multilinear (map (fun d => cell nd per dims ranges d (nth d is 0%nat) (nth d ys 0)) (seq 0 (length per))) (val_at f)).
Proof.
  intros GI Ef Wf E xs is ys Lx C HC.
  destruct (interp_make_spec on nd 1 per dims ranges f GI Ef Wf) as (mats & _ & _ & HG & _). pose proof (HG g E) as IP.
  destruct (reproduce on nd 1 per dims ranges f g mats GI IP (val_at f)) with (xs := xs) (orders := repeat 0%nat (length per)) as [R _]; auto; [|apply repeat_length|].
  - apply (linear_at_data nd per dims ranges f g mats GI IP).
  - rewrite R. f_equal. apply (linear_basis nd per dims ranges f g mats GI IP). auto.
Qed.
