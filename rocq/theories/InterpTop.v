(** Existence and uniqueness of interpolation functions; consequences. *)
From Coq Require Import List Arith Lia Bool ZArith Reals Lra FunctionalExtensionality.
From Coquelicot Require Import Coquelicot.
From Verif Require Import Base Num MeshM SpecMesh MeshProofs ProgM BandM LUM SplineM InterpM.
From Verif Require Import SumR DenseLU SpecBand BandProofs MulProofs LUProofs LUConv SpecSpline SpecSplineObj SplineProofs BasisProofs BetaProofs TensorR EvalR SplineTop SplineCalc SpecInterp KnotProofs KnotShape CoefProofs SolverProofs RoundProofs SolveProofs BuildProofs WeightProofs InterpProofs PerDom.
Import ListNotations.
Open Scope R_scope.

(** ** Matrices depend on the coordinates only *)
Lemma knots_ext p (per : bool) N (x x' : nat -> R) : (p + 1 <= N)%nat ->
  (forall i, (i < if per then N + 1 else N)%nat -> x i = x' i) -> knots_for p per N x = knots_for p per N x'.
Proof.
  intros Hp H. unfold knots_for. destruct per.
  - assert (HX : forall i, pext N (x N - x 0%nat) x i = pext N (x' N - x' 0%nat) x' i).
    { intros i. unfold pext. rewrite !H by (try lia; pose proof (Nat.mod_upper_bound i N); lia). auto. }
    apply map_ext. intros i. unfold per_knot. rewrite !HX. rewrite !H by lia. auto.
  - apply map_ext_in. intros i Hi. apply in_seq in Hi. unfold ap_knot.
    destruct (Nat.leb_spec i p). { apply H; lia. } destruct (Nat.ltb_spec i N); [|apply H; lia].
    destruct (Nat.eqb_spec p 0). { rewrite !H by lia. auto. }
    unfold mean. f_equal. rewrite !Rsum_sum. apply sum_ext. intros j Hj. apply H. lia.
Qed.

Lemma rowof_surj p (per : bool) N r : (p + 1 <= N)%nat -> (r < N)%nat -> exists i, (i < N)%nat /\ rowof p per N i = r.
Proof. intros. destruct per. apply rowof_onto; auto. exists r. auto. Qed.

Lemma rowof_bound p (per : bool) N i : (i < N)%nat -> (rowof p per N i < N)%nat.
Proof. intros. unfold rowof. destruct per; auto. apply Nat.mod_upper_bound. lia. Qed.

Lemma knots_sorted p (per : bool) N (x : nat -> R) : (p + 1 <= N)%nat -> (per = false -> (2 <= N)%nat) ->
  increasing (if per then N + 1 else N)%nat x -> nondecreasing (knots_for p per N x).
Proof.
  intros Hp H2 Hx i j Hij. unfold knots_for in *. destruct per; rewrite map_length, seq_length in Hij; rewrite !kn_map by lia.
  - apply per_mono; auto; lia.
  - apply ap_mono; auto; lia.
Qed.

Lemma col_good_unique p (per : bool) N (x x' : nat -> R) A A' : (p + 1 <= N)%nat -> (per = false -> (2 <= N)%nat) ->
  increasing (if per then N + 1 else N)%nat x ->
  (forall i, (i < if per then N + 1 else N)%nat -> x i = x' i) ->
  col_good p per N x A -> col_good p per N x' A' ->
  forall r j, (r < N)%nat -> (j < N)%nat -> A r j = A' r j.
Proof.
  intros Hp H2 Hx E C C' r j Hr Hj. destruct (rowof_surj p per N r Hp Hr) as (i & Hi & <-).
  destruct (C i Hi) as (k & Hk & HA). destruct (C' i Hi) as (k' & Hk' & HA').
  rewrite <- (knots_ext p per N x x' Hp E) in Hk', HA'.
  assert (Ei : x' i = x i) by (symmetry; apply E; destruct per; lia). rewrite Ei in Hk', HA'.
  rewrite HA, HA' by auto. f_equal. eapply segment_unique; eauto.
  - apply knots_sorted; auto.
  - unfold knots_for. destruct per; rewrite map_length, seq_length; pose proof (half_cases p); lia.
Qed.

(** ** Two sets of data on the same grid *)
Section Same.
Variables (nd : bool) (p : nat) (per : list bool) (dims : list nat) (ranges ranges' : list (xrange R)).
Hypothesis GI : good_input nd p per dims ranges.
Hypothesis GI' : good_input nd p per dims ranges'.
Hypothesis SG : same_grid nd per dims ranges ranges'.
Let W := ddims nd per dims.

Lemma same_x d i : (d < length per)%nat -> (i < if nth d per false then nth d W 0 + 1 else nth d W 0)%nat ->
  xs_of nd per dims ranges d i = xs_of nd per dims ranges' d i.
Proof.
  intros Hd Hi. apply (SG d i Hd). unfold coords_num. unfold W in Hi. rewrite ddims_nth in Hi by auto.
  destruct (nth d per false); auto.
Qed.

Lemma same_mats mats mats' :
  (forall d, (d < length per)%nat -> col_good p (nth d per false) (nth d W 0%nat) (xs_of nd per dims ranges d) (mat_at mats d)) ->
  (forall d, (d < length per)%nat -> col_good p (nth d per false) (nth d W 0%nat) (xs_of nd per dims ranges' d) (mat_at mats' d)) ->
  forall d r j, (d < length per)%nat -> (r < nth d W 0)%nat -> (j < nth d W 0)%nat -> mat_at mats d r j = mat_at mats' d r j.
Proof.
  intros C C' d r j Hd Hr Hj.
  apply (col_good_unique p (nth d per false) (nth d W 0%nat) (xs_of nd per dims ranges d) (xs_of nd per dims ranges' d)); auto.
  - apply (W_big nd p per dims ranges GI); auto.
  - apply (s_two nd p per dims ranges GI); auto.
  - apply (s_incr nd p per dims ranges GI); auto.
  - intros i Hi. apply same_x; auto.
Qed.

Lemma mrow_nth D M I d : length M = length D -> length I = length D -> (d < length D)%nat ->
  nth d (mrow D M I) (0%nat, fun _ => 0) = (nth d D 0%nat, nth d M (fun _ _ => 0) (nth d I 0%nat)).
Proof.
  clear. revert M I d; induction D as [|n D IH]; intros [|A M] [|i I] d H1 H2 Hd; simpl in *; try discriminate; try lia.
  destruct d; auto. apply IH; lia.
Qed.

Lemma mrow_length D M I : length M = length D -> length I = length D -> length (mrow D M I) = length D.
Proof. clear. intros. rewrite <- (map_length fst), mrow_dims; auto. Qed.

(** Interpolants on the same grid are interpolants for the same matrices. *)
Lemma same_interpolant f g mats f' g' mats' :
  interpolant nd p per dims ranges f g mats -> interpolant nd p per dims ranges' f' g' mats' ->
  interpolant nd p per dims ranges' f' g' mats.
Proof.
  intros IP IP'. pose proof (same_mats mats mats' (ip_col _ _ _ _ _ _ _ _ IP) (ip_col _ _ _ _ _ _ _ _ IP')) as E.
  constructor.
  - apply (ip_built _ _ _ _ _ _ _ _ IP').
  - apply (ip_mats _ _ _ _ _ _ _ _ IP).
  - apply (ip_ctrl _ _ _ _ _ _ _ _ IP').
  - apply (ip_wf _ _ _ _ _ _ _ _ IP').
  - intros d Hd i Hi. destruct (ip_col _ _ _ _ _ _ _ _ IP' d Hd i Hi) as (k & Hk & HB). exists k. split; auto.
    intros j Hj. rewrite E by (auto; apply rowof_bound; auto). auto.
  - apply (ip_piv _ _ _ _ _ _ _ _ IP).
  - intros idx V. rewrite <- (ip_eqs _ _ _ _ _ _ _ _ IP' idx V).
    assert (LW : length (ddims nd per dims) = length per) by apply ddims_length.
    pose proof (ip_mats _ _ _ _ _ _ _ _ IP). pose proof (ip_mats _ _ _ _ _ _ _ _ IP').
    pose proof (rows_length nd p per dims idx) as Lr.
    pose proof (rows_valid nd p per dims (proj1 (proj2 GI)) idx V) as VR. rewrite valid_nth in VR by lia.
    apply tensor_ext_gen; auto.
    + rewrite !mrow_dims by lia. auto.
    + intros d i Hd Hi. rewrite mrow_length in Hd by lia. rewrite mrow_dims in Hi by lia.
      rewrite !mrow_nth by lia. cbn [snd]. apply E; [lia | apply VR; lia | auto].
Qed.

(** If one set of data can be interpolated, every other one can. *)
Lemma transfer on on' f f' g :
  m_dims f = dims -> wf_mesh f -> m_dims f' = dims -> wf_mesh f' ->
  interp_make Rops on nd p per f ranges = Ok g ->
  exists mats g', interpolant nd p per dims ranges f g mats /\
    interp_make Rops on' nd p per f' ranges' = Ok g' /\ interpolant nd p per dims ranges' f' g' mats.
Proof.
  intros Ef Wf Ef' Wf' E.
  destruct (interp_make_spec on nd p per dims ranges f GI Ef Wf) as (mats & Lm & C & HG & _).
  destruct (interp_make_spec on' nd p per dims ranges' f' GI' Ef' Wf') as (mats' & Lm' & C' & HG' & Ex).
  pose proof (HG g E) as IP.
  destruct Ex as (g' & E').
  - intros d Hd. apply (pivots_ext (mat_at mats d)); [|apply (ip_piv _ _ _ _ _ _ _ _ IP d Hd)].
    intros i j Hi Hj. apply (same_mats mats mats' C C'); auto.
  - exists mats, g'. split; auto. split; auto. apply (same_interpolant f g mats f' g' mats'); auto.
Qed.

(** The basis functions are the same. *)
Lemma same_shape f g mats f' g' :
  interpolant nd p per dims ranges f g mats -> interpolant nd p per dims ranges' f' g' mats ->
  sp_order (if_spline g) = sp_order (if_spline g') /\ sp_per (if_spline g) = sp_per (if_spline g') /\
  sp_knots (if_spline g) = sp_knots (if_spline g') /\ sp_range (if_spline g) = sp_range (if_spline g') /\
  m_dims (sp_ctrl (if_spline g)) = m_dims (sp_ctrl (if_spline g')).
Proof.
  intros IP IP'.
  pose proof (s_order _ _ _ _ _ _ _ _ IP). pose proof (s_order _ _ _ _ _ _ _ _ IP').
  pose proof (s_per _ _ _ _ _ _ _ _ IP). pose proof (s_per _ _ _ _ _ _ _ _ IP').
  pose proof (s_knots _ _ _ _ _ _ _ _ IP) as K. pose proof (s_knots _ _ _ _ _ _ _ _ IP') as K'.
  pose proof (s_rng _ _ _ _ _ _ _ _ IP) as RG. pose proof (s_rng _ _ _ _ _ _ _ _ IP') as RG'.
  assert (EK : forall d, (d < length per)%nat -> knot_of (if_spline g) d = knot_of (if_spline g') d).
  { intros d Hd. rewrite K, K' by auto. apply knots_ext.
    - apply (W_big nd p per dims ranges GI); auto.
    - intros i Hi. apply same_x; auto. }
  destruct (ip_built _ _ _ _ _ _ _ _ IP) as (c & B). destruct (ip_built _ _ _ _ _ _ _ _ IP') as (c' & B').
  split; [congruence|]. split; [congruence|]. split; [|split].
  - apply (nth_ext _ _ [] []).
    + rewrite (bt_knots _ _ _ _ _ _ _ _ B), (bt_knots _ _ _ _ _ _ _ _ B'). auto.
    + rewrite (bt_knots _ _ _ _ _ _ _ _ B). exact EK.
  - apply (nth_ext _ _ (0, 0) (0, 0)).
    + rewrite (bt_range _ _ _ _ _ _ _ _ B), (bt_range _ _ _ _ _ _ _ _ B'). auto.
    + rewrite (bt_range _ _ _ _ _ _ _ _ B). intros d Hd. rewrite RG, RG' by auto. rewrite EK by auto. auto.
  - rewrite (ip_ctrl _ _ _ _ _ _ _ _ IP), (ip_ctrl _ _ _ _ _ _ _ _ IP'). auto.
Qed.

End Same.

Lemma same_grid_refl nd per dims ranges : same_grid nd per dims ranges ranges.
Proof. intros d i _ _. reflexivity. Qed.

(** ** Values and derivatives as tensor products *)
Definition dbas (s : spline R) (xs : list R) (orders : list nat) : list (nat * (nat -> R)) :=
  map (fun d => (num_of s d, fun j =>
       Derive_n (bpoly s d (snd (loc s d (nth d xs 0))) j) (nth d orders 0%nat) (fst (loc s d (nth d xs 0)))))
       (seq 0 (sp_dim s)).

Lemma dbas_shape s s' xs orders :
  sp_order s = sp_order s' -> sp_per s = sp_per s' -> sp_knots s = sp_knots s' -> sp_range s = sp_range s' ->
  m_dims (sp_ctrl s) = m_dims (sp_ctrl s') -> dbas s xs orders = dbas s' xs orders.
Proof.
  intros E1 E2 E3 E4 E5. unfold dbas, sp_dim. rewrite E2. apply map_ext. intros d.
  unfold num_of, bpoly, loc, nbasis, widx, per_of, knot_of, num_of. rewrite E1, E2, E3, E4, E5. reflexivity.
Qed.

Lemma sval_dbas s xs : sval s xs = tensor (dbas s xs (repeat 0%nat (sp_dim s))) (ctrl_at Rops s).
Proof.
  unfold sval, dbas. f_equal. apply map_ext. intros d. f_equal. apply functional_extensionality. intros j.
  unfold beta. rewrite nth_repeat. reflexivity.
Qed.

Section Value.
Variables (nd : bool) (p : nat) (per : list bool) (dims : list nat) (ranges : list (xrange R)) (f : mesh R)
  (g : interp R) (mats : list mat).
Hypothesis GI : good_input nd p per dims ranges.
Hypothesis IP : interpolant nd p per dims ranges f g mats.
Let W := ddims nd per dims.
Let s := if_spline g.

Lemma s_derivative on xs orders : length xs = length per -> length orders = length per -> countable_point nd per dims ranges xs ->
  interp_derivative Rops on g xs orders = Ok (tensor (dbas s xs orders) (ctrl_at Rops s)).
Proof.
  intros Hl Ho Hc. 
  assert (Hh : forall d, (d < length per)%nat -> exists h, hint_for Rops g d (nth d xs 0) = Ok h /\ (p <= h <= last_of s d)%nat).
  { intros d Hd. apply (s_hint nd p per dims ranges f g mats GI IP d (nth d xs 0) Hd (Hc d Hd)). }
  set (h := fun d => match hint_for Rops g d (nth d xs 0) with Ok h => h | _ => 0%nat end).
  assert (Hh' : forall d, (d < length per)%nat -> hint_for Rops g d (nth d xs 0) = Ok (h d) /\ (p <= h d <= last_of s d)%nat).
  { intros d Hd. destruct (Hh d Hd) as (k & E & B). unfold h. rewrite E. auto. }
  pose proof (s_dim _ _ _ _ _ _ _ _ IP) as SD. fold s in SD. pose proof (s_order _ _ _ _ _ _ _ _ IP) as SO. fold s in SO.
  unfold interp_derivative. fold s. rewrite SD.
  rewrite (mapM_ok _ (fun d => (nth d xs 0, h d, nth d orders 0%nat))).
  - cbn [bind]. rewrite derivative_sval_hint.
    + f_equal. f_equal. unfold dbas. rewrite SD. apply map_ext_seq. intros d Hd.
      rewrite (map_seq_nth (fun d0 => (nth d0 xs 0, h d0, nth d0 orders 0%nat))) by auto. reflexivity.
    + apply (s_good nd p per dims ranges f g mats GI IP).
    + rewrite map_length, seq_length. auto.
    + rewrite SD, SO. intros d Hd. rewrite (map_seq_nth (fun d0 => (nth d0 xs 0, h d0, nth d0 orders 0%nat))) by auto. cbn [fst snd]. apply Hh'; auto.
  - intros d Hd. apply in_seq in Hd. rewrite (vget_ok _ _ 0) by lia. cbn [bind].
    destruct (Hh' d ltac:(lia)) as [E _]. rewrite E. cbn [bind]. rewrite (vget_ok _ _ 0%nat) by lia. reflexivity.
Qed.

Lemma dbas_dims xs orders : map fst (dbas s xs orders) = W.
Proof.
  unfold dbas. rewrite map_map. cbn [fst]. pose proof (s_dim _ _ _ _ _ _ _ _ IP) as SD. fold s in SD. rewrite SD.
  apply (nth_ext _ _ 0%nat 0%nat).
  - rewrite map_length, seq_length. unfold W. rewrite ddims_length. auto.
  - intros d Hd. rewrite map_length, seq_length in Hd. rewrite map_seq_nth by auto. apply (s_num _ _ _ _ _ _ _ _ IP).
Qed.

(** The control points are the only solution of the interpolation equations. *)
Lemma rows_onto idx : valid W idx -> exists idx', valid W idx' /\ rows nd p per dims idx' = idx.
Proof.
  intros V. pose proof (valid_length _ _ V) as Li.
  assert (LW : length W = length per) by apply ddims_length. rewrite valid_nth in V by auto.
  assert (H : forall d, exists i, (d < length per)%nat -> (i < nth d W 0)%nat /\ rowof p (nth d per false) (nth d W 0%nat) i = nth d idx 0%nat).
  { intros d. destruct (Nat.lt_ge_cases d (length per)) as [Hd|Hd]; [|exists 0%nat; lia].
    destruct (rowof_surj p (nth d per false) (nth d W 0%nat) (nth d idx 0%nat)) as (i & Hi & E); eauto.
    - apply (W_big nd p per dims ranges GI); auto.
    - apply V. lia. }
  assert (HF : forall n, exists l, length l = n /\ forall d, (d < n)%nat -> (d < length per)%nat ->
     (nth d l 0 < nth d W 0)%nat /\ rowof p (nth d per false) (nth d W 0%nat) (nth d l 0%nat) = nth d idx 0%nat).
  { induction n as [|n (l & Ll & Hn)]; [exists []; split; auto; lia|].
    destruct (H n) as (i & Hi). exists (l ++ [i]). rewrite app_length. simpl. split; [lia|].
    intros d Hd Hdp. destruct (Nat.eq_dec d n) as [->|].
    - rewrite app_nth2 by lia. rewrite Ll, Nat.sub_diag. simpl. auto.
    - rewrite app_nth1 by lia. apply Hn; lia. }
  destruct (HF (length per)) as (l & Ll & Hn). exists l. split.
  - apply valid_nth; [lia|]. intros d Hd. apply Hn; lia.
  - apply (nth_ext _ _ 0%nat 0%nat).
    + rewrite rows_length. lia.
    + rewrite rows_length. intros d Hd. rewrite rows_nth by auto. apply Hn; auto.
Qed.

Lemma ctrl_unique c :
  (forall idx, valid W idx -> tensor (mrow W mats (rows nd p per dims idx)) c = val_at f idx) ->
  forall idx, valid W idx -> ctrl_at Rops s idx = c idx.
Proof.
  intros H. apply (tensor_unique W mats).
  - assert (LW : length W = length per) by apply ddims_length.
    pose proof (ip_mats _ _ _ _ _ _ _ _ IP) as Lm. pose proof (ip_piv _ _ _ _ _ _ _ _ IP) as PV. fold W in PV.
    unfold mat_at in PV. rewrite <- LW in Lm, PV. revert Lm PV. clear. generalize mats. induction W as [|n l IH]; intros [|A m] Lm PV; simpl in *; try discriminate; constructor.
    + apply (PV 0%nat). lia.
    + apply IH; [lia|]. intros d Hd. apply (PV (S d)). lia.
  - intros idx V. destruct (rows_onto idx V) as (idx' & V' & <-). rewrite H by auto.
    apply (ip_eqs _ _ _ _ _ _ _ _ IP); auto.
Qed.

(** The same with the basis functions at the grid points. *)
Lemma mrow_beta c idx : valid W idx ->
  tensor (mrow W mats (rows nd p per dims idx)) c =
  tensor (map (fun d => (num_of s d, fun j => beta s d j (xs_of nd per dims ranges d (nth d idx 0%nat)))) (seq 0 (length per))) c.
Proof.
  intros V. pose proof (ip_mats _ _ _ _ _ _ _ _ IP) as Lm.
  assert (LW : length W = length per) by apply ddims_length. pose proof (valid_length _ _ V) as Li. rewrite valid_nth in V by auto.
  pose proof (rows_length nd p per dims idx) as Lr.
  apply tensor_ext_gen; auto.
  - rewrite mrow_dims by lia. rewrite map_map. cbn [fst]. apply (nth_ext _ _ 0%nat 0%nat).
    + rewrite map_length, seq_length. auto.
    + intros d Hd. rewrite map_seq_nth by lia. symmetry. apply (s_num _ _ _ _ _ _ _ _ IP).
  - intros d j Hd Hj. rewrite mrow_length in Hd by lia. rewrite mrow_dims in Hj by lia. rewrite mrow_nth by lia.
    rewrite (map_seq_nth (fun d0 => (num_of s d0, fun j0 => beta s d0 j0 (xs_of nd per dims ranges d0 (nth d0 idx 0%nat))))) by lia. cbn [snd].
    rewrite rows_nth by lia. symmetry. apply (s_beta nd p per dims ranges f g mats GI IP); [lia | apply V; lia | auto].
Qed.

End Value.
