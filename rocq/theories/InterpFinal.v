(** Final lemmas on interpolation functions over the reals. *)
From Coq Require Import List Arith Lia Bool ZArith Reals Lra FunctionalExtensionality.
From Coquelicot Require Import Coquelicot.
From Verif Require Import Base Num MeshM SpecMesh MeshProofs ProgM BandM LUM SplineM InterpM.
From Verif Require Import SumR DenseLU SpecBand BandProofs MulProofs LUProofs LUConv SpecSpline SpecSplineObj SplineProofs BasisProofs BetaProofs TensorR EvalR SplineTop SplineCalc SpecInterp KnotProofs KnotShape CoefProofs SolverProofs RoundProofs SolveProofs BuildProofs WeightProofs InterpProofs PerDom PerPD InterpTop.
Import ListNotations.
Open Scope R_scope.

Lemma small_nth dims n : small_dims dims -> length dims = n -> forall d, (d < n)%nat -> (Z.of_nat (nth d dims 0%nat) < two64)%Z.
Proof. intros H L d Hd. apply H. apply nth_In. lia. Qed.

Lemma make_ok on nd p per dims ranges f :
  good_input nd p per dims ranges -> solvable p per ranges -> m_dims f = dims -> wf_mesh f ->
  exists g, interp_make Rops on nd p per f ranges = Ok g.
Proof.
  intros GI S Ef Wf. destruct (interp_make_spec on nd p per dims ranges f GI Ef Wf) as (mats & Lm & C & _ & Ex).
  apply Ex. intros d Hd. specialize (C d Hd).
  pose proof (W_big nd p per dims ranges GI d Hd) as HN.
  pose proof (s_incr nd p per dims ranges GI d Hd) as Hx. unfold xs_of in Hx.
  destruct (nth d per false) eqn:E.
  - destruct (S d Hd) as [F|[H3|(a & b & Er)]]; [congruence| |].
    + eapply per_pivots_low; eauto.
    + rewrite Er in C. assert (EC : coords_num nd true (nth d dims 0%nat) = (nth d (ddims nd per dims) 0 + 1)%nat).
      { rewrite ddims_nth by auto. rewrite E. reflexivity. }
      unfold gridx in C. rewrite EC in C. apply (per_pivots_uniform p _ a b); auto.
      destruct GI as (_ & _ & _ & GG). specialize (GG d Hd). rewrite E, Er in GG. apply GG.
  - apply (col_good_pivots p _ _ _ Hx); auto. apply (s_two nd p per dims ranges GI); auto.
Qed.

Lemma make_passes on nd p per dims ranges f g :
  good_input nd p per dims ranges -> m_dims f = dims -> wf_mesh f -> small_dims dims ->
  interp_make Rops on nd p per f ranges = Ok g ->
  forall idx, valid dims idx ->
    interp_eval Rops g (grid_point nd per dims ranges idx) = Ok (val_at f (representative nd per dims idx)).
Proof.
  intros GI Ef Wf Sm E idx V. destruct (interp_make_spec on nd p per dims ranges f GI Ef Wf) as (mats & Lm & C & HG & _).
  pose proof (HG g E) as IP. pose proof (proj1 (proj2 GI)) as Ld.
  rewrite (s_eval nd p per dims ranges f g mats GI IP).
  - f_equal. apply (s_value nd p per dims ranges f g mats GI IP); auto.
  - unfold grid_point. rewrite map_length, seq_length. auto.
  - apply (grid_countable nd p); auto. apply small_nth; auto.
Qed.

Lemma representative_ap nd per dims idx :
  (forall d, (d < length per)%nat -> nth d per false = false) -> length idx = length per ->
  representative nd per dims idx = idx.
Proof.
  intros H L. apply (nth_ext _ _ 0%nat 0%nat); unfold representative; rewrite map_length, seq_length; auto.
  intros d Hd. rewrite map_seq_nth by auto. rewrite H by auto. auto.
Qed.

Lemma all_false per : List.Forall (fun b => b = false) per -> forall d, nth d per false = false.
Proof.
  intros H d. destruct (Nat.lt_ge_cases d (length per)) as [L|L].
  - rewrite Forall_forall in H. apply H. apply nth_In; auto.
  - apply nth_overflow; auto.
Qed.

(** C23 *)
Lemma aperiodic_passes on nd p per dims ranges f :
  good_input nd p per dims ranges -> List.Forall (fun b => b = false) per ->
  m_dims f = dims -> wf_mesh f -> small_dims dims ->
  exists g, interp_make Rops on nd p per f ranges = Ok g /\
    forall idx, valid dims idx ->
      interp_eval Rops g (grid_point nd per dims ranges idx) = Ok (val_at f idx).
Proof.
  intros GI Ap Ef Wf Sm. pose proof (all_false per Ap) as AF.
  destruct (make_ok on nd p per dims ranges f GI) as (g & E); auto. { intros d Hd. left. apply AF. }
  exists g. split; auto. intros idx V.
  rewrite (make_passes on nd p per dims ranges f g GI Ef Wf Sm E idx V). do 2 f_equal. apply representative_ap; auto.
  rewrite (valid_length _ _ V). apply GI.
Qed.

(** C24 *)
Lemma periodic_passes on nd p per dims ranges f :
  good_input nd p per dims ranges -> m_dims f = dims -> wf_mesh f -> small_dims dims ->
  (solvable p per ranges -> exists g, interp_make Rops on nd p per f ranges = Ok g) /\
  forall g, interp_make Rops on nd p per f ranges = Ok g ->
    forall idx, valid dims idx ->
      interp_eval Rops g (grid_point nd per dims ranges idx) = Ok (val_at f (representative nd per dims idx)).
Proof.
  intros GI Ef Wf Sm. split.
  - intros S. apply (make_ok on nd p per dims ranges); auto.
  - intros g E. apply (make_passes on nd p per dims ranges f g GI Ef Wf Sm E).
Qed.

Lemma uniform_passes on nd p per dims ranges f :
  good_input nd p per dims ranges -> (forall d, (d < length per)%nat -> ~ by_points ranges d) ->
  m_dims f = dims -> wf_mesh f -> small_dims dims ->
  exists g, interp_make Rops on nd p per f ranges = Ok g /\
    forall idx, valid dims idx ->
      interp_eval Rops g (grid_point nd per dims ranges idx) = Ok (val_at f (representative nd per dims idx)).
Proof.
  intros GI Hu Ef Wf Sm. destruct (make_ok on nd p per dims ranges f GI) as (g & E); auto.
  { intros d Hd. right; right. destruct (nth_error ranges d) as [[a b|l]|] eqn:En.
    - exists a, b. apply nth_error_nth; auto.
    - exfalso. apply (Hu d Hd). exists l. auto.
    - apply nth_error_None in En. destruct GI as (_ & _ & Lr & _). lia. }
  exists g. split; auto. apply (make_passes on nd p per dims ranges f g GI Ef Wf Sm E).
Qed.

(** C45: only the coordinates matter. *)
Lemma same_coordinates on on' nd p per dims ranges ranges' f g :
  good_input nd p per dims ranges -> good_input nd p per dims ranges' -> same_grid nd per dims ranges ranges' ->
  m_dims f = dims -> wf_mesh f -> interp_make Rops on nd p per f ranges = Ok g ->
  exists g', interp_make Rops on' nd p per f ranges' = Ok g' /\
    sp_knots (if_spline g) = sp_knots (if_spline g') /\ sp_range (if_spline g) = sp_range (if_spline g') /\
    sp_ctrl (if_spline g) = sp_ctrl (if_spline g') /\
    forall xs orders, length xs = length per -> length orders = length per ->
      countable_point nd per dims ranges xs -> countable_point nd per dims ranges' xs ->
      interp_eval Rops g xs = interp_eval Rops g' xs /\
      interp_derivative Rops on g xs orders = interp_derivative Rops on' g' xs orders.
Proof.
  intros GI GI' SG Ef Wf E.
  destruct (transfer nd p per dims ranges ranges' GI GI' SG on on' f f g Ef Wf Ef Wf E) as (mats & g' & IP & E' & IP').
  destruct (same_shape nd p per dims ranges ranges' GI SG f g mats f g' IP IP') as (S1 & S2 & S3 & S4 & S5).
  assert (EC : forall idx, valid (ddims nd per dims) idx -> ctrl_at Rops (if_spline g) idx = ctrl_at Rops (if_spline g') idx).
  { apply (ctrl_unique nd p per dims ranges f g mats GI IP). intros idx V. apply (ip_eqs _ _ _ _ _ _ _ _ IP'); auto. }
  exists g'. split; auto. split; auto. split; auto. split.
  - assert (ED : m_data (sp_ctrl (if_spline g)) = m_data (sp_ctrl (if_spline g'))).
    { pose proof (ip_wf _ _ _ _ _ _ _ _ IP) as W1. pose proof (ip_wf _ _ _ _ _ _ _ _ IP') as W2. unfold wf_mesh in W1, W2.
      apply (nth_ext _ _ 0 0); [congruence|]. intros i Hi. rewrite W1 in Hi.
      pose proof (ip_ctrl _ _ _ _ _ _ _ _ IP) as D1. pose proof (ip_ctrl _ _ _ _ _ _ _ _ IP') as D2.
      rewrite D1 in Hi. pose proof (EC (unrank (ddims nd per dims) i) (unrank_valid _ _ Hi)) as U. unfold ctrl_at in U.
      rewrite D1, D2, unrank_rank in U by auto. exact U. }
    destruct (sp_ctrl (if_spline g)), (sp_ctrl (if_spline g')). cbn in *. congruence.
  - intros xs orders Lx Lo C1 C2. 
    rewrite (s_eval nd p per dims ranges f g mats GI IP), (s_eval nd p per dims ranges' f g' mats GI' IP') by auto.
    rewrite (s_derivative nd p per dims ranges f g mats GI IP), (s_derivative nd p per dims ranges' f g' mats GI' IP') by auto.
    rewrite !sval_dbas. unfold sp_dim. rewrite S2. rewrite !(dbas_shape (if_spline g) (if_spline g')) by auto.
    split; f_equal; apply tensor_ext; rewrite (dbas_dims nd p per dims ranges' f g' mats IP'); auto.
Qed.

(** C25 *)
Lemma linear_data on nd p per dims ranges f1 f2 h g1 g2 a b :
  good_input nd p per dims ranges ->
  m_dims f1 = dims -> wf_mesh f1 -> m_dims f2 = dims -> wf_mesh f2 -> m_dims h = dims -> wf_mesh h ->
  (forall idx, valid dims idx -> val_at h idx = a * val_at f1 idx + b * val_at f2 idx) ->
  interp_make Rops on nd p per f1 ranges = Ok g1 -> interp_make Rops on nd p per f2 ranges = Ok g2 ->
  exists g, interp_make Rops on nd p per h ranges = Ok g /\
    forall xs orders, length xs = length per -> length orders = length per -> countable_point nd per dims ranges xs ->
      (exists u v, interp_eval Rops g1 xs = Ok u /\ interp_eval Rops g2 xs = Ok v /\
         interp_eval Rops g xs = Ok (a * u + b * v)) /\
      (exists u v, interp_derivative Rops on g1 xs orders = Ok u /\ interp_derivative Rops on g2 xs orders = Ok v /\
         interp_derivative Rops on g xs orders = Ok (a * u + b * v)).
Proof.
  intros GI E1 W1 E2 W2 Eh Wh Hh M1 M2. pose proof (same_grid_refl nd per dims ranges) as SG.
  destruct (transfer nd p per dims ranges ranges GI GI SG on on f1 h g1 E1 W1 Eh Wh M1) as (mats & g & IP1 & M & IP).
  destruct (transfer nd p per dims ranges ranges GI GI SG on on f1 f2 g1 E1 W1 E2 W2 M1) as (mats' & g2' & IP1' & M2' & IP2').
  rewrite M2 in M2'. injection M2' as <-.
  assert (IP2 := same_interpolant nd p per dims ranges ranges GI SG f1 g1 mats f2 g2 mats' IP1 IP2').
  exists g. split; auto.
  destruct (same_shape nd p per dims ranges ranges GI SG h g mats f1 g1 IP IP1) as (S1 & S2 & S3 & S4 & S5).
  destruct (same_shape nd p per dims ranges ranges GI SG h g mats f2 g2 IP IP2) as (T1 & T2 & T3 & T4 & T5).
  assert (EC : forall idx, valid (ddims nd per dims) idx ->
     ctrl_at Rops (if_spline g) idx = a * ctrl_at Rops (if_spline g1) idx + b * ctrl_at Rops (if_spline g2) idx).
  { apply (ctrl_unique nd p per dims ranges h g mats GI IP (fun idx => a * ctrl_at Rops (if_spline g1) idx + b * ctrl_at Rops (if_spline g2) idx)).
    intros idx V. rewrite tensor_plus, !tensor_scal.
    rewrite (ip_eqs _ _ _ _ _ _ _ _ IP1 idx V), (ip_eqs _ _ _ _ _ _ _ _ IP2 idx V). symmetry. apply Hh.
    apply (valid_W_dims nd per dims (proj1 (proj2 GI))); auto. }
  assert (EV : forall xs orders, tensor (dbas (if_spline g) xs orders) (ctrl_at Rops (if_spline g)) =
     a * tensor (dbas (if_spline g1) xs orders) (ctrl_at Rops (if_spline g1)) + b * tensor (dbas (if_spline g2) xs orders) (ctrl_at Rops (if_spline g2))).
  { intros xs orders. rewrite <- (dbas_shape (if_spline g) (if_spline g1)), <- (dbas_shape (if_spline g) (if_spline g2)) by auto.
    rewrite <- !tensor_scal, <- tensor_plus. apply tensor_ext. rewrite (dbas_dims nd p per dims ranges h g mats IP). apply EC. }
  intros xs orders Lx Lo C. split.
  - exists (sval (if_spline g1) xs), (sval (if_spline g2) xs).
    split; [apply (s_eval nd p per dims ranges f1 g1 mats GI IP1); auto|].
    split; [apply (s_eval nd p per dims ranges f2 g2 mats GI IP2); auto|].
    rewrite (s_eval nd p per dims ranges h g mats GI IP) by auto. f_equal. rewrite !sval_dbas, EV.
    unfold sp_dim. rewrite <- S2, <- T2. auto.
  - eexists. eexists.
    split; [apply (s_derivative nd p per dims ranges f1 g1 mats GI IP1); auto|].
    split; [apply (s_derivative nd p per dims ranges f2 g2 mats GI IP2); auto|].
    rewrite (s_derivative nd p per dims ranges h g mats GI IP) by auto. f_equal. apply EV.
Qed.

(** ** Constants *)
Lemma tensor_const bs (c : R) : (forall d, (d < length bs)%nat ->
    let D := nth d bs (0%nat, fun _ => 0) in sum (fst D) (snd D) = 1) -> tensor bs (fun _ => c) = c.
Proof.
  induction bs as [|[m b] bs IH]; intros H; cbn [tensor]; auto.
  rewrite Rsum_sum. rewrite (sum_ext _ _ (fun i => b i * c)).
  - rewrite sum_scal_r. pose proof (H 0%nat ltac:(simpl; lia)) as H0. cbn [nth fst snd] in H0. rewrite H0. ring.
  - intros i Hi. rewrite IH; auto. intros d Hd. apply (H (S d)). simpl. lia.
Qed.

Lemma tensor_null bs (c : R) d : (d < length bs)%nat ->
    (let D := nth d bs (0%nat, fun _ => 0) in sum (fst D) (snd D) = 0) -> tensor bs (fun _ => c) = 0.
Proof.
  revert d; induction bs as [|[m b] bs IH]; intros d Hd H; [simpl in Hd; lia|]. cbn [tensor]. rewrite Rsum_sum.
  destruct d; cbn [nth fst snd] in H.
  - rewrite (sum_scal_r m (tensor bs (fun _ => c)) b). rewrite H. ring.
  - apply sum_0. intros i Hi. rewrite (IH d); auto; [ring|]. simpl in Hd. lia.
Qed.

Lemma Derive_n_sum N (f : nat -> R -> R) a x : (forall i y, (i < N)%nat -> forall b, ex_derive_n (f i) b y) ->
  Derive_n (fun y => sum N (fun i => f i y)) a x = sum N (fun i => Derive_n (f i) a x) /\
  forall b y, ex_derive_n (fun y => sum N (fun i => f i y)) b y.
Proof.
  revert x. induction N; intros x H.
  - cbn [sum]. split.
    + destruct a; auto. apply Derive_n_const.
    + intros b y. apply ex_derive_n_const.
  - destruct (IHN x) as [E Ex]; [intros; apply H; lia|]. cbn [sum]. split.
    + rewrite <- E. apply Derive_n_plus.
      * apply filter_forall. intros y k _. apply Ex.
      * apply filter_forall. intros y k _. apply H; lia.
    + intros b y. apply ex_derive_n_plus.
      * apply filter_forall. intros z k _. apply Ex.
      * apply filter_forall. intros z k _. apply H; lia.
Qed.

Lemma sum_dbas s d a x : good_spline s -> (d < sp_dim s)%nat ->
  sum (num_of s d) (fun j => Derive_n (bpoly s d (snd (loc s d x)) j) a (fst (loc s d x))) = if (a =? 0)%nat then 1 else 0.
Proof.
  intros G Hd. destruct (loc_spec s d x G Hd) as [_ (H1 & H2 & _)]. set (k := snd (loc s d x)) in *. set (y := fst (loc s d x)).
  destruct (Derive_n_sum (num_of s d) (fun j => bpoly s d k j) a y) as [E _].
  { intros j z Hj b. apply (bpoly_ex_derive_n s d k j b z G Hd H1 H2). }
  rewrite <- E. rewrite (Derive_n_ext _ (fun _ => 1)).
  - destruct a; [reflexivity|]. rewrite Derive_n_const. reflexivity.
  - intros z. apply sum_bpoly; auto.
Qed.

Section Const.
Variables (nd : bool) (p : nat) (per : list bool) (dims : list nat) (ranges : list (xrange R)) (f : mesh R)
  (g : interp R) (mats : list mat).
Hypothesis GI : good_input nd p per dims ranges.
Hypothesis IP : interpolant nd p per dims ranges f g mats.
Let W := ddims nd per dims.
Let s := if_spline g.

Lemma nth_dbas xs orders d : (d < length per)%nat -> nth d (dbas s xs orders) (0%nat, fun _ => 0) =
  (num_of s d, fun j => Derive_n (bpoly s d (snd (loc s d (nth d xs 0))) j) (nth d orders 0%nat) (fst (loc s d (nth d xs 0)))).
Proof.
  intros Hd. unfold dbas. pose proof (s_dim _ _ _ _ _ _ _ _ IP) as SD. fold s in SD. rewrite SD.
  apply (map_seq_nth (fun d => (num_of s d, fun j => Derive_n (bpoly s d (snd (loc s d (nth d xs 0))) j) (nth d orders 0%nat) (fst (loc s d (nth d xs 0)))))). auto.
Qed.

Lemma len_dbas xs orders : length (dbas s xs orders) = length per.
Proof. unfold dbas. rewrite map_length, seq_length. apply (s_dim _ _ _ _ _ _ _ _ IP). Qed.

Lemma const_ctrl c : (forall idx, valid W idx -> val_at f idx = c) ->
  forall idx, valid W idx -> ctrl_at Rops s idx = c.
Proof.
  intros Hc. apply (ctrl_unique nd p per dims ranges f g mats GI IP (fun _ => c)).
  intros idx V. rewrite (mrow_beta nd p per dims ranges f g mats GI IP _ idx V). rewrite Hc by auto.
  pose proof (s_dim _ _ _ _ _ _ _ _ IP) as SD. fold s in SD.
  apply tensor_const. rewrite map_length, seq_length. intros d Hd. cbv zeta.
  fold s. rewrite (map_seq_nth (fun d => (num_of s d, fun j => beta s d j (xs_of nd per dims ranges d (nth d idx 0%nat))))) by auto.
  cbn [fst snd]. unfold beta.
  apply (sum_dbas s d 0 (xs_of nd per dims ranges d (nth d idx 0%nat))); [|rewrite SD; auto].
  apply (s_good nd p per dims ranges f g mats GI IP).
Qed.
End Const.

(** C26 *)
Lemma constant_data on nd p per dims ranges f g c :
  good_input nd p per dims ranges -> m_dims f = dims -> wf_mesh f ->
  (forall v, In v (m_data f) -> v = c) -> interp_make Rops on nd p per f ranges = Ok g ->
  forall xs orders, length xs = length per -> length orders = length per -> countable_point nd per dims ranges xs ->
    interp_eval Rops g xs = Ok c /\
    interp_derivative Rops on g xs orders = Ok (if forallb (Nat.eqb 0) orders then c else 0).
Proof.
  intros GI Ef Wf Hc E xs orders Lx Lo C.
  destruct (interp_make_spec on nd p per dims ranges f GI Ef Wf) as (mats & Lm & _ & HG & _).
  pose proof (HG g E) as IP. set (s := if_spline g).
  assert (EC : forall idx, valid (ddims nd per dims) idx -> ctrl_at Rops s idx = c).
  { apply (const_ctrl nd p per dims ranges f g mats GI IP). intros idx V. apply Hc. apply nth_In.
    rewrite Wf, Ef. apply row_major_lt. apply (valid_W_dims nd per dims (proj1 (proj2 GI))); auto. }
  pose proof (s_good nd p per dims ranges f g mats GI IP) as SG. fold s in SG.
  pose proof (s_dim _ _ _ _ _ _ _ _ IP) as SD. fold s in SD.
  assert (EV : forall ors, length ors = length per -> tensor (dbas s xs ors) (ctrl_at Rops s) = if forallb (Nat.eqb 0) ors then c else 0).
  { intros ors Lors. rewrite (tensor_ext _ _ (fun _ => c)).
    2:{ rewrite (dbas_dims nd p per dims ranges f g mats IP). apply EC. }
    destruct (forallb (Nat.eqb 0) ors) eqn:EF.
    - rewrite forallb_forall in EF. apply tensor_const. rewrite (len_dbas nd p per dims ranges f g mats IP). intros d Hd. cbv zeta.
      rewrite (nth_dbas nd p per dims ranges f g mats IP) by auto. cbn [fst snd]. fold s. rewrite sum_dbas by (auto; lia).
      rewrite Nat.eqb_sym. rewrite EF by (apply nth_In; lia). auto.
    - assert (exists d, (d < length per)%nat /\ (0 =? nth d ors 0)%nat = false) as (d & Hd & Ed).
      { clear -EF Lors. rewrite <- Lors. clear Lors. induction ors as [|o ors IH]; [discriminate|]. cbn [forallb] in EF.
        destruct (0 =? o)%nat eqn:E0.
        - destruct IH as (d & Hd & Ed); auto. exists (S d). simpl; split; auto; lia.
        - exists 0%nat. simpl; split; auto; lia. }
      apply (tensor_null _ c d); [rewrite (len_dbas nd p per dims ranges f g mats IP); auto|]. cbv zeta.
      rewrite (nth_dbas nd p per dims ranges f g mats IP) by auto. cbn [fst snd]. fold s. rewrite sum_dbas by (auto; lia).
      rewrite Nat.eqb_sym, Ed. auto. }
  rewrite (s_eval nd p per dims ranges f g mats GI IP) by auto.
  rewrite (s_derivative nd p per dims ranges f g mats GI IP) by auto. fold s. rewrite sval_dbas. rewrite SD. rewrite !EV; auto.
  - split; auto. f_equal. replace (forallb _ _) with true; auto. symmetry. apply forallb_forall.
    intros o Ho. apply repeat_spec in Ho. subst. auto.
  - apply repeat_length.
Qed.
