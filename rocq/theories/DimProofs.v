(** Permuted dimensions and products. *)
From Coq Require Import List Arith Lia Bool ZArith Reals Lra FunctionalExtensionality Permutation.
From Coquelicot Require Import Coquelicot.
From Verif Require Import Base Num MeshM SpecMesh MeshProofs ProgM BandM LUM SplineM InterpM.
From Verif Require Import SumR DenseLU SpecBand BandProofs MulProofs LUProofs LUConv SpecSpline SpecSplineObj SplineProofs BasisProofs BetaProofs TensorR EvalR SplineTop SplineCalc SpecInterp KnotProofs KnotShape CoefProofs SolverProofs RoundProofs SolveProofs BuildProofs WeightProofs InterpProofs PerDom InterpTop InterpFinal PolyProofs SpecDims.
Import ListNotations.
Open Scope R_scope.

(** ** Tensor sums in another order *)
Definition upd (a : nat -> nat) (d i : nat) : nat -> nat := fun k => if (k =? d)%nat then i else a k.
Fixpoint assign (sg idx : list nat) (a : nat -> nat) : nat -> nat :=
  match sg, idx with
  | d :: sg, i :: idx => assign sg idx (upd a d i)
  | _, _ => a
  end.
Fixpoint tsum (b : nat -> nat * (nat -> R)) (sg : list nat) (a : nat -> nat) (C : (nat -> nat) -> R) : R :=
  match sg with
  | [] => C a
  | d :: sg => sum (fst (b d)) (fun i => snd (b d) i * tsum b sg (upd a d i) C)
  end.

Lemma tsum_tensor b sg : forall a C, tensor (map b sg) (fun idx => C (assign sg idx a)) = tsum b sg a C.
Proof.
  induction sg as [|d sg IH]; intros a C; [reflexivity|]. cbn [map tensor tsum]. destruct (b d) as [n v] eqn:E. cbn [fst snd].
  rewrite Rsum_sum. apply sum_ext. intros i Hi. f_equal. apply (IH (upd a d i) C).
Qed.

Lemma upd_comm a x y i j : x <> y -> upd (upd a x i) y j = upd (upd a y j) x i.
Proof.
  intros H. apply functional_extensionality. intros k. unfold upd.
  destruct (Nat.eqb_spec k y), (Nat.eqb_spec k x); auto; lia.
Qed.

Lemma tsum_perm b l l' : Permutation l l' -> NoDup l -> forall a C, tsum b l a C = tsum b l' a C.
Proof.
  induction 1 as [|x l l' P IH|x y l|l1 l2 l3 P1 IH1 P2 IH2]; intros ND a C; cbn [tsum]; auto.
  - apply sum_ext. intros i Hi. f_equal. apply IH. inversion ND; auto.
  - assert (Ne : y <> x). { inversion ND as [|? ? H1 H2]; subst. intros ->. apply H1. left. auto. }
    transitivity (sum (fst (b y)) (fun i => sum (fst (b x)) (fun j => snd (b y) i * (snd (b x) j * tsum b l (upd (upd a y i) x j) C)))).
    { apply sum_ext. intros i Hi. rewrite sum_scal. reflexivity. }
    rewrite sum_swap. apply sum_ext. intros j Hj. rewrite <- sum_scal. apply sum_ext. intros i Hi. rewrite (upd_comm a y x) by auto. ring.
  - rewrite IH1 by auto. apply IH2. apply (Permutation_NoDup P1 ND).
Qed.

Lemma assign_out sg : forall idx a d, ~ In d sg -> assign sg idx a d = a d.
Proof.
  induction sg as [|e sg IH]; intros [|i idx] a d H; cbn [assign]; auto. rewrite IH by (intros F; apply H; right; auto).
  unfold upd. destruct (Nat.eqb_spec d e); auto. subst. exfalso. apply H. left. auto.
Qed.
Lemma assign_map sg : forall v a d, In d sg -> assign sg (map v sg) a d = v d.
Proof.
  induction sg as [|e sg IH]; intros v a d H; [destruct H|]. cbn [map assign].
  destruct (in_dec Nat.eq_dec d sg) as [I|I]; [apply IH; auto|]. rewrite assign_out by auto.
  destruct H as [<-|H]; [|contradiction]. unfold upd. rewrite Nat.eqb_refl. auto.
Qed.
Lemma map_assign sg : forall idx a, NoDup sg -> length idx = length sg -> map (assign sg idx a) sg = idx.
Proof.
  induction sg as [|e sg IH]; intros [|i idx] a ND L; try discriminate; auto. inversion ND as [|? ? H1 H2]; subst. cbn [map assign].
  f_equal; [|apply IH; auto]. rewrite assign_out by auto. unfold upd. rewrite Nat.eqb_refl. auto.
Qed.

(** The index read in dimension order from one in the order [sg]. *)
Definition unperm (n : nat) (sg idx : list nat) : list nat := map (assign sg idx (fun _ => 0%nat)) (seq 0 n).

Lemma tensor_permuted n b sg c : Permutation sg (seq 0 n) ->
  tensor (map b sg) (fun idx => c (unperm n sg idx)) = tensor (map b (seq 0 n)) c.
Proof.
  intros P. assert (ND : NoDup sg) by (apply (Permutation_NoDup (Permutation_sym P)), seq_NoDup).
  unfold unperm. rewrite (tsum_tensor b sg (fun _ => 0%nat) (fun a => c (map a (seq 0 n)))).
  rewrite (tsum_perm b _ _ P ND). rewrite <- (tsum_tensor b (seq 0 n)). apply tensor_ext. intros idx V.
  f_equal. apply map_assign; [apply seq_NoDup|]. apply valid_length in V. rewrite !map_length in V. auto.
Qed.

(** ** Products *)
Lemma tensor_app b1 b2 : forall c1 c2,
  tensor (b1 ++ b2) (fun idx => c1 (firstn (length b1) idx) * c2 (skipn (length b1) idx)) = tensor b1 c1 * tensor b2 c2.
Proof.
  induction b1 as [|[n b] b1 IH]; intros c1 c2; cbn [app tensor length].
  - cbn [firstn skipn]. apply tensor_scal.
  - rewrite !Rsum_sum. rewrite <- sum_scal_r. apply sum_ext. intros i Hi. cbn [firstn skipn].
    rewrite (IH (fun idx => c1 (i :: idx)) c2). ring.
Qed.

Lemma tensor_const bs : tensor bs (fun _ => 1) = fold_right (fun b r => sum (fst b) (snd b) * r) 1 bs.
Proof.
  induction bs as [|[n b] bs IH]; [reflexivity|]. cbn [tensor fold_right fst snd]. rewrite Rsum_sum. rewrite IH. apply sum_scal_r.
Qed.

(** ** One dimension of two splines *)
Definition dfun (s : spline R) (d : nat) (y : R) (o : nat) : nat * (nat -> R) :=
  (num_of s d, fun j => Derive_n (bpoly s d (snd (loc s d y)) j) o (fst (loc s d y))).

Lemma dbas_dfun s xs orders : dbas s xs orders = map (fun d => dfun s d (nth d xs 0) (nth d orders 0%nat)) (seq 0 (sp_dim s)).
Proof. reflexivity. Qed.

Lemma same_dfun nd p per dims ranges f g mats per' dims' ranges' f' g' mats' d d' :
  interpolant nd p per dims ranges f g mats -> interpolant nd p per' dims' ranges' f' g' mats' ->
  (d < length per)%nat -> (d' < length per')%nat ->
  nth d' per' false = nth d per false -> nth d' dims' 0%nat = nth d dims 0%nat -> nth d' ranges' (Points []) = nth d ranges (Points []) ->
  forall y o, dfun (if_spline g') d' y o = dfun (if_spline g) d y o.
Proof.
  intros IP IP' Hd Hd' E1 E2 E3 y o.
  pose proof (s_order _ _ _ _ _ _ _ _ IP) as O. pose proof (s_order _ _ _ _ _ _ _ _ IP') as O'.
  assert (EW : nth d' (ddims nd per' dims') 0%nat = nth d (ddims nd per dims) 0%nat).
  { rewrite !ddims_nth by auto. rewrite E1, E2. auto. }
  assert (EK : knot_of (if_spline g') d' = knot_of (if_spline g) d).
  { rewrite (s_knots _ _ _ _ _ _ _ _ IP' d' Hd'), (s_knots _ _ _ _ _ _ _ _ IP d Hd). rewrite E1, EW. unfold xs_of. rewrite E1, E2, E3. auto. }
  assert (EN : num_of (if_spline g') d' = num_of (if_spline g) d).
  { rewrite (s_num _ _ _ _ _ _ _ _ IP' d'), (s_num _ _ _ _ _ _ _ _ IP d). auto. }
  assert (EP : per_of (if_spline g') d' = per_of (if_spline g) d).
  { rewrite (s_per_of _ _ _ _ _ _ _ _ IP' d'), (s_per_of _ _ _ _ _ _ _ _ IP d). auto. }
  assert (ER : rng (if_spline g') d' = rng (if_spline g) d).
  { rewrite (s_rng _ _ _ _ _ _ _ _ IP' d' Hd'), (s_rng _ _ _ _ _ _ _ _ IP d Hd). rewrite EK. auto. }
  unfold dfun, loc. rewrite O, O', EN, EP, ER, EK. f_equal. apply functional_extensionality. intros j. f_equal.
  unfold bpoly, nbasis, widx. rewrite O, O', EN, EP, EK. reflexivity.
Qed.

Lemma dbas_zeros s xs n : dbas s xs (repeat 0%nat n) = map (fun d => dfun s d (nth d xs 0) 0%nat) (seq 0 (sp_dim s)).
Proof. rewrite dbas_dfun. apply map_ext. intros d. rewrite nth_repeat. reflexivity. Qed.

(** ** Dimensions in another order *)
Lemma nth_permuted {A} (a : A) sg l k : (k < length sg)%nat -> nth k (permuted a sg l) a = nth (nth k sg 0%nat) l a.
Proof. intros H. unfold permuted. rewrite (nth_indep _ a (nth 0 l a)) by (rewrite map_length; auto). rewrite (map_nth (fun d => nth d l a)). auto. Qed.
Lemma len_permuted {A} (a : A) sg l : length (permuted a sg l) = length sg.
Proof. apply map_length. Qed.

Theorem permuted_dimensions on nd p per dims ranges sg f f' g g' :
  good_input nd p per dims ranges -> m_dims f = dims -> wf_mesh f ->
  Permutation sg (seq 0 (length per)) ->
  m_dims f' = permuted 0%nat sg dims -> wf_mesh f' -> permuted_data dims sg f f' ->
  interp_make Rops on nd p per f ranges = Ok g ->
  interp_make Rops on nd p (permuted false sg per) f' (permuted (Points []) sg ranges) = Ok g' ->
  forall xs orders, length xs = length per -> length orders = length per -> countable_point nd per dims ranges xs ->
    interp_eval Rops g' (permuted 0 sg xs) = interp_eval Rops g xs /\
    interp_derivative Rops on g' (permuted 0 sg xs) (permuted 0%nat sg orders) = interp_derivative Rops on g xs orders.
Proof.
  intros GI Ef Wf PS Ef' Wf' HD E E' xs orders Lx Lo C.
  set (n := length per) in *. set (per' := permuted false sg per) in *. set (ranges' := permuted (Points []) sg ranges) in *. set (dims' := permuted 0%nat sg dims) in *.
  assert (Ls : length sg = n) by (rewrite (Permutation_length PS), seq_length; auto).
  assert (ND : NoDup sg) by (apply (Permutation_NoDup (Permutation_sym PS)), seq_NoDup).
  assert (In_sg : forall d, In d sg <-> (d < n)%nat).
  { intros d. split; intros H; [apply (Permutation_in d PS) in H; apply in_seq in H; lia|]. apply (Permutation_in d (Permutation_sym PS)). apply in_seq. lia. }
  assert (Sk : forall k, (k < n)%nat -> (nth k sg 0 < n)%nat) by (intros k Hk; apply In_sg, nth_In; lia).
  assert (Lp : length per' = n) by (unfold per'; rewrite len_permuted; auto).
  destruct GI as (G1 & G2 & G3 & G4). pose proof (conj G1 (conj G2 (conj G3 G4))) as GI.
  assert (GI' : good_input nd p per' dims' ranges').
  { split. { intros F. apply (f_equal (@length bool)) in F. rewrite Lp in F. destruct per; [congruence|discriminate]. }
    unfold dims', ranges'. rewrite !len_permuted, Lp, Ls. split; auto. split; auto. intros k Hk. unfold per'. rewrite !nth_permuted by lia. apply G4. apply Sk. auto. }
  destruct (interp_make_spec on nd p per dims ranges f GI Ef Wf) as (mats & _ & _ & HG & _). pose proof (HG g E) as IP.
  destruct (interp_make_spec on nd p per' dims' ranges' f' GI' Ef' Wf') as (mats' & _ & _ & HG' & _). pose proof (HG' g' E') as IP'.
  pose proof (s_dim _ _ _ _ _ _ _ _ IP) as SD. pose proof (s_dim _ _ _ _ _ _ _ _ IP') as SD'. set (s := if_spline g) in *. set (s' := if_spline g') in *. rewrite Lp in SD'. fold n in SD.
  assert (DF : forall k y o, (k < n)%nat -> dfun s' k y o = dfun s (nth k sg 0%nat) y o).
  { intros k y o Hk. apply (same_dfun nd p per dims ranges f g mats per' dims' ranges' f' g' mats'); auto; try (apply Sk; auto); try lia.
    - unfold per'. apply nth_permuted. lia.
    - unfold dims'. apply nth_permuted. lia.
    - unfold ranges'. apply nth_permuted. lia. }
  set (W := ddims nd per dims). set (W' := ddims nd per' dims').
  assert (LW : length W = n) by apply ddims_length. assert (LW' : length W' = n) by (unfold W'; rewrite ddims_length; auto).
  assert (EW : forall k, (k < n)%nat -> nth k W' 0%nat = nth (nth k sg 0%nat) W 0%nat).
  { intros k Hk. unfold W, W'. rewrite !ddims_nth by (rewrite ?Lp; auto; apply Sk; auto). unfold per', dims'. rewrite !nth_permuted by lia. auto. }
  assert (DB : forall ys os c, tensor (dbas s' (permuted 0 sg ys) (permuted 0%nat sg os)) (fun idx => c (unperm n sg idx)) = tensor (dbas s ys os) c).
  { intros ys os c. rewrite !dbas_dfun, SD, SD'. rewrite <- (tensor_permuted n (fun d => dfun s d (nth d ys 0) (nth d os 0%nat)) sg c PS).
    f_equal. apply (nth_ext' _ _ (0%nat, fun _ => 0)).
    - rewrite !map_length, seq_length. auto.
    - intros k Hk. rewrite map_length, seq_length in Hk. rewrite (map_seq_nth (fun d => dfun s' d (nth d (permuted 0 sg ys) 0) (nth d (permuted 0%nat sg os) 0%nat))) by auto.
      rewrite !nth_permuted by lia. rewrite DF by auto.
      rewrite (nth_indep _ (0%nat, fun _ => 0) (dfun s 0%nat (nth 0 ys 0) (nth 0 os 0%nat))) by (rewrite map_length; lia).
      rewrite (map_nth (fun d => dfun s d (nth d ys 0) (nth d os 0%nat))). auto. }
  assert (PZ : permuted 0%nat sg (repeat 0%nat n) = repeat 0%nat n).
  { apply (nth_ext' _ _ 0%nat); [rewrite len_permuted, repeat_length; auto|]. intros k Hk. rewrite len_permuted in Hk. rewrite nth_permuted, !nth_repeat by auto. auto. }
  destruct (reproduce on nd p per' dims' ranges' f' g' mats' GI' IP' (fun idx => ctrl_at Rops s (unperm n sg idx))) with (xs := permuted 0 sg xs) (orders := permuted 0%nat sg orders) as [R1 R2];
    try (rewrite len_permuted; lia).
  - intros idx' V'. pose proof (valid_length _ _ V') as Li. fold W' in V', Li. rewrite Lp. fold s'.
    set (idx := unperm n sg idx').
    assert (EI : idx' = permuted 0%nat sg idx).
    { unfold permuted, idx, unperm. rewrite <- (map_assign sg idx' (fun _ => 0%nat) ND) at 1 by lia. apply map_ext_in. intros d Hd.
      apply In_sg in Hd. symmetry. apply (map_seq_nth (assign sg idx' (fun _ => 0%nat))). auto. }
    assert (V : valid W idx).
    { apply valid_nth; [unfold idx, unperm; rewrite map_length, seq_length; auto|]. rewrite LW. intros d Hd.
      destruct (In_nth sg d 0%nat (proj2 (In_sg d) Hd)) as (k & Hk & <-). rewrite Ls in Hk.
      rewrite <- EW by auto. rewrite <- nth_permuted by lia. rewrite <- EI. rewrite valid_nth in V' by auto. apply V'. lia. }
    rewrite EI at 1. rewrite HD by (apply (valid_W_dims nd per dims G2); auto).
    assert (EGP : grid_point nd per' dims' ranges' idx' = permuted 0 sg (grid_point nd per dims ranges idx)).
    { apply (nth_ext' _ _ 0).
      - rewrite len_permuted. unfold grid_point. rewrite map_length, seq_length. lia.
      - intros k Hk. unfold grid_point in Hk. rewrite map_length, seq_length in Hk. rewrite Lp in Hk. rewrite nth_permuted by lia.
        unfold grid_point. rewrite !map_seq_nth by (rewrite ?Lp; auto; apply Sk; auto).
        unfold coordinate, ranges', per', dims'. rewrite !nth_permuted by lia. rewrite EI. rewrite nth_permuted by lia. auto. }
    rewrite EGP. rewrite <- PZ. rewrite DB.
    pose proof (s_value nd p per dims ranges f g mats GI IP idx G2 (valid_W_dims nd per dims G2 idx V)) as SV. fold s in SV.
    assert (ER : representative nd per dims idx = idx).
    { rewrite valid_nth in V by (unfold idx, unperm; rewrite map_length, seq_length; auto). rewrite LW in V.
      unfold representative. apply (nth_ext' _ _ 0%nat).
      - unfold idx, unperm. rewrite !map_length, !seq_length. auto.
      - intros d Hd. rewrite map_length, seq_length in Hd. rewrite map_seq_nth by auto. specialize (V d Hd). unfold W in V. rewrite ddims_nth in V by auto.
        destruct (nth d per false); auto. apply Nat.mod_small. auto. }
    rewrite ER in SV. rewrite <- SV. rewrite sval_dbas, SD. reflexivity.
  - intros k Hk. rewrite Lp in Hk. unfold ranges', per', dims'. rewrite !nth_permuted by lia. apply C. apply Sk. auto.
  - rewrite R1, R2. rewrite Lp. fold s'. rewrite <- PZ. rewrite !DB.
    rewrite (s_eval nd p per dims ranges f g mats GI IP) by auto. rewrite (s_derivative nd p per dims ranges f g mats GI IP) by auto.
    fold s. rewrite sval_dbas, SD. auto.
Qed.

(** ** Products and constant directions *)
Lemma value_tensor nd p per dims ranges f g mats : good_input nd p per dims ranges -> interpolant nd p per dims ranges f g mats ->
  forall idx, valid (ddims nd per dims) idx ->
    val_at f idx = tensor (dbas (if_spline g) (grid_point nd per dims ranges idx) (repeat 0%nat (length per))) (ctrl_at Rops (if_spline g)).
Proof.
  intros GI IP idx V. pose proof (proj1 (proj2 GI)) as Ld. pose proof (valid_length _ _ V) as Li. rewrite ddims_length in Li.
  pose proof (s_value nd p per dims ranges f g mats GI IP idx Ld (valid_W_dims nd per dims Ld idx V)) as SV.
  assert (ER : representative nd per dims idx = idx).
  { rewrite valid_nth in V by (rewrite ddims_length; auto). rewrite ddims_length in V.
    unfold representative. apply (nth_ext' _ _ 0%nat).
    - rewrite map_length, seq_length. auto.
    - intros d Hd. rewrite map_length, seq_length in Hd. rewrite map_seq_nth by auto. specialize (V d Hd). rewrite ddims_nth in V by auto.
      destruct (nth d per false); auto. apply Nat.mod_small. auto. }
  rewrite ER in SV. rewrite <- SV. rewrite sval_dbas. rewrite (s_dim _ _ _ _ _ _ _ _ IP). reflexivity.
Qed.

Lemma good_app nd p per1 per2 dims1 dims2 ranges1 ranges2 :
  good_input nd p per1 dims1 ranges1 -> good_input nd p per2 dims2 ranges2 ->
  good_input nd p (per1 ++ per2) (dims1 ++ dims2) (ranges1 ++ ranges2).
Proof.
  intros (A1 & A2 & A3 & A4) (B1 & B2 & B3 & B4). split; [destruct per1; [congruence|discriminate]|].
  rewrite !app_length. split; [lia|]. split; [lia|]. intros d Hd.
  destruct (Nat.lt_ge_cases d (length per1)) as [L|L].
  - rewrite !app_nth1 by lia. apply A4. auto.
  - rewrite !app_nth2 by lia. rewrite A2, A3. apply B4. lia.
Qed.

Lemma zeros_repeat m : forallb (Nat.eqb 0) (repeat 0%nat m) = true.
Proof. induction m; auto. Qed.

Section Append.
Variables (on nd : bool) (p : nat) (per1 per2 : list bool) (dims1 dims2 : list nat) (ranges1 ranges2 : list (xrange R))
  (f1 f : MeshM.mesh R) (g1 g : interp R) (mats1 mats : list mat).
Hypothesis G1 : good_input nd p per1 dims1 ranges1.
Hypothesis G2 : good_input nd p per2 dims2 ranges2.
Hypothesis I1 : interpolant nd p per1 dims1 ranges1 f1 g1 mats1.
Hypothesis IP : interpolant nd p (per1 ++ per2) (dims1 ++ dims2) (ranges1 ++ ranges2) f g mats.
Let n1 := length per1.
Let n2 := length per2.
Let s := if_spline g.
Let s1 := if_spline g1.

Lemma dbas_append x1 x2 o1 o2 : length x1 = n1 -> length o1 = n1 ->
  dbas s (x1 ++ x2) (o1 ++ o2) = dbas s1 x1 o1 ++ map (fun d => dfun s (n1 + d) (nth d x2 0) (nth d o2 0%nat)) (seq 0 n2).
Proof.
  intros Lx Lo. rewrite !dbas_dfun. unfold s. rewrite (s_dim _ _ _ _ _ _ _ _ IP), app_length. unfold s1. rewrite (s_dim _ _ _ _ _ _ _ _ I1). fold n1 n2 s s1.
  rewrite seq_app, map_app. f_equal.
  - apply map_ext_seq. intros d Hd. rewrite !app_nth1 by lia.
    destruct G1 as (A1 & A2 & A3 & A4).
    apply (same_dfun nd p per1 dims1 ranges1 f1 g1 mats1 (per1 ++ per2) (dims1 ++ dims2) (ranges1 ++ ranges2) f g mats); auto; try (rewrite app_length; fold n1; lia); apply app_nth1; fold n1; lia.
  - apply (nth_ext' _ _ (0%nat, fun _ => 0)); [rewrite !map_length, !seq_length; auto|]. intros d Hd. rewrite map_length, seq_length in Hd.
    rewrite (map_seq_nth (fun d => dfun s (n1 + d) (nth d x2 0) (nth d o2 0%nat))) by auto.
    rewrite (nth_indep _ (0%nat, fun _ => 0) (dfun s 0%nat (nth 0 (x1 ++ x2) 0) (nth 0 (o1 ++ o2) 0%nat))) by (rewrite map_length, seq_length; auto).
    rewrite (map_nth (fun d => dfun s d (nth d (x1 ++ x2) 0) (nth d (o1 ++ o2) 0%nat))). rewrite seq_nth by auto. rewrite !app_nth2 by lia.
    f_equal; f_equal; lia.
Qed.

Lemma grid_append i1 i2 : length i1 = n1 ->
  grid_point nd (per1 ++ per2) (dims1 ++ dims2) (ranges1 ++ ranges2) (i1 ++ i2) = grid_point nd per1 dims1 ranges1 i1 ++ grid_point nd per2 dims2 ranges2 i2.
Proof.
  intros L. destruct G1 as (A1 & A2 & A3 & A4). fold n1 in A2, A3. unfold grid_point. rewrite app_length, seq_app, map_app. fold n1 n2. f_equal.
  - apply map_ext_seq. intros d Hd. unfold coordinate. rewrite !app_nth1 by (fold n1; lia). auto.
  - apply (nth_ext' _ _ 0); [rewrite !map_length, !seq_length; auto|]. intros d Hd. rewrite map_length, seq_length in Hd.
    rewrite (map_seq_nth (fun d => coordinate nd per2 dims2 ranges2 d (nth d i2 0%nat))) by auto.
    set (F := fun d => coordinate nd (per1 ++ per2) (dims1 ++ dims2) (ranges1 ++ ranges2) d (nth d (i1 ++ i2) 0%nat)).
    rewrite (nth_indep _ 0 (F 0%nat)) by (rewrite map_length, seq_length; auto). rewrite (map_nth F), seq_nth by auto.
    unfold F, coordinate. rewrite !app_nth2 by (fold n1; lia). rewrite A2, A3, L. unfold n1. repeat f_equal; lia.
Qed.

Lemma valid_append idx : valid (ddims nd (per1 ++ per2) (dims1 ++ dims2)) idx ->
  exists i1 i2, idx = i1 ++ i2 /\ valid (ddims nd per1 dims1) i1 /\ valid (ddims nd per2 dims2) i2 /\ length i1 = n1.
Proof.
  intros V. destruct G1 as (A1 & A2 & A3 & A4). destruct G2 as (B1 & B2 & B3 & B4).
  pose proof (valid_length _ _ V) as L. rewrite ddims_length, app_length in L. fold n1 n2 in L.
  rewrite valid_nth in V by (rewrite ddims_length, app_length; fold n1 n2; lia). rewrite ddims_length, app_length in V. fold n1 n2 in V.
  exists (firstn n1 idx), (skipn n1 idx). split; [symmetry; apply firstn_skipn|].
  assert (L1 : length (firstn n1 idx) = n1) by (rewrite firstn_length; lia).
  split; [|split; auto].
  - apply valid_nth; [rewrite ddims_length; auto|]. rewrite ddims_length. intros d Hd. specialize (V d ltac:(unfold n1; lia)).
    rewrite ddims_nth in * by (rewrite ?app_length; fold n1; auto; lia). rewrite !app_nth1 in V by (fold n1; lia).
    rewrite <- (firstn_skipn n1 idx), app_nth1 in V by (fold n1 in Hd; lia). auto.
  - apply valid_nth; [rewrite ddims_length, skipn_length; fold n2; lia|]. rewrite ddims_length. intros d Hd. specialize (V (n1 + d)%nat ltac:(unfold n2; lia)).
    rewrite ddims_nth in * by (rewrite ?app_length; fold n1; auto; lia). rewrite !app_nth2 in V by (fold n1; lia). rewrite A2 in V. fold n1 in V.
    rewrite <- (firstn_skipn n1 idx), app_nth2 in V by lia. rewrite L1 in V. replace (n1 + d - n1)%nat with d in V by lia. auto.
Qed.

Lemma countable_append x1 x2 : length x1 = n1 -> countable_point nd per1 dims1 ranges1 x1 -> countable_point nd per2 dims2 ranges2 x2 ->
  countable_point nd (per1 ++ per2) (dims1 ++ dims2) (ranges1 ++ ranges2) (x1 ++ x2).
Proof.
  intros L C1 C2 d Hd. destruct G1 as (A1 & A2 & A3 & A4). destruct G2 as (B1 & B2 & B3 & B4). fold n1 in A2, A3. rewrite app_length in Hd. fold n1 n2 in Hd.
  destruct (Nat.lt_ge_cases d n1) as [H|H].
  - rewrite !app_nth1 by (fold n1; lia). apply C1. auto.
  - rewrite !app_nth2 by (fold n1; lia). rewrite A2, A3, L. fold n1. apply C2. fold n2. lia.
Qed.

Lemma rep_append : repeat 0%nat (length (per1 ++ per2)) = repeat 0%nat n1 ++ repeat 0%nat n2.
Proof. rewrite app_length. apply repeat_app. Qed.

Lemma len_dbas1 x o : length (dbas s1 x o) = n1.
Proof. apply (len_dbas nd p per1 dims1 ranges1 f1 g1 mats1 I1). Qed.

(** Data not depending on the last variables. *)
Lemma independent_append : independent_data dims1 dims2 f1 f ->
  forall x1 x2 o1 o2, length x1 = n1 -> length x2 = n2 -> length o1 = n1 -> length o2 = n2 ->
    countable_point nd per1 dims1 ranges1 x1 -> countable_point nd per2 dims2 ranges2 x2 ->
    interp_eval Rops g (x1 ++ x2) = interp_eval Rops g1 x1 /\
    interp_derivative Rops on g (x1 ++ x2) (o1 ++ o2) =
      if forallb (Nat.eqb 0) o2 then interp_derivative Rops on g1 x1 o1 else Ok 0.
Proof.
  intros HD x1 x2 o1 o2 L1 L2 Lo1 Lo2 C1 C2.
  pose proof (good_app nd p per1 per2 dims1 dims2 ranges1 ranges2 G1 G2) as GI.
  pose proof (s_good nd p _ _ _ f g mats GI IP) as SG. fold s in SG. pose proof (s_dim _ _ _ _ _ _ _ _ IP) as SD. fold s in SD. rewrite app_length in SD. fold n1 n2 in SD.
  assert (T2 : forall y o, length o = n2 -> tensor (map (fun d => dfun s (n1 + d) (nth d y 0) (nth d o 0%nat)) (seq 0 n2)) (fun _ => 1) = if forallb (Nat.eqb 0) o then 1 else 0).
  { intros y o Ho. rewrite tensor_const.
    assert (A : forall m e o', (e + m <= n2)%nat -> length o' = m -> (forall k, (k < m)%nat -> nth k o' 0%nat = nth (e + k) o 0%nat) ->
       fold_right (fun b r => sum (fst b) (snd b) * r) 1 (map (fun d => dfun s (n1 + d) (nth d y 0) (nth d o 0%nat)) (seq e m)) = if forallb (Nat.eqb 0) o' then 1 else 0).
    { induction m; intros e o' He Lo' Ho'; destruct o' as [|a o']; try discriminate; auto. cbn [seq map fold_right forallb].
      rewrite (IHm (S e) o'); auto; try lia.
      - pose proof (Ho' 0%nat ltac:(lia)) as E0. cbn in E0. rewrite Nat.add_0_r in E0. rewrite <- E0.
        unfold dfun. cbn [fst snd]. rewrite sum_dbas by (auto; lia). destruct a; cbn [Nat.eqb andb]; destruct (forallb _ _); ring.
      - intros k Hk. specialize (Ho' (S k) ltac:(lia)). cbn [nth] in Ho'. rewrite Ho'. f_equal. lia. }
    apply A; auto. }
  assert (TT : forall xa xb oa ob, length xa = n1 -> length oa = n1 -> length ob = n2 ->
     tensor (dbas s (xa ++ xb) (oa ++ ob)) (fun idx => ctrl_at Rops s1 (firstn n1 idx) * 1) = tensor (dbas s1 xa oa) (ctrl_at Rops s1) * if forallb (Nat.eqb 0) ob then 1 else 0).
  { intros xa xb oa ob La Loa Lob. rewrite dbas_append by auto. rewrite <- (T2 xb ob Lob). rewrite <- (len_dbas1 xa oa). apply tensor_app with (c2 := fun _ => 1). }
  assert (FZ : forallb (Nat.eqb 0) (repeat 0%nat n2) = true) by apply zeros_repeat.
  destruct (reproduce on nd p _ _ _ f g mats GI IP (fun idx => ctrl_at Rops s1 (firstn n1 idx) * 1)) with (xs := x1 ++ x2) (orders := o1 ++ o2) as [R1 R2].
  - intros idx V. destruct (valid_append idx V) as (i1 & i2 & -> & V1 & V2 & Li).
    rewrite (HD i1 i2) by (eapply valid_W_dims; [|eassumption]; first [apply G1|apply G2]).
    rewrite grid_append by auto. rewrite rep_append. fold s. rewrite TT.
    + rewrite FZ, Rmult_1_r. apply (value_tensor nd p per1 dims1 ranges1 f1 g1 mats1); auto.
    + unfold grid_point. rewrite map_length, seq_length. auto.
    + apply repeat_length.
    + apply repeat_length.
  - rewrite !app_length. fold n1 n2. lia.
  - rewrite !app_length. fold n1 n2. lia.
  - apply countable_append; auto.
  - rewrite R1, R2. fold s. rewrite rep_append. rewrite !TT by (auto; apply repeat_length).
    rewrite FZ, Rmult_1_r. rewrite (s_eval nd p per1 dims1 ranges1 f1 g1 mats1) by auto. rewrite (s_derivative nd p per1 dims1 ranges1 f1 g1 mats1) by auto.
    rewrite sval_dbas. rewrite (s_dim _ _ _ _ _ _ _ _ I1). fold n1 s1. split; auto.
    destruct (forallb _ o2); f_equal; ring.
Qed.

(** Products. *)
Lemma product_append f2 g2 mats2 : interpolant nd p per2 dims2 ranges2 f2 g2 mats2 -> product_data dims1 dims2 f1 f2 f ->
  forall x1 x2 o1 o2, length x1 = n1 -> length x2 = n2 -> length o1 = n1 -> length o2 = n2 ->
    countable_point nd per1 dims1 ranges1 x1 -> countable_point nd per2 dims2 ranges2 x2 ->
    (exists v1 v2, interp_eval Rops g1 x1 = Ok v1 /\ interp_eval Rops g2 x2 = Ok v2 /\ interp_eval Rops g (x1 ++ x2) = Ok (v1 * v2)) /\
    (exists v1 v2, interp_derivative Rops on g1 x1 o1 = Ok v1 /\ interp_derivative Rops on g2 x2 o2 = Ok v2 /\
       interp_derivative Rops on g (x1 ++ x2) (o1 ++ o2) = Ok (v1 * v2)).
Proof.
  intros I2 HD x1 x2 o1 o2 L1 L2 Lo1 Lo2 C1 C2.
  pose proof (good_app nd p per1 per2 dims1 dims2 ranges1 ranges2 G1 G2) as GI. set (s2 := if_spline g2).
  destruct G1 as (A1 & A2 & A3 & A4). fold n1 in A2, A3.
  assert (TT : forall xa xb oa ob, length xa = n1 -> length oa = n1 -> length ob = n2 ->
     tensor (dbas s (xa ++ xb) (oa ++ ob)) (fun idx => ctrl_at Rops s1 (firstn n1 idx) * ctrl_at Rops s2 (skipn n1 idx)) =
     tensor (dbas s1 xa oa) (ctrl_at Rops s1) * tensor (dbas s2 xb ob) (ctrl_at Rops s2)).
  { intros xa xb oa ob La Loa Lob. rewrite dbas_append by auto.
    replace (map (fun d => dfun s (n1 + d) (nth d xb 0) (nth d ob 0%nat)) (seq 0 n2)) with (dbas s2 xb ob).
    - rewrite <- (len_dbas1 xa oa). apply tensor_app.
    - rewrite dbas_dfun. unfold s2. rewrite (s_dim _ _ _ _ _ _ _ _ I2). apply map_ext_seq. intros d Hd. symmetry.
      apply (same_dfun nd p per2 dims2 ranges2 f2 g2 mats2 (per1 ++ per2) (dims1 ++ dims2) (ranges1 ++ ranges2) f g mats); auto; try (rewrite app_length; fold n1 n2; fold n2 in Hd; lia);
        rewrite app_nth2 by (fold n1; lia); f_equal; fold n1; lia. }
  destruct (reproduce on nd p _ _ _ f g mats GI IP (fun idx => ctrl_at Rops s1 (firstn n1 idx) * ctrl_at Rops s2 (skipn n1 idx))) with (xs := x1 ++ x2) (orders := o1 ++ o2) as [R1 R2].
  - intros idx V. destruct (valid_append idx V) as (i1 & i2 & -> & V1 & V2 & Li).
    rewrite (HD i1 i2) by (eapply valid_W_dims; [|eassumption]; first [exact A2|apply G2]).
    rewrite grid_append by auto. rewrite rep_append. fold s. rewrite TT.
    + rewrite (value_tensor nd p per1 dims1 ranges1 f1 g1 mats1), (value_tensor nd p per2 dims2 ranges2 f2 g2 mats2); auto.
    + unfold grid_point. rewrite map_length, seq_length. auto.
    + apply repeat_length.
    + apply repeat_length.
  - rewrite !app_length. fold n1 n2. lia.
  - rewrite !app_length. fold n1 n2. lia.
  - apply countable_append; auto.
  - rewrite R1, R2. fold s. rewrite rep_append. rewrite !TT by (auto; apply repeat_length).
    rewrite (s_eval nd p per1 dims1 ranges1 f1 g1 mats1) by auto. rewrite (s_derivative nd p per1 dims1 ranges1 f1 g1 mats1) by auto.
    rewrite (s_eval nd p per2 dims2 ranges2 f2 g2 mats2) by auto. rewrite (s_derivative nd p per2 dims2 ranges2 f2 g2 mats2) by auto.
    rewrite !sval_dbas. rewrite (s_dim _ _ _ _ _ _ _ _ I1), (s_dim _ _ _ _ _ _ _ _ I2). fold n1 n2 s1 s2.
    split; eexists; eexists; repeat split.
Qed.
End Append.

Theorem product_interpolation on nd p per1 per2 dims1 dims2 ranges1 ranges2 f1 f2 f g1 g2 g :
  good_input nd p per1 dims1 ranges1 -> good_input nd p per2 dims2 ranges2 ->
  m_dims f1 = dims1 -> wf_mesh f1 -> m_dims f2 = dims2 -> wf_mesh f2 -> m_dims f = dims1 ++ dims2 -> wf_mesh f ->
  product_data dims1 dims2 f1 f2 f ->
  interp_make Rops on nd p per1 f1 ranges1 = Ok g1 -> interp_make Rops on nd p per2 f2 ranges2 = Ok g2 ->
  interp_make Rops on nd p (per1 ++ per2) f (ranges1 ++ ranges2) = Ok g ->
  forall x1 x2 o1 o2, length x1 = length per1 -> length x2 = length per2 -> length o1 = length per1 -> length o2 = length per2 ->
    countable_point nd per1 dims1 ranges1 x1 -> countable_point nd per2 dims2 ranges2 x2 ->
    (exists v1 v2, interp_eval Rops g1 x1 = Ok v1 /\ interp_eval Rops g2 x2 = Ok v2 /\ interp_eval Rops g (x1 ++ x2) = Ok (v1 * v2)) /\
    (exists v1 v2, interp_derivative Rops on g1 x1 o1 = Ok v1 /\ interp_derivative Rops on g2 x2 o2 = Ok v2 /\
       interp_derivative Rops on g (x1 ++ x2) (o1 ++ o2) = Ok (v1 * v2)).
Proof.
  intros G1 G2 E1 W1 E2 W2 E W HD M1 M2 M.
  destruct (interp_make_spec on nd p per1 dims1 ranges1 f1 G1 E1 W1) as (mats1 & _ & _ & H1 & _).
  destruct (interp_make_spec on nd p per2 dims2 ranges2 f2 G2 E2 W2) as (mats2 & _ & _ & H2 & _).
  destruct (interp_make_spec on nd p _ _ _ f (good_app nd p per1 per2 dims1 dims2 ranges1 ranges2 G1 G2) E W) as (mats & _ & _ & H & _).
  apply (product_append on nd p per1 per2 dims1 dims2 ranges1 ranges2 f1 f g1 g mats1 mats G1 G2 (H1 g1 M1) (H g M) f2 g2 mats2 (H2 g2 M2) HD).
Qed.

Theorem independent_interpolation on nd p per1 per2 dims1 dims2 ranges1 ranges2 f1 f g1 g :
  good_input nd p per1 dims1 ranges1 -> good_input nd p per2 dims2 ranges2 ->
  m_dims f1 = dims1 -> wf_mesh f1 -> m_dims f = dims1 ++ dims2 -> wf_mesh f ->
  independent_data dims1 dims2 f1 f ->
  interp_make Rops on nd p per1 f1 ranges1 = Ok g1 ->
  interp_make Rops on nd p (per1 ++ per2) f (ranges1 ++ ranges2) = Ok g ->
  forall x1 x2 o1 o2, length x1 = length per1 -> length x2 = length per2 -> length o1 = length per1 -> length o2 = length per2 ->
    countable_point nd per1 dims1 ranges1 x1 -> countable_point nd per2 dims2 ranges2 x2 ->
    interp_eval Rops g (x1 ++ x2) = interp_eval Rops g1 x1 /\
    interp_derivative Rops on g (x1 ++ x2) (o1 ++ o2) =
      if forallb (Nat.eqb 0) o2 then interp_derivative Rops on g1 x1 o1 else Ok 0.
Proof.
  intros G1 G2 E1 W1 E W HD M1 M.
  destruct (interp_make_spec on nd p per1 dims1 ranges1 f1 G1 E1 W1) as (mats1 & _ & _ & H1 & _).
  destruct (interp_make_spec on nd p _ _ _ f (good_app nd p per1 per2 dims1 dims2 ranges1 ranges2 G1 G2) E W) as (mats & _ & _ & H & _).
  apply (independent_append on nd p per1 per2 dims1 dims2 ranges1 ranges2 f1 f g1 g mats1 mats G1 G2 (H1 g1 M1) (H g M) HD).
Qed.
