(** Moved grids give moved interpolants. *)
From Coq Require Import List Arith Lia Bool ZArith Reals Lra FunctionalExtensionality.
From Coquelicot Require Import Coquelicot.
From Verif Require Import Base Num MeshM SpecMesh MeshProofs ProgM BandM LUM SplineM InterpM.
From Verif Require Import SumR DenseLU SpecBand BandProofs MulProofs LUProofs LUConv SpecSpline SpecSplineObj SplineProofs BasisProofs BetaProofs TensorR EvalR SplineTop SplineCalc SpecInterp KnotProofs KnotShape CoefProofs SolverProofs RoundProofs SolveProofs BuildProofs WeightProofs InterpProofs PerDom InterpTop InterpFinal PerPD PolyProofs SymBasis SpecSym.
Import ListNotations.
Open Scope R_scope.

(** ** Knots of moved coordinates *)
Lemma mean_moved p a b f : (0 < p)%nat -> mean p (fun j => a * f j + b) = a * mean p f + b.
Proof.
  intros Hp. unfold mean. replace (Rsum p (fun j => a * f j + b)) with (a * Rsum p f + INR p * b).
  - field. apply not_0_INR. lia.
  - rewrite !Rsum_sum. symmetry. etransitivity; [apply (SumR.sum_plus p (fun j => a * f j) (fun _ => b))|].
    f_equal; [apply (SumR.sum_scal p a f)|apply (SumR.sum_const p b)].
Qed.

Lemma ap_moved p N x x' a b : (1 <= p)%nat -> (p + 1 <= N)%nat -> (forall i, (i < N)%nat -> x' i = a * x i + b) ->
  forall i, ap_knot p N x' i = a * ap_knot p N x i + b.
Proof.
  intros Hp HN H i. unfold ap_knot. destruct (Nat.leb_spec i p); [apply H; lia|]. destruct (Nat.ltb_spec i N); [|apply H; lia].
  destruct (Nat.eqb_spec p 0); [lia|]. rewrite <- mean_moved by lia. apply mean_ext. intros j Hj. apply H. lia.
Qed.

Lemma ap_mirrored p N x x' a b : (1 <= p)%nat -> (p + 1 <= N)%nat -> (forall i, (i < N)%nat -> x' i = a * x (N - 1 - i)%nat + b) ->
  forall i, (i <= N + p)%nat -> ap_knot p N x' i = a * ap_knot p N x (N + p - i) + b.
Proof.
  intros Hp HN H i Hi. unfold ap_knot.
  destruct (Nat.leb_spec i p).
  - destruct (Nat.leb_spec (N + p - i) p); [lia|]. destruct (Nat.ltb_spec (N + p - i) N); [lia|]. rewrite H by lia. f_equal. f_equal. f_equal. lia.
  - destruct (Nat.ltb_spec i N).
    + destruct (Nat.leb_spec (N + p - i) p); [lia|]. destruct (Nat.ltb_spec (N + p - i) N); [|lia].
      destruct (Nat.eqb_spec p 0); [lia|]. rewrite <- mean_moved by lia. unfold mean. f_equal. rewrite !Rsum_sum.
      destruct p as [|q]; [lia|]. rewrite sum_flip. apply sum_ext. intros j Hj. rewrite H by lia. f_equal. f_equal. f_equal. lia.
    + destruct (Nat.leb_spec (N + p - i) p); [|lia]. rewrite H by lia. f_equal. f_equal. f_equal. lia.
Qed.

Lemma pext_adds m P x z i : (0 < m)%nat -> pext m P x (i + z * m) = pext m P x i + INR z * P.
Proof.
  intros Hm. induction z; [simpl; rewrite Nat.add_0_r; ring|]. rewrite S_INR.
  replace (i + S z * m)%nat with (i + z * m + m)%nat by lia. rewrite pext_add, IHz by auto. ring.
Qed.

Lemma pext_moved n x x' a b r : (0 < n)%nat -> (forall i, (i <= n)%nat -> x' i = a * pext n (x n - x 0%nat) x (i + r) + b) ->
  x' n - x' 0%nat = a * (x n - x 0%nat) /\
  forall i, pext n (x' n - x' 0%nat) x' i = a * pext n (x n - x 0%nat) x (i + r) + b.
Proof.
  intros Hn H. set (P := x n - x 0%nat) in *.
  assert (EP : x' n - x' 0%nat = a * P).
  { rewrite !H by lia. rewrite (Nat.add_comm n r), pext_add by auto. simpl. ring. }
  split; auto. intros i. rewrite EP. unfold pext at 1. pose proof (Nat.mod_upper_bound i n ltac:(lia)).
  rewrite H by lia. rewrite (Nat.div_mod i n) at 3 by lia.
  replace (n * (i / n) + i mod n + r)%nat with (i mod n + r + i / n * n)%nat by lia. rewrite pext_adds by auto. ring.
Qed.

Lemma pext_mirrored n x x' a b r C : (0 < n)%nat -> (forall i, (i <= n)%nat -> x' i = a * pext n (x n - x 0%nat) x (r + n - i) + b) ->
  x' n - x' 0%nat = - a * (x n - x 0%nat) /\
  forall i, (i <= C * n)%nat ->
    pext n (x' n - x' 0%nat) x' i = a * (pext n (x n - x 0%nat) x (r + n + C * n - i) - INR C * (x n - x 0%nat)) + b.
Proof.
  intros Hn H. set (P := x n - x 0%nat) in *.
  assert (EP : x' n - x' 0%nat = - a * P).
  { rewrite !H by lia. replace (r + n - 0)%nat with (r + n)%nat by lia. replace (r + n - n)%nat with r by lia. rewrite pext_add by auto. ring. }
  split; auto. intros i Hi. rewrite EP. unfold pext at 1. pose proof (Nat.mod_upper_bound i n ltac:(lia)) as U. pose proof (Nat.div_mod i n ltac:(lia)) as D.
  rewrite H by lia. assert (Q : (i / n <= C)%nat) by (apply Nat.div_le_upper_bound; lia).
  replace (r + n + C * n - i)%nat with (r + n - i mod n + (C - i / n) * n)%nat by nia. rewrite pext_adds by auto.
  rewrite minus_INR by auto. ring.
Qed.

Lemma per_moved p n x x' a b r : (p + 1 <= n)%nat -> (forall i, (i <= n)%nat -> x' i = a * pext n (x n - x 0%nat) x (i + r) + b) ->
  forall i, per_knot p n (x' n - x' 0%nat) x' i = a * per_knot p n (x n - x 0%nat) x (i + r) + b.
Proof.
  intros Hn H i. destruct (pext_moved n x x' a b r ltac:(lia) H) as [EP E]. unfold per_knot.
  destruct (Nat.even p).
  - rewrite !E. rewrite EP. replace (i + n - p - 1 + r)%nat with (i + r + n - p - 1)%nat by lia.
    replace (i + n - p + r)%nat with (i + r + n - p)%nat by lia. field.
  - rewrite !E, EP. replace (i + n - p + r)%nat with (i + r + n - p)%nat by lia. ring.
Qed.

Definition eps (p : nat) : nat := if Nat.even p then 1 else 0.

Lemma per_mirrored p n x x' a b r : (p + 1 <= n)%nat -> (forall i, (i <= n)%nat -> x' i = a * pext n (x n - x 0%nat) x (r + n - i) + b) ->
  forall i, (i <= 3 * n)%nat ->
    per_knot p n (x' n - x' 0%nat) x' i = a * per_knot p n (x n - x 0%nat) x (r + 3 * n + 2 * p + eps p - i) + (b - 2 * a * (x n - x 0%nat)).
Proof.
  intros Hn H i Hi. destruct (pext_mirrored n x x' a b r 4 ltac:(lia) H) as [EP E]. unfold per_knot, eps.
  destruct (Nat.even p).
  - rewrite !E by lia. rewrite EP. replace (r + n + 4 * n - (i + n - p - 1))%nat with (r + 3 * n + 2 * p + 1 - i + n - p)%nat by lia.
    replace (r + n + 4 * n - (i + n - p))%nat with (r + 3 * n + 2 * p + 1 - i + n - p - 1)%nat by lia. simpl INR. field.
  - rewrite !E, EP by lia. replace (r + n + 4 * n - (i + n - p))%nat with (r + 3 * n + 2 * p + 0 - i + n - p)%nat by lia. simpl INR. ring.
Qed.

(** ** Basis functions on any closed segment *)
Section Canon.
Variables (nd : bool) (p : nat) (per : list bool) (dims : list nat) (ranges : list (xrange R)) (f : MeshM.mesh R)
  (g : interp R) (mats : list mat).
Hypothesis GI : good_input nd p per dims ranges.
Hypothesis IP : interpolant nd p per dims ranges f g mats.
Let W := ddims nd per dims.
Let s := if_spline g.
Hypothesis Hp : (1 <= p)%nat.
Variable d : nat.
Let x := xs_of nd per dims ranges d.
Let N := nth d W 0%nat.
Hypothesis Hd : (d < length per)%nat.

Lemma beta_ap j y k : nth d per false = false -> (j < N)%nat -> (p <= k < N)%nat ->
  (k = p \/ ap_knot p N x k <= y) -> (k = (N - 1)%nat \/ y <= ap_knot p N x (k + 1)) ->
  beta s d j y = piece (ap_knot p N x) k p j y.
Proof.
  intros E Hj Hk H1 H2.
  pose proof (s_good nd p per dims ranges f g mats GI IP) as SG. pose proof (s_dim _ _ _ _ _ _ _ _ IP) as SD. fold s in SG, SD.
  pose proof (s_order _ _ _ _ _ _ _ _ IP) as SO. fold s in SO.
  pose proof (s_N nd p per dims ranges GI d Hd) as HN. fold W in HN. fold N in HN.
  destruct (s_ap nd p per dims ranges f g mats IP d Hd E) as [L V]. fold W in L, V. fold s in L, V. fold N in L, V. fold x in V.
  pose proof (s_incr nd p per dims ranges GI d Hd) as Hx. rewrite E in Hx. fold W in Hx. fold N in Hx. fold x in Hx.
  destruct (loc_spec s d y SG ltac:(rewrite SD; auto)) as [Hw Hs].
  unfold wrapped in Hw. rewrite (s_per_of _ _ _ _ _ _ _ _ IP), E in Hw. unfold beta. rewrite Hw in *. set (k0 := snd (loc s d y)) in *.
  unfold segment, last_of in Hs. rewrite SO, L in Hs. destruct Hs as (S1 & _ & S3 & S4). rewrite !V in S3, S4 by lia.
  set (K := ap_knot p N x) in *.
  assert (E0 : bpoly s d k0 j y = piece K k0 p j y).
  { unfold bpoly, nbasis. rewrite SO, L. rewrite (sum_single _ j).
    - unfold widx. rewrite (s_per_of _ _ _ _ _ _ _ _ IP), E, Nat.eqb_refl. apply piece_ext. intros i Hi. apply V. lia.
    - lia.
    - intros i _ Hi. unfold widx. rewrite (s_per_of _ _ _ _ _ _ _ _ IP), E. destruct (Nat.eqb_spec i j); auto. contradiction. }
  rewrite E0.
  assert (ST : forall i, (p <= i < N)%nat -> K i < K (i + 1)%nat) by (intros; apply ap_strict; auto; lia).
  assert (MO : forall i i', (i <= i')%nat -> K i <= K i') by (intros; apply ap_mono; auto; lia).
  assert (G : forall u v, (p <= u)%nat -> (v < N)%nat -> (u < v)%nat -> (u = (N - 1)%nat \/ y <= K (u + 1)%nat) -> (v = p \/ K v <= y) -> piece K u p j y = piece K v p j y).
  { intros u v Hu Hv Huv [Y1|Y1] [Y2|Y2]; try lia. pose proof (MO (u + 1)%nat v ltac:(lia)).
    assert (EY : y = K (u + 1)%nat) by lra. destruct (Nat.eq_dec v (u + 1)) as [->|Ne].
    - rewrite EY. apply piece_glue; auto. { apply ST. lia. } replace (u + 2)%nat with (u + 1 + 1)%nat by lia. apply ST. lia.
    - pose proof (MO (u + 1 + 1)%nat v ltac:(lia)). pose proof (ST (u + 1)%nat ltac:(lia)). lra. }
  destruct (Nat.lt_trichotomy k0 k) as [Lt|[->|Lt]]; auto.
  - apply G; auto; try lia. destruct S4; [left; lia|right; lra].
  - symmetry. apply G; auto; try lia. 
Qed.

Lemma seg_ap y : nth d per false = false -> exists k, (p <= k < N)%nat /\
  (k = p \/ ap_knot p N x k <= y) /\ (k = (N - 1)%nat \/ y <= ap_knot p N x (k + 1)).
Proof.
  intros E.
  pose proof (s_good nd p per dims ranges f g mats GI IP) as SG. pose proof (s_dim _ _ _ _ _ _ _ _ IP) as SD. fold s in SG, SD.
  pose proof (s_order _ _ _ _ _ _ _ _ IP) as SO. fold s in SO.
  pose proof (s_N nd p per dims ranges GI d Hd) as HN. fold W in HN. fold N in HN.
  destruct (s_ap nd p per dims ranges f g mats IP d Hd E) as [L V]. fold W in L, V. fold s in L, V. fold N in L, V. fold x in V.
  destruct (loc_spec s d y SG ltac:(rewrite SD; auto)) as [Hw Hs].
  unfold wrapped in Hw. rewrite (s_per_of _ _ _ _ _ _ _ _ IP), E in Hw. rewrite Hw in *. set (k0 := snd (loc s d y)) in *.
  unfold segment, last_of in Hs. rewrite SO, L in Hs. destruct Hs as (S1 & _ & S3 & S4). rewrite !V in S3, S4 by lia.
  exists k0. split; [lia|]. split; auto. destruct S4; [left; lia|right; lra].
Qed.

Lemma beta_per j y k z : nth d per false = true -> (p <= k)%nat ->
  per_knot p N (x N - x 0%nat) x k <= y + IZR z * (x N - x 0%nat) <= per_knot p N (x N - x 0%nat) x (k + 1) ->
  beta s d j y = wbas (per_knot p N (x N - x 0%nat) x) p N k j (y + IZR z * (x N - x 0%nat)).
Proof.
  intros E Hk Hy.
  pose proof (s_good nd p per dims ranges f g mats GI IP) as SG. pose proof (s_dim _ _ _ _ _ _ _ _ IP) as SD. fold s in SG, SD.
  pose proof (s_order _ _ _ _ _ _ _ _ IP) as SO. fold s in SO.
  pose proof (s_N nd p per dims ranges GI d Hd) as HN. fold W in HN. fold N in HN.
  destruct (s_pk nd p per dims ranges f g mats IP d Hd E) as [L V]. fold W in L, V. fold s in L, V. fold N in L, V. fold x in V.
  pose proof (s_incr nd p per dims ranges GI d Hd) as Hx. rewrite E in Hx. fold W in Hx. fold N in Hx. fold x in Hx.
  destruct (s_period nd p per dims ranges f g mats GI IP d Hd E) as (R1 & R2 & R3). fold W in R1, R3. fold s in R1, R2, R3. fold N in R1, R3. fold x in R1.
  set (P := x N - x 0%nat) in *. set (K := per_knot p N P x) in *.
  pose proof (half_cases p) as HC.
  assert (ST : forall i, K i < K (i + 1)%nat) by (intros; apply per_step; auto).
  assert (SH : forall i, K (i + N)%nat = K i + P) by (intros; apply per_shift; auto).
  assert (MO : forall i i', (i <= i')%nat -> K i <= K i') by (intros; apply per_mono; auto).
  destruct (loc_spec s d y SG ltac:(rewrite SD; auto)) as [Hw Hs].
  unfold wrapped in Hw. rewrite (s_per_of _ _ _ _ _ _ _ _ IP), E in Hw. unfold beta.
  set (y0 := fst (loc s d y)) in *. set (k0 := snd (loc s d y)) in *. destruct Hw as [(m & Hm) Hr]. rewrite R1 in Hm.
  assert (Hb : K p <= y0 <= K (N + p)%nat).
  { rewrite <- !V by lia. rewrite <- R2, <- R3. destruct (Rle_dec _ _); lra. }
  unfold segment, last_of in Hs. rewrite SO, L in Hs. destruct Hs as (S1 & _ & S3 & S4). rewrite !V in S3, S4 by lia.
  assert (B0 : K k0 <= y0 <= K (k0 + 1)%nat).
  { split; [destruct S3 as [->|S3]; lra|]. destruct S4 as [S4|S4]; [|lra]. pose proof (MO (N + p)%nat (k0 + 1)%nat ltac:(lia)). lra. }
  transitivity (wbas K p N k0 j y0).
  - rewrite bpoly_window by (rewrite ?SO; unfold nbasis; rewrite ?SO, ?L; lia). rewrite SO. unfold wbas. apply sum_ext. intros i Hi.
    unfold widx. rewrite (s_per_of _ _ _ _ _ _ _ _ IP), E. pose proof (s_num _ _ _ _ _ _ _ _ IP d) as SN. fold s W in SN. fold N in SN. rewrite SN.
    destruct (_ =? j)%nat; auto. apply piece_ext. intros i' Hi'. apply V. lia.
  - apply (wbas_any K p N P ST SH HN k0 k j y0 (y + IZR z * P) (z - m)); auto; try lia.
    rewrite Hm, minus_IZR. ring.
Qed.

Lemma beta_period j y z : nth d per false = true -> beta s d j (y + IZR z * (x N - x 0%nat)) = beta s d j y.
Proof.
  intros E. pose proof (s_N nd p per dims ranges GI d Hd) as HN. fold W in HN. fold N in HN.
  pose proof (s_incr nd p per dims ranges GI d Hd) as Hx. rewrite E in Hx. fold W in Hx. fold N in Hx. fold x in Hx.
  set (P := x N - x 0%nat) in *. set (K := per_knot p N P x) in *.
  destruct (wbas_rep K p N P ltac:(intros; apply per_step; auto) ltac:(intros; apply per_shift; auto) HN p y) as (k & m & Hk & Hy).
  rewrite (beta_per j y k m), (beta_per j _ k (m - z)); auto; try lia; fold P; fold K.
  - f_equal. rewrite minus_IZR. ring.
  - rewrite minus_IZR. lra.
  - lra.
Qed.
End Canon.

(** ** Sums over moved indices *)
Definition shuffles (n : nat) (q : nat -> nat) : Prop :=
  (forall i, (i < n)%nat -> (q i < n)%nat) /\ (forall i j, (i < n)%nat -> (j < n)%nat -> q i = q j -> i = j).

Lemma tensor_shuffle bs : forall qs c, length qs = length bs ->
  (forall d, (d < length bs)%nat -> shuffles (nth d (map fst bs) 0%nat) (nth d qs (fun i => i))) ->
  tensor (map2 (fun b q => (fst b, fun i => snd b (q i))) bs qs) (fun idx => c (map2 (fun (q : nat -> nat) i => q i) qs idx)) = tensor bs c.
Proof.
  induction bs as [|[n b] bs IH]; intros [|q qs] c L H; try discriminate; [reflexivity|]. cbn [map2 tensor fst snd].
  rewrite !Rsum_sum. destruct (H 0%nat ltac:(simpl; lia)) as [H1 H2]. cbn [map nth fst] in H1, H2.
  transitivity (sum n (fun i => (fun k => b k * tensor bs (fun idx => c (k :: idx))) (q i))).
  - apply sum_ext. intros i Hi. f_equal. apply (IH qs (fun idx => c (q i :: idx))); [simpl in L; lia|].
    intros d Hd. apply (H (S d)). simpl. lia.
  - apply (sum_perm_inj n (fun k => b k * tensor bs (fun idx => c (k :: idx))) q); auto.
Qed.

Lemma shuffle_add n r : (0 < n)%nat -> shuffles n (fun j => ((j + r) mod n)%nat).
Proof.
  intros Hn. split; [intros; apply Nat.mod_upper_bound; lia|]. intros i j Hi Hj E. apply mod_eq_iff in E as (z & E); auto.
  assert (z = 0)%Z by nia. lia.
Qed.
Lemma shuffle_sub n r : (0 < n)%nat -> (n <= r)%nat -> shuffles n (fun j => ((r - j) mod n)%nat).
Proof.
  intros Hn Hr. split; [intros; apply Nat.mod_upper_bound; lia|]. intros i j Hi Hj E. apply mod_eq_iff in E as (z & E); auto.
  assert (z = 0)%Z by nia. lia.
Qed.

(** ** Basis functions of the moved spline *)
Section Moved.
Variables (on nd : bool) (p : nat) (per : list bool) (dims : list nat) (ms : list move) (ranges ranges' : list (xrange R))
  (f f' : MeshM.mesh R) (g g' : interp R) (mats mats' : list mat).
Hypothesis GI : good_input nd p per dims ranges.
Hypothesis IP : interpolant nd p per dims ranges f g mats.
Hypothesis GI' : good_input nd p per dims ranges'.
Hypothesis IP' : interpolant nd p per dims ranges' f' g' mats'.
Hypothesis Hp : (1 <= p)%nat.
Hypothesis MG : moved_grid nd per dims ms ranges ranges'.
Hypothesis MD : moved_data nd per dims ms f f'.
Hypothesis NZ : forall d, (d < length per)%nat -> fst (fst (move_at ms d)) <> 0.
Let W := ddims nd per dims.
Let s := if_spline g.
Let s' := if_spline g'.

Lemma beta_moved d : (d < length per)%nat -> exists q, shuffles (nth d W 0%nat) q /\
  forall j y, (j < nth d W 0)%nat -> beta s' d j (move_point (move_at ms d) y) = beta s d (q j) y.
Proof.
  intros Hd. pose proof (NZ d Hd) as Ha. pose proof (MG d) as HM.
  pose proof (s_N nd p per dims ranges GI d Hd) as HN. fold W in HN.
  set (x := xs_of nd per dims ranges d). set (x' := xs_of nd per dims ranges' d).
  assert (HC : coords_num nd (nth d per false) (nth d dims 0%nat) = if nth d per false then (nth d W 0 + 1)%nat else nth d W 0%nat).
  { unfold coords_num, W. rewrite ddims_nth by auto. destruct (nth d per false); auto. }
  rewrite HC in HM. rewrite <- ddims_nth in HM by auto. fold W in HM.
  change (coordinate nd per dims ranges' d) with x' in HM. change (coordinate nd per dims ranges d) with x in HM.
  unfold moved_coordinate, move_point in *. destruct (move_at ms d) as [[a b] r]. cbn [fst snd] in *.
  set (N := nth d W 0%nat) in *.
  destruct (nth d per false) eqn:E.
  - pose proof (s_incr nd p per dims ranges GI d Hd) as Hx. rewrite E in Hx. fold W in Hx. fold N in Hx. fold x in Hx.
    pose proof (s_incr nd p per dims ranges' GI' d Hd) as Hx'. rewrite E in Hx'. fold W in Hx'. fold N in Hx'. fold x' in Hx'.
    pose proof (beta_per nd p per dims ranges f g mats GI IP Hp d Hd) as B. fold W in B. fold N in B. fold x in B. fold s in B.
    pose proof (beta_per nd p per dims ranges' f' g' mats' GI' IP' Hp d Hd) as B'. fold W in B'. fold N in B'. fold x' in B'. fold s' in B'.
    destruct (Rlt_dec 0 a) as [Pa|Na].
    + assert (H : forall i, (i <= N)%nat -> x' i = a * pext N (x N - x 0%nat) x (i + r) + b) by (intros; apply HM; auto; lia).
      destruct (pext_moved N x x' a b r ltac:(lia) H) as [EP _]. pose proof (per_moved p N x x' a b r HN H) as EK.
      exists (fun j => ((j + r) mod N)%nat). split; [apply shuffle_add; lia|]. intros j y Hj.
      set (P := x N - x 0%nat) in *. set (P' := x' N - x' 0%nat) in *.
      set (K := per_knot p N P x) in *. set (K' := per_knot p N P' x') in *.
      destruct (wbas_rep K p N P ltac:(intros; apply per_step; auto) ltac:(intros; apply per_shift; auto) HN (p + r) y) as (k & m & Hk & Hy).
      rewrite (B ((j + r) mod N)%nat y k m) by (auto; try lia; lra).
      rewrite (B' j (a * y + b) (k - r)%nat m); auto; try lia.
      * replace (a * y + b + IZR m * P') with (a * (y + IZR m * P) + b) by (rewrite EP; ring).
        apply wbas_moved; auto. lia.
      * rewrite !EK. replace (k - r + r)%nat with k by lia. replace (k - r + 1 + r)%nat with (k + 1)%nat by lia.
        replace (a * y + b + IZR m * P') with (a * (y + IZR m * P) + b) by (rewrite EP; ring).
        split; apply Rplus_le_compat_r; apply Rmult_le_compat_l; lra.
    + assert (H : forall i, (i <= N)%nat -> x' i = a * pext N (x N - x 0%nat) x (r + N - i) + b) by (intros; apply HM; auto; lia).
      destruct (pext_mirrored N x x' a b r 0 ltac:(lia) H) as [EP _]. pose proof (per_mirrored p N x x' a b r HN H) as EK.
      set (M := (r + 3 * N + 2 * p + eps p)%nat) in *. assert (He : (eps p <= 1)%nat) by (unfold eps; destruct (Nat.even p); lia).
      exists (fun j => ((M - 1 - p + N * M - j) mod N)%nat). split; [apply shuffle_sub; unfold M; nia|]. intros j y Hj.
      set (P := x N - x 0%nat) in *. set (P' := x' N - x' 0%nat) in *.
      set (K := per_knot p N P x) in *. set (K' := per_knot p N P' x') in *.
      destruct (wbas_rep K p N P ltac:(intros; apply per_step; auto) ltac:(intros; apply per_shift; auto) HN (r + 3 * p + 1) y) as (k & m & Hk & Hy).
      rewrite (B ((M - 1 - p + N * M - j) mod N)%nat y k m) by (auto; try lia; lra).
      assert (EY : a * y + b + IZR (2 - m) * P' = a * (y + IZR m * P) + (b - 2 * a * P)) by (rewrite EP, minus_IZR; ring).
      rewrite (B' j (a * y + b) (M - 1 - k)%nat (2 - m)%Z); auto; try (unfold M; lia).
      * rewrite EY. apply (wbas_mirrored K K' p N a (b - 2 * a * P) M (3 * N)); auto; unfold M; lia.
      * rewrite EY. rewrite !EK by (unfold M; lia). replace (M - (M - 1 - k))%nat with (k + 1)%nat by (unfold M; lia).
        replace (M - (M - 1 - k + 1))%nat with k by (unfold M; lia).
        split; apply Rplus_le_compat_r; apply Rmult_le_compat_neg_l; lra.
  - pose proof (beta_ap nd p per dims ranges f g mats GI IP Hp d Hd) as B. fold W in B. fold N in B. fold x in B. fold s in B.
    pose proof (beta_ap nd p per dims ranges' f' g' mats' GI' IP' Hp d Hd) as B'. fold W in B'. fold N in B'. fold x' in B'. fold s' in B'.
    pose proof (seg_ap nd p per dims ranges f g mats GI IP Hp d Hd) as SE. fold W in SE. fold N in SE. fold x in SE.
    destruct (Rlt_dec 0 a) as [Pa|Na].
    + assert (H : forall i, (i < N)%nat -> x' i = a * x i + b) by (intros; apply HM; auto).
      pose proof (ap_moved p N x x' a b Hp HN H) as EK.
      exists (fun j => j). split; [split; auto|]. intros j y Hj. destruct (SE y E) as (k & Hk & H1 & H2).
      rewrite (B j y k) by auto. rewrite (B' j (a * y + b) k); auto.
      * rewrite <- (piece_affine (ap_knot p N x) a b) by auto. apply piece_ext. intros i Hi. apply EK.
      * destruct H1 as [H1|H1]; auto. right. rewrite EK. apply Rplus_le_compat_r. apply Rmult_le_compat_l; lra.
      * destruct H2 as [H2|H2]; auto. right. rewrite EK. apply Rplus_le_compat_r. apply Rmult_le_compat_l; lra.
    + assert (H : forall i, (i < N)%nat -> x' i = a * x (N - 1 - i)%nat + b) by (intros; apply HM; auto).
      pose proof (ap_mirrored p N x x' a b Hp HN H) as EK.
      exists (fun j => (N - 1 - j)%nat). split; [split; intros; lia|]. intros j y Hj. destruct (SE y E) as (k & Hk & H1 & H2).
      rewrite (B (N - 1 - j)%nat y k) by (auto; lia). rewrite (B' j (a * y + b) (N + p - 1 - k)%nat); auto; try lia.
      * rewrite <- (piece_mirror (ap_knot p N x) (N + p) k p) by lia. rewrite <- (piece_affine (fun i => ap_knot p N x (N + p - i)) a b) by auto.
        replace (N + p - 1 - p - (N - 1 - j))%nat with j by lia. apply piece_ext. intros i Hi. apply EK. lia.
      * destruct H2 as [H2|H2]; [left; lia|]. right. rewrite EK by lia. replace (N + p - (N + p - 1 - k))%nat with (k + 1)%nat by lia.
        apply Rplus_le_compat_r. apply Rmult_le_compat_neg_l; lra.
      * destruct H1 as [H1|H1]; [left; lia|]. right. rewrite EK by lia. replace (N + p - (N + p - 1 - k + 1))%nat with k by lia.
        apply Rplus_le_compat_r. apply Rmult_le_compat_neg_l; lra.
Qed.

Lemma moved_shuffles : exists qs, length qs = length per /\
  forall d, (d < length per)%nat -> shuffles (nth d W 0%nat) (nth d qs (fun i => i)) /\
    forall j y, (j < nth d W 0)%nat -> beta s' d j (move_point (move_at ms d) y) = beta s d (nth d qs (fun i => i) j) y.
Proof.
  assert (G : forall n, (n <= length per)%nat -> exists qs, length qs = n /\
    forall d, (d < n)%nat -> shuffles (nth d W 0%nat) (nth d qs (fun i => i)) /\
    forall j y, (j < nth d W 0)%nat -> beta s' d j (move_point (move_at ms d) y) = beta s d (nth d qs (fun i => i) j) y).
  { induction n; intros Hn; [exists []; split; auto; intros; lia|].
    destruct (IHn ltac:(lia)) as (qs & L & H). destruct (beta_moved n ltac:(lia)) as (q & Hq).
    exists (qs ++ [q]). rewrite app_length, L. simpl. split; [lia|]. intros d Hd. destruct (Nat.eq_dec d n) as [->|Ne].
    - rewrite app_nth2 by lia. rewrite L, Nat.sub_diag. exact Hq.
    - rewrite app_nth1 by lia. apply H. lia. }
  apply (G (length per)). auto.
Qed.

Lemma tensor_moved qs ys c : length qs = length per ->
  (forall d, (d < length per)%nat -> shuffles (nth d W 0%nat) (nth d qs (fun i => i)) /\
    forall j y, (j < nth d W 0)%nat -> beta s' d j (move_point (move_at ms d) y) = beta s d (nth d qs (fun i => i) j) y) ->
  tensor (map (fun d => (num_of s' d, fun j => beta s' d j (move_point (move_at ms d) (nth d ys 0)))) (seq 0 (length per)))
         (fun idx => c (map2 (fun (q : nat -> nat) i => q i) qs idx)) =
  tensor (map (fun d => (num_of s d, fun j => beta s d j (nth d ys 0))) (seq 0 (length per))) c.
Proof.
  intros L H. set (bs := map (fun d => (num_of s d, fun j => beta s d j (nth d ys 0))) (seq 0 (length per))).
  assert (Lb : length bs = length per) by (unfold bs; rewrite map_length, seq_length; auto).
  assert (NN : forall d, num_of s d = nth d W 0%nat) by (intros; apply (s_num _ _ _ _ _ _ _ _ IP)).
  assert (NN' : forall d, num_of s' d = nth d W 0%nat) by (intros; apply (s_num _ _ _ _ _ _ _ _ IP')).
  assert (EB : forall d, (d < length per)%nat -> nth d bs (0%nat, fun _ => 0) = (num_of s d, fun j => beta s d j (nth d ys 0))).
  { intros d Hd. unfold bs. apply (map_seq_nth (fun d => (num_of s d, fun j => beta s d j (nth d ys 0)))). auto. }
  assert (EF : forall d, (d < length per)%nat -> nth d (map fst bs) 0%nat = nth d W 0%nat).
  { intros d Hd. rewrite <- NN. change 0%nat with (fst (0%nat, fun _ : nat => 0)). rewrite map_nth, EB by auto. reflexivity. }
  rewrite <- (tensor_shuffle bs qs c) by (rewrite ?Lb; auto; intros d Hd; rewrite EF by auto; apply H; auto).
  apply tensor_ext_gen; auto.
  - rewrite map_map. cbn [fst].
    apply (nth_ext' _ _ 0%nat).
    + rewrite !map_length, map2_length, seq_length; lia.
    + intros d Hd. rewrite map_length, seq_length in Hd. rewrite (map_seq_nth (fun d => num_of s' d)) by auto.
      change 0%nat with (fst (0%nat, fun _ : nat => 0)). rewrite map_nth.
      rewrite (map2_nth _ _ _ d (0%nat, fun _ => 0) (fun i => i)) by lia. rewrite EB by auto. cbn [fst]. rewrite NN, NN'. auto.
  - intros d i Hd Hi. rewrite map_length, seq_length in Hd. rewrite map_map in Hi. cbn [fst] in Hi.
    rewrite (map_seq_nth (fun d => num_of s' d)) in Hi by auto. rewrite NN' in Hi.
    rewrite (map_seq_nth (fun d => (num_of s' d, fun j => beta s' d j (move_point (move_at ms d) (nth d ys 0))))) by auto.
    rewrite (map2_nth _ _ _ d (0%nat, fun _ => 0) (fun i => i)) by lia. rewrite EB by auto. cbn [fst snd].
    apply H; auto.
Qed.

Lemma moved_eval xs : length xs = length per -> countable_point nd per dims ranges xs -> countable_point nd per dims ranges' (moved_point per ms xs) ->
  interp_eval Rops g' (moved_point per ms xs) = interp_eval Rops g xs.
Proof.
  intros Lx C C'. destruct moved_shuffles as (qs & Lq & Hq).
  pose proof (s_dim _ _ _ _ _ _ _ _ IP) as SD. fold s in SD. pose proof (s_dim _ _ _ _ _ _ _ _ IP') as SD'. fold s' in SD'.
  assert (LW : length W = length per) by apply ddims_length.
  assert (Lm : length (moved_point per ms xs) = length per) by (unfold moved_point; rewrite map_length, seq_length; auto).
  assert (Ld : length dims = length per) by apply GI.
  assert (EV : forall c ys, length ys = length per -> tensor (dbas s' (moved_point per ms ys) (repeat 0%nat (length per))) (fun idx => c (map2 (fun (q : nat -> nat) i => q i) qs idx)) =
     tensor (map (fun d => (num_of s d, fun j => beta s d j (nth d ys 0))) (seq 0 (length per))) c).
  { intros c ys Ly. rewrite <- (tensor_moved qs ys c Lq Hq). unfold dbas. rewrite SD'. f_equal. apply map_ext_seq. intros d Hd. f_equal.
    apply functional_extensionality. intros j. rewrite nth_repeat. cbn [Derive_n]. unfold moved_point. rewrite map_seq_nth by auto. reflexivity. }
  destruct (reproduce on nd p per dims ranges' f' g' mats' GI' IP' (fun idx => ctrl_at Rops s (map2 (fun (q : nat -> nat) i => q i) qs idx))) with (xs := moved_point per ms xs) (orders := repeat 0%nat (length per))
    as [R _]; auto; [|apply repeat_length|].
  - intros idx V. pose proof (valid_W_dims nd per dims Ld idx V) as Vd. pose proof (valid_length _ _ V) as Li. fold W in Li.
    assert (Vn : forall d, (d < length per)%nat -> (nth d idx 0 < nth d W 0)%nat) by (rewrite valid_nth in V by auto; rewrite <- LW; exact V).
    rewrite (MD idx) by (try lia; intros d Hd; rewrite <- ddims_nth by auto; apply Vn; auto). fold s'.
    set (e := fun d => let m := move_at ms d in let i := nth d idx 0%nat in let N := nth d W 0%nat in
      if nth d per false then pext N (xs_of nd per dims ranges d N - xs_of nd per dims ranges d 0%nat) (xs_of nd per dims ranges d)
           (if Rlt_dec 0 (fst (fst m)) then i + snd m else snd m + N - i)%nat
      else xs_of nd per dims ranges d (if Rlt_dec 0 (fst (fst m)) then i else N - 1 - i)%nat).
    assert (EG : grid_point nd per dims ranges' idx = moved_point per ms (map e (seq 0 (length per)))).
    { unfold grid_point, moved_point. apply map_ext_seq. intros d Hd. rewrite map_seq_nth by auto. rewrite MG; auto.
      - rewrite <- ddims_nth by auto. fold W. unfold moved_coordinate, e. reflexivity.
      - specialize (Vn d Hd). unfold W in Vn. rewrite ddims_nth in Vn by auto. unfold coords_num. destruct (nth d per false); auto. lia. }
    rewrite EG. rewrite EV by (rewrite map_length, seq_length; auto).
    set (jdx := map _ (seq 0 (length per))).
    assert (Nj : forall d, (d < length per)%nat -> nth d jdx 0%nat = moved_index (nth d per false) (nth d W 0%nat) (move_at ms d) (nth d idx 0%nat)).
    { intros d Hd. unfold jdx. rewrite map_seq_nth by auto. unfold W. rewrite ddims_nth by auto. reflexivity. }
    assert (Bj : forall d, (d < length per)%nat -> (nth d jdx 0 < nth d W 0)%nat).
    { intros d Hd. rewrite Nj by auto. specialize (Vn d Hd). unfold moved_index. destruct (nth d per false); [apply Nat.mod_upper_bound; lia|].
      destruct (Rlt_dec _ _); lia. }
    assert (Vj : valid W jdx). { apply valid_nth; [unfold jdx; rewrite map_length, seq_length; auto|]. rewrite LW. auto. }
    pose proof (s_value nd p per dims ranges f g mats GI IP jdx Ld (valid_W_dims nd per dims Ld jdx Vj)) as SV. fold s in SV.
    assert (ER : representative nd per dims jdx = jdx).
    { unfold representative. apply (nth_ext' _ _ 0%nat).
      - rewrite map_length, seq_length. unfold jdx. rewrite map_length, seq_length. auto.
      - intros d Hd. rewrite map_length, seq_length in Hd. rewrite map_seq_nth by auto. specialize (Bj d Hd). unfold W in Bj. rewrite ddims_nth in Bj by auto.
        destruct (nth d per false); auto. apply Nat.mod_small. auto. }
    rewrite ER in SV. rewrite <- SV. unfold sval. rewrite SD. f_equal. apply map_ext_seq. intros d Hd. f_equal. apply functional_extensionality. intros j.
    unfold grid_point. rewrite !map_seq_nth by auto. rewrite Nj by auto. unfold e, moved_index.
    change (coordinate nd per dims ranges d) with (xs_of nd per dims ranges d).
    destruct (nth d per false) eqn:E; [|destruct (Rlt_dec _ _); reflexivity].
    unfold pext. rewrite INR_IZR_INZ. pose proof (beta_period nd p per dims ranges f g mats GI IP Hp d Hd) as BP.
    fold W in BP. fold s in BP. symmetry. apply BP. auto.
  - rewrite R. rewrite (s_eval nd p per dims ranges f g mats GI IP) by auto. f_equal. fold s'. rewrite EV by auto. unfold sval. fold s. rewrite SD. reflexivity.
Qed.
End Moved.

Theorem moved_interpolation on nd p per dims ms ranges ranges' f f' g g' :
  (1 <= p)%nat -> good_input nd p per dims ranges -> good_input nd p per dims ranges' ->
  m_dims f = dims -> wf_mesh f -> m_dims f' = dims -> wf_mesh f' ->
  (forall d, (d < length per)%nat -> fst (fst (move_at ms d)) <> 0) ->
  moved_grid nd per dims ms ranges ranges' -> moved_data nd per dims ms f f' ->
  interp_make Rops on nd p per f ranges = Ok g -> interp_make Rops on nd p per f' ranges' = Ok g' ->
  forall xs, length xs = length per -> countable_point nd per dims ranges xs -> countable_point nd per dims ranges' (moved_point per ms xs) ->
    interp_eval Rops g' (moved_point per ms xs) = interp_eval Rops g xs.
Proof.
  intros Hp GI GI' Ef Wf Ef' Wf' NZ MG MD E E'.
  destruct (interp_make_spec on nd p per dims ranges f GI Ef Wf) as (mats & _ & _ & HG & _).
  destruct (interp_make_spec on nd p per dims ranges' f' GI' Ef' Wf') as (mats' & _ & _ & HG' & _).
  apply (moved_eval on nd p per dims ms ranges ranges' f f' g g' mats mats' GI (HG g E) GI' (HG' g' E') Hp MG MD NZ).
Qed.
