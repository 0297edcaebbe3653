(** Data errors and approximation on grids that are nearly uniform or have no period. *)
From Coq Require Import List Arith Lia Bool ZArith Reals Lra FunctionalExtensionality.
From Coquelicot Require Import Coquelicot.
From Verif Require Import Base Num MeshM SpecMesh MeshProofs ProgM BandM LUM SplineM InterpM.
From Verif Require Import SumR DenseLU SpecBand BandProofs MulProofs LUProofs LUConv SpecSpline SpecSplineObj SplineProofs BasisProofs BetaProofs TensorR EvalProofs EvalR SplineTop SplineCalc SpecInterp KnotProofs KnotShape CoefProofs SolverProofs RoundProofs SolveProofs BuildProofs WeightProofs InterpProofs PerDom PerPD InterpTop InterpFinal AffineProofs PolyProofs SymBasis SymProofs SpecDims LinProofs RoundTensor
  SpecCurve VecTop MonoProofs MonoTop SpecStab StabProofs StabTop SpecSmooth SmoothTop SpecApprox ApproxProofs ApproxTop QuadProofs QuadTop SpecTame TameProofs TameAp TamePer.
Import ListNotations.
Open Scope R_scope.

Lemma uniform_coord nd per dims ranges d a b : nth d per false = false -> nth d ranges (Points []) = Uniform a b ->
  forall i, coordinate nd per dims ranges d i = a + INR i * ((b - a) / INR (nth d dims 0%nat - 1)).
Proof. intros Ep Er i. unfold coordinate. rewrite Ep, Er. reflexivity. Qed.

(** ** Data errors *)
Lemma tame_stable nd p per dims ranges d A :
  good_input nd p per dims ranges -> (p = 2 \/ p = 3)%nat -> tame nd p per dims ranges -> (d < length per)%nat ->
  col_good p (nth d per false) (nth d (ddims nd per dims) 0%nat) (gridx nd (nth d per false) (nth d dims 0%nat) (nth d ranges (Points []))) A ->
  stable (nth d (ddims nd per dims) 0%nat) A (tame_factor p).
Proof.
  intros GI P23 HT Hd CG. pose proof (HT d Hd) as T.
  pose proof (s_N nd p per dims ranges GI d Hd) as HN. pose proof (s_incr nd p per dims ranges GI d Hd) as Hx.
  change (gridx nd (nth d per false) (nth d dims 0%nat) (nth d ranges (Points []))) with (xs_of nd per dims ranges d) in CG.
  assert (EN : nth d (ddims nd per dims) 0%nat = distinct nd (nth d per false) (nth d dims 0%nat)) by (apply ddims_nth; auto).
  set (N := nth d (ddims nd per dims) 0%nat) in *. destruct (nth d per false) eqn:Ep.
  - change (coordinate nd per dims ranges d) with (xs_of nd per dims ranges d) in T. rewrite <- EN in T.
    set (x := xs_of nd per dims ranges d) in *.
    replace (tame_factor p) with (/ (2 * (if (p =? 2)%nat then 61 / 90 else 7 / 12) - 1)) by (destruct P23 as [-> | ->]; cbn; field).
    apply stable_weights; [destruct P23 as [-> | ->]; cbn; lra|].
    apply (per_rows p N x HN Hx T A P23 CG).
  - destruct T as (H2 & a & b & Er). assert (EN' : N = nth d dims 0%nat) by (rewrite EN; reflexivity). rewrite <- EN' in H2.
    pose proof (s_two nd p per dims ranges GI d Hd Ep) as HN2. fold N in HN2.
    set (x := xs_of nd per dims ranges d) in *. set (hh := (b - a) / INR (N - 1)).
    assert (Ex : forall i, x i = a + INR i * hh) by (intros i; unfold hh; rewrite EN'; apply (uniform_coord nd per dims ranges d); auto).
    assert (Hh : 0 < hh) by (pose proof (Hx 0%nat 1%nat ltac:(lia)) as Q; rewrite !Ex in Q; simpl in Q; lra).
    destruct P23 as [-> | ->].
    + apply (stable_scaled N A (w2 N)). exact (rows2 N a hh x Hh Ex HN2 A ltac:(lia) CG).
    + apply (stable_scaled N A (w3 N)). exact (rows3 N a hh x Hh Ex HN2 A ltac:(lia) CG).
Qed.

Lemma tame_noise on nd p per dims ranges f1 f2 g1 g2 eps :
  good_input nd p per dims ranges -> (p = 2 \/ p = 3)%nat -> tame nd p per dims ranges ->
  m_dims f1 = dims -> wf_mesh f1 -> m_dims f2 = dims -> wf_mesh f2 ->
  interp_make Rops on nd p per f1 ranges = Ok g1 -> interp_make Rops on nd p per f2 ranges = Ok g2 ->
  (forall idx, valid dims idx -> Rabs (val_at f1 idx - val_at f2 idx) <= eps) ->
  forall xs, length xs = length per -> countable_point nd per dims ranges xs -> in_grid nd per dims ranges xs ->
  exists u v, interp_eval Rops g1 xs = Ok u /\ interp_eval Rops g2 xs = Ok v /\ Rabs (u - v) <= tame_factor p ^ length per * eps.
Proof.
  intros GI P23 HT E1 W1 E2 W2 M1 M2 He xs Lx C Ig.
  apply (noise on nd p per dims ranges (tame_factor p) GI) with (f1 := f1) (f2 := f2); auto.
  intros d A Hd CG. apply (tame_stable nd p per dims ranges d A); auto.
Qed.

(** ** The places of the coefficients: means of [p] knots *)
Definition places_at (nd : bool) (p : nat) (per : list bool) (dims : list nat) (ranges : list (xrange R)) (d j : nat) : R :=
  let N := nth d (ddims nd per dims) 0%nat in let x := xs_of nd per dims ranges d in
  if nth d per false then greville (per_knot p N (x N - x 0%nat) x) p j else greville (ap_knot p N x) p j.

Lemma greville_bounds (t : nat -> R) p j lo hi : (1 <= p)%nat -> (forall l, (l < p)%nat -> lo <= t (j + 1 + l)%nat <= hi) -> lo <= greville t p j <= hi.
Proof.
  intros Hp H. assert (0 < INR p) by (apply lt_0_INR; lia). unfold greville.
  split; apply (Rmult_le_reg_r (INR p)); auto; unfold Rdiv; rewrite (Rmult_assoc _ (/ INR p)), Rinv_l, Rmult_1_r by lra; rewrite Rmult_comm, <- sum_const; apply sum_le; intros l Hl; apply H; auto.
Qed.

(** What the proofs need of one dimension. *)
Definition window (nd : bool) (per : list bool) (dims : list nat) (ranges : list (xrange R)) (s : spline R) (pos : nat -> nat -> R) (r : R) d y : Prop :=
  exists m (w q : nat -> R) (idx : nat -> nat) y',
    (forall e, (e < m)%nat -> 0 <= w e /\ same_at nd per dims ranges d (pos d (idx e)) (q e)) /\ (forall e, (e < m)%nat -> Rabs (q e - y') <= r) /\
    sum m w = 1 /\ sum m (fun e => w e * q e) = y' /\ same_at nd per dims ranges d y y' /\
    (forall e, (e < m)%nat -> (idx e < num_of s d)%nat) /\
    forall c, sum (num_of s d) (fun j => beta s d j y * c j) = sum m (fun e => w e * c (idx e)).

Lemma seg_core (K : nat -> R) k p y : (1 <= p <= k)%nat -> (forall i j, (i <= j)%nat -> K i <= K j) -> K k < K (k + 1)%nat -> K k <= y <= K (k + 1)%nat ->
  (forall e, (e < p + 1)%nat -> 0 <= piece K k p (k - p + e) y) /\ sum (p + 1) (fun e => piece K k p (k - p + e) y) = 1 /\
  sum (p + 1) (fun e => piece K k p (k - p + e) y * greville K p (k - p + e)) = y.
Proof.
  intros Hp KM KS Hy. assert (KM' : forall i j, (i <= j < k + p + 2)%nat -> K i <= K j) by (intros; apply KM; lia).
  split; [|split].
  - intros e He. apply (piece_nonneg K (k + p + 2)); auto; lia.
  - apply (piece_unity K (k + p + 2)); auto; lia.
  - assert (Hp0 : 0 < INR p) by (apply lt_0_INR; lia). apply (Rmult_eq_reg_l (INR p)); [|lra]. rewrite <- sum_scal.
    rewrite <- (greville_sum K (k + p + 2) k) with (p := p) (x := y); auto; try lia.
    apply sum_ext. intros e He. unfold greville. field. lra.
Qed.

(** Periodic knots are at most the distance of the data points apart. *)
Lemma per_knot_step p N x h i : (p + 1 <= N)%nat -> increasing (N + 1) x -> (forall i, (i < N)%nat -> x (i + 1)%nat - x i <= h) ->
  per_knot p N (x N - x 0%nat) x (i + 1) - per_knot p N (x N - x 0%nat) x i <= h.
Proof.
  intros Hp Hx Hh. set (P := x N - x 0%nat).
  assert (E : forall c, pext N P x (c + 1) - pext N P x c <= h).
  { intros c. rewrite (Nat.div_mod c N) by lia. set (q := (c / N)%nat). set (r := (c mod N)%nat).
    assert (r < N)%nat by (apply Nat.mod_upper_bound; lia). replace (N * q + r + 1)%nat with (r + 1 + q * N)%nat by lia. replace (N * q + r)%nat with (r + q * N)%nat by lia.
    assert (A : forall q r, pext N P x (r + q * N) = pext N P x r + INR q * P).
    { intros u v. induction u as [|u IH]; [simpl; rewrite Nat.add_0_r; ring|].
      replace (v + S u * N)%nat with (v + u * N + N)%nat by lia. rewrite pext_add, IH, S_INR by lia. ring. }
    rewrite !A. unfold P. rewrite !pext_in by lia. specialize (Hh r H). lra. }
  unfold per_knot. destruct (Nat.even p).
  - pose proof (E (i + N - p - 1)%nat) as E1. pose proof (E (i + N - p)%nat) as E2.
    replace (i + N - p - 1 + 1)%nat with (i + N - p)%nat in * by lia. replace (i + 1 + N - p - 1)%nat with (i + N - p)%nat by lia. replace (i + 1 + N - p)%nat with (i + N - p + 1)%nat by lia. lra.
  - pose proof (E (i + N - p)%nat) as E2. replace (i + 1 + N - p)%nat with (i + N - p + 1)%nat by lia. lra.
Qed.

Lemma steps_le (K : nat -> R) h c i : (forall i, K (i + 1)%nat - K i <= h) -> K (i + c)%nat - K i <= INR c * h.
Proof.
  intros H. induction c as [|c IH]; [rewrite Nat.add_0_r; simpl; lra|]. replace (i + S c)%nat with (i + c + 1)%nat by lia.
  pose proof (H (i + c)%nat). rewrite S_INR. lra.
Qed.

Lemma period_window nd p per dims ranges f g mats d y h :
  good_input nd p per dims ranges -> interpolant nd p per dims ranges f g mats -> (1 <= p)%nat ->
  (d < length per)%nat -> nth d per false = true -> mesh_width nd per dims ranges h ->
  window nd per dims ranges (if_spline g) (places_at nd p per dims ranges) (INR p * h) d y.
Proof.
  intros GI IP Hp1 Hd Ep MW. unfold window. set (N := nth d (ddims nd per dims) 0%nat).
  pose proof (s_N nd p per dims ranges GI d Hd) as HN. fold N in HN.
  pose proof (s_num nd p per dims ranges f g mats IP d) as SN. fold N in SN.
  pose proof (s_incr nd p per dims ranges GI d Hd) as Hx. rewrite Ep in Hx. fold N in Hx.
  unfold places_at. fold N. rewrite Ep. set (x := xs_of nd per dims ranges d) in *. set (P := x N - x 0%nat). set (K := per_knot p N P x).
  assert (EC : coords_num nd true (nth d dims 0%nat) = (N + 1)%nat) by (unfold N; rewrite ddims_nth by auto; rewrite Ep; reflexivity).
  assert (HS : forall i, K (i + 1)%nat - K i <= h).
  { intros i. apply per_knot_step; auto. intros c Hc. apply (MW d c Hd). rewrite Ep, EC. lia. }
  assert (EPer : period nd per dims ranges d = P).
  { unfold period, P. change (coordinate nd per dims ranges d) with x. f_equal. f_equal. unfold N. rewrite ddims_nth by auto. rewrite Ep. reflexivity. }
  assert (KS : forall i, K i < K (i + 1)%nat) by (intros; apply per_step; auto).
  assert (KM : forall i j, (i <= j)%nat -> K i <= K j) by (apply mono_steps; intros; left; apply KS).
  destruct (wbas_rep K p N P ltac:(intros; apply per_step; auto) ltac:(intros; apply per_shift; auto) HN p y) as (k & m & Hk & Hy).
  set (y' := y + IZR m * P) in *.
  destruct (seg_core K k p y' ltac:(lia) KM (KS k) ltac:(lra)) as (W0 & W1 & W2).
  exists (p + 1)%nat, (fun e => piece K k p (k - p + e) y'), (fun e => greville K p (k - p + e)), (fun e => ((k - p + e) mod N)%nat), y'.
  split; [|split; [|split; [|split; [|split; [|split]]]]]; auto.
  - intros e He. split; [apply W0; auto|]. unfold same_at. rewrite Ep, EPer. exists (Z.of_nat ((k - p + e) / N)). rewrite <- INR_IZR_INZ.
    rewrite (Nat.div_mod (k - p + e) N) at 1 by lia. set (q := ((k - p + e) / N)%nat). set (j := ((k - p + e) mod N)%nat).
    assert (SH : forall q i, K (i + q * N)%nat = K i + INR q * P).
    { intros u i. induction u as [|u IH]; [simpl; rewrite Nat.add_0_r; ring|]. replace (i + S u * N)%nat with (i + u * N + N)%nat by lia.
      assert (Q : K (i + u * N + N)%nat = K (i + u * N)%nat + P) by (apply per_shift; auto). rewrite Q, IH, S_INR. ring. }
    unfold greville. assert (0 < INR p) by (apply lt_0_INR; lia).
    rewrite (sum_ext p _ (fun l => K (j + 1 + l)%nat + INR q * P)).
    + rewrite sum_plus, sum_const. field. lra.
    + intros l Hl. rewrite <- SH. f_equal. lia.
  - intros e He. apply Rabs_le. assert (G : y' - INR p * h <= greville K p (k - p + e) <= y' + INR p * h); [|lra].
    assert (H0 : 0 <= h) by (specialize (HS 0%nat); pose proof (KS 0%nat); lra).
    apply greville_bounds; auto. intros l Hl. split.
    + pose proof (steps_le K h p (k + 1 - p) HS) as Q. replace (k + 1 - p + p)%nat with (k + 1)%nat in Q by lia.
      pose proof (KM (k + 1 - p)%nat (k - p + e + 1 + l)%nat ltac:(lia)). lra.
    + pose proof (steps_le K h p k HS) as Q. pose proof (KM (k - p + e + 1 + l)%nat (k + p)%nat ltac:(lia)). lra.
  - unfold same_at. rewrite Ep, EPer. exists m. reflexivity.
  - intros e He. rewrite SN. apply Nat.mod_upper_bound. lia.
  - intros c. rewrite SN. rewrite (sum_ext N _ (fun j => sum (p + 1) (fun e => (if ((k - p + e) mod N =? j)%nat then piece K k p (k - p + e) y' else 0) * c j))).
    + rewrite sum_swap. apply sum_ext. intros e He. rewrite sum_pick; auto. apply Nat.mod_upper_bound. lia.
    + intros j Hj. rewrite (beta_per nd p per dims ranges f g mats GI IP Hp1 d Hd j y k m Ep ltac:(lia)) by (fold N; fold x; fold P; fold K; fold y'; lra).
      fold N. fold x. fold P. fold K. fold y'. unfold wbas. rewrite sum_scal_r. reflexivity.
Qed.

(** Without a period: distances of knots. *)
Lemma u_gap n a hh x p i c : 0 <= hh -> (forall i, x i = a + INR i * hh) -> (1 <= p)%nat -> (2 * p + 1 <= n)%nat -> (c <= p)%nat ->
  ap_knot p n x (i + c) - ap_knot p n x i <= (INR c + (INR p - 1) / 2) * hh.
Proof.
  intros Hh Ex Hp Hn Hc.
  assert (C0 := pos_INR c). assert (P1 : 1 <= INR p) by (apply (le_INR 1); auto).
  assert (A : forall u v, u <= v -> u * hh <= v * hh) by (intros; apply Rmult_le_compat_r; auto).
  assert (Z : 0 <= (INR c + (INR p - 1) / 2) * hh) by (apply Rmult_le_pos; lra).
  destruct (Nat.le_gt_cases i p) as [I1|I1]; [|destruct (Nat.le_gt_cases n i) as [I2|I2]].
  - rewrite (u_lo n a hh x Ex ltac:(lia) p i) by lia. destruct (Nat.le_gt_cases (i + c) p) as [J1|J1].
    + rewrite (u_lo n a hh x Ex ltac:(lia) p (i + c)) by lia. lra.
    + rewrite (u_mid n a hh x Ex ltac:(lia) p (i + c)) by lia. rewrite plus_INR. apply le_INR in I1.
      specialize (A (INR i + INR c - (INR p + 1) / 2) (INR c + (INR p - 1) / 2) ltac:(lra)). lra.
  - rewrite (u_hi n a hh x Ex ltac:(lia) p i), (u_hi n a hh x Ex ltac:(lia) p (i + c)) by lia. lra.
  - rewrite (u_mid n a hh x Ex ltac:(lia) p i) by lia. destruct (Nat.le_gt_cases n (i + c)) as [J1|J1].
    + rewrite (u_hi n a hh x Ex ltac:(lia) p (i + c)) by lia. apply le_INR in J1. rewrite plus_INR in J1.
      specialize (A (INR n - 1 - (INR i - (INR p + 1) / 2)) (INR c + (INR p - 1) / 2) ltac:(lra)). lra.
    + rewrite (u_mid n a hh x Ex ltac:(lia) p (i + c)) by lia. rewrite plus_INR.
      specialize (A (INR c) (INR c + (INR p - 1) / 2) ltac:(lra)). lra.
Qed.

Lemma greville_le (t : nat -> R) p j v : (1 <= p)%nat -> sum p (fun l => t (j + 1 + l)%nat) <= INR p * v -> greville t p j <= v.
Proof.
  intros Hp H. assert (0 < INR p) by (apply lt_0_INR; lia). unfold greville.
  apply (Rmult_le_reg_r (INR p)); auto. unfold Rdiv. rewrite Rmult_assoc, Rinv_l by lra. lra.
Qed.
Lemma greville_ge (t : nat -> R) p j v : (1 <= p)%nat -> INR p * v <= sum p (fun l => t (j + 1 + l)%nat) -> v <= greville t p j.
Proof.
  intros Hp H. assert (0 < INR p) by (apply lt_0_INR; lia). unfold greville.
  apply (Rmult_le_reg_r (INR p)); auto. unfold Rdiv. rewrite (Rmult_assoc _ (/ INR p)), Rinv_l by lra. lra.
Qed.

Lemma plain_window nd p per dims ranges f g mats d y a b h :
  good_input nd p per dims ranges -> interpolant nd p per dims ranges f g mats -> (1 <= p)%nat ->
  (d < length per)%nat -> nth d per false = false -> (2 * p + 1 <= nth d dims 0)%nat -> nth d ranges (Points []) = Uniform a b ->
  mesh_width nd per dims ranges h ->
  coordinate nd per dims ranges d 0 <= y <= coordinate nd per dims ranges d (nth d dims 0%nat - 1) ->
  window nd per dims ranges (if_spline g) (places_at nd p per dims ranges) (INR p * h) d y.
Proof.
  intros GI IP Hp1 Hd Ep H2p Er MW HyR. unfold window. set (N := nth d (ddims nd per dims) 0%nat).
  pose proof (s_N nd p per dims ranges GI d Hd) as HN. fold N in HN.
  pose proof (s_num nd p per dims ranges f g mats IP d) as SN. fold N in SN.
  pose proof (s_incr nd p per dims ranges GI d Hd) as Hx. rewrite Ep in Hx. fold N in Hx.
  pose proof (s_two nd p per dims ranges GI d Hd Ep) as HN2. fold N in HN2.
  assert (EN : N = nth d dims 0%nat) by (unfold N; rewrite ddims_nth by auto; rewrite Ep; reflexivity). rewrite <- EN in H2p, HyR.
  pose proof (uniform_coord nd per dims ranges d a b Ep Er) as Ex0. rewrite <- EN in Ex0.
  unfold places_at. fold N. rewrite Ep. assert (MWd := MW d). change (coordinate nd per dims ranges d) with (xs_of nd per dims ranges d) in *.
  set (x := xs_of nd per dims ranges d) in *. set (hh := (b - a) / INR (N - 1)) in *.
  assert (Hh : 0 < hh) by (pose proof (Hx 0%nat 1%nat ltac:(lia)) as Q; rewrite !Ex0 in Q; simpl in Q; lra).
  assert (Hhh : hh <= h).
  { specialize (MWd 0%nat Hd). rewrite Ep in MWd. unfold coords_num in MWd. rewrite <- EN in MWd. specialize (MWd ltac:(lia)). rewrite !Ex0 in MWd. simpl in MWd. lra. }
  set (K := ap_knot p N x).
  assert (KM : forall i j, (i <= j)%nat -> K i <= K j) by (intros; apply ap_mono; auto).
  pose proof (s_good nd p per dims ranges f g mats GI IP) as G. pose proof (s_dim _ _ _ _ _ _ _ _ IP) as SD. pose proof (s_order _ _ _ _ _ _ _ _ IP) as SO.
  set (s := if_spline g) in *. destruct (s_ap nd p per dims ranges f g mats IP d Hd Ep) as [L KA]. fold s in L, KA. fold N in L, KA. fold x in KA. fold K in KA.
  assert (EPs : per_of s d = false) by (unfold s; rewrite (s_per_of _ _ _ _ _ _ _ _ IP); auto).
  destruct (loc_spec s d y G ltac:(lia)) as [Hw (H1 & H2 & H3 & H4)].
  assert (IR : in_range s d y).
  { right. unfold last_of. rewrite L, SO. replace (N + p + 1 - p - 2 + 1)%nat with N by lia. rewrite !KA by lia. unfold K. rewrite ap_lo, ap_hi by lia. exact HyR. }
  pose proof (loc_in_segment s d y G ltac:(lia) IR) as HS. rewrite EPs in Hw. cbn [wrapped] in Hw. rewrite Hw in HS.
  unfold last_of in H1. rewrite L, SO in H1. set (k := snd (loc s d y)) in *. rewrite !KA in H2, HS by lia.
  destruct (seg_core K k p y ltac:(lia) KM H2 HS) as (W0 & W1 & W2).
  exists (p + 1)%nat, (fun e => piece K k p (k - p + e) y), (fun e => greville K p (k - p + e)), (fun e => (k - p + e)%nat), y.
  split; [|split; [|split; [|split; [|split; [|split]]]]]; auto.
  - intros e He. split; [apply W0; auto|]. unfold same_at. rewrite Ep. reflexivity.
  - intros e He. apply Rle_trans with (INR p * hh); [|apply Rmult_le_compat_l; [apply pos_INR|auto]].
    assert (GAP : forall i c, (c <= p)%nat -> K (i + c)%nat - K i <= (INR c + (INR p - 1) / 2) * hh) by (intros; apply (u_gap N a hh x); auto; lra).
    apply Rabs_le. split.
    + assert (y - INR p * hh <= greville K p (k - p + e)); [|lra]. apply greville_ge; auto.
      apply Rle_trans with (sum p (fun l => (K (k + 1)%nat - (INR p + (INR p - 1) / 2) * hh) + INR l * hh)).
      * rewrite sum_line. apply Rmult_le_compat_l; [apply pos_INR|]. lra.
      * apply sum_le. intros l Hl. pose proof (GAP (k + 1 - (p - l))%nat (p - l)%nat ltac:(lia)) as Q. replace (k + 1 - (p - l) + (p - l))%nat with (k + 1)%nat in Q by lia.
        rewrite minus_INR in Q by lia. pose proof (KM (k + 1 - (p - l))%nat (k - p + e + 1 + l)%nat ltac:(lia)). lra.
    + assert (greville K p (k - p + e) <= y + INR p * hh); [|lra]. apply greville_le; auto.
      apply Rle_trans with (sum p (fun l => (K k + (1 + (INR p - 1) / 2) * hh) + INR l * hh)).
      * apply sum_le. intros l Hl. pose proof (GAP k (l + 1)%nat ltac:(lia)) as Q. rewrite plus_INR in Q. simpl (INR 1) in Q.
        pose proof (KM (k - p + e + 1 + l)%nat (k + (l + 1))%nat ltac:(lia)). lra.
      * rewrite sum_line. apply Rmult_le_compat_l; [apply pos_INR|]. lra.
  - unfold same_at. rewrite Ep. reflexivity.
  - intros e He. rewrite SN. lia.
  - intros c. rewrite SN. rewrite (sum_ext N _ (fun j => piece K k p j y * c j)).
    + rewrite (sum_range N (k - p) (p + 1)); [reflexivity|lia|]. intros j Hj Hn. rewrite piece_support by lia. ring.
    + intros j Hj. rewrite (beta_ap s d j y G ltac:(lia) EPs) by (unfold nbasis; rewrite L, SO; lia). fold k. f_equal. rewrite SO. apply piece_ext. intros i Hi. apply KA. lia.
Qed.

(** ** The grid *)
Lemma tame_window nd p per dims ranges f g mats d y h :
  good_input nd p per dims ranges -> interpolant nd p per dims ranges f g mats -> (1 <= p)%nat -> tame nd p per dims ranges ->
  (d < length per)%nat -> mesh_width nd per dims ranges h ->
  (nth d per false = true \/ coordinate nd per dims ranges d 0 <= y <= coordinate nd per dims ranges d (nth d dims 0%nat - 1)) ->
  window nd per dims ranges (if_spline g) (places_at nd p per dims ranges) (INR p * h) d y.
Proof.
  intros GI IP Hp T Hd MW Hy. destruct (nth d per false) eqn:Ep.
  - apply (period_window nd p per dims ranges f g mats); auto.
  - destruct Hy as [Hy|Hy]; [discriminate|]. pose proof (T d Hd) as Td. rewrite Ep in Td. destruct Td as (H2 & a & b & Er).
    apply (plain_window nd p per dims ranges f g mats d y a b); auto.
Qed.

Lemma tame_inside nd p per dims ranges d j :
  good_input nd p per dims ranges -> (1 <= p)%nat -> (d < length per)%nat -> nth d per false = false -> (j < nth d (ddims nd per dims) 0)%nat ->
  coordinate nd per dims ranges d 0 <= places_at nd p per dims ranges d j <= coordinate nd per dims ranges d (nth d dims 0%nat - 1).
Proof.
  intros GI Hp Hd Ep Hj. unfold places_at. set (N := nth d (ddims nd per dims) 0%nat) in *.
  pose proof (s_N nd p per dims ranges GI d Hd) as HN. fold N in HN.
  pose proof (s_incr nd p per dims ranges GI d Hd) as Hx. rewrite Ep in Hx. fold N in Hx.
  pose proof (s_two nd p per dims ranges GI d Hd Ep) as HN2. fold N in HN2.
  assert (EN : N = nth d dims 0%nat) by (unfold N; rewrite ddims_nth by auto; rewrite Ep; reflexivity). rewrite <- EN, Ep.
  change (coordinate nd per dims ranges d) with (xs_of nd per dims ranges d). set (x := xs_of nd per dims ranges d) in *.
  apply greville_bounds; auto. intros l Hl.
  rewrite <- (ap_lo p N x ltac:(lia) ltac:(lia) 0) by lia. rewrite <- (ap_hi p N x ltac:(lia) ltac:(lia) (N + p)) by lia.
  split; apply ap_mono; auto; lia.
Qed.

Lemma tame_near nd p per dims ranges f g mats d j y h :
  good_input nd p per dims ranges -> interpolant nd p per dims ranges f g mats -> (1 <= p)%nat -> tame nd p per dims ranges ->
  (d < length per)%nat -> mesh_width nd per dims ranges h -> (j < nth d (ddims nd per dims) 0)%nat ->
  (nth d per false = true \/ coordinate nd per dims ranges d 0 <= y <= coordinate nd per dims ranges d (nth d dims 0%nat - 1)) ->
  beta (if_spline g) d j y <> 0 ->
  if nth d per false then exists z : Z, Rabs (y - (places_at nd p per dims ranges d j + IZR z * period nd per dims ranges d)) <= INR p * h
  else Rabs (y - places_at nd p per dims ranges d j) <= INR p * h.
Proof.
  intros GI IP Hp T Hd MW Hj Hy HB. destruct (tame_window nd p per dims ranges f g mats d y h) as (m & w & q & idx & y' & H1 & H2 & _ & _ & H5 & _ & H7); auto.
  pose proof (s_num nd p per dims ranges f g mats IP d) as SN.
  assert (S : exists e, (e < m)%nat /\ idx e = j).
  { destruct (find_lt idx j m) as [S|Hno]; auto. exfalso. apply HB. specialize (H7 (fun i => if (i =? j)%nat then 1 else 0)).
    rewrite (sum_single (num_of (if_spline g) d) j) in H7; [|rewrite SN; auto|intros i Hi Hn; destruct (Nat.eqb_spec i j); [congruence|ring]].
    rewrite Nat.eqb_refl in H7. rewrite Rmult_1_r in H7. rewrite H7. apply sum_0. intros e He. destruct (Nat.eqb_spec (idx e) j); [exfalso; apply (Hno e); auto|ring]. }
  destruct S as (e & He & Ej). destruct (H1 e He) as [_ S1]. specialize (H2 e He). rewrite Ej in S1. unfold same_at in S1, H5.
  destruct (nth d per false).
  - destruct S1 as [z1 S1], H5 as [z2 S2]. exists (z1 - z2)%Z. rewrite minus_IZR. rewrite S1, S2 in H2. rewrite Rabs_minus_sym in H2.
    eapply Rle_trans; [|exact H2]. right. f_equal. ring.
  - rewrite S1, H5 in H2. rewrite Rabs_minus_sym. exact H2.
Qed.

Lemma tame_weights nd p per dims ranges f g mats d y h :
  good_input nd p per dims ranges -> interpolant nd p per dims ranges f g mats -> (1 <= p)%nat -> tame nd p per dims ranges ->
  (d < length per)%nat -> mesh_width nd per dims ranges h ->
  (nth d per false = true \/ coordinate nd per dims ranges d 0 <= y <= coordinate nd per dims ranges d (nth d dims 0%nat - 1)) ->
  weights_at nd per dims ranges g (places_at nd p per dims ranges) ((INR p * h) ^ 2) d y.
Proof.
  intros GI IP Hp T Hd MW Hy. destruct (tame_window nd p per dims ranges f g mats d y h) as (m & w & q & idx & y' & H1 & H2 & H3 & H4 & H5 & H6 & H7); auto.
  pose proof (s_num nd p per dims ranges f g mats IP d) as SN.
  exists m, w, q, idx, y'. split; [|split; [|split; [|split; [|split; [|split; [|split]]]]]]; auto.
  - exists (INR p * h). exact H2.
  - rewrite <- (Rmult_1_l ((INR p * h) ^ 2)). rewrite <- H3, <- sum_scal_r. apply sum_le. intros e He.
    apply Rmult_le_compat_l; [apply H1; auto|]. rewrite <- (pow2_abs (q e - y')). apply pow_incr. split; [apply Rabs_pos|apply H2; auto].
  - intros Ep e He. right. destruct (H1 e He) as [_ S1]. unfold same_at in S1. rewrite Ep in S1. rewrite S1. apply tame_inside; auto. rewrite <- SN. apply H6. auto.
Qed.

Lemma tame_factor_ge p : 1 <= tame_factor p.
Proof. unfold tame_factor. destruct p as [|[|[|p]]]; lra. Qed.

Lemma tame_approx on nd p per dims ranges F f g h w :
  good_input nd p per dims ranges -> (p = 2 \/ p = 3)%nat -> tame nd p per dims ranges ->
  m_dims f = dims -> wf_mesh f -> interp_make Rops on nd p per f ranges = Ok g ->
  sampled nd per dims ranges F f -> periodic_function nd per dims ranges F ->
  mesh_width nd per dims ranges h -> varies nd per dims ranges F (INR p * h) w ->
  forall xs, length xs = length per -> countable_point nd per dims ranges xs -> in_grid nd per dims ranges xs ->
  exists v, interp_eval Rops g xs = Ok v /\ Rabs (v - F xs) <= (1 + tame_factor p ^ length per) * w.
Proof.
  intros GI P23 T E W M SA PF MW HV xs Lx C Ig.
  destruct (interp_make_spec on nd p per dims ranges f GI E W) as (mats & _ & _ & HG & _). pose proof (HG g M) as IP.
  apply (approx_stable on nd p per dims ranges f g mats GI E W M IP F w (places_at nd p per dims ranges)); auto.
  - intros ys Ly Iy. apply (mean_near on nd p per dims ranges f g mats GI E W M IP F (INR p * h) w (places_at nd p per dims ranges)); auto.
    + intros d j Hd Hj Ep. apply tame_inside; auto. lia.
    + intros d j y Hd Hj Hy HB. apply (tame_near nd p per dims ranges f g mats); auto. lia.
  - pose proof (tame_factor_ge p). lra.
  - intros d A Hd CG. apply (tame_stable nd p per dims ranges d A); auto.
Qed.

Lemma tame_quad on nd p per dims ranges F f g h M :
  good_input nd p per dims ranges -> (p = 2 \/ p = 3)%nat -> tame nd p per dims ranges ->
  m_dims f = dims -> wf_mesh f -> interp_make Rops on nd p per f ranges = Ok g ->
  sampled nd per dims ranges F f -> periodic_function nd per dims ranges F ->
  mesh_width nd per dims ranges h -> curvature nd per dims ranges F M ->
  forall xs, length xs = length per -> countable_point nd per dims ranges xs -> in_grid nd per dims ranges xs ->
  exists v, interp_eval Rops g xs = Ok v /\
    Rabs (v - F xs) <= (1 + tame_factor p ^ length per) * (sum (length per) M / 2 * (INR p * h) ^ 2).
Proof.
  intros GI P23 T E W Mk SA PF MW HC xs Lx C Ig.
  destruct (interp_make_spec on nd p per dims ranges f GI E W) as (mats & _ & _ & HG & _). pose proof (HG g Mk) as IP.
  apply (approx_stable on nd p per dims ranges f g mats GI E W Mk IP F _ (places_at nd p per dims ranges)); auto.
  - intros ys Ly Iy. eapply Rle_trans; [apply (mean_quad on nd p per dims ranges f g mats GI E W Mk IP F M (places_at nd p per dims ranges) ((INR p * h) ^ 2)); auto|].
    + intros d j Hd Hj. destruct (nth d per false) eqn:Ep; [left; auto|right]. apply tame_inside; auto. lia.
    + intros d y Hd Hy. apply (tame_weights nd p per dims ranges f g mats); auto. lia.
    + rewrite sum_scal_r. unfold Rdiv at 1. rewrite sum_scal_r. lra.
  - pose proof (tame_factor_ge p). lra.
  - intros d A Hd CG. apply (tame_stable nd p per dims ranges d A); auto.
Qed.

Lemma tame_converges p n F : (p = 2 \/ p = 3)%nat -> uniformly_continuous n F ->
  forall eps, 0 < eps -> exists delta, 0 < delta /\
  forall on nd per dims ranges f g, length per = n ->
    good_input nd p per dims ranges -> tame nd p per dims ranges ->
    m_dims f = dims -> wf_mesh f -> interp_make Rops on nd p per f ranges = Ok g ->
    sampled nd per dims ranges F f -> periodic_function nd per dims ranges F -> mesh_width nd per dims ranges delta ->
  forall xs, length xs = n -> countable_point nd per dims ranges xs -> in_grid nd per dims ranges xs ->
  exists v, interp_eval Rops g xs = Ok v /\ Rabs (v - F xs) <= eps.
Proof.
  intros P23 UC eps He. pose proof (tame_factor_ge p) as HA.
  assert (HK : 1 <= tame_factor p ^ n) by (apply pow_R1_Rle; auto).
  destruct (UC (eps / (1 + tame_factor p ^ n))) as (dl & Hdl & HU). { apply Rdiv_lt_0_compat; lra. }
  assert (HP : 0 < INR p) by (apply lt_0_INR; lia).
  exists (dl / INR p). split; [apply Rdiv_lt_0_compat; lra|].
  intros on nd per dims ranges f g Ln GI T E W M SA PF MW xs Lx C Ig. subst n.
  destruct (tame_approx on nd p per dims ranges F f g (dl / INR p) (eps / (1 + tame_factor p ^ length per)) GI P23 T E W M SA PF MW) with (xs := xs) as (v & Hv & B); auto.
  + apply uniform_varies. replace (INR p * (dl / INR p)) with dl by (field; lra). exact HU.
  + exists v. split; auto. replace eps with ((1 + tame_factor p ^ length per) * (eps / (1 + tame_factor p ^ length per))) by (field; lra). exact B.
Qed.
