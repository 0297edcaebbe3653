(** Second order of approximation: grids. *)
From Coq Require Import List Arith Lia Bool ZArith Reals Lra FunctionalExtensionality.
From Coquelicot Require Import Coquelicot.
From Verif Require Import Base Num MeshM SpecMesh MeshProofs ProgM BandM LUM SplineM InterpM.
From Verif Require Import SumR DenseLU SpecBand BandProofs MulProofs LUProofs LUConv SpecSpline SpecSplineObj SplineProofs BasisProofs BetaProofs TensorR EvalProofs EvalR SplineTop SplineCalc SpecInterp KnotProofs KnotShape CoefProofs SolverProofs RoundProofs SolveProofs BuildProofs WeightProofs InterpProofs PerDom PerPD InterpTop InterpFinal AffineProofs PolyProofs SymBasis SymProofs SpecDims LinProofs RoundTensor
  SpecCurve VecTop MonoTop SpecStab StabProofs StabTop SpecSmooth SmoothTop SpecApprox ApproxProofs ApproxTop QuadProofs.
Import ListNotations.
Open Scope R_scope.

Section Quad.
Variables (on nd : bool) (p : nat) (per : list bool) (dims : list nat) (ranges : list (xrange R)) (f : MeshM.mesh R)
  (g : interp R) (mats : list mat).
Hypothesis GI : good_input nd p per dims ranges.
Hypothesis Ef : m_dims f = dims.
Hypothesis Wf : wf_mesh f.
Hypothesis Eg : interp_make Rops on nd p per f ranges = Ok g.
Hypothesis IP : interpolant nd p per dims ranges f g mats.
Let s := if_spline g.
Let ok d y := nth d per false = true \/ coordinate nd per dims ranges d 0 <= y <= coordinate nd per dims ranges d (nth d dims 0%nat - 1).
Definition same_at d (a b : R) : Prop := if nth d per false then exists z : Z, b = a + IZR z * period nd per dims ranges d else b = a.

(** The basis functions at [y] as weights of places near [y] with mean [y]. *)
Definition weights_at (pos : nat -> nat -> R) (V : R) d y : Prop :=
  exists m (w q : nat -> R) (idx : nat -> nat) y',
    (forall e, (e < m)%nat -> 0 <= w e /\ same_at d (pos d (idx e)) (q e)) /\ (exists r, forall e, (e < m)%nat -> Rabs (q e - y') <= r) /\
    sum m w = 1 /\ sum m (fun e => w e * q e) = y' /\ sum m (fun e => w e * (q e - y') ^ 2) <= V /\ same_at d y y' /\
    (nth d per false = false -> forall e, (e < m)%nat -> ok d (q e)) /\
    forall c, sum (num_of s d) (fun j => beta s d j y * c j) = sum m (fun e => w e * c (idx e)).

Variables (F : list R -> R) (M : nat -> R) (pos : nat -> nat -> R) (V : R).
Hypothesis HF : periodic_function nd per dims ranges F.
Hypothesis HC : curvature nd per dims ranges F M.
Hypothesis Hpos : forall d j, (d < length per)%nat -> (j < nth d (ddims nd per dims) 0)%nat -> ok d (pos d j).
Hypothesis HW : forall d y, (d < length per)%nat -> ok d y -> weights_at pos V d y.

Lemma with_same xs d a b : (d < length per)%nat -> length xs = length per -> same_at d a b -> F (with_at xs d b) = F (with_at xs d a).
Proof.
  intros Hd Lx H. apply HF; try (rewrite with_length; lia). intros e He. rewrite !with_nth by lia.
  destruct (Nat.eqb_spec e d) as [->|]; [exact H|]. destruct (nth e per false); auto. exists 0%Z. ring.
Qed.

Lemma mean_quad xs : length xs = length per -> in_grid nd per dims ranges xs ->
  Rabs (tensor (dbas s xs (repeat 0%nat (sp_dim s))) (fun idx => F (places per pos idx)) - F xs) <= sum (length per) (fun d => M d / 2 * V).
Proof.
  intros Lx Ig. pose proof (s_good nd p per dims ranges f g mats GI IP) as G. pose proof (s_dim _ _ _ _ _ _ _ _ IP) as SD. fold s in G, SD.
  assert (D : forall d, (d < length per)%nat -> nth d (dbas s xs (repeat 0%nat (sp_dim s))) (0%nat, fun _ => 0) =
     (num_of s d, fun j => beta s d j (nth d xs 0))).
  { intros d Hd. unfold dbas. rewrite nth_map_seq by lia. f_equal. apply functional_extensionality. intros j. rewrite nth_repeat. reflexivity. }
  assert (LD : length (dbas s xs (repeat 0%nat (sp_dim s))) = length per) by (unfold dbas; rewrite length_map_seq; auto).
  unfold places. rewrite <- LD. apply (tensor_steps _ pos xs ok (fun d => M d / 2 * V)); try rewrite LD; auto.
  - intros d Hd. rewrite D by auto. cbn [fst snd].
    destruct (loc_spec s d (nth d xs 0) G ltac:(lia)) as [Hw (H1 & H2 & H3 & H4)].
    pose proof (loc_in_segment s d (nth d xs 0) G ltac:(lia) (grid_in_range on nd p per dims ranges f g xs GI Ef Wf Eg Ig d ltac:(lia))).
    unfold beta. split; [apply sum_bpoly; auto; lia|]. intros i Hi. apply bpoly_nonneg; auto; lia.
  - intros d j Hd Hj. rewrite D in Hj by auto. cbn [fst] in Hj. apply Hpos; auto.
    rewrite <- (s_num nd p per dims ranges f g mats IP d) by auto. exact Hj.
  - intros d ys Hd Ly Hy. rewrite D by auto. cbn [fst snd].
    destruct (HW d (nth d xs 0) Hd (Ig d Hd)) as (m & w & q & idx & y' & H1 & (r & Hr) & H2 & H3 & H4 & H5 & H6 & H7).
    rewrite (H7 (fun j => F (with_at ys d (pos d j)))).
    rewrite (sum_ext m _ (fun e => w e * F (with_at ys d (q e)))).
    2:{ intros e He. f_equal. symmetry. apply with_same; auto. apply H1; auto. }
    rewrite <- (with_same ys d _ _ Hd Ly H5).
    destruct (HC d ys Hd Ly Hy) as (F1 & F2 & HD).
    assert (HM : 0 <= M d). { destruct (HD (nth d xs 0) (Ig d Hd)) as (_ & _ & Q). eapply Rle_trans; [apply Rabs_pos|exact Q]. }
    destruct (nth d per false) eqn:Ep.
    + assert (Hr0 : 0 <= Rabs r) by apply Rabs_pos.
      apply (mean2 m w q y' (fun t => F (with_at ys d t)) F1 F2 (M d) (y' - Rabs r) (y' + Rabs r)); auto.
      * intros e He. apply H1; auto.
      * lra.
      * intros e He. specialize (Hr e He). apply Rabs_le_between in Hr. pose proof (Rle_abs r). lra.
    + unfold same_at in H5. rewrite Ep in H5. subst y'.
      apply (mean2 m w q _ (fun t => F (with_at ys d t)) F1 F2 (M d) (coordinate nd per dims ranges d 0) (coordinate nd per dims ranges d (nth d dims 0%nat - 1))); auto.
      * intros e He. apply H1; auto.
      * destruct (Ig d Hd) as [Q|Q]; [congruence|]. rewrite H5. exact Q.
      * intros e He. destruct (H6 eq_refl e He) as [Q|Q]; [congruence|]. exact Q.
Qed.
End Quad.

Lemma sum_pick n k v c : (k < n)%nat -> sum n (fun j => (if (k =? j)%nat then v else 0) * c j) = v * c k.
Proof.
  intros H. rewrite (sum_single n k); auto; [rewrite Nat.eqb_refl; auto|].
  intros i Hi Hn. destruct (Nat.eqb_spec k i); [congruence|ring].
Qed.
Lemma sum_line n u hh : sum n (fun l => u + INR l * hh) = INR n * (u + (INR n - 1) / 2 * hh).
Proof. induction n as [|n IH]; [simpl; ring|]. cbn [sum]. rewrite IH, S_INR. field. Qed.

(** ** Equally spaced periodic points *)
Lemma uniform_weights nd p per dims ranges f g mats d y a b h pos :
  good_input nd p per dims ranges -> interpolant nd p per dims ranges f g mats -> (1 <= p)%nat ->
  (d < length per)%nat -> nth d per false = true -> nth d ranges (Points []) = Uniform a b ->
  mesh_width nd per dims ranges h ->
  (forall j, pos d j = a + (INR j - INR (p / 2)) * ((b - a) / INR (nth d (ddims nd per dims) 0%nat))) ->
  weights_at nd per dims ranges g pos ((INR (p + 1) / 2 * h) ^ 2) d y.
Proof.
  intros GI IP Hp1 Hd Ep Er MW Hpos. set (N := nth d (ddims nd per dims) 0%nat) in *.
  pose proof (s_N nd p per dims ranges GI d Hd) as HN. fold N in HN.
  pose proof (s_num nd p per dims ranges f g mats IP d) as SN. fold N in SN.
  pose proof (s_incr nd p per dims ranges GI d Hd) as Hx. rewrite Ep in Hx. fold N in Hx.
  set (x := xs_of nd per dims ranges d) in *. set (P := x N - x 0%nat). set (K := per_knot p N P x).
  assert (EC : coords_num nd true (nth d dims 0%nat) = (N + 1)%nat) by (unfold N; rewrite ddims_nth by auto; rewrite Ep; reflexivity).
  assert (Ex : forall i, x i = grid_of (Uniform a b) (N + 1) i).
  { intros i. unfold x, xs_of, gridx. rewrite Ep, Er, EC. reflexivity. }
  assert (NN : 0 < INR N) by (apply lt_0_INR; lia).
  set (hh := (b - a) / INR N) in *.
  assert (Exh : forall i, x i = a + INR i * hh) by (intros i; rewrite Ex; unfold grid_of; replace (N + 1 - 1)%nat with N by lia; reflexivity).
  assert (EP : P = b - a) by (unfold P; rewrite !Exh; simpl (INR 0); unfold hh; field; lra).
  assert (EPh : P = INR N * hh) by (rewrite EP; unfold hh; field; lra).
  assert (Hh : 0 < hh) by (pose proof (Hx 0%nat 1%nat ltac:(lia)) as Q; rewrite !Exh in Q; simpl in Q; lra).
  assert (Hhh : hh <= h).
  { assert (Q := MW d 0%nat Hd). rewrite Ep, EC in Q. specialize (Q ltac:(lia)). unfold coordinate in Q. rewrite Ep, Er, EC in Q.
    rewrite <- !Ex, !Exh in Q. simpl in Q. lra. }
  assert (EPer : period nd per dims ranges d = P).
  { unfold period, P. change (coordinate nd per dims ranges d) with x. f_equal. f_equal. unfold N. rewrite ddims_nth by auto. rewrite Ep. reflexivity. }
  assert (KS : forall i, K i < K (i + 1)%nat) by (intros; apply per_step; auto).
  assert (KM : forall n i j, (i <= j < n)%nat -> K i <= K j) by (intros n i j Hij; apply mono_steps; [intros; left; apply KS|lia]).
  destruct (wbas_rep K p N P ltac:(intros; apply per_step; auto) ltac:(intros; apply per_shift; auto) HN p y) as (k & m & Hk & Hy).
  assert (EK : forall i, K i = a + (INR i - INR p - (if Nat.even p then / 2 else 0)) * hh).
  { intros i. unfold K, hh. rewrite EP. rewrite <- (per_uniform a b p N i) by lia.
    replace x with (grid_of (Uniform a b) (N + 1)) by (apply functional_extensionality; intros; auto). reflexivity. }
  assert (HP2 : INR p - (if Nat.even p then 0 else 1) = 2 * INR (p / 2)).
  { destruct (Nat.even p) eqn:Ev.
    - apply Nat.even_spec in Ev as [t ->]. replace (2 * t / 2)%nat with t by (rewrite Nat.mul_comm, Nat.div_mul; lia). rewrite mult_INR. simpl. ring.
    - assert (Ho : Nat.odd p = true) by (unfold Nat.odd; rewrite Ev; auto). apply Nat.odd_spec in Ho as [t ->].
      replace ((2 * t + 1) / 2)%nat with t by (rewrite Nat.add_comm, Nat.mul_comm, Nat.div_add by lia; reflexivity).
      rewrite plus_INR, mult_INR. simpl. ring. }
  set (y' := y + IZR m * P) in *. set (w := fun e => piece K k p (k - p + e) y'). set (q := fun e => a + (INR (k - p + e) - INR (p / 2)) * hh).
  assert (W0 : forall e, (e < p + 1)%nat -> 0 <= w e).
  { intros e He. apply (piece_nonneg K (k + p + 2)); [exact (KM _)|lia|apply KS|lia|lra]. }
  assert (W1 : sum (p + 1) w = 1) by (apply (piece_unity K (k + p + 2)); [exact (KM _)|lia|apply KS|lia|lia]).
  assert (Hp0 : 0 < INR p) by (apply lt_0_INR; lia).
  assert (W2 : sum (p + 1) (fun e => w e * q e) = y').
  { apply (Rmult_eq_reg_l (INR p)); [|lra]. rewrite <- sum_scal.
    rewrite <- (greville_sum K (k + p + 2) k) with (p := p) (x := y'); [|exact (KM _)|lia|apply KS|lia|lia].
    apply sum_ext. intros e He. unfold w, q.
    assert (EG : sum p (fun l => K (k - p + e + 1 + l)%nat) = INR p * (a + (INR (k - p + e) - INR (p / 2)) * hh)).
    { rewrite (sum_ext p _ (fun l => (a + (INR (k - p + e) + 1 - INR p - (if Nat.even p then / 2 else 0)) * hh) + INR l * hh)).
      - rewrite sum_line. f_equal. replace (INR (p / 2)) with ((INR p - (if Nat.even p then 0 else 1)) / 2) by lra. destruct (Nat.even p); field.
      - intros l Hl. rewrite EK. rewrite !(plus_INR (k - p + e + 1)), (plus_INR (k - p + e)). simpl (INR 1). ring. }
    rewrite EG. ring. }
  assert (Hq : forall e, (e < p + 1)%nat -> Rabs (q e - y') <= INR (p + 1) / 2 * h).
  { intros e He. unfold q. rewrite !EK in Hy. rewrite !plus_INR in *. simpl (INR 1) in *. rewrite minus_INR by lia.
    assert (R1 : 0 <= INR e) by apply pos_INR. assert (R2 : INR e <= INR p) by (apply le_INR; lia).
    apply Rle_trans with ((INR p + 1) / 2 * hh); [|apply Rmult_le_compat_l; [lra|auto]].
    apply Rabs_le. destruct (Nat.even p); nra. }
  exists (p + 1)%nat, w, q, (fun e => ((k - p + e) mod N)%nat), y'. split; [|split; [|split; [|split; [|split; [|split; [|split]]]]]]; auto.
  - intros e He. split; [apply W0; auto|]. unfold same_at. rewrite Ep, EPer, Hpos. exists (Z.of_nat ((k - p + e) / N)).
    rewrite <- INR_IZR_INZ, EPh. unfold q. fold hh.
    pose proof (Nat.div_mod (k - p + e) N ltac:(lia)) as DM. apply (f_equal INR) in DM. rewrite (plus_INR (N * _)), mult_INR in DM. rewrite DM. ring.
  - exists (INR (p + 1) / 2 * h). exact Hq.
  - rewrite <- (Rmult_1_l ((INR (p + 1) / 2 * h) ^ 2)). rewrite <- W1, <- sum_scal_r. apply sum_le. intros e He.
    apply Rmult_le_compat_l; [apply W0; auto|]. rewrite <- (pow2_abs (q e - y')). apply pow_incr. split; [apply Rabs_pos|apply Hq; auto].
  - unfold same_at. rewrite Ep, EPer. exists m. reflexivity.
  - intros c. rewrite SN. rewrite (sum_ext N _ (fun j => sum (p + 1) (fun e => (if ((k - p + e) mod N =? j)%nat then w e else 0) * c j))).
    + rewrite sum_swap. apply sum_ext. intros e He. rewrite sum_pick; auto. apply Nat.mod_upper_bound. lia.
    + intros j Hj. rewrite (beta_per nd p per dims ranges f g mats GI IP Hp1 d Hd j y k m Ep ltac:(lia)) by (fold N; fold x; fold P; fold K; fold y'; lra).
      fold N. fold x. fold P. fold K. fold y'. unfold wbas. rewrite sum_scal_r. reflexivity.
Qed.

Lemma uniform_quad on nd p per dims ranges F f g h M :
  good_input nd p per dims ranges -> (1 <= p <= 6)%nat -> uniform_periodic per ranges ->
  m_dims f = dims -> wf_mesh f -> interp_make Rops on nd p per f ranges = Ok g ->
  sampled nd per dims ranges F f -> periodic_function nd per dims ranges F ->
  mesh_width nd per dims ranges h -> curvature nd per dims ranges F M ->
  forall xs, length xs = length per -> countable_point nd per dims ranges xs ->
  exists v, interp_eval Rops g xs = Ok v /\
    Rabs (v - F xs) <= (1 + amplification p ^ length per) * (sum (length per) M / 2 * (INR (p + 1) / 2 * h) ^ 2).
Proof.
  intros GI Hp UP E W Mk SA PF MW HC xs Lx C.
  destruct (interp_make_spec on nd p per dims ranges f GI E W) as (mats & _ & _ & HG & _). pose proof (HG g Mk) as IP.
  set (pos := fun d j => match nth d ranges (Points []) with Uniform a b => a + (INR j - INR (p / 2)) * ((b - a) / INR (nth d (ddims nd per dims) 0%nat)) | _ => 0 end).
  apply (approx_stable on nd p per dims ranges f g mats GI E W Mk IP F _ pos); auto.
  - intros ys Ly Ig. eapply Rle_trans; [apply (mean_quad on nd p per dims ranges f g mats GI E W Mk IP F M pos ((INR (p + 1) / 2 * h) ^ 2)); auto|].
    + intros d j Hd Hj. left. apply UP. auto.
    + intros d y Hd Hy. destruct (UP d Hd) as (Ep & a & b & Er).
      apply (uniform_weights nd p per dims ranges f g mats d y a b h pos); auto. lia. intros j. unfold pos. rewrite Er. reflexivity.
    + rewrite sum_scal_r. unfold Rdiv at 1. rewrite sum_scal_r. lra.
  - unfold amplification. do 6 (destruct p as [|p]; [lra|]). lra.
  - intros d A Hd CG. apply (uniform_stable nd p per dims ranges d A); auto. lia.
  - intros d Hd. left. apply UP. auto.
Qed.

(** ** Order 1 on any grid *)
Lemma linear_weights nd per dims ranges f g mats d y h :
  good_input nd 1 per dims ranges -> interpolant nd 1 per dims ranges f g mats ->
  (d < length per)%nat -> mesh_width nd per dims ranges h ->
  (nth d per false = true \/ coordinate nd per dims ranges d 0 <= y <= coordinate nd per dims ranges d (nth d dims 0%nat - 1)) ->
  weights_at nd per dims ranges g (coordinate nd per dims ranges) (h ^ 2 / 4) d y.
Proof.
  intros GI IP Hd MW Hy.
  pose proof (s_N nd 1 per dims ranges GI d Hd) as HN.
  pose proof (s_num nd 1 per dims ranges f g mats IP d) as SN.
  pose proof (s_incr nd 1 per dims ranges GI d Hd) as Hx.
  assert (MWd := MW d). unfold weights_at. set (x := coordinate nd per dims ranges d) in *. change (xs_of nd per dims ranges d) with x in Hx.
  set (N := nth d (ddims nd per dims) 0%nat) in *. rewrite SN.
  assert (EN : N = distinct nd (nth d per false) (nth d dims 0%nat)) by (unfold N; apply ddims_nth; auto).
  assert (two : forall (c : nat -> R), sum 2 c = c 0%nat + c 1%nat) by (intros c; cbn [sum]; ring).
  assert (core : forall i i' y' , x i < x (i + 1)%nat -> x (i + 1)%nat - x i <= h -> x i <= y' <= x (i + 1)%nat -> same_at nd per dims ranges d y y' ->
    (i < N)%nat -> (i' < N)%nat -> same_at nd per dims ranges d (x i') (x (i + 1)%nat) ->
    (nth d per false = false -> x 0%nat <= x i /\ x (i + 1)%nat <= x (nth d dims 0%nat - 1)%nat) ->
    (forall j, (j < N)%nat -> beta (if_spline g) d j y = (if (i =? j)%nat then 1 - (y' - x i) / (x (i + 1)%nat - x i) else 0) + (if (i' =? j)%nat then (y' - x i) / (x (i + 1)%nat - x i) else 0)) ->
    exists (m : nat) (w q : nat -> R) (idx : nat -> nat) (y' : R),
    (forall e, (e < m)%nat -> 0 <= w e /\ same_at nd per dims ranges d (x (idx e)) (q e)) /\ (exists r, forall e, (e < m)%nat -> Rabs (q e - y') <= r) /\
    sum m w = 1 /\ sum m (fun e => w e * q e) = y' /\ sum m (fun e => w e * (q e - y') ^ 2) <= h ^ 2 / 4 /\ same_at nd per dims ranges d y y' /\
    (nth d per false = false -> forall e, (e < m)%nat -> nth d per false = true \/ x 0%nat <= q e <= x (nth d dims 0 - 1)%nat) /\
    forall c, sum N (fun j => beta (if_spline g) d j y * c j) = sum m (fun e => w e * c (idx e))).
  { intros i i' y' Hl Hh Hb Sy Hi Hi' S2 Hr B. set (D := x (i + 1)%nat - x i) in *. set (lam := (y' - x i) / D) in *.
    assert (EL : y' = x i + lam * D) by (unfold lam; field; unfold D; lra). assert (HD : 0 < D) by (unfold D; lra).
    assert (L0 : 0 <= lam <= 1). { split; apply (Rmult_le_reg_r D); auto; unfold D in *; lra. }
    assert (ED : x (i + 1)%nat = x i + D) by (unfold D; ring).
    exists 2%nat, (fun e => match e with O => 1 - lam | _ => lam end), (fun e => match e with O => x i | _ => x (i + 1)%nat end), (fun e => match e with O => i | _ => i' end), y'.
    rewrite !two. split; [|split; [|split; [|split; [|split; [|split; [|split]]]]]]; auto.
    - intros [|e] He; (split; [lra|]); [|exact S2]. unfold same_at. destruct (nth d per false); auto. exists 0%Z. ring.
    - exists D. intros [|e] He; apply Rabs_le; lra.
    - ring.
    - rewrite EL, ED. ring.
    - rewrite ED, EL. apply Rle_trans with (D ^ 2 / 4); [|assert (D ^ 2 <= h ^ 2) by (apply pow_incr; lra); lra].
      assert (Q : 0 <= (lam - / 2) ^ 2 * D ^ 2) by (apply Rmult_le_pos; apply pow2_ge_0). nra.
    - intros Ep e He. right. destruct (Hr Ep). destruct e; lra.
    - intros c. rewrite two. rewrite (sum_ext N _ (fun j => (if (i =? j)%nat then 1 - lam else 0) * c j + (if (i' =? j)%nat then lam else 0) * c j)).
      + rewrite sum_plus, !sum_pick; auto.
      + intros j Hj. rewrite B by auto. ring. }
  destruct (nth d per false) eqn:Ep.
  - assert (EPer : period nd per dims ranges d = x N - x 0%nat) by (unfold period; fold x; rewrite EN; reflexivity).
    set (P := x N - x 0%nat) in *.
    assert (CN : coords_num nd true (nth d dims 0%nat) = (N + 1)%nat) by (rewrite EN; reflexivity).
    destruct (wbas_rep (per_knot 1 N P x) 1 N P ltac:(intros; apply per_step; auto) ltac:(intros; apply per_shift; auto) HN 1 y) as (k & m & Hk & Hy').
    assert (K1 : forall m, (m <= N)%nat -> per_knot 1 N P x (m + 1) = x m) by (intros; apply per_at_odd; auto).
    destruct k as [|i]; [lia|]. replace (S i) with (i + 1)%nat in Hy' by lia. rewrite !K1 in Hy' by lia.
    pose proof (beta_linear nd per dims ranges f g mats GI IP d i y (y + IZR m * P) Hd) as B. unfold in_cell, cell in B. rewrite Ep in B. rewrite <- EN in B. fold x in B.
    destruct B as (_ & _ & B). { split; [lia|]. split; [exists m; reflexivity|]. lra. }
    fold N in B.
    apply (core i ((i + 1) mod N)%nat (y + IZR m * P)); auto.
    + apply Hx. lia.
    + apply MWd; auto. lia.
    + lra.
    + unfold same_at. rewrite Ep, EPer. exists m. reflexivity.
    + lia.
    + apply Nat.mod_upper_bound. lia.
    + unfold same_at. rewrite Ep, EPer. destruct (Nat.eq_dec (i + 1) N) as [Q2|Q2].
      * rewrite Q2, Nat.mod_same by lia. exists 1%Z. unfold P. ring.
      * rewrite Nat.mod_small by lia. exists 0%Z. ring.
    + discriminate.
  - destruct Hy as [Hy|Hy]; [discriminate|]. unfold distinct in EN. cbn [andb] in EN. rewrite <- EN in Hy.
    destruct (between_two x y (N - 1) ltac:(lia) Hy) as (i & Hi & Hy').
    pose proof (beta_linear nd per dims ranges f g mats GI IP d i y y Hd) as B. unfold in_cell, cell in B. rewrite Ep in B. unfold distinct in B. cbn [andb] in B. rewrite <- EN in B. fold x in B.
    destruct B as (_ & _ & B). { split; [lia|]. split; [auto|]. split; right; lra. }
    fold N in B. apply (core i (i + 1)%nat y); auto; try lia.
    + apply Hx. lia.
    + apply MWd; auto. unfold coords_num. lia.
    + unfold same_at. rewrite Ep. reflexivity.
    + unfold same_at. rewrite Ep. reflexivity.
    + intros _. rewrite <- EN. split; apply increasing_le with (m := N); auto; lia.
Qed.

Lemma linear_quad on nd per dims ranges F f g h M :
  good_input nd 1 per dims ranges -> m_dims f = dims -> wf_mesh f -> interp_make Rops on nd 1 per f ranges = Ok g ->
  sampled nd per dims ranges F f -> periodic_function nd per dims ranges F ->
  mesh_width nd per dims ranges h -> curvature nd per dims ranges F M ->
  forall xs, length xs = length per -> countable_point nd per dims ranges xs -> in_grid nd per dims ranges xs ->
  exists v, interp_eval Rops g xs = Ok v /\ Rabs (v - F xs) <= sum (length per) M * h ^ 2 / 8.
Proof.
  intros GI E W Mk SA PF MW HC xs Lx C Ig.
  destruct (interp_make_spec on nd 1 per dims ranges f GI E W) as (mats & _ & _ & HG & _). pose proof (HG g Mk) as IP.
  eexists. split; [apply (linear_value on nd per dims ranges f g GI E W Mk); auto|].
  set (pos := coordinate nd per dims ranges).
  pose proof (mean_quad on nd 1 per dims ranges f g mats GI E W Mk IP F M pos (h ^ 2 / 4) PF HC) as MN.
  set (bs := dbas (if_spline g) xs (repeat 0%nat (sp_dim (if_spline g)))) in *.
  assert (Q : tensor bs (fun idx => F (places per pos idx)) =
    tensor (map (fun e => (num_of (if_spline g) e, fun j => beta (if_spline g) e j (nth e xs 0))) (seq 0 (sp_dim (if_spline g)))) (val_at f)).
  { transitivity (tensor bs (val_at f)).
    - apply tensor_ext. unfold bs. rewrite (dbas_dims nd 1 per dims ranges f g mats IP). intros idx V.
      rewrite (SA idx); [reflexivity|]. apply (valid_W_dims nd per dims (proj1 (proj2 GI))); auto.
    - f_equal. unfold bs, dbas. apply map_ext. intros d. f_equal. apply functional_extensionality. intros j. rewrite nth_repeat. reflexivity. }
  rewrite <- Q. eapply Rle_trans; [apply MN; auto|].
  - intros d j Hd Hj. destruct (nth d per false) eqn:Ep; [left; auto|right]. pose proof (s_incr nd 1 per dims ranges GI d Hd) as Hx. rewrite Ep in Hx.
    change (xs_of nd per dims ranges d) with (pos d) in Hx.
    assert (EN : nth d (ddims nd per dims) 0%nat = nth d dims 0%nat) by (rewrite ddims_nth by auto; rewrite Ep; reflexivity).
    rewrite EN in Hx, Hj. split; apply increasing_le with (m := nth d dims 0%nat); auto; lia.
  - intros d y Hd Hy. apply (linear_weights nd per dims ranges f g mats); auto.
  - rewrite sum_scal_r. unfold Rdiv at 1. rewrite sum_scal_r. lra.
Qed.
