(** Interpolation approximates the function behind the data: grids. *)
From Coq Require Import List Arith Lia Bool ZArith Reals Lra FunctionalExtensionality.
From Coquelicot Require Import Coquelicot.
From Verif Require Import Base Num MeshM SpecMesh MeshProofs ProgM BandM LUM SplineM InterpM.
From Verif Require Import SumR DenseLU SpecBand BandProofs MulProofs LUProofs LUConv SpecSpline SpecSplineObj SplineProofs BasisProofs BetaProofs TensorR EvalProofs EvalR SplineTop SplineCalc SpecInterp KnotProofs KnotShape CoefProofs SolverProofs RoundProofs SolveProofs BuildProofs WeightProofs InterpProofs PerDom PerPD InterpTop InterpFinal PolyProofs SymBasis SymProofs SpecDims LinProofs RoundTensor
  SpecCurve VecTop MonoTop SpecStab StabProofs StabTop SpecApprox ApproxProofs.
Import ListNotations.
Open Scope R_scope.

Lemma find_lt (f : nat -> nat) j : forall n, (exists e, (e < n)%nat /\ f e = j) \/ (forall e, (e < n)%nat -> f e <> j).
Proof.
  induction n as [|n [(e & He & E)|H]].
  - right. intros e He. lia.
  - left. exists e. split; auto.
  - destruct (Nat.eq_dec (f n) j) as [E|E]; [left; exists n; split; auto|right].
    intros e He. destruct (Nat.eq_dec e n) as [->|]; auto. apply H. lia.
Qed.

(** ** Equally spaced periodic points *)
Lemma uniform_place nd p per dims ranges f g mats d j y a b h :
  good_input nd p per dims ranges -> interpolant nd p per dims ranges f g mats -> (1 <= p)%nat ->
  (d < length per)%nat -> nth d per false = true -> nth d ranges (Points []) = Uniform a b ->
  mesh_width nd per dims ranges h ->
  (j < nth d (ddims nd per dims) 0)%nat -> beta (if_spline g) d j y <> 0 ->
  exists z : Z, Rabs (y - (a + (INR j - INR (p / 2)) * ((b - a) / INR (nth d (ddims nd per dims) 0%nat)) + IZR z * period nd per dims ranges d)) <= INR (p + 1) / 2 * h.
Proof.
  intros GI IP Hp1 Hd Ep Er MW Hj HB. set (N := nth d (ddims nd per dims) 0%nat) in *.
  pose proof (s_N nd p per dims ranges GI d Hd) as HN. fold N in HN.
  pose proof (s_incr nd p per dims ranges GI d Hd) as Hx. rewrite Ep in Hx. fold N in Hx.
  set (x := xs_of nd per dims ranges d) in *. set (P := x N - x 0%nat). set (K := per_knot p N P x).
  assert (EC : coords_num nd true (nth d dims 0%nat) = (N + 1)%nat) by (unfold N; rewrite ddims_nth by auto; rewrite Ep; reflexivity).
  assert (Ex : forall i, x i = grid_of (Uniform a b) (N + 1) i).
  { intros i. unfold x, xs_of, gridx. rewrite Ep, Er, EC. reflexivity. }
  assert (NN : 0 < INR N) by (apply lt_0_INR; lia).
  set (hh := (b - a) / INR N).
  assert (Exh : forall i, x i = a + INR i * hh) by (intros i; rewrite Ex; unfold grid_of; replace (N + 1 - 1)%nat with N by lia; reflexivity).
  assert (EP : P = b - a) by (unfold P; rewrite !Exh; simpl (INR 0); unfold hh; field; lra).
  assert (EPh : P = INR N * hh) by (rewrite EP; unfold hh; field; lra).
  assert (Hh : 0 < hh) by (pose proof (Hx 0%nat 1%nat ltac:(lia)) as Q; rewrite !Exh in Q; simpl in Q; lra).
  assert (Hhh : hh <= h).
  { assert (Q := MW d 0%nat Hd). rewrite Ep, EC in Q. specialize (Q ltac:(lia)). unfold coordinate in Q. rewrite Ep, Er, EC in Q.
    rewrite <- !Ex, !Exh in Q. simpl in Q. lra. }
  assert (EPer : period nd per dims ranges d = P).
  { unfold period, P. change (coordinate nd per dims ranges d) with x. f_equal. f_equal. unfold N. rewrite ddims_nth by auto. rewrite Ep. reflexivity. }
  destruct (wbas_rep K p N P ltac:(intros; apply per_step; auto) ltac:(intros; apply per_shift; auto) HN p y) as (k & m & Hk & Hy).
  rewrite (beta_per nd p per dims ranges f g mats GI IP Hp1 d Hd j y k m Ep ltac:(lia)) in HB by (fold N; fold x; fold P; fold K; lra).
  fold N in HB. fold x in HB. fold P in HB. fold K in HB.
  assert (EK : forall i, K i = a + (INR i - INR p - (if Nat.even p then / 2 else 0)) * hh).
  { intros i. unfold K, hh. rewrite EP. rewrite <- (per_uniform a b p N i) by lia.
    replace x with (grid_of (Uniform a b) (N + 1)) by (apply functional_extensionality; intros; auto). reflexivity. }
  assert (S : exists e, (e <= p)%nat /\ ((k - p + e) mod N = j)%nat).
  { destruct (find_lt (fun e => ((k - p + e) mod N)%nat) j (p + 1)) as [(e & He & E)|Hno].
    - exists e. split; [lia|auto].
    - exfalso. apply HB. unfold wbas. apply sum_0. intros e He. destruct (Nat.eqb_spec ((k - p + e) mod N) j); auto. exfalso. apply (Hno e); auto. }
  destruct S as (e & He & Ej). pose proof (Nat.div_mod (k - p + e) N ltac:(lia)) as DM. rewrite Ej in DM. set (q := ((k - p + e) / N)%nat) in *.
  exists (Z.of_nat q - m)%Z. rewrite EPer, minus_IZR, <- INR_IZR_INZ.
  assert (DR : INR k - INR p + INR e = INR N * INR q + INR j).
  { rewrite <- mult_INR, <- plus_INR, <- DM. rewrite plus_INR, minus_INR by lia. ring. }
  rewrite !EK in Hy. rewrite plus_INR in Hy. simpl (INR 1) in Hy.
  assert (HP2 : INR p - (if Nat.even p then 0 else 1) = 2 * INR (p / 2)).
  { destruct (Nat.even p) eqn:Ev.
    - apply Nat.even_spec in Ev as [t ->]. replace (2 * t / 2)%nat with t by (rewrite Nat.mul_comm, Nat.div_mul; lia). rewrite mult_INR. simpl. ring.
    - assert (Ho : Nat.odd p = true) by (unfold Nat.odd; rewrite Ev; auto). apply Nat.odd_spec in Ho as [t ->].
      replace ((2 * t + 1) / 2)%nat with t by (rewrite Nat.add_comm, Nat.mul_comm, Nat.div_add by lia; reflexivity).
      rewrite plus_INR, mult_INR. simpl. ring. }
  assert (R1 : 0 <= INR e) by apply pos_INR. assert (R2 : INR e <= INR p) by (apply le_INR; auto).
  rewrite plus_INR. simpl (INR 1).
  apply Rle_trans with ((INR p + 1) / 2 * hh); [|apply Rmult_le_compat_l; [pose proof (pos_INR p); lra|auto]].
  fold hh. rewrite EPh in Hy |- *.
  set (mm := IZR m * (INR N * hh)) in *.
  replace (y - (a + (INR j - INR (p / 2)) * hh + (INR q - IZR m) * (INR N * hh))) with
    ((y + mm) - (a + (INR N * INR q + INR j - INR (p / 2)) * hh)) by (unfold mm; ring).
  rewrite <- DR. apply Rabs_le. destruct (Nat.even p); nra.
Qed.

Lemma uniform_approx on nd p per dims ranges F f g h w :
  good_input nd p per dims ranges -> (1 <= p <= 6)%nat -> uniform_periodic per ranges ->
  m_dims f = dims -> wf_mesh f -> interp_make Rops on nd p per f ranges = Ok g ->
  sampled nd per dims ranges F f -> periodic_function nd per dims ranges F ->
  mesh_width nd per dims ranges h -> varies nd per dims ranges F (INR (p + 1) / 2 * h) w ->
  forall xs, length xs = length per -> countable_point nd per dims ranges xs ->
  exists v, interp_eval Rops g xs = Ok v /\ Rabs (v - F xs) <= (1 + amplification p ^ length per) * w.
Proof.
  intros GI Hp UP E W M SA PF MW HV xs Lx C.
  destruct (interp_make_spec on nd p per dims ranges f GI E W) as (mats & _ & _ & HG & _). pose proof (HG g M) as IP.
  set (pos := fun d j => match nth d ranges (Points []) with Uniform a b => a + (INR j - INR (p / 2)) * ((b - a) / INR (nth d (ddims nd per dims) 0%nat)) | _ => 0 end).
  apply (approx_stable on nd p per dims ranges f g mats GI E W M IP F w pos); auto.
  - intros ys Ly Ig. apply (mean_near on nd p per dims ranges f g mats GI E W M IP F (INR (p + 1) / 2 * h) w pos); auto.
    + intros d j Hd _ Ep. destruct (UP d Hd) as [Q _]. congruence.
    + intros d j y Hd Hj _ HB. unfold pos. destruct (UP d Hd) as (Ep & a & b & Er). rewrite Ep, Er.
      apply (uniform_place nd p per dims ranges f g mats); auto. lia.
  - unfold amplification. do 6 (destruct p as [|p]; [lra|]). lra.
  - intros d A Hd CG. apply (uniform_stable nd p per dims ranges d A); auto. lia.
  - intros d Hd. left. apply UP. auto.
Qed.

(** ** Order 1 on any grid *)
Lemma between_two (x : nat -> R) y : forall n, (0 < n)%nat -> x 0%nat <= y <= x n -> exists i, (i < n)%nat /\ x i <= y <= x (i + 1)%nat.
Proof.
  induction n as [|n IH]; intros Hn Hy; [lia|]. destruct (Rle_or_lt (x n) y) as [H|H].
  - exists n. rewrite Nat.add_1_r. split; [lia|lra].
  - destruct n as [|n]; [lra|]. destruct (IH ltac:(lia) ltac:(lra)) as (i & Hi & Q). exists i. split; [lia|auto].
Qed.

Lemma linear_place nd per dims ranges f g mats d j y h :
  good_input nd 1 per dims ranges -> interpolant nd 1 per dims ranges f g mats ->
  (d < length per)%nat -> mesh_width nd per dims ranges h -> (j < nth d (ddims nd per dims) 0)%nat ->
  (nth d per false = true \/ coordinate nd per dims ranges d 0 <= y <= coordinate nd per dims ranges d (nth d dims 0%nat - 1)) ->
  beta (if_spline g) d j y <> 0 ->
  if nth d per false then exists z : Z, Rabs (y - (coordinate nd per dims ranges d j + IZR z * period nd per dims ranges d)) <= h
  else Rabs (y - coordinate nd per dims ranges d j) <= h.
Proof.
  intros GI IP Hd MW Hj Hy HB.
  pose proof (s_N nd 1 per dims ranges GI d Hd) as HN.
  pose proof (s_incr nd 1 per dims ranges GI d Hd) as Hx.
  assert (MWd := MW d). set (x := coordinate nd per dims ranges d) in *. change (xs_of nd per dims ranges d) with x in Hx.
  set (N := nth d (ddims nd per dims) 0%nat) in *.
  assert (EN : N = distinct nd (nth d per false) (nth d dims 0%nat)) by (unfold N; apply ddims_nth; auto).
  destruct (nth d per false) eqn:Ep.
  - assert (EPer : period nd per dims ranges d = x N - x 0%nat) by (unfold period; fold x; rewrite EN; reflexivity).
    set (P := x N - x 0%nat) in *.
    assert (CN : coords_num nd true (nth d dims 0%nat) = (N + 1)%nat) by (rewrite EN; reflexivity).
    destruct (wbas_rep (per_knot 1 N P x) 1 N P ltac:(intros; apply per_step; auto) ltac:(intros; apply per_shift; auto) HN 1 y) as (k & m & Hk & Hy').
    assert (K1 : forall m, (m <= N)%nat -> per_knot 1 N P x (m + 1) = x m) by (intros; apply per_at_odd; auto).
    destruct k as [|i]; [lia|]. replace (S i) with (i + 1)%nat in Hy' by lia. rewrite !K1 in Hy' by lia.
    pose proof (beta_linear nd per dims ranges f g mats GI IP d i y (y + IZR m * P) Hd) as B. unfold in_cell, cell in B. rewrite Ep in B. rewrite <- EN in B. fold x in B.
    destruct B as (_ & _ & B). { split; [lia|]. split; [exists m; reflexivity|]. lra. }
    fold N in B. rewrite B in HB by auto.
    assert (ST : x (i + 1)%nat - x i <= h) by (apply MWd; auto; lia).
    rewrite EPer. destruct (Nat.eqb_spec i j) as [Q|Q].
    + exists (- m)%Z. rewrite opp_IZR. subst j. apply Rabs_le. lra.
    + destruct (Nat.eqb_spec ((i + 1) mod N) j) as [Q'|Q']; [|lra].
      destruct (Nat.eq_dec (i + 1) N) as [Q2|Q2].
      * rewrite Q2, Nat.mod_same in Q' by lia. subst j. exists (1 - m)%Z. rewrite minus_IZR. 
        replace (y - (x 0%nat + (1 - IZR m) * P)) with (y + IZR m * P - x N) by (unfold P; ring). rewrite <- Q2. apply Rabs_le. lra.
      * rewrite Nat.mod_small in Q' by lia. subst j. exists (- m)%Z. rewrite opp_IZR. apply Rabs_le. lra.
  - destruct Hy as [Hy|Hy]; [discriminate|]. unfold distinct in EN. cbn [andb] in EN. rewrite <- EN in Hy.
    destruct (between_two x y (N - 1) ltac:(lia) Hy) as (i & Hi & Hy').
    pose proof (beta_linear nd per dims ranges f g mats GI IP d i y y Hd) as B. unfold in_cell, cell in B. rewrite Ep in B. unfold distinct in B. cbn [andb] in B. rewrite <- EN in B. fold x in B.
    destruct B as (_ & _ & B). { split; [lia|]. split; [auto|]. split; right; lra. }
    fold N in B. rewrite B in HB by auto.
    assert (ST : x (i + 1)%nat - x i <= h) by (apply MWd; auto; unfold coords_num; lia).
    destruct (Nat.eqb_spec i j) as [<-|Q]; [apply Rabs_le; lra|].
    destruct (Nat.eqb_spec (i + 1) j) as [<-|Q']; [apply Rabs_le; lra|lra].
Qed.

Lemma linear_approx on nd per dims ranges F f g h w :
  good_input nd 1 per dims ranges -> m_dims f = dims -> wf_mesh f -> interp_make Rops on nd 1 per f ranges = Ok g ->
  sampled nd per dims ranges F f -> periodic_function nd per dims ranges F ->
  mesh_width nd per dims ranges h -> varies nd per dims ranges F h w ->
  forall xs, length xs = length per -> countable_point nd per dims ranges xs -> in_grid nd per dims ranges xs ->
  exists v, interp_eval Rops g xs = Ok v /\ Rabs (v - F xs) <= w.
Proof.
  intros GI E W M SA PF MW HV xs Lx C Ig.
  destruct (interp_make_spec on nd 1 per dims ranges f GI E W) as (mats & _ & _ & HG & _). pose proof (HG g M) as IP.
  eexists. split; [apply (linear_value on nd per dims ranges f g GI E W M); auto|].
  set (pos := coordinate nd per dims ranges).
  pose proof (mean_near on nd 1 per dims ranges f g mats GI E W M IP F h w pos PF HV) as MN.
  assert (MN' := MN). clear MN. 
  set (bs := dbas (if_spline g) xs (repeat 0%nat (sp_dim (if_spline g)))) in *.
  assert (Q : tensor bs (fun idx => F (places per pos idx)) =
    tensor (map (fun e => (num_of (if_spline g) e, fun j => beta (if_spline g) e j (nth e xs 0))) (seq 0 (sp_dim (if_spline g)))) (val_at f)).
  { transitivity (tensor bs (val_at f)).
    - apply tensor_ext. unfold bs. rewrite (dbas_dims nd 1 per dims ranges f g mats IP). intros idx V.
      rewrite (SA idx); [reflexivity|]. apply (valid_W_dims nd per dims (proj1 (proj2 GI))); auto.
    - f_equal. unfold bs, dbas. apply map_ext. intros d. f_equal. apply functional_extensionality. intros j. rewrite nth_repeat. reflexivity. }
  rewrite <- Q. apply MN'; auto.
  - intros d j Hd Hj Ep. pose proof (s_incr nd 1 per dims ranges GI d Hd) as Hx. rewrite Ep in Hx.
    change (xs_of nd per dims ranges d) with (pos d) in Hx.
    assert (EN : nth d (ddims nd per dims) 0%nat = nth d dims 0%nat) by (rewrite ddims_nth by auto; rewrite Ep; reflexivity).
    rewrite EN in Hx, Hj. split; apply increasing_le with (m := nth d dims 0%nat); auto; lia.
  - intros d j y Hd Hj Hy HB. apply (linear_place nd per dims ranges f g mats); auto.
Qed.

(** ** Convergence *)
Lemma uniform_varies nd per dims ranges F r w :
  (forall xs ys, length xs = length per -> length ys = length per ->
      (forall d, (d < length per)%nat -> Rabs (nth d xs 0 - nth d ys 0) <= r) -> Rabs (F xs - F ys) <= w) -> varies nd per dims ranges F r w.
Proof. intros H xs ys L1 L2 _ _. apply H; auto. Qed.

Lemma approx_converges p n F : (1 <= p <= 6)%nat -> uniformly_continuous n F ->
  forall eps, 0 < eps -> exists delta, 0 < delta /\
  forall on nd per dims ranges f g, length per = n ->
    good_input nd p per dims ranges -> (uniform_periodic per ranges \/ p = 1%nat) ->
    m_dims f = dims -> wf_mesh f -> interp_make Rops on nd p per f ranges = Ok g ->
    sampled nd per dims ranges F f -> periodic_function nd per dims ranges F -> mesh_width nd per dims ranges delta ->
  forall xs, length xs = n -> countable_point nd per dims ranges xs -> in_grid nd per dims ranges xs ->
  exists v, interp_eval Rops g xs = Ok v /\ Rabs (v - F xs) <= eps.
Proof.
  intros Hp UC eps He.
  assert (HA : 1 <= amplification p) by (unfold amplification; do 6 (destruct p as [|p]; [lra|]); lra).
  assert (HK : 1 <= amplification p ^ n) by (apply pow_R1_Rle; auto).
  destruct (UC (eps / (1 + amplification p ^ n))) as (dl & Hdl & HU). { apply Rdiv_lt_0_compat; lra. }
  pose proof (pos_INR (p + 1)) as HP0. assert (HP : 0 < INR (p + 1)) by (apply lt_0_INR; lia).
  assert (HP1 : 2 <= INR (p + 1)) by (rewrite plus_INR; simpl; assert (1 <= INR p) by (apply (le_INR 1); lia); lra).
  exists (dl / (INR (p + 1) / 2)). split; [apply Rdiv_lt_0_compat; lra|].
  intros on nd per dims ranges f g Ln GI UP E W M SA PF MW xs Lx C Ig. subst n.
  destruct UP as [UP|E1].
  - destruct (uniform_approx on nd p per dims ranges F f g (dl / (INR (p + 1) / 2)) (eps / (1 + amplification p ^ length per)) GI Hp UP E W M SA PF MW) with (xs := xs) as (v & Hv & B); auto.
    + apply uniform_varies. replace (INR (p + 1) / 2 * (dl / (INR (p + 1) / 2))) with dl by (field; lra). exact HU.
    + exists v. split; auto. replace eps with ((1 + amplification p ^ length per) * (eps / (1 + amplification p ^ length per))) by (field; lra). exact B.
  - subst p. destruct (linear_approx on nd per dims ranges F f g (dl / (INR (1 + 1) / 2)) (eps / (1 + amplification 1 ^ length per)) GI E W M SA PF MW) with (xs := xs) as (v & Hv & B); auto.
    + apply uniform_varies. replace (dl / (INR (1 + 1) / 2)) with dl by (simpl; field). exact HU.
    + exists v. split; auto. eapply Rle_trans; [exact B|]. apply (Rmult_le_reg_r (1 + amplification 1 ^ length per)); [lra|].
      unfold Rdiv. rewrite Rmult_assoc, Rinv_l by lra. nra.
Qed.
