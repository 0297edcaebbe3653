(** Derivatives of interpolations on equally spaced periodic points approximate
    the derivatives of the function behind the data. *)
From Coq Require Import List Arith Lia Bool ZArith Reals Lra FunctionalExtensionality.
From Coquelicot Require Import Coquelicot.
From Verif Require Import Base Num MeshM SpecMesh MeshProofs ProgM BandM LUM SplineM InterpM.
From Verif Require Import SumR DenseLU SpecBand BandProofs MulProofs LUProofs LUConv SpecSpline SpecSplineObj SplineProofs BasisProofs BetaProofs TensorR EvalProofs EvalR DerivProofs DerivLoops SplineTop SplineCalc SpecInterp KnotProofs KnotShape CoefProofs SolverProofs RoundProofs SolveProofs BuildProofs WeightProofs InterpProofs PerDom PerPD InterpTop InterpFinal PolyProofs SymBasis SymProofs SpecDims LinProofs RoundTensor RoundDerivLoops
  SpecCurve VecTop MonoTop SpecStab StabProofs StabTop SpecApprox ApproxProofs ApproxTop SpecSmooth SmoothProofs SmoothTop SpecDApprox DApproxProofs SpecInterp.
Import ListNotations.
Open Scope R_scope.

(** ** Means over nearby places *)
Lemma tensor_near nd per dims ranges bs (pos : nat -> nat -> R) G r w xs :
  (forall d, (d < length per)%nat -> nth d per false = true) ->
  length bs = length per -> map fst bs = ddims nd per dims ->
  (forall d, (d < length per)%nat -> sum (nth d (ddims nd per dims) 0%nat) (snd (nth d bs (0%nat, fun _ => 0))) = 1 /\
     forall i, (i < nth d (ddims nd per dims) 0)%nat -> 0 <= snd (nth d bs (0%nat, fun _ => 0)) i) ->
  (forall d j, (d < length per)%nat -> (j < nth d (ddims nd per dims) 0)%nat -> snd (nth d bs (0%nat, fun _ => 0)) j <> 0 ->
     exists z : Z, Rabs (nth d xs 0 - (pos d j + IZR z * period nd per dims ranges d)) <= r) ->
  periodic_function nd per dims ranges G -> varies nd per dims ranges G r w -> length xs = length per ->
  Rabs (tensor bs (fun idx => G (places per pos idx)) - G xs) <= w.
Proof.
  intros HP LB EB H1 H2 PG VG Lx.
  assert (FB : forall d, (d < length per)%nat -> fst (nth d bs (0%nat, fun _ => 0)) = nth d (ddims nd per dims) 0%nat).
  { intros d Hd. rewrite <- EB. change 0%nat with (fst (0%nat, fun _ : nat => 0)) at 2. symmetry. apply map_nth. }
  assert (IG : forall zs, in_grid nd per dims ranges zs) by (intros zs d Hd; left; auto).
  assert (Q : G xs - w <= tensor bs (fun idx => G (places per pos idx)) <= G xs + w); [|apply Rabs_le; lra].
  apply tensor_support.
  - intros d Hd. rewrite LB in Hd. rewrite FB by auto. apply H1. auto.
  - intros idx V Hs. rewrite LB in Hs. rewrite EB in V.
    pose proof (valid_length _ _ V) as Li. rewrite ddims_length in Li. rewrite valid_nth in V by (rewrite ddims_length; auto). rewrite ddims_length in V.
    destruct (choose_list (length per) (fun d v => Rabs (nth d xs 0 - v) <= r /\
        exists z : Z, v = pos d (nth d idx 0%nat) + IZR z * period nd per dims ranges d)) as (ys & Ly & Hy).
    { intros d Hd. destruct (H2 d _ Hd (V d Hd) (Hs d Hd)) as (z & N). eexists. split; [exact N|]. exists z. reflexivity. }
    assert (EF : G ys = G (places per pos idx)).
    { apply PG; auto; [unfold places; rewrite length_map_seq; auto|]. intros d Hd. rewrite HP by auto. destruct (Hy d Hd) as [_ Q]. unfold places. rewrite nth_map_seq by auto. exact Q. }
    assert (B : Rabs (G xs - G ys) <= w) by (apply VG; auto; intros d Hd; apply (Hy d Hd)).
    rewrite <- EF. apply Rabs_le_between in B. lra.
Qed.

(** ** Derivatives of periodic functions are periodic *)
Lemma same_with nd per dims ranges xs ys d c : (d < length per)%nat -> length xs = length per -> length ys = length per ->
  same_point nd per dims ranges xs ys -> nth d per false = true ->
  same_point nd per dims ranges (with_at xs d (nth d xs 0 - c)) (with_at ys d (nth d ys 0 - c)).
Proof.
  intros Hd Lx Ly H Ep e He. pose proof (H e He) as Q. rewrite !with_nth by lia. destruct (Nat.eqb_spec e d) as [->|]; auto.
  rewrite Ep in Q |- *. destruct Q as (z & Q). exists z. lra.
Qed.

Lemma periodic_derivative nd per dims ranges vars : (forall d, (d < length per)%nat -> nth d per false = true) ->
  (forall e, In e vars -> (e < length per)%nat) -> forall F G, differentiates (length per) vars F G ->
  periodic_function nd per dims ranges F -> periodic_function nd per dims ranges G.
Proof.
  intros HP. induction vars as [|d vars IH]; intros HV F G HD PF.
  - intros xs ys Lx Ly S. rewrite <- !HD by auto. apply PF; auto.
  - destruct HD as (F1 & H1 & H2). apply (IH (fun e He => HV e (or_intror He)) F1 G H2).
    assert (Hd : (d < length per)%nat) by (apply HV; left; auto).
    intros xs ys Lx Ly S. pose proof (H1 xs Lx) as D1. pose proof (H1 ys Ly) as D2.
    pose proof (S d Hd) as Sd. rewrite HP in Sd by auto. destruct Sd as (z & Ez).
    set (P := period nd per dims ranges d) in *.
    assert (D3 : is_derive (fun t : R => F (with_at xs d t)) (nth d xs 0) (F1 ys)).
    { apply (is_derive_ext (fun t => (fun v => F (with_at ys d v)) (t + IZR z * P))).
      - intros t. cbv beta. apply PF; try (rewrite with_length; auto; lia).
        intros e He. rewrite !with_nth by lia. pose proof (S e He) as Q. destruct (Nat.eqb_spec e d) as [->|]; auto.
        rewrite HP by auto. exists z. reflexivity.
      - replace (F1 ys) with (scal 1 (F1 ys)) by apply (scal_one (K := R_Ring)).
        apply (is_derive_comp (fun v => F (with_at ys d v)) (fun t => t + IZR z * P)).
        + rewrite <- Ez. exact D2.
        + auto_derive; auto. }
    apply is_derive_unique in D1. apply is_derive_unique in D3. congruence.
Qed.

Section Top.
Variables (on nd : bool) (p : nat) (per : list bool) (dims : list nat) (ranges : list (xrange R)) (f : MeshM.mesh R)
  (g : interp R) (mats : list mat).
Hypothesis GI : good_input nd p per dims ranges.
Hypothesis Ef : m_dims f = dims.
Hypothesis Wf : wf_mesh f.
Hypothesis Eg : interp_make Rops on nd p per f ranges = Ok g.
Hypothesis IP : interpolant nd p per dims ranges f g mats.
Hypothesis UP : uniform_periodic per ranges.
Let n := length per.
Let W := ddims nd per dims.
Let s := if_spline g.

Definition lo (d : nat) : R := match nth d ranges (Points []) with Uniform a _ => a | _ => 0 end.
Definition st (d : nat) : R := match nth d ranges (Points []) with Uniform a b => (b - a) / INR (nth d W 0%nat) | _ => 1 end.
Definition pos (d j : nat) : R := lo d + (INR j - INR (p / 2)) * st d.
Definition kk (d i : nat) : R := lo d + (INR i - INR p - half p) * st d.
Let pl := places per pos.

Lemma all_per d : (d < n)%nat -> nth d per false = true.
Proof. intros Hd. apply UP. auto. Qed.

Lemma dim_facts d : (d < n)%nat ->
  0 < st d /\ (p + 1 <= nth d W 0)%nat /\ period nd per dims ranges d = INR (nth d W 0%nat) * st d /\
  (forall i, xs_of nd per dims ranges d i = lo d + INR i * st d) /\
  (exists a b, a < b /\ col_good p true (nth d W 0%nat) (grid_of (Uniform a b) (nth d W 0 + 1)%nat) (mat_at mats d)) /\
  length (knot_of s d) = (nth d W 0 + 2 * p + 1 + (1 - p mod 2))%nat /\
  (forall i, (i < nth d W 0 + 2 * p + 1 + (1 - p mod 2))%nat -> kn (knot_of s d) i = kk d i).
Proof.
  intros Hd. destruct (UP d Hd) as (Ep & a & b & Er).
  pose proof (s_N nd p per dims ranges GI d Hd) as HN. fold W in HN.
  pose proof (s_incr nd p per dims ranges GI d Hd) as Hx. rewrite Ep in Hx. fold W in Hx.
  pose proof (ip_col _ _ _ _ _ _ _ _ IP d Hd) as CG. fold W in CG. rewrite Ep in CG. 
  destruct (s_pk nd p per dims ranges f g mats IP d Hd Ep) as [L V]. fold W in L, V. fold s in L, V.
  unfold st, lo, kk. unfold lo, st. rewrite Er. set (N := nth d W 0%nat) in *.
  assert (EC : coords_num nd true (nth d dims 0%nat) = (N + 1)%nat) by (unfold N, W; rewrite ddims_nth by auto; rewrite Ep; reflexivity).
  set (x := xs_of nd per dims ranges d) in *.
  assert (Ex : forall i, x i = grid_of (Uniform a b) (N + 1) i).
  { intros i. unfold x, xs_of, gridx. rewrite Ep, Er, EC. reflexivity. }
  assert (NN : 0 < INR N) by (apply lt_0_INR; lia).
  set (hh := (b - a) / INR N).
  assert (Exh : forall i, x i = a + INR i * hh) by (intros i; rewrite Ex; unfold grid_of; replace (N + 1 - 1)%nat with N by lia; reflexivity).
  assert (EP : x N - x 0%nat = b - a) by (rewrite !Exh; simpl (INR 0); unfold hh; field; lra).
  assert (Hh : 0 < hh) by (pose proof (Hx 0%nat 1%nat ltac:(lia)) as Q; rewrite !Exh in Q; simpl in Q; lra).
  assert (Eh : b - a = INR N * hh) by (unfold hh; field; lra).
  split; auto. split; auto. split.
  { unfold period. change (coordinate nd per dims ranges d) with x. replace (distinct nd true (nth d dims 0%nat)) with N by (unfold N, W; rewrite ddims_nth by auto; rewrite Ep; reflexivity).
    rewrite EP. exact Eh. }
  split; auto. split; [|split; auto].
  - exists a, b. split; [nra|]. unfold gridx in CG. rewrite Er, EC in CG. exact CG.
  - intros i Hi. rewrite V by auto. rewrite EP.
    replace x with (grid_of (Uniform a b) (N + 1)) by (apply functional_extensionality; intros; auto).
    rewrite per_uniform by auto. reflexivity.
Qed.

(** ** Difference quotients of arrays *)
Definition dd (d : nat) (c : list nat -> R) (idx : list nat) : R :=
  (c idx - c (set_nth idx d (prd (nth d W 0%nat) (nth d idx 0%nat)))) / st d.
Fixpoint dds (vars : list nat) (c : list nat -> R) : list nat -> R :=
  match vars with [] => c | d :: vars => dd d (dds vars c) end.

Lemma W_len : length W = n.
Proof. apply ddims_length. Qed.

Lemma valid_prd idx d : (d < n)%nat -> valid W idx -> valid W (set_nth idx d (prd (nth d W 0%nat) (nth d idx 0%nat))).
Proof. intros Hd V. apply valid_set_nth; auto. apply prd_lt. destruct (dim_facts d Hd) as (_ & ? & _). lia. Qed.

Lemma dds_ext vars c c' : (forall e, In e vars -> (e < n)%nat) -> (forall idx, valid W idx -> c idx = c' idx) ->
  forall idx, valid W idx -> dds vars c idx = dds vars c' idx.
Proof.
  intros HV H. induction vars as [|d vars IH]; intros idx V; cbn [dds]; auto. unfold dd.
  rewrite !IH; auto; try (intros; apply HV; right; auto). apply valid_prd; auto. apply HV. left. auto.
Qed.

Lemma mats_len : length mats = length W.
Proof. rewrite W_len. apply (ip_mats _ _ _ _ _ _ _ _ IP). Qed.

Lemma dd_commutes d c idx : (d < n)%nat -> valid W idx ->
  tensor (mrow W mats idx) (dd d c) = dd d (fun r => tensor (mrow W mats r) c) idx.
Proof.
  intros Hd V. pose proof W_len as LW. pose proof mats_len as Lm. pose proof (valid_length _ _ V) as Li.
  destruct (dim_facts d Hd) as (Hs & HN & _ & _ & (a & b & Hab & CG) & _).
  set (N := nth d W 0%nat) in *. set (r := nth d idx 0%nat).
  assert (Hr : (r < N)%nat). { pose proof V as V'. rewrite valid_nth in V' by auto. apply V'. lia. }
  unfold dd. fold N.
  set (c1 := fun idx0 : list nat => c (set_nth idx0 d (prd N (nth d idx0 0%nat)))).
  transitivity ((tensor (mrow W mats idx) c - tensor (mrow W mats idx) c1) / st d).
  { rewrite tensor_minus. unfold Rdiv. rewrite (Rmult_comm _ (/ st d)), <- tensor_scal. apply tensor_ext. intros i _. unfold c1. ring. }
  f_equal. f_equal. unfold c1.
  apply (tensor_lineop (mrow W mats idx) (mrow W mats (set_nth idx d (prd N r))) d (fun f pos => f (prd N pos)) c).
  - rewrite !mrow_dims; auto. rewrite set_nth_length. auto.
  - rewrite mrow_length; auto; lia.
  - intros e He. destruct (Nat.lt_ge_cases e n) as [L|L].
    + rewrite !mrow_nth by (rewrite ?set_nth_length; lia). rewrite nth_set_nth_ne by auto. reflexivity.
    + rewrite !nth_overflow; auto; rewrite mrow_length; rewrite ?set_nth_length; auto; lia.
  - intros u. rewrite !mrow_nth by (rewrite ?set_nth_length; lia). cbn [fst snd]. fold N. fold r.
    rewrite nth_set_nth by lia.
    apply (circ_shift p N (mat_at mats d) (fun e => ub (half p) p (p - e)) (N - p / 2)); auto; try lia.
    intros r' j Hr' Hj. apply (uniform_circ p N a b); auto.
Qed.

Lemma dds_commutes vars c : (forall e, In e vars -> (e < n)%nat) -> forall idx, valid W idx ->
  tensor (mrow W mats idx) (dds vars c) = dds vars (fun r => tensor (mrow W mats r) c) idx.
Proof.
  intros HV. induction vars as [|d vars IH]; intros idx V; cbn [dds]; auto.
  assert (Hd : (d < n)%nat) by (apply HV; left; auto). rewrite dd_commutes by auto. unfold dd.
  rewrite !IH; auto; try (intros; apply HV; right; auto). apply valid_prd; auto.
Qed.

(** ** Difference quotients of values at the places *)
Lemma pl_length idx : length (pl idx) = n.
Proof. unfold pl, places. apply length_map_seq. Qed.
Lemma pl_nth idx d : (d < n)%nat -> nth d (pl idx) 0 = pos d (nth d idx 0%nat).
Proof. intros Hd. unfold pl, places. rewrite nth_map_seq by auto. reflexivity. Qed.

Lemma pos_prd d j : (d < n)%nat -> (j < nth d W 0)%nat ->
  exists z : Z, pos d (prd (nth d W 0%nat) j) = pos d j - st d + IZR z * period nd per dims ranges d.
Proof.
  intros Hd Hj. destruct (dim_facts d Hd) as (_ & _ & -> & _). set (N := nth d W 0%nat) in *. unfold pos, prd. destruct j as [|j].
  - exists 1%Z. rewrite Nat.mod_small by lia. rewrite !Nat.add_0_l, minus_INR by lia. simpl. ring.
  - exists 0%Z. replace (S j + N - 1)%nat with (j + 1 * N)%nat by lia. rewrite Nat.mod_add, Nat.mod_small by lia. rewrite S_INR. simpl. ring.
Qed.

Lemma dq_periodic d F : (d < n)%nat -> periodic_function nd per dims ranges F -> periodic_function nd per dims ranges (dq st d F).
Proof.
  intros Hd PF xs ys Lx Ly S. unfold dq. rewrite (PF xs ys) by auto.
  rewrite (PF (with_at xs d (nth d xs 0 - st d)) (with_at ys d (nth d ys 0 - st d))); auto; try (rewrite with_length; auto; fold n in Lx, Ly |- *; lia).
  apply same_with; auto. apply all_per; auto.
Qed.
Lemma dqs_periodic vars F : (forall e, In e vars -> (e < n)%nat) -> periodic_function nd per dims ranges F -> periodic_function nd per dims ranges (dqs st vars F).
Proof.
  intros HV PF. induction vars as [|d vars IH]; auto. cbn [dqs]. apply dq_periodic; [apply HV; left; auto|].
  apply IH. intros; apply HV; right; auto.
Qed.

Lemma dd_places d F idx : (d < n)%nat -> valid W idx -> periodic_function nd per dims ranges F ->
  dd d (fun r => F (pl r)) idx = dq st d F (pl idx).
Proof.
  intros Hd V PF. unfold dd, dq. f_equal. f_equal. pose proof (valid_length _ _ V) as Li. rewrite W_len in Li.
  apply PF; try (rewrite ?with_length, ?pl_length; auto; rewrite ?pl_length; auto).
  intros e He. rewrite all_per by auto. rewrite with_nth by (rewrite pl_length; auto). rewrite !pl_nth by auto.
  destruct (Nat.eqb_spec e d) as [->|Hne].
  - rewrite nth_set_nth by lia. apply pos_prd; auto. rewrite valid_nth in V by (rewrite W_len; auto). apply V. rewrite W_len. auto.
  - exists 0%Z. rewrite nth_set_nth_ne by auto. simpl. ring.
Qed.

Lemma dds_places vars F : (forall e, In e vars -> (e < n)%nat) -> periodic_function nd per dims ranges F ->
  forall idx, valid W idx -> dds vars (fun r => F (pl r)) idx = dqs st vars F (pl idx).
Proof.
  intros HV PF. induction vars as [|d vars IH]; intros idx V; auto. cbn [dds dqs].
  assert (Hd : (d < n)%nat) by (apply HV; left; auto). assert (HV' : forall e, In e vars -> (e < n)%nat) by (intros; apply HV; right; auto).
  rewrite <- dd_places by (auto; apply dqs_periodic; auto). unfold dd. rewrite !IH; auto. apply valid_prd; auto.
Qed.

(** The data in terms of the places. *)
Lemma data_places F r : sampled nd per dims ranges F f -> periodic_function nd per dims ranges F -> valid W r ->
  tensor (mrow W mats r) (ctrl_at Rops s) = F (pl r).
Proof.
  intros SA PF V. destruct (rows_onto nd p per dims ranges GI r V) as (idx & Vi & <-).
  unfold W at 1, s. rewrite (ip_eqs _ _ _ _ _ _ _ _ IP idx Vi). rewrite SA by (apply (valid_W_dims nd per dims (proj1 (proj2 GI))); auto).
  assert (Lg : length (grid_point nd per dims ranges idx) = n) by (unfold grid_point; apply length_map_seq).
  apply PF; auto; [apply pl_length|]. intros d Hd. rewrite all_per by auto.
  fold W in Vi. pose proof (valid_length _ _ Vi) as Li. rewrite valid_nth in Vi by auto. rewrite W_len in Vi. specialize (Vi d Hd).
  rewrite pl_nth by auto. rewrite rows_nth by auto. unfold rowof. rewrite all_per by auto. fold W.
  destruct (dim_facts d Hd) as (_ & HN & -> & Ex & _). set (N := nth d W 0%nat) in *.
  unfold pos. unfold grid_point. rewrite nth_map_seq by auto. change (coordinate nd per dims ranges d) with (xs_of nd per dims ranges d). rewrite Ex.
  set (i := nth d idx 0%nat) in *. pose proof (Nat.div_mod (i + p / 2) N ltac:(lia)) as DM.
  set (q := ((i + p / 2) / N)%nat) in *. set (m := ((i + p / 2) mod N)%nat) in *.
  exists (Z.of_nat q)%Z. rewrite <- INR_IZR_INZ.
  assert (DR : INR i + INR (p / 2) = INR N * INR q + INR m) by (rewrite <- mult_INR, <- !plus_INR, <- DM; auto).
  replace (INR i) with (INR N * INR q + INR m - INR (p / 2)) by lra. ring.
Qed.

(** ** Derivatives as combinations of difference quotients *)
Section Point.
Variable xs : list R.
Hypothesis Lx : length xs = n.
Let ky (d : nat) : nat := snd (loc s d (nth d xs 0)).
Let yy (d : nat) : R := fst (loc s d (nth d xs 0)).
Definition theta (m a : nat -> nat) : list (nat * (nat -> R)) :=
  map (fun d => (nth d W 0%nat, gam (kk d) (ky d) (nth d W 0%nat) (nbasis s d) (yy d) (p - m d) (a d))) (seq 0 n).

Lemma theta_nth m a d : (d < n)%nat -> nth d (theta m a) (0%nat, fun _ => 0) =
  (nth d W 0%nat, gam (kk d) (ky d) (nth d W 0%nat) (nbasis s d) (yy d) (p - m d) (a d)).
Proof. intros Hd. unfold theta. rewrite nth_map_seq by auto. reflexivity. Qed.
Lemma theta_length m a : length (theta m a) = n.
Proof. apply length_map_seq. Qed.
Lemma theta_dims m a : map fst (theta m a) = W.
Proof.
  unfold theta. rewrite map_map. cbn [fst]. apply (nth_ext _ _ 0%nat 0%nat).
  - rewrite map_length, seq_length, W_len. auto.
  - intros d Hd. rewrite map_length, seq_length in Hd. rewrite map_seq_nth by auto. auto.
Qed.

Lemma kk_steps d i q : kk d (i + q) - kk d i = INR q * st d.
Proof. unfold kk. rewrite plus_INR. ring. Qed.

Lemma point_facts d : (d < n)%nat -> (p <= ky d)%nat /\ (ky d < nbasis s d)%nat /\ (ky d <= last_of s d)%nat /\
  kn (knot_of s d) (ky d) < kn (knot_of s d) (ky d + 1) /\
  kk d (ky d) <= yy d <= kk d (ky d + 1) /\ exists z : Z, yy d = nth d xs 0 + IZR z * period nd per dims ranges d.
Proof.
  intros Hd. pose proof (s_good nd p per dims ranges f g mats GI IP) as SG. pose proof (s_dim _ _ _ _ _ _ _ _ IP) as SD. fold s in SG, SD.
  pose proof (s_order _ _ _ _ _ _ _ _ IP) as SO. fold s in SO.
  destruct (dim_facts d Hd) as (_ & HN & EPer & Ex & _ & L & V). pose proof (all_per d Hd) as Ep.
  destruct (s_period nd p per dims ranges f g mats GI IP d Hd Ep) as (R1 & R2 & R3). fold W s in R1, R2, R3.
  destruct (loc_spec s d (nth d xs 0) SG ltac:(rewrite SD; auto)) as [Hw Hs].
  assert (IR : in_range s d (nth d xs 0)).
  { apply (grid_in_range on nd p per dims ranges f g xs GI Ef Wf Eg); auto. intros e He. left. apply all_per. auto. }
  pose proof (loc_in_segment s d (nth d xs 0) SG ltac:(rewrite SD; auto) IR) as LS.
  fold (ky d) (yy d) in Hs, LS. unfold wrapped in Hw. rewrite (s_per_of _ _ _ _ _ _ _ _ IP), Ep in Hw. fold (yy d) in Hw. destruct Hw as [(m & Hm) _].
  destruct Hs as (S1 & S2 & _). rewrite SO in S1. unfold nbasis. rewrite SO, L. unfold last_of in S1 |- *. rewrite SO, L in S1 |- *.
  split; [lia|]. split; [lia|]. split; [lia|]. split; auto. split.
  - rewrite !V in LS by lia. exact LS.
  - exists m. rewrite Hm, R1, EPer, !Ex. simpl (INR 0). ring.
Qed.

Lemma theta_step m a d c : (d < n)%nat -> (m d + 1 <= p)%nat ->
  tensor (theta m (fun e => a e + (if Nat.eq_dec d e then 1 else 0))%nat) c =
  tensor (theta (fun e => m e + (if Nat.eq_dec d e then 1 else 0))%nat a) (dd d c).
Proof.
  intros Hd Hm. symmetry. destruct (dim_facts d Hd) as (Hs & HN & _). destruct (point_facts d Hd) as (K1 & K2 & _).
  rewrite (tensor_ext _ (dd d c) (fun idx => (fun (u : nat -> R) j => (u j - u (prd (nth d W 0%nat) j)) / st d) (fun j => c (set_nth idx d j)) (nth d idx 0%nat))).
  2: { intros idx V. cbv beta. rewrite set_nth_self. reflexivity. }
  apply (tensor_lineop _ (theta m (fun e => a e + (if Nat.eq_dec d e then 1 else 0))%nat) d (fun (u : nat -> R) j => (u j - u (prd (nth d W 0%nat) j)) / st d) c).
  - rewrite !theta_dims. auto.
  - rewrite theta_length. auto.
  - intros e He. destruct (Nat.lt_ge_cases e n) as [Q|Q].
    + rewrite !theta_nth by auto. destruct (Nat.eq_dec d e); [congruence|]. rewrite !Nat.add_0_r. reflexivity.
    + rewrite !nth_overflow; auto; rewrite theta_length; auto.
  - intros u. rewrite !theta_nth by auto. cbn [fst snd]. destruct (Nat.eq_dec d d); [|congruence].
    rewrite (gam_step (kk d) (ky d) (nth d W 0%nat) (nbasis s d) (yy d) (st d) (kk_steps d) Hs ltac:(lia) K2) by lia.
    replace (S (p - (m d + 1))) with (p - m d)%nat by lia. replace (S (a d)) with (a d + 1)%nat by lia. reflexivity.
Qed.

Lemma theta_ext m m' a a' c : (forall e, (e < n)%nat -> m e = m' e) -> (forall e, (e < n)%nat -> a e = a' e) -> tensor (theta m a) c = tensor (theta m' a') c.
Proof. intros H1 H2. f_equal. unfold theta. apply map_ext_seq. intros d Hd. rewrite H1, H2 by auto. reflexivity. Qed.

Lemma theta_steps vars : (forall e, In e vars -> (e < n)%nat) -> forall m a c,
  (forall e, (e < n)%nat -> (m e + order_of vars e <= p)%nat) ->
  tensor (theta m (fun e => a e + order_of vars e)%nat) c = tensor (theta (fun e => m e + order_of vars e)%nat a) (dds vars c).
Proof.
  intros HV. induction vars as [|d vars IH]; intros m a c H.
  - cbn [dds]. apply theta_ext; intros; unfold order_of; simpl; lia.
  - assert (Hd : (d < n)%nat) by (apply HV; left; auto).
    assert (EO : forall e, order_of (d :: vars) e = ((if Nat.eq_dec d e then 1 else 0) + order_of vars e)%nat).
    { intros e. unfold order_of. cbn [count_occ]. destruct (Nat.eq_dec d e); auto. }
    cbn [dds]. rewrite (theta_ext _ m _ (fun e => (a e + (if Nat.eq_dec d e then 1 else 0)) + order_of vars e)%nat); [|auto|intros; rewrite EO; lia].
    rewrite (IH (fun e He => HV e (or_intror He)) m (fun e => a e + (if Nat.eq_dec d e then 1 else 0))%nat c).
    2: { intros e He. specialize (H e He). rewrite EO in H. lia. }
    assert (Hm : (m d + order_of vars d + 1 <= p)%nat). { specialize (H d Hd). rewrite EO in H. destruct (Nat.eq_dec d d); [lia|congruence]. }
    rewrite (theta_step (fun e => m e + order_of vars e)%nat a d) by auto.
    apply theta_ext; intros; rewrite ?EO; lia.
Qed.

Lemma dbas_theta orders c : length orders = n -> tensor (dbas s xs orders) c = tensor (theta (fun _ => 0%nat) (fun e => nth e orders 0%nat)) c.
Proof.
  intros Lo. pose proof (s_good nd p per dims ranges f g mats GI IP) as SG. pose proof (s_dim _ _ _ _ _ _ _ _ IP) as SD. fold s in SG, SD.
  pose proof (s_order _ _ _ _ _ _ _ _ IP) as SO. fold s in SO.
  f_equal. unfold dbas, theta. rewrite SD. apply map_ext_seq. intros d Hd.
  pose proof (s_num _ _ _ _ _ _ _ _ IP d) as SN. fold s W in SN. rewrite SN. f_equal. apply functional_extensionality. intros j.
  destruct (point_facts d Hd) as (K1 & K2 & K3 & K4 & K5 & _). destruct (dim_facts d Hd) as (_ & HN & _ & _ & _ & L & V).
  fold (ky d) (yy d). rewrite bD_Derive_n by (auto; rewrite ?SD, ?SO; auto). unfold bD, gam. rewrite Nat.sub_0_r, SO. apply sum_ext. intros i Hi.
  unfold widx. rewrite (s_per_of _ _ _ _ _ _ _ _ IP), all_per, SN by auto. destruct (_ =? _)%nat; auto.
  apply dp_ext. intros i' Hi'. apply V. unfold nbasis in Hi. rewrite L, SO in Hi. lia.
Qed.

(** ** Places of the difference quotients *)
Variables (vars : list nat).
Hypothesis HV : forall e, In e vars -> (e < n)%nat.
Hypothesis HO : forall e, (e < n)%nat -> (order_of vars e <= p)%nat.
Definition pos' (d j : nat) : R := pos d j - INR (order_of vars d) / 2 * st d.

Lemma half_pos : INR p - half p * 2 + (if Nat.even p then 1 else 0) = INR p.
Proof. unfold half. destruct (Nat.even p); lra. Qed.

Lemma pos_knot d i : pos d i = kk d i + INR (p + 1) / 2 * st d.
Proof.
  unfold pos, kk, half. rewrite plus_INR. simpl (INR 1).
  assert (HP2 : INR p - (if Nat.even p then 0 else 1) = 2 * INR (p / 2)).
  { destruct (Nat.even p) eqn:Ev.
    - apply Nat.even_spec in Ev as [t ->]. replace (2 * t / 2)%nat with t by (rewrite Nat.mul_comm, Nat.div_mul; lia). rewrite mult_INR. simpl. ring.
    - assert (Ho : Nat.odd p = true) by (unfold Nat.odd; rewrite Ev; auto). apply Nat.odd_spec in Ho as [t ->].
      replace ((2 * t + 1) / 2)%nat with t by (rewrite Nat.add_comm, Nat.mul_comm, Nat.div_add by lia; reflexivity).
      rewrite plus_INR, mult_INR. simpl. ring. }
  replace (INR (p / 2)) with ((INR p - (if Nat.even p then 0 else 1)) / 2) by lra. destruct (Nat.even p); field.
Qed.

Lemma pos_mod d i : (d < n)%nat -> exists z : Z, pos d (i mod nth d W 0%nat) + IZR z * period nd per dims ranges d = pos d i.
Proof.
  intros Hd. destruct (dim_facts d Hd) as (_ & HN & -> & _). set (N := nth d W 0%nat) in *.
  pose proof (Nat.div_mod i N ltac:(lia)) as DM. exists (Z.of_nat (i / N)). rewrite <- INR_IZR_INZ.
  unfold pos. rewrite DM at 3. rewrite plus_INR, mult_INR. ring.
Qed.

Lemma gam_near d j h : (d < n)%nat -> st d <= h -> gam (kk d) (ky d) (nth d W 0%nat) (nbasis s d) (yy d) (p - order_of vars d) 0 j <> 0 ->
  exists z : Z, Rabs (nth d xs 0 - (pos' d j + IZR z * period nd per dims ranges d)) <= INR (2 * p + 1) / 2 * h.
Proof.
  intros Hd Hh H. destruct (dim_facts d Hd) as (Hs & HN & _). destruct (point_facts d Hd) as (K1 & K2 & K3 & K4 & K5 & (z1 & E1)).
  destruct (gam_support (kk d) (ky d) (nth d W 0%nat) (nbasis s d) (yy d) (st d) (kk_steps d) Hs ltac:(lia) K2 (p - order_of vars d) j K5 H) as (i & Hi & B).
  destruct (pos_mod d i Hd) as (z2 & E2). rewrite Hi in E2. exists (z2 - z1)%Z. rewrite minus_IZR. unfold pos'.
  set (P := period nd per dims ranges d) in *.
  pose proof (HO d Hd) as HOd. apply le_INR in HOd. pose proof (pos_INR (order_of vars d)) as O0.
  rewrite (pos_knot d i) in E2. rewrite plus_INR, minus_INR in B by (apply HO; auto). rewrite plus_INR in E2. simpl (INR 1) in B, E2.
  rewrite plus_INR, mult_INR. simpl (INR 1). simpl (INR 2).
  set (k := INR (order_of vars d)) in *. set (pp := INR p) in *.
  assert (H1 : Rabs (yy d - (kk d i + (pp - k + 1) / 2 * st d)) <= (pp - k + 1) / 2 * st d) by (apply Rabs_le; lra).
  replace (nth d xs 0 - (pos d j - k / 2 * st d + (IZR z2 - IZR z1) * P)) with (yy d - (kk d i + (pp - k + 1) / 2 * st d)).
  - eapply Rle_trans; [exact H1|]. apply Rle_trans with ((pp - k + 1) / 2 * h); [apply Rmult_le_compat_l; lra|]. apply Rmult_le_compat_r; lra.
  - rewrite E1. assert (pos d j = kk d i + (pp + 1) / 2 * st d - IZR z2 * P) by lra. rewrite H0. field.
Qed.

(** ** The bound *)
Variables (F G : list R -> R) (h w : R).
Hypothesis SA : sampled nd per dims ranges F f.
Hypothesis PF : periodic_function nd per dims ranges F.
Hypothesis MW : mesh_width nd per dims ranges h.
Hypothesis DG : differentiates n vars F G.
Hypothesis VG : varies nd per dims ranges G (INR (2 * p + 1) / 2 * h) w.

Lemma st_le d : (d < n)%nat -> st d <= h.
Proof.
  intros Hd. destruct (dim_facts d Hd) as (_ & HN & _ & Ex & _). pose proof (MW d 0%nat Hd) as Q. rewrite all_per in Q by auto.
  assert (EC : coords_num nd true (nth d dims 0%nat) = (nth d W 0%nat + 1)%nat) by (unfold W; rewrite ddims_nth by auto; rewrite all_per by auto; reflexivity).
  rewrite EC in Q. specialize (Q ltac:(lia)). change (coordinate nd per dims ranges d) with (xs_of nd per dims ranges d) in Q. rewrite !Ex in Q. simpl in Q. lra.
Qed.

Lemma quotients_near K : 0 <= K ->
  (forall d, (d < n)%nat -> stable (nth d W 0%nat) (mat_at mats d) K) ->
  forall idx, valid W idx -> Rabs (dds vars (ctrl_at Rops s) idx - G (places per pos' idx)) <= K ^ n * w.
Proof.
  intros HK ST. pose proof W_len as LW. pose proof mats_len as Lm. rewrite <- LW.
  pose proof (periodic_derivative nd per dims ranges vars (all_per) HV F G DG PF) as PG.
  apply (tensor_stable K W mats (fun idx => dds vars (ctrl_at Rops s) idx - G (places per pos' idx))).
  - unfold mat_at in ST. rewrite <- LW in ST. revert Lm ST. clear. generalize mats. induction W as [|k l IH]; intros [|A m] Lm PV; simpl in *; try discriminate; constructor.
    + apply (PV 0%nat). lia.
    + apply IH; [lia|]. intros d Hd. apply (PV (S d)). lia.
  - intros idx V. pose proof (valid_length _ _ V) as Li. rewrite <- tensor_minus. rewrite dds_commutes by auto.
    rewrite (dds_ext vars _ (fun r => F (pl r))); auto.
    2: { intros r Vr. apply data_places; auto. }
    rewrite dds_places by auto.
    destruct (dqs_mean n st vars) with (F := F) (G := G) (xs := pl idx) as (ys & Ly & EG & B); auto.
    { intros d Hd. apply dim_facts. auto. } { apply pl_length. }
    rewrite EG, Rabs_minus_sym.
    assert (VI : forall d, (d < n)%nat -> (nth d idx 0 < nth d W 0)%nat) by (rewrite valid_nth in V by auto; intros; apply V; lia).
    apply (tensor_near nd per dims ranges (mrow W mats idx) pos' G (INR (2 * p + 1) / 2 * h) w ys); auto.
    + apply all_per.
    + rewrite mrow_length; auto.
    + apply mrow_dims; auto.
    + intros d Hd. rewrite mrow_nth by (auto; fold n in Hd; lia). cbn [snd]. destruct (dim_facts d Hd) as (_ & HN & _ & _ & (a & b & Hab & CG) & _).
      destruct (uniform_rows p (nth d W 0%nat) a b (mat_at mats d) HN Hab CG (nth d idx 0%nat) (VI d Hd)) as (U1 & U2 & _). split; auto.
    + intros d j Hd Hj. rewrite mrow_nth by (auto; fold n in Hd; lia). cbn [snd]. destruct (dim_facts d Hd) as (Hs & HN & _ & _ & (a & b & Hab & CG) & _).
      fold W in Hj. set (N := nth d W 0%nat) in *. set (r := nth d idx 0%nat) in *.
      change (mat_at mats d r j <> 0 -> exists z : Z, Rabs (nth d ys 0 - (pos' d j + IZR z * period nd per dims ranges d)) <= INR (2 * p + 1) / 2 * h).
      rewrite (uniform_circ p N a b _ HN Hab CG r j (VI d Hd) Hj). intros Q. apply sum_nonzero in Q as (e & He & Q).
      destruct (Nat.eqb_spec ((r + (N - p / 2 + e)) mod N) j) as [Ej|]; [|lra].
      destruct (pos_mod d (r + (N - p / 2 + e)) Hd) as (z & Ez). fold N in Ez. rewrite Ej in Ez.
      pose proof (half_cases p) as HHC. destruct (dim_facts d Hd) as (_ & _ & EP & _). fold N in EP.
      exists (z - 1)%Z. rewrite minus_IZR. unfold pos'.
      pose proof (B d Hd) as Bd. rewrite pl_nth in Bd by auto. fold r in Bd.
      set (P := period nd per dims ranges d) in *.
      assert (EQ : pos d j + (IZR z - 1) * P = pos d r + (INR e - INR (p / 2)) * st d).
      { replace (pos d j + (IZR z - 1) * P) with (pos d j + IZR z * P - P) by ring. rewrite Ez, EP. unfold pos. rewrite !plus_INR, minus_INR by lia. ring. }
      set (k := INR (order_of vars d)) in *. replace (nth d ys 0 - (pos d j - k / 2 * st d + (IZR z - 1) * P)) with
        ((nth d ys 0 - (pos d r - k / 2 * st d)) - (INR e - INR (p / 2)) * st d) by (rewrite <- (Rplus_comm (_ - _)), Rplus_assoc || idtac; lra).
      pose proof (HO d Hd) as HOd. apply le_INR in HOd. fold k in HOd. pose proof (st_le d Hd) as SL.
      assert (A1 : Rabs (nth d ys 0 - (pos d r - k / 2 * st d)) <= INR p / 2 * st d) by (apply Rabs_le; split; nra).
      assert (A2 : Rabs ((INR e - INR (p / 2)) * st d) <= (INR p + 1) / 2 * st d).
      { rewrite Rabs_mult, (Rabs_pos_eq (st d)) by lra. apply Rmult_le_compat_r; [lra|].
        assert (2 * INR (p / 2) <= INR p <= 2 * INR (p / 2) + 1).
        { pose proof (Nat.div_mod p 2 ltac:(lia)) as DM. pose proof (Nat.mod_upper_bound p 2 ltac:(lia)).
          split; [replace 2 with (INR 2) by (simpl; ring); rewrite <- mult_INR; apply le_INR; lia|].
          replace 2 with (INR 2) by (simpl; ring). rewrite <- mult_INR. replace 1 with (INR 1) by (simpl; ring). rewrite <- plus_INR. apply le_INR. lia. }
        assert (INR e <= INR p) by (apply le_INR; lia). pose proof (pos_INR e). apply Rabs_le. lra. }
      unfold Rminus at 1. eapply Rle_trans; [apply Rabs_triang|]. rewrite Rabs_Ropp. rewrite plus_INR, mult_INR. simpl (INR 1). simpl (INR 2).
      pose proof (pos_INR p). nra.
Qed.

Lemma derivative_near K : 0 <= K -> (forall d, (d < n)%nat -> stable (nth d W 0%nat) (mat_at mats d) K) ->
  countable_point nd per dims ranges xs ->
  exists v, interp_derivative Rops on g xs (orders_of n vars) = Ok v /\ Rabs (v - G xs) <= (1 + K ^ n) * w.
Proof.
  intros HK ST C. pose proof (quotients_near K HK ST) as QN.
  assert (Lo : length (orders_of n vars) = n) by (unfold orders_of; rewrite length_map_seq; auto).
  pose proof (periodic_derivative nd per dims ranges vars (all_per) HV F G DG PF) as PG.
  eexists. split; [apply (s_derivative nd p per dims ranges f g mats GI IP on xs (orders_of n vars) Lx Lo C)|].
  fold s. rewrite dbas_theta by auto.
  rewrite (theta_ext _ (fun _ => 0%nat) _ (fun e => 0 + order_of vars e)%nat); auto.
  2: { intros e He. unfold orders_of. rewrite nth_map_seq by auto. reflexivity. }
  rewrite (theta_steps vars HV (fun _ => 0%nat) (fun _ => 0%nat)) by (intros; simpl; auto).
  set (bs := theta (fun e => 0 + order_of vars e)%nat (fun _ => 0%nat)).
  assert (HB : forall d, (d < n)%nat -> sum (nth d W 0%nat) (snd (nth d bs (0%nat, fun _ => 0))) = 1 /\
     forall i, (i < nth d W 0)%nat -> 0 <= snd (nth d bs (0%nat, fun _ => 0)) i).
  { intros d Hd. unfold bs. rewrite theta_nth by auto. cbn [snd]. destruct (dim_facts d Hd) as (Hs & HN & _).
    destruct (point_facts d Hd) as (K1 & K2 & K3 & K4 & K5 & _). split.
    - apply (gam_total (kk d) (ky d) _ _ (yy d) (st d) (kk_steps d)); auto; lia.
    - intros i Hi. apply (gam_nonneg (kk d) (ky d) _ _ (yy d) (st d) (kk_steps d)); auto; lia. }
  assert (M : Rabs (tensor bs (fun idx => G (places per pos' idx)) - G xs) <= w).
  { apply (tensor_near nd per dims ranges bs pos' G (INR (2 * p + 1) / 2 * h) w xs); auto.
    - apply all_per.
    - apply theta_length.
    - apply theta_dims.
    - intros d j Hd Hj HB0. unfold bs in HB0. rewrite theta_nth in HB0 by auto. cbn [snd] in HB0. rewrite Nat.add_0_l in HB0.
      apply gam_near; auto. apply st_le; auto. }
  assert (T : Rabs (tensor bs (dds vars (ctrl_at Rops s)) - tensor bs (fun idx => G (places per pos' idx))) <= K ^ n * w).
  { rewrite tensor_minus. apply Rabs_le. apply tensor_hull.
    - intros d Hd. unfold bs in Hd. rewrite theta_length in Hd. unfold bs at 1. rewrite theta_nth by auto. cbn [fst]. 
      destruct (HB d Hd) as [B1 B2]. split; auto. 
      intros i Hi. apply B2. unfold bs in Hi. rewrite theta_nth in Hi by auto. exact Hi.
    - unfold bs. rewrite theta_dims. intros idx V. apply Rabs_le_between. apply QN. exact V. }
  replace (tensor bs (dds vars (ctrl_at Rops s)) - G xs) with
    ((tensor bs (dds vars (ctrl_at Rops s)) - tensor bs (fun idx => G (places per pos' idx))) + (tensor bs (fun idx => G (places per pos' idx)) - G xs)) by ring.
  eapply Rle_trans; [apply Rabs_triang|]. lra.
Qed.
End Point.
End Top.

Lemma uniform_dapprox on nd p per dims ranges vars F G f g h w :
  good_input nd p per dims ranges -> (1 <= p <= 6)%nat -> uniform_periodic per ranges ->
  m_dims f = dims -> wf_mesh f -> interp_make Rops on nd p per f ranges = Ok g ->
  sampled nd per dims ranges F f -> periodic_function nd per dims ranges F ->
  (forall d, In d vars -> (d < length per)%nat) -> (forall d, (d < length per)%nat -> (order_of vars d <= p)%nat) ->
  differentiates (length per) vars F G ->
  mesh_width nd per dims ranges h -> varies nd per dims ranges G (INR (2 * p + 1) / 2 * h) w ->
  forall xs, length xs = length per -> countable_point nd per dims ranges xs ->
  exists v, interp_derivative Rops on g xs (orders_of (length per) vars) = Ok v /\ Rabs (v - G xs) <= (1 + amplification p ^ length per) * w.
Proof.
  intros GI Hp UP E W M SA PF HV HO DG MW VG xs Lx C.
  destruct (interp_make_spec on nd p per dims ranges f GI E W) as (mats & _ & _ & HG & _). pose proof (HG g M) as IP.
  apply (derivative_near on nd p per dims ranges f g mats GI E W M IP UP xs Lx vars HV HO F G h w SA PF MW DG VG (amplification p)); auto.
  - unfold amplification. do 6 (destruct p as [|p]; [lra|]). lra.
  - intros d Hd. apply (uniform_stable nd p per dims ranges d); auto; [lia|]. apply (ip_col _ _ _ _ _ _ _ _ IP); auto.
Qed.

Lemma dapprox_converges p n vars F G : (1 <= p <= 6)%nat ->
  (forall d, In d vars -> (d < n)%nat) -> (forall d, (d < n)%nat -> (order_of vars d <= p)%nat) ->
  differentiates n vars F G -> uniformly_continuous n G ->
  forall eps, 0 < eps -> exists delta, 0 < delta /\
  forall on nd per dims ranges f g, length per = n ->
    good_input nd p per dims ranges -> uniform_periodic per ranges ->
    m_dims f = dims -> wf_mesh f -> interp_make Rops on nd p per f ranges = Ok g ->
    sampled nd per dims ranges F f -> periodic_function nd per dims ranges F -> mesh_width nd per dims ranges delta ->
  forall xs, length xs = n -> countable_point nd per dims ranges xs ->
  exists v, interp_derivative Rops on g xs (orders_of n vars) = Ok v /\ Rabs (v - G xs) <= eps.
Proof.
  intros Hp HV HO DG UC eps He.
  assert (HA : 1 <= amplification p) by (unfold amplification; do 6 (destruct p as [|p]; [lra|]); lra).
  assert (HK : 1 <= amplification p ^ n) by (apply pow_R1_Rle; auto).
  destruct (UC (eps / (1 + amplification p ^ n))) as (dl & Hdl & HU). { apply Rdiv_lt_0_compat; lra. }
  assert (HP : 0 < INR (2 * p + 1)) by (apply lt_0_INR; lia).
  exists (dl / (INR (2 * p + 1) / 2)). split; [apply Rdiv_lt_0_compat; lra|].
  intros on nd per dims ranges f g Ln GI UP E W M SA PF MW xs Lx C. subst n.
  destruct (uniform_dapprox on nd p per dims ranges vars F G f g (dl / (INR (2 * p + 1) / 2)) (eps / (1 + amplification p ^ length per)) GI Hp UP E W M SA PF HV HO DG MW) with (xs := xs) as (v & Hv & B); auto.
  - apply uniform_varies. replace (INR (2 * p + 1) / 2 * (dl / (INR (2 * p + 1) / 2))) with dl by (field; lra). exact HU.
  - exists v. split; auto. replace eps with ((1 + amplification p ^ length per) * (eps / (1 + amplification p ^ length per))) by (field; lra). exact B.
Qed.
