(** Order of approximation on nearly uniform periodic and equally spaced plain grids. *)
From Coq Require Import List Arith Lia Bool ZArith Reals Lra FunctionalExtensionality.
From Coquelicot Require Import Coquelicot.
From Verif Require Import Base Num MeshM SpecMesh MeshProofs ProgM BandM LUM SplineM InterpM.
From Verif Require Import SumR DenseLU SpecBand BandProofs MulProofs LUProofs LUConv SpecSpline SpecSplineObj SplineProofs BasisProofs BetaProofs TensorR EvalProofs EvalR DerivProofs DerivLoops SplineTop SplineCalc SpecInterp KnotProofs KnotShape CoefProofs SolverProofs RoundProofs SolveProofs BuildProofs WeightProofs InterpProofs PerDom PerPD InterpTop InterpFinal PolyProofs SymBasis SymProofs SpecDims LinProofs RoundTensor RoundDerivLoops
  SpecCurve VecTop MonoTop SpecStab StabProofs StabTop SpecApprox ApproxProofs ApproxTop SpecSmooth SmoothProofs SmoothTop SpecTame TameProofs TameAp TamePer TameTop SpecDApprox DApproxProofs DApproxTop SpecRate RateProofs RateTop RateFinal DualProofs SpecInterp.
Import ListNotations.
Open Scope R_scope.

(** ** Derivatives of periodic functions, with variables that have no period *)
Section Mixed.
Variables (n m : nat) (FF : list nat -> list R -> R).
Hypothesis DF : derivative_family n m FF.
Variables (nd : bool) (per : list bool) (dims : list nat) (ranges : list (xrange R)).
Hypothesis LP : length per = n.
Hypothesis P0 : periodic_function nd per dims ranges (FF (repeat 0%nat n)).

Lemma mixed_step (F F1 : list R -> R) d : (d < n)%nat -> periodic_function nd per dims ranges F ->
  (forall xs, length xs = n -> is_derive (fun t : R => F (with_at xs d t)) (nth d xs 0) (F1 xs)) -> periodic_function nd per dims ranges F1.
Proof.
  intros Hd PF H1 xs ys Lx Ly S. rewrite LP in Lx, Ly. pose proof (H1 xs Lx) as D1. pose proof (H1 ys Ly) as D2.
  assert (Sd : exists w, nth d ys 0 = nth d xs 0 + w /\ (if nth d per false then exists z : Z, w = IZR z * period nd per dims ranges d else w = 0)).
  { pose proof (S d ltac:(lia)) as Q. destruct (nth d per false); [destruct Q as (z & Q); eexists; split; [exact Q|exists z; auto]|exists 0; split; [lra|auto]]. }
  destruct Sd as (w & Ew & Hw).
  assert (D3 : is_derive (fun t : R => F (with_at xs d t)) (nth d xs 0) (F1 ys)).
  { apply (is_derive_ext (fun t => (fun v => F (with_at ys d v)) (t + w))).
    - intros t. cbv beta. apply PF; try (rewrite with_length; lia).
      intros e He. rewrite !with_nth by lia. pose proof (S e He) as Q. destruct (Nat.eqb_spec e d) as [->|]; auto.
      destruct (nth d per false); [destruct Hw as (z & ->); exists z; reflexivity|lra].
    - replace (F1 ys) with (scal 1 (F1 ys)) by apply (scal_one (K := R_Ring)).
      apply (is_derive_comp (fun v => F (with_at ys d v)) (fun t => t + w)).
      + rewrite <- Ew. exact D2.
      + auto_derive; auto. }
  apply is_derive_unique in D1. apply is_derive_unique in D3. congruence.
Qed.

Lemma family_mixed o : length o = n -> (forall e, (e < n)%nat -> (nth e o 0 <= m)%nat) -> periodic_function nd per dims ranges (FF o).
Proof.
  assert (G : forall d, (d <= n)%nat -> forall o, length o = n -> (forall e, (e < n)%nat -> (nth e o 0 <= m)%nat) -> (forall e, (d <= e)%nat -> nth e o 0%nat = 0%nat) ->
    periodic_function nd per dims ranges (FF o)).
  { induction d as [|d IH]; intros Hd q Lq Hq Z.
    - replace q with (repeat 0%nat n); auto. apply nth_ext with (d := 0%nat) (d' := 0%nat); [rewrite repeat_length; auto|].
      intros e _. rewrite nth_repeat. symmetry. apply Z. lia.
    - assert (V : forall v, (v <= m)%nat -> periodic_function nd per dims ranges (FF (with_at q d v))).
      { induction v as [|v IV]; intros Hv.
        - apply IH; try lia.
          + rewrite with_length by lia. auto.
          + intros e He. rewrite with_nth by lia. destruct (e =? d)%nat; [lia|auto].
          + intros e He. rewrite with_nth by lia. destruct (Nat.eqb_spec e d); auto. apply Z. lia.
        - apply (mixed_step (FF (with_at q d v)) _ d); [lia|apply IV; lia|].
          intros xs Lx. pose proof (line_step n m FF DF q d v xs Lq ltac:(lia) ltac:(lia) ltac:(lia) Hq (nth d xs 0)) as Q.
          rewrite (with_self xs) in Q by lia. exact Q. }
      rewrite <- (with_list q d (nth d q 0%nat) 0%nat) by lia. apply V. apply Hq. lia. }
  intros Lo Ho. apply (G n); auto. intros e He. apply nth_overflow. lia.
Qed.
End Mixed.

Lemma with_app {A} (a : list A) x y b : with_at (a ++ x :: b) (length a) y = a ++ y :: b.
Proof.
  unfold with_at. rewrite firstn_app, Nat.sub_diag, firstn_all, firstn_O, app_nil_r.
  replace (skipn (S (length a)) (a ++ x :: b)) with b; auto. rewrite skipn_app. rewrite skipn_all2 by lia. replace (S (length a) - length a)%nat with 1%nat by lia. reflexivity.
Qed.

Lemma dual_shift t p j N (P : R) D q : (forall i, t (i + N)%nat = t i + P) -> (forall i x, (i <= p)%nat -> D i (x + P) = D i x) ->
  dual t p (j + q * N) D (t (j + q * N + 1)%nat) = dual t p j D (t (j + 1)%nat).
Proof.
  intros HS HD. assert (T : forall q i, t (i + q * N)%nat = t i + INR q * P).
  { intros r. induction r as [|r IH]; intros i; [simpl; rewrite Nat.add_0_r; ring|]. replace (i + S r * N)%nat with (i + r * N + N)%nat by lia. rewrite HS, IH, S_INR. ring. }
  unfold dual. apply sum_ext. intros i Hi. replace (j + q * N + 1)%nat with (j + 1 + q * N)%nat by lia. rewrite T. f_equal.
  - unfold dcoef. do 2 f_equal. unfold es.
    assert (E : forall p m, esym (fun i => t i - (t (j + 1)%nat + INR q * P)) (j + q * N) p m = esym (fun i => t i - t (j + 1)%nat) j p m).
    { clear -T. induction p as [|p IH]; intros m; cbn [esym]; auto. rewrite !IH. destruct m; [auto|]. rewrite IH. replace (j + q * N + p + 1)%nat with (j + p + 1 + q * N)%nat by lia. rewrite T.
      f_equal. f_equal. ring. }
    apply E.
  - pose proof (periods (D i) P (fun x => HD i x ltac:(lia)) (Z.of_nat q) (t (j + 1)%nat)) as Q. rewrite <- INR_IZR_INZ in Q. exact Q.
Qed.

Section Top.
Variables (on nd : bool) (p : nat) (per : list bool) (dims : list nat) (ranges : list (xrange R)) (f : MeshM.mesh R)
  (g : interp R) (mats : list mat).
Hypothesis GI : good_input nd p per dims ranges.
Hypothesis Ef : m_dims f = dims.
Hypothesis Wf : wf_mesh f.
Hypothesis Eg : interp_make Rops on nd p per f ranges = Ok g.
Hypothesis IP : interpolant nd p per dims ranges f g mats.
Hypothesis Hp : (1 <= p)%nat.
Let s := if_spline g.
Let W := ddims nd per dims.
Let n := length per.

Definition kf (d : nat) : nat -> R :=
  let N := nth d W 0%nat in let x := xs_of nd per dims ranges d in
  if nth d per false then per_knot p N (x N - x 0%nat) x else ap_knot p N x.
Variables (H gp K : R).
Hypothesis H0 : 0 <= H.
Hypothesis G0 : 0 < gp.
Hypothesis K0 : 0 <= K.
Hypothesis HH : forall d i, (d < n)%nat -> kf d (i + p + 1)%nat - kf d i <= H.
Hypothesis HG : forall d k, (d < n)%nat -> (p <= k)%nat -> (nth d per false = true \/ k < nth d W 0)%nat -> gp <= kf d (k + 1)%nat - kf d k.
Hypothesis ST : forall d A, (d < n)%nat ->
    col_good p (nth d per false) (nth d (ddims nd per dims) 0%nat) (gridx nd (nth d per false) (nth d dims 0%nat) (nth d ranges (Points []))) A ->
    stable (nth d (ddims nd per dims) 0%nat) A K.

Definition inside (d : nat) (z : R) : Prop := nth d per false = true \/ coordinate nd per dims ranges d 0 <= z <= coordinate nd per dims ranges d (nth d dims 0%nat - 1).

Lemma kf_facts d : (d < n)%nat ->
  (forall i j, (i <= j)%nat -> kf d i <= kf d j) /\ (forall i, inside d (kf d i)) /\ (p + 1 <= nth d W 0)%nat /\
  (forall i, (i < length (knot_of s d))%nat -> kn (knot_of s d) i = kf d i) /\
  (nth d per false = true -> forall i, kf d (i + nth d W 0)%nat = kf d i + period nd per dims ranges d) /\
  (if nth d per false then (nth d W 0 + p <= nbasis s d)%nat else nbasis s d = nth d W 0%nat) /\ length (knot_of s d) = (nbasis s d + p + 1)%nat.
Proof.
  intros Hd. pose proof (s_N nd p per dims ranges GI d Hd) as HN. fold W in HN.
  pose proof (s_incr nd p per dims ranges GI d Hd) as Hx. fold W in Hx. pose proof (s_order _ _ _ _ _ _ _ _ IP) as SO. fold s in SO.
  assert (EW : nth d W 0%nat = distinct nd (nth d per false) (nth d dims 0%nat)) by (apply ddims_nth; auto).
  unfold kf, inside, nbasis. rewrite SO. set (N := nth d W 0%nat) in *. set (x := xs_of nd per dims ranges d) in *. destruct (nth d per false) eqn:Ep.
  - destruct (s_pk nd p per dims ranges f g mats IP d Hd Ep) as [L V]. fold W s in L, V. fold N x in L, V. rewrite L.
    split; [intros; apply per_mono; auto|]. split; [auto|]. split; [auto|]. split; [auto|]. split; [|split; lia].
    intros _ i. rewrite per_shift by auto. f_equal. unfold period. rewrite <- EW. reflexivity.
  - destruct (s_ap nd p per dims ranges f g mats IP d Hd Ep) as [L V]. fold W s in L, V. fold N x in L, V. rewrite L.
    assert (MO : forall i j, (i <= j)%nat -> ap_knot p N x i <= ap_knot p N x j) by (intros; apply ap_mono; auto; lia).
    split; [auto|]. split; [|split; [auto|split; [auto|split; [discriminate|split; lia]]]].
    intros i. right. change (coordinate nd per dims ranges d) with x. unfold distinct in EW. cbn [andb] in EW. rewrite <- EW.
    pose proof (MO 0%nat i ltac:(lia)) as A. pose proof (MO i (i + N)%nat ltac:(lia)) as B. rewrite ap_lo in A by lia. rewrite (ap_hi p N x HN ltac:(lia) (i + N)) in B by lia. lra.
Qed.

Lemma kf_between d u v z : (d < n)%nat -> kf d u <= z <= kf d v -> inside d z.
Proof.
  intros Hd Hz. destruct (kf_facts d Hd) as (_ & IN & _). destruct (IN u) as [A|A]; [left; auto|]. destruct (IN v) as [B|B]; [left; auto|]. right. lra.
Qed.

Section Point.
Variable xs : list R.
Hypothesis Lx : length xs = n.
Hypothesis Ix : in_grid nd per dims ranges xs.
Let ky (d : nat) : nat := snd (loc s d (nth d xs 0)).
Let yy (d : nat) : R := fst (loc s d (nth d xs 0)).

Lemma at_point d : (d < n)%nat -> (p <= ky d)%nat /\ (ky d < nbasis s d)%nat /\ (nth d per false = true \/ ky d < nth d W 0)%nat /\ (ky d <= last_of s d)%nat /\
  kn (knot_of s d) (ky d) < kn (knot_of s d) (ky d + 1) /\
  kf d (ky d) <= yy d <= kf d (ky d + 1) /\ if nth d per false then exists z : Z, yy d = nth d xs 0 + IZR z * period nd per dims ranges d else yy d = nth d xs 0.
Proof.
  intros Hd. pose proof (s_good nd p per dims ranges f g mats GI IP) as SG. pose proof (s_dim _ _ _ _ _ _ _ _ IP) as SD. fold s in SG, SD.
  pose proof (s_order _ _ _ _ _ _ _ _ IP) as SO. fold s in SO.
  destruct (kf_facts d Hd) as (MO & IN & HN & V & PS & NB & L).
  destruct (loc_spec s d (nth d xs 0) SG ltac:(rewrite SD; auto)) as [Hw Hs].
  pose proof (grid_in_range on nd p per dims ranges f g xs GI Ef Wf Eg Ix d Hd) as IR. fold s in IR.
  pose proof (loc_in_segment s d (nth d xs 0) SG ltac:(rewrite SD; auto) IR) as LS.
  fold (ky d) (yy d) in Hs, LS. unfold wrapped in Hw. rewrite (s_per_of _ _ _ _ _ _ _ _ IP) in Hw. fold (yy d) in Hw.
  destruct Hs as (S1 & S2 & _). rewrite SO in S1. unfold last_of in S1 |- *. rewrite SO, L in S1 |- *.
  split; [lia|]. split; [lia|]. split; [destruct (nth d per false); [left; auto|right; lia]|]. split; [lia|]. split; auto. split.
  - rewrite !V in LS by (rewrite ?L; lia). exact LS.
  - destruct (nth d per false) eqn:Ep; auto. destruct Hw as [(m & Hm) _].
    destruct (s_period nd p per dims ranges f g mats GI IP d Hd Ep) as (R1 & R2 & R3). fold W s in R1, R2, R3.
    exists m. rewrite Hm, R1. f_equal. f_equal. unfold period. rewrite <- Ep. rewrite <- (ddims_nth nd per dims d) by auto. reflexivity.
Qed.

Definition wts (a d j : nat) : R := sum (nbasis s d) (fun i => if (widx s d i =? j)%nat then dp (kf d) (ky d) a p i (yy d) else 0).

Lemma dbas_wts orders : length orders = n -> dbas s xs orders = map (fun d => (nth d W 0%nat, wts (nth d orders 0%nat) d)) (seq 0 n).
Proof.
  intros Lo. pose proof (s_good nd p per dims ranges f g mats GI IP) as SG. pose proof (s_dim _ _ _ _ _ _ _ _ IP) as SD. fold s in SG, SD.
  pose proof (s_order _ _ _ _ _ _ _ _ IP) as SO. fold s in SO.
  unfold dbas. rewrite SD. apply map_ext_seq. intros d Hd.
  pose proof (s_num _ _ _ _ _ _ _ _ IP d) as SN. fold s W in SN. rewrite SN. f_equal. apply functional_extensionality. intros j.
  destruct (at_point d Hd) as (K1 & K2 & K3 & K4 & K5 & K6 & _). destruct (kf_facts d Hd) as (MO & IN & HN & V & PS & NB & L).
  fold (ky d) (yy d). rewrite bD_Derive_n by (auto; rewrite ?SD, ?SO; auto). unfold bD, wts. rewrite SO. apply sum_ext. intros i Hi.
  destruct (_ =? _)%nat; auto. apply dp_ext. intros i' Hi'. apply V. lia.
Qed.

Lemma widx_lt d i : (d < n)%nat -> (i < nbasis s d)%nat -> (widx s d i < nth d W 0)%nat.
Proof.
  intros Hd Hi. destruct (kf_facts d Hd) as (_ & _ & HN & _ & _ & NB & _). unfold widx. rewrite (s_per_of _ _ _ _ _ _ _ _ IP).
  pose proof (s_num _ _ _ _ _ _ _ _ IP d) as SN. fold s W in SN. rewrite SN. destruct (nth d per false); [apply Nat.mod_upper_bound; lia|lia].
Qed.

Lemma wts_sum a d (v : nat -> R) : (d < n)%nat -> sum (nth d W 0%nat) (fun j => wts a d j * v j) = sum (nbasis s d) (fun i => dp (kf d) (ky d) a p i (yy d) * v (widx s d i)).
Proof.
  intros Hd. unfold wts. rewrite (sum_ext (nth d W 0%nat) _ (fun j => sum (nbasis s d) (fun i => if (widx s d i =? j)%nat then dp (kf d) (ky d) a p i (yy d) * v j else 0))).
  - rewrite sum_swap. apply sum_ext. intros i Hi.
    rewrite (sum_single (nth d W 0%nat) (widx s d i) (fun j => if (widx s d i =? j)%nat then dp (kf d) (ky d) a p i (yy d) * v j else 0)).
    + rewrite Nat.eqb_refl. auto.
    + apply widx_lt; auto.
    + intros j Hj Hne. destruct (Nat.eqb_spec (widx s d i) j); auto; congruence.
  - intros j Hj. rewrite <- sum_scal_r. apply sum_ext. intros i Hi. destruct (_ =? _)%nat; [auto|ring].
Qed.

Lemma wts_total a d : (d < n)%nat -> (a <= p)%nat -> sum (nth d W 0%nat) (fun j => Rabs (wts a d j)) <= (2 * INR p / gp) ^ a.
Proof.
  intros Hd Ha. destruct (at_point d Hd) as (K1 & K2 & K3 & K4 & K5 & K6 & _). destruct (kf_facts d Hd) as (MO & IN & HN & V & PS & NB & L).
  eapply Rle_trans; [|apply (total (kf d) (ky d) gp MO G0 (HG d (ky d) Hd K1 K3) (yy d) K6 a p K1 Ha)].
  set (N := nth d W 0%nat) in *. set (MM := nbasis s d) in *.
  apply Rle_trans with (sum MM (fun i => Rabs (dp (kf d) (ky d) a p i (yy d)))).
  - apply Rle_trans with (sum N (fun j => sum MM (fun i => if (widx s d i =? j)%nat then Rabs (dp (kf d) (ky d) a p i (yy d)) else 0))).
    + apply sum_le. intros j Hj. unfold wts. eapply Rle_trans; [apply sum_Rabs|]. apply sum_le. intros i Hi. destruct (_ =? _)%nat; [lra|]. rewrite Rabs_R0. lra.
    + rewrite sum_swap. apply sum_le. intros i Hi. right.
      rewrite (sum_single N (widx s d i) (fun j => if (widx s d i =? j)%nat then Rabs (dp (kf d) (ky d) a p i (yy d)) else 0)).
      * rewrite Nat.eqb_refl. auto.
      * apply widx_lt; auto.
      * intros j Hj Hne. destruct (Nat.eqb_spec (widx s d i) j); auto; congruence.
  - replace MM with ((ky d + 1) + (MM - (ky d + 1)))%nat by lia. rewrite sum_app.
    rewrite (sum_0 (MM - (ky d + 1))) by (intros i Hi; rewrite dp_support by lia; apply Rabs_R0).
    replace (ky d + 2)%nat with ((ky d + 1) + 1)%nat by lia. rewrite (sum_app (ky d + 1) 1). cbn [sum]. pose proof (Rabs_pos (dp (kf d) (ky d) a p (ky d + 1 + 0) (yy d))). lra.
Qed.

Lemma wts_near a d D M : (d < n)%nat -> (a <= p)%nat -> 0 <= M ->
  (forall i z, (i < S p)%nat -> is_derive (D i) z (D (S i) z)) -> (forall z, inside d z -> Rabs (D (S p) z) <= M) ->
  (nth d per false = true -> forall i z, (i <= p)%nat -> D i (z + period nd per dims ranges d) = D i z) ->
  Rabs (sum (nth d W 0%nat) (fun j => wts a d j * dual (kf d) p j D (kf d (j + 1)%nat)) - D a (nth d xs 0)) <= (2 * INR p / gp) ^ a * (M / INR (fact p) * H ^ (p + 1)).
Proof.
  intros Hd Ha M0 HD HM PD. destruct (at_point d Hd) as (K1 & K2 & K3 & K4 & K5 & K6 & K7). destruct (kf_facts d Hd) as (MO & IN & HN & V & PS & NB & L).
  rewrite (wts_sum a d (fun j => dual (kf d) p j D (kf d (j + 1)%nat)) Hd).
  assert (EA : D a (nth d xs 0) = D a (yy d)).
  { destruct (nth d per false) eqn:Ep; [|congruence]. destruct K7 as (z & Ez). rewrite Ez. symmetry. apply (periods (D a)). intros t. apply PD; auto. }
  rewrite EA.
  rewrite (sum_ext (nbasis s d) _ (fun i => dp (kf d) (ky d) a p i (yy d) * dual (kf d) p i D (kf d (i + 1)%nat))).
  2: { intros i Hi. f_equal. unfold widx. rewrite (s_per_of _ _ _ _ _ _ _ _ IP). pose proof (s_num _ _ _ _ _ _ _ _ IP d) as SN. fold s W in SN. rewrite SN.
       destruct (nth d per false) eqn:Ep; auto. set (N := nth d W 0%nat) in *.
       rewrite <- (dual_shift (kf d) p (i mod N) N (period nd per dims ranges d) D (i / N)) by auto.
       replace (i mod N + i / N * N)%nat with i; auto. rewrite Nat.mul_comm, Nat.add_comm. apply Nat.div_mod. lia. }
  set (MM := nbasis s d) in *. replace MM with ((ky d - p) + ((p + 1) + (MM - (ky d + 1))))%nat by lia. rewrite sum_app, sum_app.
  rewrite (sum_0 (ky d - p)) by (intros i Hi; rewrite dp_support by lia; ring).
  rewrite (sum_0 (MM - (ky d + 1))) by (intros i Hi; rewrite dp_support by lia; ring). rewrite Rplus_0_l, Rplus_0_r.
  apply (dual_near (kf d) (ky d) gp MO G0 (HG d (ky d) Hd K1 K3) p a (yy d) D M H); auto.
  intros z Hz. apply HM. apply (kf_between d _ _ z Hd Hz).
Qed.

(** ** All variables *)
Variables (FF : list nat -> list R -> R) (M : R) (orders : list nat).
Hypothesis DF : derivative_family n (p + 1) FF.
Hypothesis PF : periodic_function nd per dims ranges (FF (repeat 0%nat n)).
Hypothesis BD : forall o ys, length o = n -> length ys = n -> (forall d, (d < n)%nat -> (nth d o 0 <= p + 1)%nat) -> in_grid nd per dims ranges ys -> Rabs (FF o ys) <= M.
Hypothesis Lo : length orders = n.
Hypothesis Ho : forall d, (d < n)%nat -> (nth d orders 0 <= p)%nat.
Let Bb : R := 1 + 2 * INR p / gp.

Definition dimd (d : nat) : dual_dim :=
  (((nth d W 0%nat, wts (nth d orders 0%nat) d), ((fun j i => dcoef (kf d) p j i (kf d (j + 1)%nat)), (fun j => kf d (j + 1)%nat))), (nth d orders 0%nat, nth d xs 0), Bb ^ nth d orders 0%nat).

Lemma Bb_ge : 1 <= Bb.
Proof. unfold Bb. pose proof (pos_INR p). assert (0 <= 2 * INR p / gp) by (apply Rle_mult_inv_pos; lra). lra. Qed.

Lemma Bb_pow a : (2 * INR p / gp) ^ a <= Bb ^ a.
Proof. apply pow_incr. unfold Bb. pose proof (pos_INR p). assert (0 <= 2 * INR p / gp) by (apply Rle_mult_inv_pos; lra). lra. Qed.

Lemma M_pos : 0 <= M.
Proof.
  eapply Rle_trans; [apply Rabs_pos|]. apply (BD (repeat 0%nat n) xs); auto; [apply repeat_length|]. intros. rewrite nth_repeat. lia.
Qed.

Let Er : R := M / INR (fact p) * H ^ (p + 1).
Lemma Er_pos : 0 <= Er.
Proof. unfold Er. apply Rmult_le_pos; [apply Rle_mult_inv_pos; [apply M_pos|apply INR_fact_lt_0]|apply pow_le; auto]. Qed.

Lemma kf_reach d j r : (d < n)%nat -> (1 <= r <= p)%nat -> Rabs (kf d (j + r)%nat - kf d (j + 1)%nat) <= H.
Proof.
  intros Hd Hr. destruct (kf_facts d Hd) as (MO & _). pose proof (HH d j Hd). pose proof (MO j (j + 1)%nat ltac:(lia)). pose proof (MO (j + 1)%nat (j + r)%nat ltac:(lia)).
  pose proof (MO (j + r)%nat (j + p + 1)%nat ltac:(lia)). apply Rabs_le. lra.
Qed.

Lemma dim_tight d : (d < n)%nat -> tight (p + 1) (ball H p) (dimd d).
Proof.
  intros Hd. unfold tight, dimd, dd_lip, dd_bas, dd_fun. cbn [fst snd]. split; [apply pow_R1_Rle; apply Bb_ge|]. split.
  - eapply Rle_trans; [apply wts_total; auto|apply Bb_pow].
  - intros j Hj. unfold ball. apply sum_le. intros i Hi. apply dcoef_bound; auto; [lia|]. intros r Hr. apply kf_reach; auto.
Qed.

Lemma ball_ge : 1 <= ball H p.
Proof.
  unfold ball. replace (p + 1)%nat with (S p) by lia. rewrite sum_S_l. replace (H ^ 0 / INR (fact 0)) with 1 by (simpl; field).
  assert (0 <= sum p (fun i => H ^ S i / INR (fact (S i)))) by (apply sum_pos; intros; apply Rle_mult_inv_pos; [apply pow_le; auto|apply INR_fact_lt_0]). lra.
Qed.

Lemma nth_dims {A} (h : dual_dim -> A) (z : A) d m e : (e < m)%nat -> nth e (map h (map dimd (seq d m))) z = h (dimd (d + e)).
Proof.
  intros He. rewrite map_map. rewrite (nth_indep _ z (h (dimd 0%nat))) by (rewrite map_length, seq_length; auto).
  rewrite (map_nth (fun x => h (dimd x))). rewrite seq_nth by auto. reflexivity.
Qed.

Lemma fits_all : forall m d po px, (d + m = n)%nat -> length po = d -> length px = d -> (forall e, (e < d)%nat -> (nth e po 0 <= p)%nat) -> (forall e, (e < d)%nat -> inside e (nth e px 0)) ->
  fits (p + 1) Er (map dimd (seq d m)) (fun o ys => FF (po ++ o) (px ++ ys)).
Proof.
  induction m as [|m IH]; intros d po px Ed Lpo Lpx Ppo Ppx; [exact I|]. cbn [seq map fits]. assert (Hd : (d < n)%nat) by lia. split.
  - set (oo := map dd_ord (map dimd (seq (S d) m))). set (zz := map dd_pt (map dimd (seq (S d) m))).
    assert (L1 : length oo = m) by (unfold oo; rewrite !map_length, seq_length; auto). assert (L2 : length zz = m) by (unfold zz; rewrite !map_length, seq_length; auto).
    unfold dd_bas, dd_fun, dd_ord at 1, dd_pt at 1, dd_lip. unfold dimd at 1 2 3 4 5 6. cbn [fst snd].
    set (O := po ++ 0%nat :: oo). set (X := px ++ 0 :: zz).
    assert (LO : length O = n) by (unfold O; rewrite app_length; simpl; lia). assert (LX : length X = n) by (unfold X; rewrite app_length; simpl; lia).
    assert (WO : forall i, with_at O d i = po ++ i :: oo) by (intros i; unfold O; rewrite <- Lpo; apply with_app).
    assert (WX : forall z, with_at X d z = px ++ z :: zz) by (intros z; unfold X; rewrite <- Lpx; apply with_app).
    assert (NO : forall e, (e < n)%nat -> (nth e O 0 <= p)%nat).
    { intros e He. unfold O. destruct (Nat.lt_ge_cases e d); [rewrite app_nth1 by lia; auto|]. rewrite app_nth2 by lia. rewrite Lpo.
      destruct (e - d)%nat as [|r] eqn:Er'; [cbn; lia|]. cbn [nth]. unfold oo. rewrite nth_dims by lia. unfold dd_ord, dimd. cbn [fst snd]. apply Ho. lia. }
    assert (NX : forall e, (e < n)%nat -> e <> d -> inside e (nth e X 0)).
    { intros e He Hne. unfold X. destruct (Nat.lt_ge_cases e d); [rewrite app_nth1 by lia; auto|]. rewrite app_nth2 by lia. rewrite Lpx.
      destruct (e - d)%nat as [|r] eqn:Er'; [lia|]. cbn [nth]. unfold zz. rewrite nth_dims by lia. unfold dd_pt, dimd. cbn [fst snd].
      replace (S d + r)%nat with e by lia. destruct (Ix e He) as [Q|Q]; [left; auto|right; auto]. }
    set (D := fun (i : nat) (z : R) => FF (with_at O d i) (with_at X d z)).
    pose proof (wts_near (nth d orders 0%nat) d D M Hd (Ho d Hd) M_pos) as WN. fold Er in WN.
    eapply Rle_trans; [|eapply Rle_trans; [apply WN|]].
    + right. f_equal. f_equal.
      * apply sum_ext. intros j Hj. f_equal. unfold dual. apply sum_ext. intros i Hi. f_equal. unfold D. rewrite WO, WX. reflexivity.
      * unfold D. rewrite WO, WX. reflexivity.
    + intros i z Hi. unfold D. apply (line_step n (p + 1) FF DF O d i X); auto; try lia. intros e He. specialize (NO e He). lia.
    + intros z Hz. unfold D. apply BD; try (rewrite with_length; lia).
      * intros e He. rewrite with_nth by lia. specialize (NO e He). destruct (e =? d)%nat; lia.
      * intros e He. fold n in He. rewrite with_nth by lia. destruct (Nat.eqb_spec e d) as [->|Ne]; [destruct Hz; auto|]. destruct (NX e He Ne); auto.
    + intros Ep i z Hi. unfold D. apply (family_mixed n (p + 1) FF DF nd per dims ranges eq_refl PF (with_at O d i)).
      * rewrite with_length; lia.
      * intros e He. rewrite with_nth by lia. specialize (NO e He). destruct (e =? d)%nat; lia.
      * rewrite with_length; fold n; lia.
      * rewrite with_length; fold n; lia.
      * intros e He. fold n in He. rewrite !with_nth by lia. destruct (Nat.eqb_spec e d) as [->|]; [rewrite Ep; exists 1%Z; ring|]. destruct (nth e per false); [exists 0%Z; ring|auto].
    + apply Rmult_le_compat_r; [apply Er_pos|apply Bb_pow].
  - intros i j Hi Hj. change (snd (dd_fun (dimd d)) j) with (kf d (j + 1)%nat).
    replace (fun o ys => FF (po ++ i :: o) (px ++ kf d (j + 1)%nat :: ys)) with (fun o ys => FF ((po ++ [i]) ++ o) ((px ++ [kf d (j + 1)%nat]) ++ ys)).
    2: { apply functional_extensionality. intros o. apply functional_extensionality. intros ys. rewrite <- !app_assoc. reflexivity. }
    apply IH; try (rewrite app_length; simpl; lia); try lia.
    + intros e He. destruct (Nat.eq_dec e d) as [->|]; [rewrite app_nth2 by lia; rewrite Lpo, Nat.sub_diag; cbn; lia|]. rewrite app_nth1 by lia. apply Ppo. lia.
    + intros e He. destruct (Nat.eq_dec e d) as [->|]; [rewrite app_nth2 by lia; rewrite Lpx, Nat.sub_diag; cbn; apply kf_facts; auto|]. rewrite app_nth1 by lia. apply Ppx. lia.
Qed.

Definition qguess (idx : list nat) : R := lams (p + 1) (map (fun d => ((fun j i => dcoef (kf d) p j i (kf d (j + 1)%nat)), (fun j => kf d (j + 1)%nat))) (seq 0 n)) idx FF.

Lemma prodl_pow b : forall l, prodl (map (fun e => b ^ e) l) = b ^ fold_right Nat.add 0%nat l.
Proof. induction l as [|x l IH]; cbn [map prodl fold_right]; [reflexivity|]. rewrite IH, pow_add. reflexivity. Qed.

Lemma qguess_near : Rabs (tensor (dbas s xs orders) qguess - FF orders xs) <= Bb ^ fold_right Nat.add 0%nat orders * ball H p ^ n * (INR n * Er).
Proof.
  pose proof (tensor_lams (p + 1) (ball H p) Er ball_ge Er_pos (map dimd (seq 0 n))) as T.
  destruct T with (FF := FF) as [T1 _].
  - intros d Hd. apply in_map_iff in Hd. destruct Hd as (e & <- & He). apply in_seq in He. apply dim_tight. lia.
  - apply (fits_all n 0%nat [] []); auto; intros; lia.
  - rewrite !map_map, map_length, seq_length in T1. rewrite (dbas_wts orders Lo).
    assert (E1 : forall {A} (l : list A) (z : A), length l = n -> map (fun d => nth d l z) (seq 0 n) = l).
    { intros A l z <-. apply nth_ext with (d := z) (d' := z); [rewrite map_length, seq_length; auto|]. intros e He. rewrite map_length, seq_length in He. rewrite nth_map_seq by auto. reflexivity. }
    replace (map (fun x => dd_ord (dimd x)) (seq 0 n)) with orders in T1 by (symmetry; apply (E1 _ orders 0%nat Lo)).
    replace (map (fun x => dd_pt (dimd x)) (seq 0 n)) with xs in T1 by (symmetry; apply (E1 _ xs 0 Lx)).
    replace (map (fun x => dd_lip (dimd x)) (seq 0 n)) with (map (fun e => Bb ^ e) orders) in T1.
    2: { rewrite <- (E1 _ orders 0%nat Lo) at 1. rewrite map_map. reflexivity. }
    rewrite prodl_pow in T1. exact T1.
Qed.

Lemma wts_bound c Cb : (forall idx, valid W idx -> Rabs (c idx) <= Cb) -> 0 <= Cb -> Rabs (tensor (dbas s xs orders) c) <= Bb ^ fold_right Nat.add 0%nat orders * Cb.
Proof.
  intros Hc C0. rewrite (dbas_wts orders Lo).
  replace (Bb ^ fold_right Nat.add 0%nat orders) with (prodn (length (map (fun d => (nth d W 0%nat, wts (nth d orders 0%nat) d)) (seq 0 n))) (fun d => Bb ^ nth d orders 0%nat)).
  2: { rewrite map_length, seq_length. rewrite <- Lo. apply prodn_pow. }
  apply tensor_bound; auto.
  - rewrite map_length, seq_length. intros d Hd. rewrite nth_map_seq by auto. cbn [fst snd]. eapply Rle_trans; [apply wts_total; auto|apply Bb_pow].
  - replace (map fst (map (fun d => (nth d W 0%nat, wts (nth d orders 0%nat) d)) (seq 0 n))) with W; auto.
    rewrite map_map. cbn [fst]. apply (nth_ext _ _ 0%nat 0%nat); [rewrite map_length, seq_length; unfold W; apply ddims_length|].
    intros d Hd. unfold W in Hd. rewrite ddims_length in Hd. rewrite nth_map_seq by auto. reflexivity.
  - intros d. apply pow_le. pose proof Bb_ge. lra.
Qed.
End Point.

(** ** The interpolation *)
Variables (FF : list nat -> list R -> R) (M : R).
Hypothesis DF : derivative_family n (p + 1) FF.
Hypothesis PF : periodic_function nd per dims ranges (FF (repeat 0%nat n)).
Hypothesis BD : forall o ys, length o = n -> length ys = n -> (forall d, (d < n)%nat -> (nth d o 0 <= p + 1)%nat) -> in_grid nd per dims ranges ys -> Rabs (FF o ys) <= M.
Hypothesis SA : sampled nd per dims ranges (FF (repeat 0%nat n)) f.

Lemma dual_rate xs orders : length xs = n -> in_grid nd per dims ranges xs -> countable_point nd per dims ranges xs -> length orders = n -> (forall d, (d < n)%nat -> (nth d orders 0 <= p)%nat) ->
  exists v, interp_derivative Rops on g xs orders = Ok v /\
    Rabs (v - FF orders xs) <= (1 + K ^ n) * ((1 + 2 * INR p / gp) ^ fold_right Nat.add 0%nat orders * (ball H p ^ n * (INR n * (M / INR (fact p) * H ^ (p + 1))))).
Proof.
  intros Lx Ix C Lo Ho. eexists. split; [apply (s_derivative nd p per dims ranges f g mats GI IP on xs orders Lx Lo C)|]. fold s.
  set (Er := M / INR (fact p) * H ^ (p + 1)). set (b := 1 + 2 * INR p / gp).
  assert (E0 : 0 <= ball H p ^ n * (INR n * Er)).
  { pose proof (ball_ge xs Lx orders Lo). pose proof (Er_pos xs Lx Ix FF M orders BD Lo). apply Rmult_le_pos; [apply pow_le; lra|apply Rmult_le_pos; [apply pos_INR|auto]]. }
  pose proof (s_dim _ _ _ _ _ _ _ _ IP) as SD. fold s in SD.
  assert (CT : forall idx, valid W idx -> Rabs (ctrl_at Rops s idx - qguess FF idx) <= K ^ n * (ball H p ^ n * (INR n * Er))).
  { apply (guess_control nd p per dims ranges f g mats GI IP (FF (repeat 0%nat n)) (ball H p ^ n * (INR n * Er)) (qguess FF)); auto.
    intros zs Lz Iz. fold s. rewrite SD. fold n. 
    pose proof (qguess_near zs Lz Iz FF M (repeat 0%nat n) DF PF BD ltac:(apply repeat_length) ltac:(intros; rewrite nth_repeat; lia)) as Q.
    replace (fold_right Nat.add 0%nat (repeat 0%nat n)) with 0%nat in Q by (clear; induction n; simpl; auto).
    rewrite pow_O, Rmult_1_l in Q. exact Q. }
  pose proof (qguess_near xs Lx Ix FF M orders DF PF BD Lo Ho) as R1. fold Er b in R1.
  pose proof (wts_bound xs Lx Ix orders Lo Ho (fun idx => ctrl_at Rops s idx - qguess FF idx) _ CT ltac:(apply Rmult_le_pos; [apply pow_le; auto|auto])) as R2. fold b in R2.
  rewrite <- tensor_minus in R2.
  replace (tensor (dbas s xs orders) (ctrl_at Rops s) - FF orders xs) with
    ((tensor (dbas s xs orders) (ctrl_at Rops s) - tensor (dbas s xs orders) (qguess FF)) + (tensor (dbas s xs orders) (qguess FF) - FF orders xs)) by ring.
  eapply Rle_trans; [apply Rabs_triang|]. lra.
Qed.
End Top.

(** ** The grids [tame] *)
Lemma per_knot_gap p N x h i : (p + 1 <= N)%nat -> increasing (N + 1) x -> (forall i, (i < N)%nat -> h <= x (i + 1)%nat - x i) ->
  h <= per_knot p N (x N - x 0%nat) x (i + 1) - per_knot p N (x N - x 0%nat) x i.
Proof.
  intros Hp Hx Hh. set (P := x N - x 0%nat).
  assert (E : forall c, h <= pext N P x (c + 1) - pext N P x c).
  { intros c. rewrite (Nat.div_mod c N) by lia. set (q := (c / N)%nat). set (r := (c mod N)%nat).
    assert (r < N)%nat by (apply Nat.mod_upper_bound; lia). replace (N * q + r + 1)%nat with (r + 1 + q * N)%nat by lia. replace (N * q + r)%nat with (r + q * N)%nat by lia.
    assert (A : forall q r, pext N P x (r + q * N) = pext N P x r + INR q * P).
    { intros u v. induction u as [|u IH]; [simpl; rewrite Nat.add_0_r; ring|].
      replace (v + S u * N)%nat with (v + u * N + N)%nat by lia. rewrite pext_add, IH, S_INR by lia. ring. }
    rewrite !A. unfold P. rewrite !pext_in by lia. specialize (Hh r H). lra. }
  unfold per_knot. replace (i + 1 + N - p - 1)%nat with (i + N - p - 1 + 1)%nat by lia. replace (i + 1 + N - p)%nat with (i + N - p + 1)%nat by lia.
  pose proof (E (i + N - p - 1)%nat) as E1. pose proof (E (i + N - p)%nat) as E2. destruct (Nat.even p); lra.
Qed.

Lemma u_gap_low n a hh x p i : 0 <= hh -> (forall i, x i = a + INR i * hh) -> (1 <= p)%nat -> (2 * p + 1 <= n)%nat -> (p <= i < n)%nat ->
  hh <= ap_knot p n x (i + 1) - ap_knot p n x i.
Proof.
  intros Hh Ex Hp Hn Hi. assert (P1 : 1 <= INR p) by (apply (le_INR 1); auto).
  destruct (Nat.eq_dec i p) as [->|Ne].
  - rewrite (u_lo n a hh x Ex ltac:(lia) p p), (u_mid n a hh x Ex ltac:(lia) p (p + 1)) by lia. rewrite plus_INR. simpl (INR 1).
    assert (1 * hh <= (INR p + 1 - (INR p + 1) / 2) * hh) by (apply Rmult_le_compat_r; lra). lra.
  - rewrite (u_mid n a hh x Ex ltac:(lia) p i) by lia. destruct (Nat.eq_dec (i + 1) n) as [En|].
    + rewrite (u_hi n a hh x Ex ltac:(lia) p (i + 1)) by lia. rewrite <- En, plus_INR. simpl (INR 1).
      assert (1 * hh <= ((INR i + 1 - 1) - (INR i - (INR p + 1) / 2)) * hh) by (apply Rmult_le_compat_r; lra). lra.
    + rewrite (u_mid n a hh x Ex ltac:(lia) p (i + 1)) by lia. rewrite plus_INR. simpl (INR 1). lra.
Qed.

Lemma tame_rate on nd p per dims ranges FF f g h h0 M orders :
  good_input nd p per dims ranges -> (p = 2 \/ p = 3)%nat -> tame nd p per dims ranges ->
  m_dims f = dims -> wf_mesh f -> interp_make Rops on nd p per f ranges = Ok g ->
  sampled nd per dims ranges (FF (repeat 0%nat (length per))) f -> periodic_function nd per dims ranges (FF (repeat 0%nat (length per))) ->
  mesh_width nd per dims ranges h -> 0 < h0 -> mesh_gap nd per dims ranges h0 ->
  derivative_family (length per) (p + 1) FF ->
  (forall o xs, length o = length per -> length xs = length per -> (forall d, (d < length per)%nat -> (nth d o 0 <= p + 1)%nat) ->
    in_grid nd per dims ranges xs -> Rabs (FF o xs) <= M) ->
  length orders = length per -> (forall d, (d < length per)%nat -> (nth d orders 0 <= p)%nat) ->
  forall xs, length xs = length per -> countable_point nd per dims ranges xs -> in_grid nd per dims ranges xs ->
  exists v, interp_derivative Rops on g xs orders = Ok v /\
    Rabs (v - FF orders xs) <= (1 + tame_factor p ^ length per) *
      ((1 + 2 * INR p / h0) ^ fold_right Nat.add 0%nat orders *
        (ball (2 * INR p * h) p ^ length per * (INR (length per) * (M / INR (fact p) * (2 * INR p * h) ^ (p + 1))))).
Proof.
  intros GI P23 T E W Mk SA PF MW H0 MG DF BD La Ha xs Lx C Ix.
  destruct (interp_make_spec on nd p per dims ranges f GI E W) as (mats & _ & _ & HG & _). pose proof (HG g Mk) as IP. clear HG.
  assert (Hp : (1 <= p)%nat) by lia. assert (P1 : 1 <= INR p) by (apply (le_INR 1); auto).
  assert (DIM : forall d, (d < length per)%nat -> h0 <= h /\ (forall i, kf nd p per dims ranges d (i + p + 1)%nat - kf nd p per dims ranges d i <= 2 * INR p * h) /\
    forall k, (p <= k)%nat -> (nth d per false = true \/ k < nth d (ddims nd per dims) 0)%nat -> h0 <= kf nd p per dims ranges d (k + 1)%nat - kf nd p per dims ranges d k).
  { intros d Hd. pose proof (s_N nd p per dims ranges GI d Hd) as HN. pose proof (s_incr nd p per dims ranges GI d Hd) as Hx.
    assert (EN : nth d (ddims nd per dims) 0%nat = distinct nd (nth d per false) (nth d dims 0%nat)) by (apply ddims_nth; auto).
    pose proof (fun i => MW d i Hd) as MWd. pose proof (fun i => MG d i Hd) as MGd. pose proof (T d Hd) as Td. unfold coords_num in MWd, MGd. rewrite <- EN in MWd, MGd.
    unfold kf. set (N := nth d (ddims nd per dims) 0%nat) in *. change (coordinate nd per dims ranges d) with (xs_of nd per dims ranges d) in *. set (x := xs_of nd per dims ranges d) in *.
    destruct (nth d per false) eqn:Ep.
    - assert (h0 <= h). { pose proof (MWd 0%nat ltac:(lia)). pose proof (MGd 0%nat ltac:(lia)). lra. } split; auto. split.
      + intros i. pose proof (steps_le (per_knot p N (x N - x 0%nat) x) h (p + 1) i) as Q. replace (i + p + 1)%nat with (i + (p + 1))%nat by lia.
        eapply Rle_trans; [apply Q|]. { intros j. apply per_knot_step; auto. intros u Hu. apply MWd. lia. }
        rewrite plus_INR. simpl (INR 1). apply Rmult_le_compat_r; lra.
      + intros k Hk _. apply per_knot_gap; auto. intros u Hu. apply MGd. lia.
    - destruct Td as (T1 & a & b & Er). unfold distinct in EN. cbn [andb] in EN. rewrite <- EN in T1.
      pose proof (uniform_coord nd per dims ranges d a b Ep Er) as Ex. change (coordinate nd per dims ranges d) with x in Ex. rewrite <- EN in Ex.
      set (hh := (b - a) / INR (N - 1)) in *.
      assert (h0 <= hh /\ hh <= h) as [A1 A2]. { pose proof (MWd 0%nat ltac:(lia)) as Q1. pose proof (MGd 0%nat ltac:(lia)) as Q2. rewrite !Ex in Q1, Q2. simpl in Q1, Q2. lra. }
      split; [lra|]. split.
      + intros i. pose proof (u_gap N a hh x p i p ltac:(lra) Ex Hp T1 ltac:(lia)) as Q1. pose proof (u_gap N a hh x p (i + p) 1 ltac:(lra) Ex Hp T1 ltac:(lia)) as Q2.
        simpl (INR 1) in Q2. apply Rle_trans with (2 * INR p * hh); [lra|]. apply Rmult_le_compat_l; lra.
      + intros k Hk [Q|Q]; [discriminate|]. pose proof (u_gap_low N a hh x p k ltac:(lra) Ex Hp T1 ltac:(lia)). lra. }
  destruct (Nat.eq_dec (length per) 0) as [Z|Z]; [exfalso; destruct GI as (NE & _); destruct per; [congruence|discriminate]|].
  assert (Hh : h0 <= h) by (apply (DIM 0%nat); lia).
  pose proof (tame_factor_ge p) as TF.
  apply (dual_rate on nd p per dims ranges f g mats GI E W Mk IP Hp (2 * INR p * h) h0 (tame_factor p)); auto; try lra.
  - apply Rmult_le_pos; lra.
  - intros d i Hd. apply DIM. auto.
  - intros d k Hd. apply DIM. auto.
  - intros d A Hd CG. apply (tame_stable nd p per dims ranges d A); auto.
Qed.

(** ** Values: a constant that does not depend on the grid *)
Lemma low_bound (u : nat -> R) m : (forall i, (i < m)%nat -> 0 < u i) -> exists e, 0 < e /\ forall i, (i < m)%nat -> e <= u i.
Proof.
  induction m as [|m IH]; intros H; [exists 1; split; [lra|intros; lia]|]. destruct IH as (e & E0 & E1); [intros; apply H; lia|].
  exists (Rmin e (u m)). split; [apply Rmin_glb_lt; auto|]. intros i Hi. destruct (Nat.eq_dec i m) as [->|]; [apply Rmin_r|]. eapply Rle_trans; [apply Rmin_l|apply E1; lia].
Qed.

Lemma some_gap nd p per dims ranges : good_input nd p per dims ranges -> exists h0, 0 < h0 /\ mesh_gap nd per dims ranges h0.
Proof.
  intros GI. assert (D : forall m, (m <= length per)%nat -> exists e, 0 < e /\ forall d i, (d < m)%nat -> (i + 1 < coords_num nd (nth d per false) (nth d dims 0%nat))%nat ->
    e <= coordinate nd per dims ranges d (i + 1) - coordinate nd per dims ranges d i).
  { induction m as [|m IH]; intros Hm; [exists 1; split; [lra|intros; lia]|]. destruct IH as (e & E0 & E1); [lia|].
    pose proof (s_incr nd p per dims ranges GI m ltac:(lia)) as Hx. rewrite ddims_nth in Hx by lia.
    destruct (low_bound (fun i => coordinate nd per dims ranges m (i + 1) - coordinate nd per dims ranges m i) (coords_num nd (nth m per false) (nth m dims 0%nat) - 1)) as (e' & E0' & E1').
    - intros i Hi. unfold coords_num in Hi. change (coordinate nd per dims ranges m) with (xs_of nd per dims ranges m).
      assert (Q : xs_of nd per dims ranges m i < xs_of nd per dims ranges m (i + 1)); [|lra]. apply Hx. unfold distinct in *. destruct (nth m per false); cbn [andb] in *; lia.
    - exists (Rmin e e'). split; [apply Rmin_glb_lt; auto|]. intros d i Hd Hi. destruct (Nat.eq_dec d m) as [->|].
      + eapply Rle_trans; [apply Rmin_r|]. apply (E1' i). lia.
      + eapply Rle_trans; [apply Rmin_l|]. apply E1; [lia|auto]. }
  destruct (D (length per) ltac:(lia)) as (e & E0 & E1). exists e. split; auto.
Qed.

Lemma tame_values p n M : (p = 2 \/ p = 3)%nat -> exists C, 0 < C /\
  forall on nd per dims ranges FF f g h, length per = n ->
  good_input nd p per dims ranges -> tame nd p per dims ranges ->
  m_dims f = dims -> wf_mesh f -> interp_make Rops on nd p per f ranges = Ok g ->
  sampled nd per dims ranges (FF (repeat 0%nat n)) f -> periodic_function nd per dims ranges (FF (repeat 0%nat n)) ->
  mesh_width nd per dims ranges h -> h <= 1 ->
  derivative_family n (p + 1) FF ->
  (forall o xs, length o = n -> length xs = n -> (forall d, (d < n)%nat -> (nth d o 0 <= p + 1)%nat) ->
    in_grid nd per dims ranges xs -> Rabs (FF o xs) <= M) ->
  forall xs, length xs = n -> countable_point nd per dims ranges xs -> in_grid nd per dims ranges xs ->
  exists v, interp_eval Rops g xs = Ok v /\ Rabs (v - FF (repeat 0%nat n) xs) <= C * h ^ (p + 1).
Proof.
  intros P23. set (C0 := (1 + tame_factor p ^ n) * (ball (2 * INR p) p ^ n * (INR n * (Rabs M / INR (fact p) * (2 * INR p) ^ (p + 1))))).
  assert (P1 : 1 <= INR p) by (apply (le_INR 1); lia). pose proof (tame_factor_ge p) as TF.
  assert (B0 : forall H, 0 <= H -> 0 <= ball H p).
  { intros H H0. unfold ball. apply sum_pos. intros. apply Rle_mult_inv_pos; [apply pow_le; auto|apply INR_fact_lt_0]. }
  assert (T0 : 0 <= tame_factor p ^ n) by (apply pow_le; lra).
  assert (C1 : 0 <= C0).
  { unfold C0. apply Rmult_le_pos; [lra|]. apply Rmult_le_pos; [apply pow_le; apply B0; lra|]. apply Rmult_le_pos; [apply pos_INR|].
    apply Rmult_le_pos; [apply Rle_mult_inv_pos; [apply Rabs_pos|apply INR_fact_lt_0]|apply pow_le; lra]. }
  exists (1 + C0). split; [lra|].
  intros on nd per dims ranges FF f g h Ln GI T E W Mk SA PF MW Hh DF BD xs Lx C Ix. subst n. set (n := length per) in *.
  destruct (some_gap nd p per dims ranges GI) as (h0 & G0 & MG).
  assert (H0 : 0 <= h).
  { destruct (Nat.eq_dec n 0) as [Z|Z]; [exfalso; destruct GI as (NE & _); destruct per; [congruence|discriminate]|].
    pose proof (MW 0%nat 0%nat ltac:(fold n; lia)) as Q1. pose proof (MG 0%nat 0%nat ltac:(fold n; lia)) as Q2.
    assert (Q : (0 + 1 < coords_num nd (nth 0 per false) (nth 0 dims 0%nat))%nat).
    { pose proof (s_N nd p per dims ranges GI 0%nat ltac:(fold n; lia)) as HN. rewrite ddims_nth in HN by (fold n; lia). unfold coords_num, distinct in *. destruct (nth 0 per false); cbn [andb] in *; lia. }
    specialize (Q1 Q). specialize (Q2 Q). lra. }
  pose proof (tame_rate on nd p per dims ranges FF f g h h0 M (repeat 0%nat n) GI P23 T E W Mk SA PF MW G0 MG DF BD ltac:(apply repeat_length)
    ltac:(intros; rewrite nth_repeat; lia) xs Lx C Ix) as (v & Hv & B). fold n in B.
  replace (fold_right Nat.add 0%nat (repeat 0%nat n)) with 0%nat in B by (clear; induction n; simpl; auto). rewrite pow_O, Rmult_1_l in B.
  exists v. split.
  - destruct (interp_make_spec on nd p per dims ranges f GI E W) as (mats & _ & _ & HG & _). pose proof (HG g Mk) as IP.
    rewrite (s_derivative nd p per dims ranges f g mats GI IP on xs (repeat 0%nat n) Lx (repeat_length _ _) C) in Hv.
    rewrite (s_eval nd p per dims ranges f g mats GI IP) by auto. rewrite sval_dbas. rewrite (s_dim _ _ _ _ _ _ _ _ IP). exact Hv.
  - eapply Rle_trans; [exact B|]. assert (HP : 0 <= h ^ (p + 1)) by (apply pow_le; auto).
    apply Rle_trans with (C0 * h ^ (p + 1)); [|apply Rmult_le_compat_r; lra]. unfold C0.
    rewrite (Rmult_assoc (1 + tame_factor p ^ n) _ (h ^ (p + 1))). apply Rmult_le_compat_l; [lra|]. rewrite (Rmult_assoc (ball (2 * INR p) p ^ n) _ (h ^ (p + 1))).
    assert (BB : ball (2 * INR p * h) p ^ n <= ball (2 * INR p) p ^ n).
    { apply pow_incr. split; [apply B0; apply Rmult_le_pos; lra|]. unfold ball. apply sum_le. intros i Hi. apply Rmult_le_compat_r; [left; apply Rinv_0_lt_compat, INR_fact_lt_0|].
      apply pow_incr. split; [apply Rmult_le_pos; lra|]. rewrite <- (Rmult_1_r (2 * INR p)) at 2. apply Rmult_le_compat_l; lra. }
    assert (F0 : 0 < / INR (fact p)) by (apply Rinv_0_lt_compat, INR_fact_lt_0). pose proof (pos_INR n) as N0.
    assert (Q0 : 0 <= (2 * INR p) ^ (p + 1)) by (apply pow_le; lra).
    assert (RM : M <= Rabs M) by apply Rle_abs. pose proof (Rabs_pos M) as RM0.
    apply Rle_trans with (ball (2 * INR p * h) p ^ n * (INR n * (Rabs M / INR (fact p) * (2 * INR p) ^ (p + 1)) * h ^ (p + 1))).
    + apply Rmult_le_compat_l; [apply pow_le, B0, Rmult_le_pos; lra|]. rewrite (Rmult_assoc (INR n)). apply Rmult_le_compat_l; auto.
      rewrite Rpow_mult_distr, <- Rmult_assoc. apply Rmult_le_compat_r; auto. apply Rmult_le_compat_r; auto. apply Rmult_le_compat_r; lra.
    + apply Rmult_le_compat_r; auto. apply Rmult_le_pos; auto. apply Rmult_le_pos; auto. apply Rmult_le_pos; auto. apply Rmult_le_pos; lra.
Qed.
