(** More lemmas on interpolation functions over the reals: ranges, knots,
    rejected grids, 1-D constructors. *)
From Coq Require Import List Arith Lia Bool ZArith Reals Lra Classical.
From Verif Require Import Base Num MeshM SpecMesh MeshProofs ProgM BandM LUM SplineM InterpM.
From Verif Require Import SumR DenseLU SpecBand BandProofs MulProofs LUProofs LUConv SpecSpline SpecSplineObj SplineProofs BasisProofs BetaProofs TensorR EvalR SplineTop SpecInterp KnotProofs KnotShape CoefProofs SolverProofs RoundProofs SolveProofs BuildProofs WeightProofs InterpProofs PerDom InterpTop InterpFinal GenInterp SafeLU SafeSolve.
Import ListNotations.
Open Scope R_scope.

Lemma get_interpolant on nd p per dims ranges f g :
  good_input nd p per dims ranges -> m_dims f = dims -> wf_mesh f ->
  interp_make Rops on nd p per f ranges = Ok g -> exists mats, interpolant nd p per dims ranges f g mats.
Proof.
  intros GI Ef Wf E. destruct (interp_make_spec on nd p per dims ranges f GI Ef Wf) as (mats & Lm & C & HG & _).
  exists mats. auto.
Qed.

(** ** Ranges *)
Section Range.
Variables (on nd : bool) (p : nat) (per : list bool) (dims : list nat) (ranges : list (xrange R)) (f : mesh R) (g : interp R).
Hypothesis GI : good_input nd p per dims ranges.
Hypothesis Ef : m_dims f = dims.
Hypothesis Wf : wf_mesh f.
Hypothesis EG : interp_make Rops on nd p per f ranges = Ok g.

Lemma ap_range d : (d < length per)%nat -> nth d per false = false ->
  let first := coordinate nd per dims ranges d 0 in
  let last := coordinate nd per dims ranges d (nth d dims 0%nat - 1) in
  fst (rng (if_spline g) d) = first /\ first < last /\
  (Nat.odd p = true -> snd (rng (if_spline g) d) = last) /\
  (Nat.odd p = false -> first <= snd (rng (if_spline g) d) < last).
Proof.
  intros Hd Hp first last. destruct (get_interpolant on nd p per dims ranges f g GI Ef Wf EG) as (mats & IP).
  pose proof (s_rng nd p per dims ranges f g mats IP d Hd) as ER.
  destruct (s_ap nd p per dims ranges f g mats IP d Hd Hp) as [L V].
  pose proof (s_N nd p per dims ranges GI d Hd) as HN.
  pose proof (s_two nd p per dims ranges GI d Hd Hp) as H2.
  pose proof (s_incr nd p per dims ranges GI d Hd) as Hx. rewrite Hp in Hx.
  assert (EN : nth d (ddims nd per dims) 0%nat = nth d dims 0%nat) by (rewrite ddims_nth by auto; rewrite Hp; reflexivity).
  rewrite EN in *. set (n := nth d dims 0%nat) in *. set (x := xs_of nd per dims ranges d) in *.
  change first with (x 0%nat). change last with (x (n - 1)%nat).
  rewrite ER. cbn [fst snd]. rewrite L.
  assert (E0 : kn (knot_of (if_spline g) d) p = x 0%nat).
  { rewrite V by lia. apply ap_lo; lia. }
  split; auto. split; [apply Hx; lia|].
  pose proof (half_cases p) as HC. rewrite <- Nat.negb_even, even_mod2.
  split; intros Ho.
  - apply negb_true_iff, Nat.eqb_neq in Ho. replace (n + p + 1 - p - (2 - p mod 2))%nat with n by lia.
    rewrite V by lia. apply ap_hi; lia.
  - apply negb_false_iff, Nat.eqb_eq in Ho. replace (n + p + 1 - p - (2 - p mod 2))%nat with (n - 1)%nat by lia.
    rewrite V by lia. split.
    + rewrite <- (ap_lo p n x ltac:(lia) H2 p) by lia. apply (ap_mono p n x); auto; lia.
    + rewrite <- (ap_hi p n x ltac:(lia) H2 n) by lia. pose proof (ap_strict p n x Hx ltac:(lia) H2 (n - 1)%nat ltac:(lia)) as Q. replace (n - 1 + 1)%nat with n in Q by lia. exact Q.
Qed.

Lemma range_length : length (sp_range (if_spline g)) = sp_dim (if_spline g) /\ sp_dim (if_spline g) = length per /\ sp_per (if_spline g) = per.
Proof.
  destruct (get_interpolant on nd p per dims ranges f g GI Ef Wf EG) as (mats & IP).
  pose proof (s_good nd p per dims ranges f g mats GI IP) as G. split; [apply (wf_range _ (gs_wf _ G))|].
  split; [apply (s_dim nd p per dims ranges f g mats IP)|apply (s_per nd p per dims ranges f g mats IP)].
Qed.

Lemma eval_ok xs : length xs = length per -> countable_point nd per dims ranges xs -> exists v, interp_eval Rops g xs = Ok v.
Proof.
  intros. destruct (get_interpolant on nd p per dims ranges f g GI Ef Wf EG) as (mats & IP). eexists.
  apply (s_eval nd p per dims ranges f g mats GI IP); auto.
Qed.

(** [at] throws exactly outside the range. *)
Lemma at_real xs : length xs = length per -> countable_point nd per dims ranges xs ->
  (interp_at Rops g xs = Throw DomainError <->
   exists d, (d < length per)%nat /\ nth d per false = false /\
     (nth d xs 0 < fst (rng (if_spline g) d) \/ snd (rng (if_spline g) d) < nth d xs 0)) /\
  (interp_at Rops g xs <> Throw DomainError -> interp_at Rops g xs = interp_eval Rops g xs).
Proof.
  intros Lx C. destruct range_length as (L1 & L2 & L3). destruct (eval_ok xs Lx C) as (v & Ev).
  destruct (at_spec Rops on g xs [] ltac:(congruence) L1) as [E _]. rewrite E. rewrite L2, L3 in *. rewrite Ev.
  set (out := existsb _ _). assert (HO : out = true <-> exists d, (d < length per)%nat /\ nth d per false = false /\
     (nth d xs 0 < fst (rng (if_spline g) d) \/ snd (rng (if_spline g) d) < nth d xs 0)).
  { unfold out. rewrite existsb_exists. split.
    - intros (d & Hd & O). apply in_seq in Hd. exists d. split; [lia|]. unfold outside in O. apply andb_true_iff in O as [O1 O2].
      apply negb_true_iff in O1. split; auto. apply orb_true_iff in O2. cbn [olt o0 Rops] in O2. rewrite !Rltb_true in O2. auto.
    - intros (d & Hd & P & O). exists d. split; [apply in_seq; lia|]. unfold outside. rewrite P. cbn [negb andb olt o0 Rops].
      apply orb_true_iff. rewrite !Rltb_true. auto. }
  destruct out.
  - split; [split; auto; intros _; apply HO; auto|]. congruence.
  - split; auto. split; [discriminate|]. intros O. apply HO in O. discriminate.
Qed.

Lemma at_accepts xs : Nat.odd p = true -> length xs = length per -> countable_point nd per dims ranges xs ->
  (forall d, (d < length per)%nat -> nth d per false = false ->
     coordinate nd per dims ranges d 0 <= nth d xs 0 <= coordinate nd per dims ranges d (nth d dims 0%nat - 1)) ->
  exists v, interp_at Rops g xs = Ok v /\ interp_eval Rops g xs = Ok v.
Proof.
  intros O Lx C H. destruct (eval_ok xs Lx C) as (v & Ev). exists v. split; auto.
  destruct (at_real xs Lx C) as [A B]. rewrite <- Ev. apply B. rewrite A. intros (d & Hd & P & Q).
  destruct (ap_range d Hd P) as (R1 & _ & R2 & _). rewrite R1, (R2 O) in Q. specialize (H d Hd P). lra.
Qed.

Lemma at_rejects xs d : Nat.odd p = false -> length xs = length per -> countable_point nd per dims ranges xs ->
  (d < length per)%nat -> nth d per false = false -> nth d xs 0 = coordinate nd per dims ranges d (nth d dims 0%nat - 1) ->
  interp_at Rops g xs = Throw DomainError.
Proof.
  intros O Lx C Hd P E. apply (at_real xs Lx C). exists d. split; auto. split; auto. right.
  destruct (ap_range d Hd P) as (_ & _ & _ & R2). specialize (R2 O). lra.
Qed.
End Range.

(** ** Knots *)
Lemma knot_shapes on nd p per dims ranges f g :
  good_input nd p per dims ranges -> m_dims f = dims -> wf_mesh f ->
  interp_make Rops on nd p per f ranges = Ok g ->
  forall d, (d < length per)%nat ->
  let t := knot_of (if_spline g) d in let x := coordinate nd per dims ranges d in let n := distinct nd (nth d per false) (nth d dims 0%nat) in
  nondecreasing t /\
  (forall i, (p <= i)%nat -> (i + p + 2 <= length t)%nat -> kn t i < kn t (i + 1)) /\
  (nth d per false = false ->
     length t = (n + p + 1)%nat /\
     (forall i, (i <= p)%nat -> kn t i = x 0%nat /\ kn t (n + p - i) = x (n - 1)%nat) /\
     (forall i, (1 <= p)%nat -> (p < i < n)%nat -> kn t i = mean p (fun j => x (i - p + j)%nat)) /\
     (forall i, (1 <= i)%nat -> (i + 1 < n)%nat -> kn t i < x i < kn t (i + p + 1))) /\
  (nth d per false = true ->
     length t = (n + 2 * p + 1 + (1 - p mod 2))%nat /\
     (forall i, (i + n < length t)%nat -> kn t (i + n) = kn t i + (x n - x 0%nat)) /\
     (forall i, (i <= n)%nat -> if Nat.odd p then kn t (i + p) = x i
                              else (1 <= i)%nat -> kn t (i + p) = (x (i - 1)%nat + x i) / 2)).
Proof.
  intros GI Ef Wf EG d Hd t x n. destruct (get_interpolant on nd p per dims ranges f g GI Ef Wf EG) as (mats & IP).
  pose proof (s_N nd p per dims ranges GI d Hd) as HN.
  pose proof (s_incr nd p per dims ranges GI d Hd) as Hx.
  assert (EN : nth d (ddims nd per dims) 0%nat = n) by (rewrite ddims_nth by auto; reflexivity). rewrite EN in *.
  change (xs_of nd per dims ranges d) with x in Hx.
  split; [apply (s_sorted nd p per dims ranges f g mats GI IP); auto|].
  split.
  { intros i H1 H2. apply (s_strict nd p per dims ranges f g mats GI IP d i Hd). unfold last_of.
    rewrite (s_order nd p per dims ranges f g mats IP). fold t. lia. }
  split; intros Hp.
  - destruct (s_ap nd p per dims ranges f g mats IP d Hd Hp) as [L V]. rewrite EN in *.
    change (xs_of nd per dims ranges d) with x in V. fold t in L, V.
    pose proof (s_two nd p per dims ranges GI d Hd Hp) as H2. rewrite EN in H2. rewrite Hp in Hx.
    split; auto. split; [|split].
    + intros i Hi. rewrite !V by lia. split; [apply ap_lo; lia|apply ap_hi; lia].
    + intros i H1 Hi. rewrite V by lia. apply ap_mid; auto; lia.
    + intros i H1 Hi. rewrite !V by lia. apply (ap_sw p n x); auto.
  - destruct (s_pk nd p per dims ranges f g mats IP d Hd Hp) as [L V]. rewrite EN in *.
    change (xs_of nd per dims ranges d) with x in V. fold t in L, V. rewrite Hp in Hx.
    split; auto. split.
    + intros i Hi. rewrite !V by lia. apply per_shift; auto.
    + intros i Hi. pose proof (half_cases p) as HC. rewrite V by lia. rewrite <- Nat.negb_even.
      destruct (Nat.even p) eqn:Ev; cbn [negb].
      * intros H1. rewrite (per_knot_in p n x) by lia. rewrite Ev. replace (i + p - p - 1)%nat with (i - 1)%nat by lia. replace (i + p - p)%nat with i by lia. auto.
      * apply per_at_odd; auto.
Qed.

(** ** The collocation system *)
Lemma control_points on nd p per dims ranges f g :
  good_input nd p per dims ranges -> m_dims f = dims -> wf_mesh f ->
  interp_make Rops on nd p per f ranges = Ok g ->
  let s := if_spline g in let N := map (fun d => distinct nd (nth d per false) (nth d dims 0%nat)) (seq 0 (length per)) in
  m_dims (sp_ctrl s) = N /\ wf_mesh (sp_ctrl s) /\
  exists M : nat -> nat -> nat -> R,
    (forall idx, valid N idx ->
       tensor (map (fun d => (nth d N 0%nat, M d (nth d idx 0%nat))) (seq 0 (length per))) (ctrl_at Rops s) = val_at f idx) /\
    (forall c, (forall idx, valid N idx ->
       tensor (map (fun d => (nth d N 0%nat, M d (nth d idx 0%nat))) (seq 0 (length per))) c = val_at f idx) ->
       forall idx, valid N idx -> c idx = ctrl_at Rops s idx) /\
    (forall d i, (d < length per)%nat -> (i < nth d N 0)%nat ->
       exists k, segment (kn (knot_of s d)) p (length (knot_of s d) - p - 2) (coordinate nd per dims ranges d i) k /\
       forall j, (j < nth d N 0)%nat -> M d i j =
         Rsum (p + 1) (fun a => if ((k - p + a) mod nth d N 0 =? j)%nat
                                then piece (kn (knot_of s d)) k p (k - p + a) (coordinate nd per dims ranges d i) else 0)).
Proof.
  intros GI Ef Wf EG s N. destruct (get_interpolant on nd p per dims ranges f g GI Ef Wf EG) as (mats & IP).
  change N with (ddims nd per dims). set (W := ddims nd per dims).
  split; [apply (ip_ctrl _ _ _ _ _ _ _ _ IP)|]. split; [apply (ip_wf _ _ _ _ _ _ _ _ IP)|].
  set (M := fun d i => mat_at mats d (rowof p (nth d per false) (nth d W 0%nat) i)).
  assert (EM : forall idx, mrow W mats (rows nd p per dims idx) =
     map (fun d => (nth d W 0%nat, M d (nth d idx 0%nat))) (seq 0 (length per))).
  { intros idx. pose proof (ip_mats _ _ _ _ _ _ _ _ IP) as LM.
    assert (LW : length W = length per) by (unfold W; apply ddims_length).
    assert (LR : length (rows nd p per dims idx) = length per) by (apply rows_length).
    apply (nth_ext _ _ (0%nat, fun _ => 0) (0%nat, fun _ => 0)).
    - rewrite mrow_length by congruence. rewrite LW, map_length, seq_length. auto.
    - intros d Hd. rewrite mrow_length, LW in Hd by congruence.
      rewrite (map_seq_nth (fun d => (nth d W 0%nat, M d (nth d idx 0%nat)))) by auto.
      rewrite mrow_nth by (try congruence; rewrite LW; auto). unfold M. rewrite rows_nth by auto. reflexivity. }
  exists M. split; [|split].
  - intros idx V. rewrite <- EM. apply (ip_eqs _ _ _ _ _ _ _ _ IP). auto.
  - intros c Hc idx V. symmetry. apply (ctrl_unique nd p per dims ranges f g mats GI IP c); auto.
    intros ix Vx. fold W. rewrite EM. apply Hc. auto.
  - intros d i Hd Hi. destruct (ip_col _ _ _ _ _ _ _ _ IP d Hd i Hi) as (k & Hk & HB). fold W in Hk, HB.
    change (gridx nd (nth d per false) (nth d dims 0%nat) (nth d ranges (Points []))) with (xs_of nd per dims ranges d) in Hk, HB.
    unfold W in Hk, HB. rewrite <- (s_knots nd p per dims ranges f g mats IP d Hd) in Hk, HB.
    exists k. split; auto.
Qed.

(** ** Rejected grids *)
Lemma checks_pass l : increasing (length l) (fun i => nth i l 0) ->
  forall ks, (forall i, In i ks -> (i + 1 < length l)%nat) ->
  foldM (fun (_ : unit) i => b <- vget l (i + 1) ;; a <- vget l i ;; intp_assert true (olt Rops a b))%res ks tt = Ok tt.
Proof.
  intros Inc. induction ks as [|i ks IH]; intros Hk; auto. cbn [foldM].
  assert (Hi : (i + 1 < length l)%nat) by (apply Hk; left; auto).
  rewrite (vget_ok _ _ 0) by lia. cbn [bind]. rewrite (vget_ok _ _ 0) by lia. cbn [bind].
  assert (E : olt Rops (nth i l 0) (nth (i + 1) l 0) = true) by (apply Rltb_true; apply Inc; lia). rewrite E. cbn. apply IH.
  intros; apply Hk; right; auto.
Qed.

Lemma checks_fail l : forall ks, (forall i, In i ks -> (i + 1 < length l)%nat) ->
  (exists i, In i ks /\ nth (i + 1) l 0 <= nth i l 0) ->
  foldM (fun (_ : unit) i => b <- vget l (i + 1) ;; a <- vget l i ;; intp_assert true (olt Rops a b))%res ks tt = Throw AssertFailed.
Proof.
  induction ks as [|i ks IH]; intros Hk (j & Hj & Lj); [destruct Hj|]. cbn [foldM].
  assert (Hi : (i + 1 < length l)%nat) by (apply Hk; left; auto).
  rewrite (vget_ok _ _ 0) by lia. cbn [bind]. rewrite (vget_ok _ _ 0) by lia. cbn [bind].
  destruct (olt Rops (nth i l 0) (nth (i + 1) l 0)) eqn:E; cbn; auto. apply IH.
  - intros; apply Hk; right; auto.
  - exists j. split; auto. destruct Hj as [->|]; auto. apply Rltb_true in E. lra.
Qed.

Lemma not_increasing l : ~ increasing (length l) (fun i => nth i l 0) ->
  exists i, (i + 1 < length l)%nat /\ nth (i + 1) l 0 <= nth i l 0.
Proof.
  intros H. apply NNPP. intros C. apply H.
  assert (St : forall i, (i + 1 < length l)%nat -> nth i l 0 < nth (i + 1) l 0).
  { intros i Hi. apply Rnot_le_lt. intros L. apply C. exists i. auto. }
  intros i j [Hij Hj]. induction Hij.
  - replace (S i) with (i + 1)%nat by lia. apply St. lia.
  - apply Rlt_trans with (nth m l 0); [apply IHHij; lia|]. replace (S m) with (m + 1)%nat by lia. apply St. lia.
Qed.

Lemma good_or_bad nd p per n r : enough_points nd p per n r -> good_dim nd p per n r \/ bad_points nd per n r.
Proof.
  intros (E1 & E2 & E3). destruct r as [a b|l].
  - left. split; auto.
  - destruct (classic (length l = coords_num nd per n)) as [L|L]; [|right; left; auto].
    destruct (classic (increasing (length l) (fun i => nth i l 0))) as [I|I]; [|right; right; auto].
    left. split; auto.
Qed.
Lemma good_not_bad nd p per n r : good_dim nd p per n r -> ~ bad_points nd per n r.
Proof. intros (_ & _ & G) B. destruct r; cbn in *; [auto|]. destruct G as (G1 & G2 & _). destruct B; auto. Qed.

Lemma points_rejected nd p per n l : enough_points nd p per n (Points l) -> bad_points nd per n (Points l) ->
  points_knots Rops true nd p per n l = Throw AssertFailed.
Proof.
  intros (E1 & E2 & E3) B. unfold points_knots.
  assert (EC : coords_num nd per n = (n + (if nd && per then 1 else 0))%nat).
  { unfold coords_num, distinct in *. destruct per, nd; cbn [andb negb] in *; lia. }
  destruct (Nat.eqb_spec (length l) (n + (if nd && per then 1 else 0))) as [L|L]; [|reflexivity].
  destruct B as [B|B]; [congruence|]. cbn [intp_assert negb andb bind].
  assert (Lp : if per then (p + 2 <= length l)%nat else (p + 1 <= length l)%nat).
  { rewrite L, <- EC. unfold coords_num, distinct in *. destruct per, nd; cbn [andb negb] in *; lia. }
  assert (K : exists xs, (if per then periodic_points Rops p l else aperiodic_points Rops p l) = Ok (xs, l)).
  { destruct per; [rewrite points_per by auto|rewrite points_ap by auto]; eauto. }
  destruct K as (xs & ->). cbn [bind]. rewrite usub_ok by (destruct per; lia). cbn [bind].
  unfold for_. rewrite (checks_fail l); auto.
  - intros i Hi. apply in_seq in Hi. lia.
  - destruct (not_increasing l B) as (i & Hi & Li). exists i. split; auto. apply in_seq. lia.
Qed.

(** What the constructor loop preserves. *)
Record shape (p : nat) (per : list bool) (st : interp R * list (list R)) : Prop := {
  sh_order : sp_order (if_spline (fst st)) = p;
  sh_per : sp_per (if_spline (fst st)) = per;
  sh_knots : length (sp_knots (if_spline (fst st))) = length per;
  sh_range : length (sp_range (if_spline (fst st))) = length per;
  sh_uniform : length (if_uniform (fst st)) = length per;
  sh_dx : length (if_dx (fst st)) = length per;
  sh_coords : length (snd st) = length per
}.

Lemma base_rejects nd p per dims ranges :
  length dims = length per -> length ranges = length per ->
  (forall d, (d < length per)%nat -> enough_points nd p (nth d per false) (nth d dims 0%nat) (nth d ranges (Points []))) ->
  (exists d, (d < length per)%nat /\ bad_points nd (nth d per false) (nth d dims 0%nat) (nth d ranges (Points []))) ->
  interp_base Rops true nd p per dims ranges = Throw AssertFailed.
Proof.
  intros Ld Lr EP (d0 & Hd0 & B0). unfold interp_base, create_knots. cbn [if_spline spline_empty sp_per].
  set (body := fun (st : interp R * list (list R)) (d : nat) => _).
  set (init := (_, _) : interp R * list (list R)).
  assert (SI : shape p per init).
  { constructor; unfold init; cbn [fst snd if_spline spline_empty sp_order sp_per sp_knots sp_range if_uniform if_dx];
      auto; rewrite repeat_length; auto. }
  assert (Good : forall st d, shape p per st -> (d < length per)%nat ->
     good_dim nd p (nth d per false) (nth d dims 0%nat) (nth d ranges (Points [])) ->
     exists st', body st d = Ok st' /\ shape p per st').
  { intros [h coords] d S Hd G. destruct S as [S1 S2 S3 S4 S5 S6 S7]. cbn [fst snd] in *.
    unfold body. rewrite (vget_ok ranges _ (Points [])) by lia. cbn [bind]. rewrite S1, S2.
    rewrite (vget_ok per _ false) by lia. cbn [bind]. rewrite (vget_ok dims _ 0%nat) by lia. cbn [bind].
    destruct (nth d ranges (Points [])) as [a b|l].
    - rewrite vset_ok by lia. cbn [bind]. rewrite (dim_uniform nd p _ _ (Uniform a b)) by auto. cbn [bind].
      rewrite vset_ok by lia. cbn [bind]. erewrite (dim_range nd p _ _ (Uniform a b)); [|eauto|auto|lia|lia|reflexivity]. cbn [bind].
      eexists. split; [reflexivity|]. constructor; cbn [fst snd if_spline sp_order sp_per sp_knots sp_range if_uniform if_dx]; rewrite ?upd_length; auto.
    - rewrite vset_ok by lia. cbn [bind]. rewrite (dim_points true nd p _ _ (Points l)) by auto. cbn [bind].
      rewrite vset_ok by lia. cbn [bind]. erewrite (dim_range nd p _ _ (Points l)); [|eauto|auto|lia|lia|reflexivity]. cbn [bind].
      eexists. split; [reflexivity|]. constructor; cbn [fst snd if_spline sp_order sp_per sp_knots sp_range if_uniform if_dx]; rewrite ?upd_length; auto. }
  assert (Bad : forall st d, shape p per st -> (d < length per)%nat ->
     bad_points nd (nth d per false) (nth d dims 0%nat) (nth d ranges (Points [])) -> body st d = Throw AssertFailed).
  { intros [h coords] d S Hd B. specialize (EP d Hd). destruct S as [S1 S2 S3 S4 S5 S6 S7]. cbn [fst snd] in *.
    unfold body. rewrite (vget_ok ranges _ (Points [])) by lia. cbn [bind]. rewrite S1, S2.
    rewrite (vget_ok per _ false) by lia. cbn [bind]. rewrite (vget_ok dims _ 0%nat) by lia. cbn [bind].
    destruct (nth d ranges (Points [])) as [a b|l]; [destruct B|].
    rewrite vset_ok by lia. cbn [bind]. rewrite points_rejected by auto. reflexivity. }
  unfold for_. rewrite Nat.sub_0_r.
  assert (H : forall ks st, shape p per st -> (forall d, In d ks -> (d < length per)%nat) -> In d0 ks -> foldM body ks st = Throw AssertFailed).
  { induction ks as [|d ks IH]; intros st S Hk HI; [destruct HI|]. cbn [foldM].
    assert (Hd : (d < length per)%nat) by (apply Hk; left; auto).
    destruct (good_or_bad _ _ _ _ _ (EP d Hd)) as [G|B].
    - destruct (Good st d S Hd G) as (st' & E & S'). rewrite E. cbn [bind]. apply IH; auto.
      + intros; apply Hk; right; auto.
      + destruct HI as [->|]; auto. exfalso. apply (good_not_bad _ _ _ _ _ G B0).
    - rewrite (Bad st d S Hd B). reflexivity. }
  apply H; auto.
  - intros d Hd. apply in_seq in Hd. lia.
  - apply in_seq. lia.
Qed.

(** Over the reals the constructor fails only by a zero pivot. *)
#[local] Existing Instance div_only.
Lemma Rops_div : div_safe Rops.
Proof. intros a b. cbn [odiv Rops]. destruct (Req_EM_T b 0); cbn [safely]; auto; reflexivity. Qed.

Lemma sinv_shape per n bw sv : sinv per n bw sv -> sshape per n bw sv.
Proof. destruct sv; auto. Qed.

Lemma make_safe on nd p per dims ranges f :
  good_input nd p per dims ranges -> m_dims f = dims -> wf_mesh f ->
  safely false (fun _ => True) (interp_make Rops on nd p per f ranges).
Proof.
  intros GI Ef Wf. pose proof GI as (Hne & Ld & Lr & G). unfold interp_make, templ_make. rewrite Ef.
  destruct (base_built on nd p per dims ranges GI) as (h & coords & E & B). rewrite E. cbn [bind].
  rewrite (reduced_ok nd p per dims ranges GI). cbn [bind].
  assert (HN : forall d, (d < length per)%nat -> (p + 1 <= distinct nd (nth d per false) (nth d dims 0))%nat).
  { intros d Hd. destruct (G d Hd) as (G1 & _). auto. }
  assert (HS : forall d, (d < length per)%nat -> safely false (svok (nth d (ddims nd per dims) 0%nat))
     (m <- coef_matrix Rops on h coords (ddims nd per dims) d ;; coef_factor Rops on m)).
  { intros d Hd.
    destruct (dim_matrix on nd p per dims ranges h coords GI B d (ddims nd per dims) Hd) as (m & Em & Im & _).
    - apply ddims_length.
    - apply ddims_nth; auto.
    - rewrite Em. cbn [bind]. rewrite ddims_nth by auto. specialize (HN d Hd).
      eapply safely_mono; [apply (factor_safe Rops 0 on Rops_div (nth d per false)); [apply sinv_shape; exact Im|lia]|].
      intros sv Hsv. eexists _, _. split; [exact Hsv|]. intros Ep. rewrite Ep in *. unfold bw_of. pose proof (half_cases p). lia. }
  assert (HM : safely false (fun svs => length svs = length per /\
     forall k, (k < length per)%nat -> svok (nth k (ddims nd per dims) 0%nat) (nth k svs (Aperiodic (band_make Rops 0 0 0))))
     (mapM (fun d => m <- coef_matrix Rops on h coords (ddims nd per dims) d ;; coef_factor Rops on m) (seq 0 (length per)))).
  { destruct (mapM _ _) as [svs|e|u] eqn:EM; cbn [safely].
    - pose proof (mapM_length _ _ _ EM) as L. rewrite seq_length in L. split; auto. intros k Hk.
      pose proof (mapM_nth _ _ _ k 0%nat (Aperiodic (band_make Rops 0 0 0)) EM ltac:(rewrite seq_length; auto)) as Ek.
      rewrite seq_nth in Ek by auto. cbn [Nat.add] in Ek. specialize (HS k Hk). rewrite Ek in HS. exact HS.
    - pose proof (safely_mapM false (fun _ => True) (fun d => m <- coef_matrix Rops on h coords (ddims nd per dims) d ;; coef_factor Rops on m) (seq 0 (length per))) as X.
      rewrite EM in X. apply X. intros d Hd. apply in_seq in Hd. eapply safely_mono; [apply HS; lia|auto].
    - pose proof (safely_mapM false (fun _ => True) (fun d => m <- coef_matrix Rops on h coords (ddims nd per dims) d ;; coef_factor Rops on m) (seq 0 (length per))) as X.
      rewrite EM in X. apply X. intros d Hd. apply in_seq in Hd. eapply safely_mono; [apply HS; lia|auto]. }
  destruct (mapM _ _) as [svs|e|u]; cbn [bind]; [|exact HM|exact HM]. destruct HM as (Ls & Hsv).
  unfold interpolate_move. eapply safely_bind with (P := fun _ => True); [|intros; exact I].
  eapply safely_bind.
  - apply (solve_ctrl_safe Rops 0 on Rops_div nd p per); cbn [tp_base tp_dims tp_solvers];
      rewrite ?Ef; auto.
    + apply (bt_order _ _ _ _ _ _ _ _ B).
    + apply (bt_per _ _ _ _ _ _ _ _ B).
    + intros d Hd. specialize (HN d Hd). lia.
  - intros; exact I.
Qed.

Lemma make_rejects nd p per dims ranges f :
  per <> [] -> length dims = length per -> length ranges = length per -> m_dims f = dims -> wf_mesh f ->
  (forall d, (d < length per)%nat -> enough_points nd p (nth d per false) (nth d dims 0%nat) (nth d ranges (Points []))) ->
  let bad := exists d, (d < length per)%nat /\ bad_points nd (nth d per false) (nth d dims 0%nat) (nth d ranges (Points [])) in
  (bad -> interp_make Rops true nd p per f ranges = Throw AssertFailed) /\
  (~ bad -> (exists g, interp_make Rops true nd p per f ranges = Ok g) \/
            interp_make Rops true nd p per f ranges = Fault DivByZero) /\
  (solvable p per ranges -> ~ bad -> exists g, interp_make Rops true nd p per f ranges = Ok g).
Proof.
  intros Hne Ld Lr Ef Wf EP bad.
  assert (NB : ~ bad -> good_input nd p per dims ranges).
  { intros H. split; auto. split; auto. split; auto. intros d Hd. destruct (good_or_bad _ _ _ _ _ (EP d Hd)); auto.
    exfalso. apply H. exists d. auto. }
  split; [|split].
  - intros B. unfold interp_make, templ_make. rewrite Ef. rewrite base_rejects by auto. reflexivity.
  - intros H. pose proof (make_safe true nd p per dims ranges f (NB H) Ef Wf) as X.
    destruct (interp_make _ _ _ _ _ _ _) as [g|e|u]; cbn [safely] in X; [left; eauto|discriminate|right; rewrite X; reflexivity].
  - intros S H. apply (make_ok true nd p per dims); auto.
Qed.

(** ** 1-D constructors *)
Lemma good_1d nd p per n (a b : R) : (p + 1 <= distinct nd per n)%nat -> (2 <= coords_num nd per n)%nat -> a < b ->
  good_input nd p [per] [n] [Uniform a b].
Proof.
  intros. split; [discriminate|]. split; auto. split; auto. intros d Hd. destruct d; [|cbn in Hd; lia]. cbn. split; auto.
Qed.

Lemma rep_1d nd per n i : (i < distinct nd per n)%nat -> representative nd [per] [n] [i] = [i].
Proof.
  intros Hi. cbn. destruct per; auto. cbn [distinct] in *. rewrite Nat.mod_small; auto.
Qed.

Lemma val_1d (f : list R) i : (i < length f)%nat -> val_at (mesh_of_list f) [i] = nth i f 0.
Proof. intros. unfold val_at, mesh_of_list. cbn. f_equal. lia. Qed.

Lemma one_dim on nd p (f : list R) per :
  (p + 1 <= distinct nd per (length f))%nat -> (2 <= coords_num nd per (length f))%nat ->
  (Z.of_nat (length f) < two64)%Z ->
  exists g, interp1d_make Rops on nd p f per = Ok g /\
  forall i, (i < distinct nd per (length f))%nat -> interp_eval Rops g [INR i] = Ok (nth i f 0).
Proof.
  intros H1 H2 Hs. set (n := length f) in *.
  assert (E : interp1d_make Rops on nd p f per =
              interp_make Rops on nd p [per] (mesh_of_list f) [Uniform 0 (INR (coords_num nd per n - 1))]).
  { unfold interp1d_make. fold n. destruct (nd && per) eqn:B.
    - apply andb_true_iff in B as [-> ->]. cbn [bind]. unfold coords_num, distinct. cbn [andb negb].
      replace (n + 1 - 1)%nat with n by lia. reflexivity.
    - rewrite usub_ok by (unfold coords_num, distinct in *; destruct per, nd; cbn [andb negb] in *; lia). cbn [bind].
      replace (coords_num nd per n) with n; [reflexivity|].
      unfold coords_num, distinct in *; destruct per, nd; cbn [andb negb] in *; try lia; discriminate. }
  rewrite E.
  assert (C1 : (1 <= coords_num nd per n - 1)%nat) by lia.
  assert (GI : good_input nd p [per] [n] [Uniform 0 (INR (coords_num nd per n - 1))]).
  { apply good_1d; auto. apply lt_0_INR. lia. }
  assert (Wf : wf_mesh (mesh_of_list f)) by (unfold wf_mesh, mesh_of_list; cbn; lia).
  destruct (make_ok on nd p [per] [n] [Uniform 0 (INR (coords_num nd per n - 1))] (mesh_of_list f)) as (g & Eg); auto.
  { intros d Hd. destruct d; [|cbn in Hd; lia]. cbn. right; right. eauto. }
  exists g. split; auto.
  - intros i Hi.
    assert (Hn : (distinct nd per n <= n)%nat) by (unfold distinct; destruct (per && negb nd); lia).
    pose proof (make_passes on nd p [per] [n] _ (mesh_of_list f) g GI eq_refl Wf) as MP.
    assert (V : valid [n] [i]) by (apply valid_nth; auto; intros d Hd; destruct d; cbn in *; lia).
    specialize (MP ltac:(intros m [<-|[]]; auto) Eg [i] V).
    rewrite rep_1d in MP by auto. rewrite val_1d in MP by (fold n; lia).
    rewrite <- MP. f_equal. unfold grid_point, coordinate. cbn. f_equal.
    field. apply not_0_INR. lia.
Qed.

(** In the mode without repeated point, the periodic template has spacing
    (n - 1) / n instead. *)
Lemma template_spacing on p (f : list R) g :
  (p + 1 <= length f)%nat -> (2 <= length f)%nat -> (Z.of_nat (length f) < two64)%Z ->
  bind (templ1d_make Rops on true p (length f) true) (fun t => interpolate Rops on true t (mesh_of_list f)) = Ok g ->
  forall i, (i < length f)%nat -> interp_eval Rops g [INR i * (INR (length f - 1) / INR (length f))] = Ok (nth i f 0).
Proof.
  intros H1 H2 Hs Eg i Hi. set (n := length f) in *.
  assert (E : interp_make Rops on true p [true] (mesh_of_list f) [Uniform 0 (INR (n - 1))] = Ok g).
  { rewrite <- Eg. unfold templ1d_make. rewrite usub_ok by lia. cbn [bind].
    destruct (templ_make Rops on true p [true] [n] [Uniform 0 (INR (n - 1))]) as [t| |] eqn:Et.
    - change (o0 Rops) with 0. change (onat Rops (n - 1)) with (INR (n - 1)). rewrite Et. cbn [bind]. apply (make_interpolate _ _ _ _ _ [n]); auto.
    - unfold templ1d_make in Eg. rewrite usub_ok in Eg by lia. cbn [bind] in Eg.
      change (o0 Rops) with 0 in Eg. change (onat Rops (n - 1)) with (INR (n - 1)) in Eg. rewrite Et in Eg. discriminate.
    - unfold templ1d_make in Eg. rewrite usub_ok in Eg by lia. cbn [bind] in Eg.
      change (o0 Rops) with 0 in Eg. change (onat Rops (n - 1)) with (INR (n - 1)) in Eg. rewrite Et in Eg. discriminate. }
  assert (GI : good_input true p [true] [n] [Uniform 0 (INR (n - 1))]).
  { apply good_1d; cbn; try lia. apply lt_0_INR. lia. }
  assert (Wf : wf_mesh (mesh_of_list f)) by (unfold wf_mesh, mesh_of_list; cbn; lia).
  pose proof (make_passes on true p [true] [n] _ (mesh_of_list f) g GI eq_refl Wf) as MP.
  assert (V : valid [n] [i]) by (apply valid_nth; auto; intros d Hd; destruct d; cbn in *; lia).
  specialize (MP ltac:(intros m [<-|[]]; auto) E [i] V).
  rewrite rep_1d in MP by (cbn; auto). rewrite val_1d in MP by (fold n; lia).
  rewrite <- MP. f_equal. unfold grid_point, coordinate. cbn [length seq map nth grid_of coords_num distinct andb negb].
  replace (n + 1 - 1)%nat with n by lia. f_equal. field. apply not_0_INR. lia.
Qed.
