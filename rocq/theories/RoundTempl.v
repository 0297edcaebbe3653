(** Interpolation functions in rounded arithmetic: construction and values at
    the data points. *)
From Coq Require Import List Arith Lia Bool ZArith Reals Lra Psatz.
From Verif Require Import Base Num MeshM SpecMesh MeshProofs ProgM BandM LUM SplineM InterpM.
From Verif Require Import SpecBand SpecSpline SpecSplineObj SpecRound SumR BandProofs SplineProofs BetaProofs BasisProofs TensorR SpecInterp KnotProofs.
From Verif Require Import DenseLU MulProofs LUProofs GenLU RoundLU RoundLUTop RoundProofs CoefProofs SolveProofs BuildProofs WeightProofs LUConv GenKnots GenSolve RoundTensor RoundColl.
Import ListNotations.
Open Scope nat_scope.

(** ** Any arithmetic *)
Section Gen.
Context {T : Type} (o : ops T) (on nd : bool).
Local Notation z := (o0 o).

Lemma base_shape order per dims ranges f coords :
  interp_base o on nd order per dims ranges = Ok (f, coords) ->
  let s := if_spline f in
  length (sp_knots s) = length per /\ length (sp_range s) = length per /\ length (if_uniform f) = length per /\
  length (if_dx f) = length per /\ length coords = length per /\ length ranges <= length per /\
  forall d, d < length ranges ->
    nth d (sp_range s) (z, z) = (nth order (nth d (sp_knots s) []) z, nth (length (nth d (sp_knots s) []) - order - (2 - order mod 2)) (nth d (sp_knots s) []) z).
Proof.
  unfold interp_base, create_knots. cbn [if_spline spline_empty sp_per]. intros E.
  apply (for_post (fun i st => sp_order (if_spline (fst st)) = order /\ 
     length (sp_knots (if_spline (fst st))) = length per /\ length (sp_range (if_spline (fst st))) = length per /\ length (if_uniform (fst st)) = length per /\
     length (if_dx (fst st)) = length per /\ length (snd st) = length per /\ i <= length per /\
     forall d, d < i ->
    nth d (sp_range (if_spline (fst st))) (z, z) = (nth order (nth d (sp_knots (if_spline (fst st))) []) z, nth (length (nth d (sp_knots (if_spline (fst st))) []) - order - (2 - order mod 2)) (nth d (sp_knots (if_spline (fst st))) []) z))) in E.
  - cbn [fst snd] in E. destruct E as (_ & E). exact E.
  - lia.
  - cbn. rewrite !repeat_length. repeat (split; [auto; lia|]). intros; lia.
  - intros i [g cs] s' Hi (IO & L1 & L2 & L3 & L4 & L5 & L6 & IH) B. cbn [fst snd] in *.
    apply bind_Ok in B as (r & Er & B). apply bind_Ok in B as (p & Ep & B). apply bind_Ok in B as (n & En & B).
    assert (X : exists xs s1, load_knots (if_spline g) i xs = Ok s1 /\ if_spline (fst s') = s1 /\ length (if_uniform (fst s')) = length per /\
       length (if_dx (fst s')) = length per /\ length (snd s') = length per).
    { destruct r as [a b|l].
      - apply bind_Ok in B as (u & Eu & B). apply bind_Ok in B as ([xs h] & Ex & B). apply bind_Ok in B as (dx & Ed & B).
        apply bind_Ok in B as (s1 & E1 & B). inversion B; subst s'. cbn [fst snd if_spline if_dx if_uniform].
        apply vset_inv in Eu as (Lu & ->). apply vset_inv in Ed as (Ld & ->). rewrite !upd_length. eauto 8.
      - apply bind_Ok in B as (u & Eu & B). apply bind_Ok in B as ([xs h] & Ex & B). apply bind_Ok in B as (dx & Ed & B).
        apply bind_Ok in B as (s1 & E1 & B). inversion B; subst s'. cbn [fst snd if_spline if_dx if_uniform].
        apply vset_inv in Eu as (Lu & ->). apply vset_inv in Ed as (Ld & ->). rewrite !upd_length. eauto 8. }
    clear B. destruct X as (xs & s1 & E1 & -> & X1 & X2 & X3). rewrite X1, X2, X3.
    unfold load_knots in E1. apply bind_Ok in E1 as (kn' & Ek & E1). apply bind_Ok in E1 as (a & Ea & E1). apply bind_Ok in E1 as (i1 & Ei & E1).
    apply bind_Ok in E1 as (j1 & Ej & E1). apply bind_Ok in E1 as (b & Eb & E1). apply bind_Ok in E1 as (rr & Err & E1). inversion E1; subst s1. cbn [sp_order sp_knots sp_range].
    apply vset_inv in Ek as (Lk & ->). apply vset_inv in Err as (Lr & ->). rewrite !upd_length.
    split; auto. repeat (split; [auto; lia|]). intros d Hd. destruct (Nat.eq_dec d i) as [->|Ne].
    + rewrite !nth_upd_same by auto. rewrite IO in Ea, Ei, Ej. apply vget_inv with (d := z) in Ea as (_ & _ & <-). apply vget_inv with (d := z) in Eb as (_ & _ & <-).
      unfold usub in Ei, Ej. destruct (order <=? length xs); inversion Ei; subst i1. destruct (2 - order mod 2 <=? length xs - order); inversion Ej; subst j1. reflexivity.
    + rewrite !nth_upd_other by auto. apply IH. lia.
Qed.

Lemma reduced_eq per dims W : length dims = length per -> reduced_dims nd per dims = Ok W -> W = ddims nd per dims.
Proof.
  intros L. unfold reduced_dims. destruct nd eqn:End.
  - intros E. inversion E; subst. symmetry. apply ddims_nd. auto.
  - intros E. pose proof (mapM_length _ _ _ E) as LW. rewrite seq_length in LW.
    apply (nth_ext _ _ 0 0); [rewrite ddims_length; auto|]. intros d Hd. rewrite LW in Hd.
    pose proof (mapM_nth _ _ _ d 0 0 E ltac:(rewrite seq_length; auto)) as Ed. rewrite seq_nth in Ed by auto. cbn [Nat.add] in Ed.
    apply bind_Ok in Ed as (n & En & Ed). apply bind_Ok in Ed as (b & Eb & Ed).
    apply vget_inv with (d := 0) in En as (_ & _ & <-). apply vget_inv with (d := false) in Eb as (_ & _ & <-).
    rewrite ddims_nth by auto. unfold distinct. unfold usub in Ed. destruct (nth d per false); cbn [andb negb].
    + destruct (1 <=? nth d dims 0); inversion Ed. auto.
    + destruct (0 <=? nth d dims 0); inversion Ed. lia.
Qed.

Lemma templ_inv p per dims ranges t : templ_make o on nd p per dims ranges = Ok t -> length dims = length per ->
  interp_base o on nd p per dims ranges = Ok (tp_base t, tp_coords t) /\ tp_dims t = ddims nd per dims /\
  length (tp_solvers t) = length per /\
  forall d, d < length per -> exists m, coef_matrix o on (tp_base t) (tp_coords t) (ddims nd per dims) d = Ok m /\
    coef_factor o on m = Ok (gsv_at o (tp_solvers t) d).
Proof.
  unfold templ_make. intros E L. apply bind_Ok in E as ([b cs] & Eb & E). apply bind_Ok in E as (W & EW & E). apply bind_Ok in E as (sv & Es & E). inversion E; subst t; clear E.
  cbn [tp_base tp_coords tp_dims tp_solvers]. split; auto. apply reduced_eq in EW; auto. subst W. split; auto.
  pose proof (mapM_length _ _ _ Es) as LS. rewrite seq_length in LS. split; auto.
  intros d Hd. pose proof (mapM_nth _ _ _ d 0 (Aperiodic (band_make o 0 0 0)) Es ltac:(rewrite seq_length; auto)) as Ed.
  rewrite seq_nth in Ed by auto. cbn [Nat.add] in Ed. apply bind_Ok in Ed as (m & Em & Ed). exists m. split; auto.
Qed.
End Gen.

Local Open Scope R_scope.

(** ** Tensor products of nearby rows *)
Lemma tensor_diff bs bs' eps M c : 0 <= eps -> 0 <= M -> map fst bs = map fst bs' ->
  Forall (fun b => sum (fst b) (fun i => Rabs (snd b i)) <= 1) bs' ->
  (forall d, (d < length bs)%nat -> sum (fst (nth d bs (0%nat, fun _ => 0))) (fun j => Rabs (snd (nth d bs (0%nat, fun _ => 0)) j - snd (nth d bs' (0%nat, fun _ => 0)) j)) <= eps) ->
  (forall idx, valid (map fst bs) idx -> Rabs (c idx) <= M) ->
  Rabs (tensor bs c - tensor bs' c) <= ((1 + eps) ^ length bs - 1) * M.
Proof.
  intros He HM. revert bs' c. induction bs as [|[n b] bs IH]; intros [|[n' b'] bs'] c Hf H1 Hd Hc; cbn [map fst snd] in *; try discriminate.
  - cbn [tensor length pow]. rewrite Rminus_diag_eq by auto. rewrite Rabs_R0. lra.
  - injection Hf as <- Hf. inversion H1 as [|? ? H1a H1b]; subst. cbn [fst snd] in H1a. cbn [tensor length pow]. change Rsum with sum.
    assert (Hd0 := Hd 0%nat ltac:(cbn; lia)). cbn [nth fst snd] in Hd0.
    assert (Hd' : forall d, (d < length bs)%nat -> sum (fst (nth d bs (0%nat, fun _ => 0))) (fun j => Rabs (snd (nth d bs (0%nat, fun _ => 0)) j - snd (nth d bs' (0%nat, fun _ => 0)) j)) <= eps).
    { intros d Hl. apply (Hd (S d)). cbn. lia. }
    assert (Q : 1 <= (1 + eps) ^ length bs) by (apply pow_R1_Rle; lra).
    set (q := (1 + eps) ^ length bs) in *.
    assert (Habs : forall i, (i < n)%nat -> Rabs (tensor bs (fun idx => c (i :: idx))) <= q * M).
    { intros i Hi. apply tensor_abs; auto; [lra| |].
      - apply Forall_forall. intros x Hx. apply (In_nth _ _ (0%nat, fun _ => 0)) in Hx as (e & Hl & <-).
        pose proof (Hd' e Hl) as X. set (bb := nth e bs (0%nat, fun _ : nat => 0)) in *.
        assert (Ee : In (nth e bs' (0%nat, fun _ => 0)) bs'). { apply nth_In. rewrite <- (map_length fst bs'), <- Hf, map_length. auto. }
        pose proof (proj1 (Forall_forall _ _) H1b _ Ee) as Y. cbn beta in Y.
        assert (En : fst (nth e bs' (0%nat, fun _ => 0)) = fst bb).
        { unfold bb. change 0%nat with (fst (0%nat, fun _ : nat => 0)) at 1. rewrite <- !(map_nth fst). rewrite Hf. reflexivity. }
        rewrite En in Y. set (bb' := nth e bs' (0%nat, fun _ : nat => 0)) in *.
        apply Rle_trans with (sum (fst bb) (fun j => Rabs (snd bb j - snd bb' j) + Rabs (snd bb' j))).
        + apply sum_le. intros j Hj. replace (snd bb j) with ((snd bb j - snd bb' j) + snd bb' j) at 1 by ring. apply Rabs_triang.
        + rewrite sum_plus. lra.
      - intros idx V. apply Hc. apply valid_cons. auto. }
    rewrite <- sum_minus. eapply Rle_trans; [apply sum_abs_le|].
    apply Rle_trans with (sum n (fun i => Rabs (b i - b' i) * (q * M) + Rabs (b' i) * ((q - 1) * M))).
    + apply sum_le. intros i Hi.
      replace (b i * tensor bs (fun idx => c (i :: idx)) - b' i * tensor bs' (fun idx => c (i :: idx))) with
        ((b i - b' i) * tensor bs (fun idx => c (i :: idx)) + b' i * (tensor bs (fun idx => c (i :: idx)) - tensor bs' (fun idx => c (i :: idx)))) by ring.
      eapply Rle_trans; [apply Rabs_triang|]. rewrite !Rabs_mult. apply Rplus_le_compat.
      * apply Rmult_le_compat_l; [apply Rabs_pos|]. auto.
      * apply Rmult_le_compat_l; [apply Rabs_pos|]. apply IH; auto. intros idx V. apply Hc. apply valid_cons. auto.
    + rewrite sum_plus, !sum_scal_r. 
      assert (A1 : sum n (fun i => Rabs (b i - b' i)) * (q * M) <= eps * (q * M)) by (apply Rmult_le_compat_r; auto; apply Rmult_le_pos; lra).
      assert (A2 : sum n (fun i => Rabs (b' i)) * ((q - 1) * M) <= 1 * ((q - 1) * M)) by (apply Rmult_le_compat_r; auto; apply Rmult_le_pos; lra).
      lra.
Qed.

Lemma Bmat_abs t len p N k x : (forall i j, (i <= j < len)%nat -> t i <= t j) -> (p <= k)%nat -> (k + p + 1 < len)%nat -> (0 < N)%nat ->
  t k < t (k + 1)%nat -> t k <= x <= t (k + 1)%nat -> sum N (fun j => Rabs (Bmat t p N k x j)) <= 1.
Proof.
  intros Hm Hk Hl HN Hs Hx.
  assert (Pn : forall a, (a < p + 1)%nat -> 0 <= piece t k p (k - p + a) x) by (intros; apply (piece_nonneg t len); auto; lia).
  pose proof (piece_unity t len k Hm ltac:(lia) Hs p x ltac:(lia) ltac:(lia)) as U.
  set (c := fun a => ((k - p + a) mod N)%nat).
  apply Rle_trans with (sum N (fun j => sum (p + 1) (fun a => if (c a =? j)%nat then piece t k p (k - p + a) x else 0))).
  - apply sum_le. intros j Hj. unfold Bmat. rewrite Rabs_pos_eq; [unfold c; lra|]. apply sum_pos. intros a Ha.
    destruct (_ =? _)%nat; [auto|lra].
  - rewrite sum_swap. rewrite <- U. apply sum_le. intros a Ha.
    rewrite (sum_single _ (c a) (fun j => if (c a =? j)%nat then piece t k p (k - p + a) x else 0)).
    + rewrite Nat.eqb_refl. lra.
    + unfold c. apply Nat.mod_upper_bound. lia.
    + intros j Hj Hne. destruct (Nat.eqb_spec (c a) j); [congruence|auto].
Qed.

(** The weights of the control points at a coordinate of a known segment. *)
Lemma beta_Bmat s d x k j : good_spline s -> (d < sp_dim s)%nat ->
  (per_of s d = true -> fst (rng s d) <= x < snd (rng s d)) ->
  segment (kn (knot_of s d)) (sp_order s) (last_of s d) x k -> (j < num_of s d)%nat ->
  beta s d j x = Bmat (kn (knot_of s d)) (sp_order s) (num_of s d) k x j.
Proof.
  intros G Hd Hr Hk Hj. unfold beta.
  assert (Ew : loc s d x = (x, k)).
  { apply loc_unique; auto. unfold wrapped. destruct (per_of s d) eqn:E; [|reflexivity]. specialize (Hr eq_refl). split.
    - exists 0%Z. ring.
    - destruct (Rle_dec (fst (rng s d)) x); lra. }
  rewrite Ew. cbn [fst snd].
  pose proof (wf_len _ (gs_wf _ G) d Hd) as HL. pose proof (wf_num _ (gs_wf _ G) d Hd) as HNm.
  assert (Hkk : (sp_order s <= k <= last_of s d)%nat) by (destruct Hk as (K1 & K2 & _); lia). unfold last_of in Hkk.
  rewrite bpoly_window; try lia; auto.
  2:{ unfold nbasis. lia. }
  unfold Bmat. apply sum_ext. intros a Ha.
  replace (widx s d (k - sp_order s + a)) with ((k - sp_order s + a) mod num_of s d)%nat; auto.
  unfold widx. destruct (per_of s d) eqn:E; auto.
  apply Nat.mod_small. lia.
Qed.

(** ** Values at the data points *)
Section Value.
Context {T : Type} (o : ops T) (val : T -> R) (good : T -> Prop) (on nd : bool).
Local Notation z := (o0 o).
Variables (p : nat) (per : list bool) (dims : list nat) (ranges : list (xrange T)) (t : templ T) (f : mesh T) (c : mesh T).
Hypothesis V0 : val z = 0.
Hypothesis Ht : templ_make o on nd p per dims ranges = Ok t.
Hypothesis Hc : solve_ctrl o on nd t f = Ok c.
Hypothesis Hne : per <> [].
Hypothesis Ld : length dims = length per.
Hypothesis Ef : m_dims f = dims.
Hypothesis Wf : wf_mesh f.
Hypothesis HN : forall d, (d < length per)%nat -> (0 < distinct nd (nth d per false) (nth d dims 0))%nat.
Hypothesis Hpo : sp_order (if_spline (tp_base t)) = p /\ sp_per (if_spline (tp_base t)) = per.
Let W := ddims nd per dims.
Variables (mats : list mat) (nu tau eps : R).
Hypothesis Lm : length mats = length per.
Hypothesis Hnu : 0 <= nu.
Hypothesis Htau : 0 <= tau.
Hypothesis Heps : 0 <= eps.
Hypothesis Hsolves : forall d, (d < length per)%nat -> solves o on (nth d W 0%nat) (bounded_rel val good nu tau (nth d W 0%nat) (mat_at mats d)) (gsv_at o (tp_solvers t) d).
Hypothesis Hrows : forall d i, (d < length per)%nat -> (i < nth d W 0)%nat -> sum (nth d W 0%nat) (fun j => Rabs (mat_at mats d i j)) <= 1 + eps.

Lemma ctrl_error :
  m_dims c = W /\ wf_mesh c /\
  forall C, 0 <= C -> (forall a, In a (m_data c) -> good a /\ Rabs (val a) <= C) ->
  forall idx, valid W idx ->
    good (nth (row_major dims idx) (m_data f) z) /\
    Rabs (tensor (mrow W mats (rows nd p per dims idx)) (fun ks => val (nth (row_major W ks) (m_data c) z)) - val (nth (row_major dims idx) (m_data f) z)) <=
      err nu tau (1 + eps) (length per) C.
Proof using All.
  destruct (templ_inv o on nd p per dims ranges t Ht Ld) as (Eb & Td & Ls & _).
  destruct Hpo as [Ho Hp].
  destruct (init_ok o nd p per dims f Ld Ef Wf HN) as (w & Ew & Dw & Ww & Vw). fold W in Ew, Dw, Vw.
  assert (LW : length W = length per) by apply ddims_length.
  set (wf := fun ix => nth (row_major W ix) (m_data w) z).
  assert (WP : (0 < prod W)%nat).
  { apply prod_pos. apply Forall_forall. intros n Hn. apply (In_nth _ _ 0%nat) in Hn as (d & Hd & <-).
    rewrite LW in Hd. unfold W. rewrite ddims_nth by auto. apply HN. auto. }
  assert (D0 : (0 < length W)%nat). { rewrite LW. destruct per; [congruence|simpl; lia]. }
  assert (Lm' : length mats = length W) by lia. assert (Ls' : length (tp_solvers t) = length W) by lia. assert (He1 : 1 <= 1 + eps) by lra.
  assert (Hr' : forall k i, (k < length W)%nat -> (i < n_at W k)%nat -> sum (n_at W k) (fun j => Rabs (A_at mats k i j)) <= 1 + eps).
  { intros k i Hk Hi. apply Hrows; auto. lia. }
  assert (I0 : rinv o val good W mats wf nu tau (1 + eps) 0 (initial_mem o W w)).
  { apply (initial_rinv o val good on W mats (tp_solvers t) wf nu tau (1 + eps)); auto. rewrite Ww, Dw. auto. }
  destruct (rounds_all o val good on W mats (tp_solvers t) wf nu tau (1 + eps) WP Lm' Ls' Hnu Htau He1 Hr' _ I0) as (m1 & Em & I1).
  { intros k Hk. apply Hsolves. lia. }
  destruct (final_error o val good on W mats (tp_solvers t) wf nu tau (1 + eps) WP Lm' Ls' Hnu Htau He1 Hr' m1 D0 I1) as (c' & Ec & Dc & Lc & Vc).
  assert (c' = c).
  { assert (X : solve_ctrl o on nd t f = Ok c'); [|congruence]. unfold solve_ctrl. rewrite Ho, Hp, Td. fold W. rewrite Ew. cbn [bind]. rewrite Em. cbn [bind snd]. exact Ec. }
  subst c'. split; auto. split; [unfold wf_mesh; rewrite Dc; auto|].
  intros C HC Gc idx Vi. destruct (Vc C HC Gc (rows nd p per dims idx)) as [G E]; [apply rows_valid; auto|].
  unfold wf in G, E. rewrite Vw in G, E by auto. rewrite LW in E. split; auto.
Qed.

(** The exact values of the computed spline. *)
Let g := set_ctrl (tp_base t) c.
Let s := if_spline g.
Let rs := real_spline val s.
Hypothesis GS : good_spline rs.
Variable crd : nat -> nat -> R.
Hypothesis Hnear : forall d i, (d < length per)%nat -> (i < nth d W 0)%nat ->
  (nth d per false = true -> fst (rng rs d) <= crd d i < snd (rng rs d)) /\
  exists k, segment (kn (knot_of rs d)) p (last_of rs d) (crd d i) k /\ kn (knot_of rs d) k <= crd d i <= kn (knot_of rs d) (k + 1)%nat /\
  sum (nth d W 0%nat) (fun j => Rabs (mat_at mats d (rowof p (nth d per false) (nth d W 0%nat) i) j - Bmat (kn (knot_of rs d)) p (nth d W 0%nat) k (crd d i) j)) <= eps.

Lemma value_error C idx : 0 <= C -> (forall a, In a (m_data c) -> good a /\ Rabs (val a) <= C) -> valid W idx ->
  good (nth (row_major dims idx) (m_data f) z) /\
  Rabs (sval rs (map (fun d => crd d (nth d idx 0%nat)) (seq 0 (length per))) - val (nth (row_major dims idx) (m_data f) z)) <=
    ((1 + eps) ^ length per - 1) * C + err nu tau (1 + eps) (length per) C.
Proof using All.
  intros HC Gc Vi. destruct ctrl_error as (Dc & Wc & Hce). destruct (Hce C HC Gc idx Vi) as [G E]. split; auto.
  set (v := val (nth (row_major dims idx) (m_data f) z)) in *.
  assert (LW : length W = length per) by apply ddims_length.
  assert (Ro : sp_order rs = p) by apply Hpo.
  assert (Rp : sp_per rs = per) by apply Hpo.
  assert (Rd : sp_dim rs = length per) by (unfold sp_dim; rewrite Rp; auto).
  assert (Rn : forall d, num_of rs d = nth d W 0%nat).
  { intros d. unfold num_of, rs, real_spline, s, g. cbn [sp_ctrl m_dims set_ctrl if_spline load_ctrl]. rewrite Dc. auto. }
  pose proof (valid_length _ _ Vi) as Li. rewrite LW in Li. pose proof Vi as Vn. rewrite valid_nth in Vn by lia.
  set (A := mrow W mats (rows nd p per dims idx)) in *.
  set (B := map (fun d => (num_of rs d, fun j => beta rs d j (nth d (map (fun d => crd d (nth d idx 0%nat)) (seq 0 (length per))) 0))) (seq 0 (sp_dim rs))).
  set (cc := fun ks => val (nth (row_major W ks) (m_data c) z)) in *.
  assert (EB : sval rs (map (fun d => crd d (nth d idx 0%nat)) (seq 0 (length per))) = tensor B cc).
  { unfold sval. fold B. f_equal. unfold ctrl_at, rs, real_spline, s, g. cbn [sp_ctrl m_dims m_data set_ctrl if_spline load_ctrl]. rewrite Dc.
    unfold cc. apply FunctionalExtensionality.functional_extensionality. intros ks. change (o0 Rops) with 0. rewrite <- V0. apply map_nth. }
  rewrite EB.
  assert (LB : length B = length per) by (unfold B; rewrite map_length, seq_length; auto).
  assert (Lr : length (rows nd p per dims idx) = length W) by (rewrite rows_length; auto).
  assert (LA : map fst A = W). { unfold A. apply mrow_dims; lia. }
  assert (LB' : map fst B = W).
  { apply (nth_ext _ _ 0%nat 0%nat).
    - rewrite map_length. lia.
    - intros d Hd. rewrite map_length, LB in Hd. unfold B. rewrite map_map. cbn [fst]. rewrite map_seq_nth by lia. apply Rn. }
  assert (LAl : length A = length per) by (rewrite <- (map_length fst A), LA; auto).
  assert (EM : forall e j, (e < length per)%nat ->
     snd (nth e A (0%nat, fun _ => 0)) j = mat_at mats e (rowof p (nth e per false) (nth e W 0%nat) (nth e idx 0%nat)) j).
  { intros e j He. unfold A.
    assert (X : forall D M I e, length M = length D -> length I = length D -> (e < length D)%nat ->
       snd (nth e (mrow D M I) (0%nat, fun _ => 0)) j = nth e M (fun _ _ => 0) (nth e I 0%nat) j).
    { clear. induction D as [|n D IH]; intros [|A M] [|i I] e H1 H2 He; simpl in *; try discriminate; try lia.
      destruct e; auto. apply IH; lia. }
    rewrite X by lia. rewrite rows_nth by auto. reflexivity. }
  assert (EN : forall e, (e < length per)%nat -> fst (nth e A (0%nat, fun _ => 0)) = nth e W 0%nat).
  { intros e He. rewrite <- LA. symmetry. apply (map_nth fst A (0%nat, fun _ => 0)). }
  assert (Db : forall d, (d < length per)%nat -> exists k, 
     segment (kn (knot_of rs d)) p (last_of rs d) (crd d (nth d idx 0%nat)) k /\ kn (knot_of rs d) k <= crd d (nth d idx 0%nat) <= kn (knot_of rs d) (k + 1)%nat /\
     (forall j, (j < nth d W 0)%nat -> snd (nth d B (0%nat, fun _ => 0)) j = Bmat (kn (knot_of rs d)) p (nth d W 0%nat) k (crd d (nth d idx 0%nat)) j) /\
     sum (nth d W 0%nat) (fun j => Rabs (snd (nth d A (0%nat, fun _ => 0)) j - Bmat (kn (knot_of rs d)) p (nth d W 0%nat) k (crd d (nth d idx 0%nat)) j)) <= eps).
  { intros d Hd. destruct (Hnear d (nth d idx 0%nat) Hd (Vn d ltac:(lia))) as (Hr & k & Hk & Hin & Hs). exists k. split; auto. split; auto. split.
    - intros j Hj. unfold B. rewrite (map_seq_nth (fun d => (num_of rs d, fun j => beta rs d j (nth d (map (fun d => crd d (nth d idx 0%nat)) (seq 0 (length per))) 0)))) by lia.
      cbn [snd]. rewrite (map_seq_nth (fun d => crd d (nth d idx 0%nat))) by auto. rewrite <- Ro, <- (Rn d).
      apply beta_Bmat; auto; try lia; [|rewrite Ro; auto|rewrite Rn; auto]. unfold per_of. rewrite Rp. auto.
    - eapply Rle_trans; [|exact Hs]. right. apply sum_ext. intros j Hj. rewrite EM by auto. reflexivity. }
  assert (Q : Rabs (tensor A cc - tensor B cc) <= ((1 + eps) ^ length A - 1) * C).
  { apply tensor_diff; auto.
    - rewrite LA, LB'. auto.
    - apply Forall_forall. intros b Hb. apply (In_nth _ _ (0%nat, fun _ => 0)) in Hb as (d & Hd & <-). rewrite LB in Hd.
      assert (Fd : fst (nth d B (0%nat, fun _ => 0)) = nth d W 0%nat) by (rewrite <- LB'; symmetry; apply (map_nth fst B (0%nat, fun _ => 0))).
      rewrite Fd. destruct (Db d Hd) as (k & Hk & Hin & HB & _).
      rewrite (sum_ext _ _ (fun j => Rabs (Bmat (kn (knot_of rs d)) p (nth d W 0%nat) k (crd d (nth d idx 0%nat)) j))) by (intros j Hj; rewrite HB by auto; auto).
      pose proof (wf_len _ (gs_wf _ GS) d ltac:(lia)) as HL. rewrite Ro in HL. destruct Hk as (K1 & K2 & K3).
      unfold last_of in K1. rewrite Ro in K1.
      apply (Bmat_abs _ (length (knot_of rs d))); auto; try lia.
      + apply (gs_sorted _ GS). lia.
      + unfold W. rewrite ddims_nth by auto. apply HN. auto.
    - intros d Hd. rewrite EN by lia. destruct (Db d ltac:(lia)) as (k & Hk & Hin & HB & HS). eapply Rle_trans; [|exact HS].
      right. apply sum_ext. intros j Hj. rewrite HB by auto. reflexivity.
    - intros ks Vk. unfold cc. match goal with |- context[nth ?i ?l ?d] => destruct (nth_in_or_default i l d) as [I|X] end.
      + apply Gc. auto.
      + rewrite X, V0, Rabs_R0. auto. }
  rewrite LAl in Q. replace (tensor B cc - v) with (- (tensor A cc - tensor B cc) + (tensor A cc - v)) by ring.
  eapply Rle_trans; [apply Rabs_triang|]. rewrite Rabs_Ropp. lra.
Qed.
End Value.
