(** The interpolation function reproduces the data. *)
From Coq Require Import List Arith Lia Bool ZArith Reals Lra.
From Verif Require Import Base Num MeshM SpecMesh MeshProofs ProgM BandM LUM SplineM InterpM.
From Verif Require Import SumR DenseLU SpecBand BandProofs MulProofs LUProofs LUConv SpecSpline SpecSplineObj SplineProofs BetaProofs TensorR SpecInterp KnotProofs KnotShape CoefProofs SolverProofs RoundProofs SolveProofs BuildProofs WeightProofs.
Import ListNotations.
Open Scope R_scope.

(** The function [g] is the interpolant of the data [f]. *)
Record interpolant (nd : bool) (p : nat) (per : list bool) (dims : list nat) (ranges : list (xrange R))
  (f : mesh R) (g : interp R) (mats : list mat) : Prop := {
  ip_built : exists coords, built nd p per dims ranges g coords (length per);
  ip_mats : length mats = length per;
  ip_ctrl : m_dims (sp_ctrl (if_spline g)) = ddims nd per dims;
  ip_wf : wf_mesh (sp_ctrl (if_spline g));
  ip_col : forall d, (d < length per)%nat ->
       col_good p (nth d per false) (nth d (ddims nd per dims) 0%nat)
         (gridx nd (nth d per false) (nth d dims 0%nat) (nth d ranges (Points []))) (mat_at mats d);
  ip_piv : forall d, (d < length per)%nat -> pivots_ok (mat_at mats d) (nth d (ddims nd per dims) 0%nat);
  ip_eqs : forall idx, valid (ddims nd per dims) idx ->
    tensor (mrow (ddims nd per dims) mats (rows nd p per dims idx)) (ctrl_at Rops (if_spline g)) = val_at f idx
}.

Section Make.
Variables (on nd : bool) (p : nat) (per : list bool) (dims : list nat) (ranges : list (xrange R)) (f : mesh R).
Hypothesis GI : good_input nd p per dims ranges.
Hypothesis Ef : m_dims f = dims.
Hypothesis Wf : wf_mesh f.
Let W := ddims nd per dims.

Lemma W_big d : (d < length per)%nat -> (p + 1 <= nth d W 0)%nat.
Proof. intros Hd. unfold W. rewrite ddims_nth by auto. destruct GI as (_ & _ & _ & GG). destruct (GG d Hd); auto. Qed.

Lemma W_pos : (0 < prod W)%nat.
Proof.
  apply prod_pos. apply Forall_forall. intros n Hn. apply (In_nth _ _ 0%nat) in Hn as (d & Hd & <-).
  unfold W in Hd. rewrite ddims_length in Hd. pose proof (W_big d Hd). lia.
Qed.

(** Solving with a template. *)
Lemma solve_spec t coords mats :
  templ_make Rops on nd p per dims ranges = Ok t ->
  built nd p per dims ranges (tp_base t) coords (length per) -> length mats = length per ->
  tp_dims t = W -> length (tp_solvers t) = length per ->
  (forall d, (d < length per)%nat -> lufac (sv_at (tp_solvers t) d) (nth d W 0%nat) (mat_at mats d)) ->
  ((forall d, (d < length per)%nat -> pivots_ok (mat_at mats d) (nth d W 0%nat)) -> exists c, solve_ctrl Rops on nd t f = Ok c) /\
  forall c, solve_ctrl Rops on nd t f = Ok c ->
    m_dims c = W /\ wf_mesh c /\
    (forall d, (d < length per)%nat -> pivots_ok (mat_at mats d) (nth d W 0%nat)) /\
    forall idx, valid W idx ->
      tensor (mrow W mats (rows nd p per dims idx)) (fun ks => nth (row_major W ks) (m_data c) 0) = val_at f idx.
Proof.
  intros Et B Lm Td Ls HL. destruct GI as (Hne & Ld & Lr & GG).
  assert (HN : forall d, (d < length per)%nat -> (0 < distinct nd (nth d per false) (nth d dims 0))%nat).
  { intros d Hd. destruct (GG d Hd) as (G1 & _). lia. }
  destruct (init_ok Rops nd p per dims f Ld Ef Wf HN) as (w & Ew & Dw & Ww & Vw). fold W in Ew, Dw, Vw.
  assert (LW : length W = length per) by apply ddims_length.
  set (wf := fun ix => nth (row_major W ix) (m_data w) 0).
  assert (I0 : round_inv W mats wf 0 (initial_mem Rops W w)).
  { apply initial_inv; auto. rewrite Ww, Dw. auto. }
  assert (ES : solve_ctrl Rops on nd t f = r <- run (rounds on W (tp_solvers t)) (initial_mem Rops W w) ;; final_mesh W (snd r)).
  { unfold solve_ctrl. rewrite (bt_order _ _ _ _ _ _ _ _ B), (bt_per _ _ _ _ _ _ _ _ B), Td. rewrite Ew. reflexivity. }
  assert (D0 : (0 < length W)%nat). { rewrite LW. destruct per; [congruence|simpl; lia]. }
  pose proof W_pos as WP.
  assert (Fin : forall m, round_inv W mats wf (length W) m -> exists c, final_mesh W m = Ok c /\ m_dims c = W /\ wf_mesh c /\
     forall idx, valid W idx -> tensor (mrow W mats (rows nd p per dims idx)) (fun ks => nth (row_major W ks) (m_data c) 0) = val_at f idx).
  { intros m Hm. destruct (final_ok W mats (tp_solvers t) wf WP (eq_trans Lm (eq_sym LW)) (eq_trans Ls (eq_sym LW)) m D0 Hm) as (c & Ec & Dc & Lc & Vc).
    exists c. split; auto. split; auto. split; [unfold wf_mesh; rewrite Dc; auto|].
    intros idx Vi. rewrite Vc by (apply rows_valid; auto). unfold wf. rewrite Vw by auto. unfold val_at. rewrite Ef. auto. }
  split.
  - intros HP. destruct (rounds_ok on W mats (tp_solvers t) wf WP) with (m := initial_mem Rops W w) as (m1 & Em & Im); auto; try lia.
    { intros k Hk. apply lufac_spec; [apply HL; lia|]. apply HP. lia. }
    destruct (Fin m1 Im) as (c & Ec & _). exists c. rewrite ES, Em. cbn [bind snd]. auto.
  - intros c Ec. rewrite ES in Ec. apply bind_Ok in Ec as ([u m1] & Em & Ec). cbn [snd] in Ec.
    destruct (rounds_inv on W mats (tp_solvers t) wf WP) with (m := initial_mem Rops W w) (u := u) (m1 := m1) as [Im HP]; auto; try lia.
    { intros k Hk. apply HL. lia. }
    destruct (Fin m1 Im) as (c' & Ec' & H1 & H2 & H3). rewrite Ec in Ec'. injection Ec' as <-.
    split; auto. split; auto. split; auto. intros d Hd. apply HP. lia.
Qed.

Lemma interp_make_spec :
  exists mats, length mats = length per /\
  (forall d, (d < length per)%nat ->
       col_good p (nth d per false) (nth d W 0%nat)
         (gridx nd (nth d per false) (nth d dims 0%nat) (nth d ranges (Points []))) (mat_at mats d)) /\
  (forall g, interp_make Rops on nd p per f ranges = Ok g -> interpolant nd p per dims ranges f g mats) /\
  ((forall d, (d < length per)%nat -> pivots_ok (mat_at mats d) (nth d W 0%nat)) ->
     exists g, interp_make Rops on nd p per f ranges = Ok g).
Proof.
  destruct (templ_spec on nd p per dims ranges GI) as (fb & coords & mats & B & Lm & HC & HT & HP). fold W in HC, HT, HP.
  exists mats. split; auto. split; auto. unfold interp_make. rewrite Ef. split.
  - intros g E. apply bind_Ok in E as (t & Et & E). destruct (HT t Et) as (T1 & T2 & T3 & T4 & T5).
    unfold interpolate_move in E. apply bind_Ok in E as (r & E & Er). injection Er as <-.
    apply bind_Ok in E as (c & Ec & E). injection E as <-. cbn [fst].
    rewrite <- T1 in B. destruct (solve_spec t coords mats Et B Lm T3 T4 T5) as [_ HS].
    destruct (HS c Ec) as (S1 & S2 & S3 & S4).
    constructor; auto.
    + exists coords. destruct B as [B1 B2 B3 B4 B5 B6 B7 B8]. constructor; auto. intros d Hd. destruct (B8 d Hd). constructor; auto.
    + intros idx Vi. fold W. unfold ctrl_at. cbn [set_ctrl if_spline load_ctrl sp_ctrl]. rewrite S1. auto.
  - intros HPV. destruct (HP HPV) as (t & Et). rewrite Et. cbn [bind]. destruct (HT t Et) as (T1 & T2 & T3 & T4 & T5).
    rewrite <- T1 in B. destruct (solve_spec t coords mats Et B Lm T3 T4 T5) as [HS _].
    destruct (HS HPV) as (c & Ec). unfold interpolate_move. rewrite Ec. cbn [bind]. eauto.
Qed.
End Make.

(** ** The resulting spline *)
Section Spline.
Variables (nd : bool) (p : nat) (per : list bool) (dims : list nat) (ranges : list (xrange R)) (f : mesh R)
  (g : interp R) (mats : list mat).
Hypothesis GI : good_input nd p per dims ranges.
Hypothesis IP : interpolant nd p per dims ranges f g mats.
Let W := ddims nd per dims.
Let s := if_spline g.

Definition xs_of (d : nat) : nat -> R := gridx nd (nth d per false) (nth d dims 0%nat) (nth d ranges (Points [])).

Lemma s_order : sp_order s = p.
Proof. destruct (ip_built _ _ _ _ _ _ _ _ IP) as (c & B). apply (bt_order _ _ _ _ _ _ _ _ B). Qed.
Lemma s_per : sp_per s = per.
Proof. destruct (ip_built _ _ _ _ _ _ _ _ IP) as (c & B). apply (bt_per _ _ _ _ _ _ _ _ B). Qed.
Lemma s_dim : sp_dim s = length per.
Proof. unfold sp_dim. rewrite s_per. auto. Qed.
Lemma s_knots d : (d < length per)%nat -> knot_of s d = knots_for p (nth d per false) (nth d W 0%nat) (xs_of d).
Proof.
  intros Hd. destruct (ip_built _ _ _ _ _ _ _ _ IP) as (c & B). unfold knot_of. unfold s.
  rewrite (db_knots _ _ _ _ _ _ _ _ (bt_dim _ _ _ _ _ _ _ _ B d Hd)). unfold W. rewrite ddims_nth by auto. reflexivity.
Qed.
Lemma s_num d : num_of s d = nth d W 0%nat.
Proof. unfold num_of. unfold s. rewrite (ip_ctrl _ _ _ _ _ _ _ _ IP). auto. Qed.
Lemma s_per_of d : per_of s d = nth d per false.
Proof. unfold per_of. rewrite s_per. auto. Qed.
Lemma s_rng d : (d < length per)%nat -> rng s d = (kn (knot_of s d) p, kn (knot_of s d) (length (knot_of s d) - p - (2 - p mod 2))).
Proof.
  intros Hd. rewrite (s_knots d Hd). destruct (ip_built _ _ _ _ _ _ _ _ IP) as (c & B). unfold s.
  rewrite (db_range _ _ _ _ _ _ _ _ (bt_dim _ _ _ _ _ _ _ _ B d Hd)). unfold W. rewrite ddims_nth by auto. reflexivity.
Qed.

Lemma s_good_dim d : (d < length per)%nat ->
  good_dim nd p (nth d per false) (nth d dims 0%nat) (nth d ranges (Points [])).
Proof. destruct GI as (_ & _ & _ & GG). auto. Qed.

Lemma s_N d : (d < length per)%nat -> (p + 1 <= nth d W 0)%nat.
Proof. apply (W_big nd p per dims ranges GI). Qed.

Lemma s_incr d : (d < length per)%nat -> increasing (if nth d per false then nth d W 0 + 1 else nth d W 0)%nat (xs_of d).
Proof.
  intros Hd. pose proof (grid_increasing nd p _ _ _ (s_good_dim d Hd)) as H.
  unfold W. rewrite ddims_nth by auto. unfold coords_num in H. unfold xs_of. 
  destruct (nth d per false); auto.
Qed.

Lemma s_two d : (d < length per)%nat -> nth d per false = false -> (2 <= nth d W 0)%nat.
Proof.
  intros Hd E. destruct (s_good_dim d Hd) as (_ & G2 & _). unfold W. rewrite ddims_nth by auto.
  rewrite E in *. unfold coords_num in G2. unfold distinct. auto.
Qed.

(** Knots of the two kinds of dimensions. *)
Lemma s_ap d : (d < length per)%nat -> nth d per false = false ->
  length (knot_of s d) = (nth d W 0 + p + 1)%nat /\
  forall i, (i < nth d W 0 + p + 1)%nat -> kn (knot_of s d) i = ap_knot p (nth d W 0%nat) (xs_of d) i.
Proof.
  intros Hd E. rewrite (s_knots d Hd), E. unfold knots_for. rewrite map_length, seq_length. split; auto.
  intros i Hi. apply kn_map. auto.
Qed.
Lemma s_pk d : (d < length per)%nat -> nth d per false = true ->
  length (knot_of s d) = (nth d W 0 + 2 * p + 1 + (1 - p mod 2))%nat /\
  forall i, (i < nth d W 0 + 2 * p + 1 + (1 - p mod 2))%nat ->
    kn (knot_of s d) i = per_knot p (nth d W 0%nat) (xs_of d (nth d W 0%nat) - xs_of d 0%nat) (xs_of d) i.
Proof.
  intros Hd E. rewrite (s_knots d Hd), E. unfold knots_for. rewrite map_length, seq_length. split; auto.
  intros i Hi. apply kn_map. auto.
Qed.

Lemma s_strict d i : (d < length per)%nat -> (p <= i <= last_of s d)%nat -> kn (knot_of s d) i < kn (knot_of s d) (i + 1).
Proof.
  intros Hd Hi. unfold last_of in Hi. rewrite s_order in Hi. pose proof (s_N d Hd) as HN. pose proof (s_incr d Hd) as Hx.
  destruct (nth d per false) eqn:E.
  - destruct (s_pk d Hd E) as [L V]. rewrite !V by lia. apply per_step; auto.
  - destruct (s_ap d Hd E) as [L V]. rewrite !V by lia. apply ap_strict; auto; try lia. apply s_two; auto.
Qed.

Lemma s_sorted d : (d < length per)%nat -> nondecreasing (knot_of s d).
Proof.
  intros Hd. pose proof (s_N d Hd) as HN. pose proof (s_incr d Hd) as Hx.
  intros i j Hij. destruct (nth d per false) eqn:E.
  - destruct (s_pk d Hd E) as [L V]. rewrite !V by lia. apply per_mono; auto; lia.
  - destruct (s_ap d Hd E) as [L V]. rewrite !V by lia. apply ap_mono; auto; try lia. apply s_two; auto.
Qed.

Lemma s_len d : (d < length per)%nat -> (2 * p + 2 <= length (knot_of s d))%nat.
Proof.
  intros Hd. pose proof (s_N d Hd) as HN. destruct (nth d per false) eqn:E.
  - destruct (s_pk d Hd E) as [L V]. lia.
  - destruct (s_ap d Hd E) as [L V]. lia.
Qed.

(** The range of a periodic dimension is one period. *)
Lemma s_period d : (d < length per)%nat -> nth d per false = true ->
  snd (rng s d) - fst (rng s d) = xs_of d (nth d W 0%nat) - xs_of d 0%nat /\
  fst (rng s d) = kn (knot_of s d) p /\ snd (rng s d) = kn (knot_of s d) (nth d W 0 + p)%nat.
Proof.
  intros Hd E. pose proof (s_N d Hd) as HN. pose proof (s_incr d Hd) as Hx. rewrite E in Hx.
  rewrite (s_rng d Hd). cbn [fst snd]. destruct (s_pk d Hd E) as [L V]. pose proof (half_cases p) as HC.
  assert (E1 : (length (knot_of s d) - p - (2 - p mod 2) = nth d W 0 + p)%nat) by lia. rewrite E1. split; auto.
  rewrite !V by lia. rewrite (Nat.add_comm (nth d W 0%nat) p). rewrite per_shift by auto. ring.
Qed.

Lemma s_good : good_spline s.
Proof.
  constructor.
  - constructor.
    + rewrite s_dim. destruct (ip_built _ _ _ _ _ _ _ _ IP) as (c & B). apply (bt_knots _ _ _ _ _ _ _ _ B).
    + rewrite s_dim. destruct (ip_built _ _ _ _ _ _ _ _ IP) as (c & B). apply (bt_range _ _ _ _ _ _ _ _ B).
    + apply (ip_wf _ _ _ _ _ _ _ _ IP).
    + unfold s. rewrite (ip_ctrl _ _ _ _ _ _ _ _ IP). fold s. rewrite s_dim. apply ddims_length.
    + intros d Hd. rewrite s_dim in Hd. rewrite s_order. apply s_len. auto.
    + intros d Hd. rewrite s_dim in Hd. rewrite s_per_of, s_num, s_order. pose proof (s_N d Hd).
      destruct (nth d per false) eqn:E; [lia|]. destruct (s_ap d Hd E) as [L _]. lia.
  - intros d Hd. rewrite s_dim in Hd. apply s_sorted; auto.
  - intros d Hd. rewrite s_dim in Hd. rewrite s_order. apply s_strict; auto. unfold last_of. rewrite s_order. pose proof (s_len d Hd). lia.
  - intros d Hd. rewrite s_dim in Hd. apply s_strict; auto. unfold last_of. rewrite s_order. pose proof (s_len d Hd). lia.
  - intros d Hd Ep. rewrite s_dim in Hd. rewrite s_per_of in Ep. destruct (s_period d Hd Ep) as (H & _ & _).
    pose proof (s_incr d Hd) as Hx. rewrite Ep in Hx. pose proof (s_N d Hd). pose proof (Hx 0%nat (nth d W 0%nat) ltac:(lia)). lra.
  - intros d Hd. rewrite s_dim in Hd. rewrite s_order. rewrite (s_rng d Hd). cbn [fst snd]. split; auto.
    unfold last_of. rewrite s_order. pose proof (half_cases p) as HC. pose proof (s_len d Hd).
    destruct HC as [(_ & _ & E)|(_ & _ & E)]; [right|left]; f_equal; lia.
Qed.

(** The weight of control point [j] at data point [i]. *)
Lemma s_beta d i j : (d < length per)%nat -> (i < nth d W 0)%nat -> (j < nth d W 0)%nat ->
  beta s d j (xs_of d i) = mat_at mats d (rowof p (nth d per false) (nth d W 0%nat) i) j.
Proof.
  intros Hd Hi Hj. pose proof (s_N d Hd) as HN.
  destruct (ip_col _ _ _ _ _ _ _ _ IP d Hd i Hi) as (k & Hk & HB). fold W in Hk, HB. fold (xs_of d) in Hk, HB.
  rewrite <- (s_knots d Hd) in Hk, HB. rewrite HB by auto. unfold beta.
  assert (EL : (length (knot_of s d) - p - 2)%nat = last_of s d) by (unfold last_of; rewrite s_order; auto).
  rewrite EL in Hk.
  assert (Ew : loc s d (xs_of d i) = (xs_of d i, k)).
  { apply loc_unique; auto.
    - apply s_good.
    - rewrite s_dim; auto.
    - rewrite s_per_of. destruct (nth d per false) eqn:E; [|reflexivity]. split.
      + exists 0%Z. ring.
      + destruct (s_period d Hd E) as (_ & E1 & E2). pose proof (s_incr d Hd) as Hx. rewrite E in Hx.
        destruct (s_pk d Hd E) as [L V].
        assert (A1 : fst (rng s d) <= xs_of d i).
        { rewrite E1, V by lia. destruct (per_at p (nth d W 0%nat) (xs_of d) Hx HN 0 ltac:(lia)) as [Q _].
          cbn [Nat.add] in Q. destruct i; [lra|]. pose proof (Hx 0%nat (S i) ltac:(lia)). lra. }
        assert (A2 : xs_of d i < snd (rng s d)).
        { rewrite E2, V by lia. destruct (per_at p (nth d W 0%nat) (xs_of d) Hx HN i ltac:(lia)) as [_ Q].
          eapply Rlt_le_trans; [exact Q|]. apply per_mono; auto. lia. }
        destruct (Rle_dec (fst (rng s d)) (xs_of d i)); lra.
    - rewrite s_order. auto. }
  rewrite Ew. cbn [fst snd].
  assert (Hkk : (p <= k <= last_of s d)%nat) by (destruct Hk as (K1 & K2 & _); lia).
  rewrite bpoly_window; rewrite ?s_order; try lia.
  2:{ rewrite s_dim; auto. }
  2:{ unfold nbasis. rewrite s_order. unfold last_of in Hkk. rewrite s_order in Hkk. pose proof (s_len d Hd). lia. }
  unfold Bmat. apply sum_ext. intros a Ha.
  replace (widx s d (k - p + a)) with ((k - p + a) mod nth d W 0)%nat; auto.
  unfold widx. rewrite s_per_of, s_num. destruct (nth d per false) eqn:E; auto.
  apply Nat.mod_small. destruct (s_ap d Hd E) as [L _]. unfold last_of in Hkk. rewrite s_order in Hkk. lia.
Qed.

(** ** Evaluation *)
Lemma s_hint d x : (d < length per)%nat ->
  countable (nth d ranges (Points [])) (coords_num nd (nth d per false) (nth d dims 0%nat)) x ->
  exists h, hint_for Rops g d x = Ok h /\ (p <= h <= last_of s d)%nat.
Proof.
  intros Hd Hc. destruct (ip_built _ _ _ _ _ _ _ _ IP) as (c & B).
  destruct (bt_dim _ _ _ _ _ _ _ _ B d Hd) as [DK DR DU DX DC]. pose proof (s_len d Hd) as HL. pose proof (s_N d Hd) as HN.
  unfold hint_for. rewrite (bt_order _ _ _ _ _ _ _ _ B).
  rewrite (vget_ok (if_uniform g) _ false) by (rewrite (bt_uniform _ _ _ _ _ _ _ _ B); auto). rewrite DU. cbn [bind].
  assert (Hlast : last_of s d = (length (knot_of s d) - p - 2)%nat) by (unfold last_of; rewrite s_order; auto).
  destruct (s_good_dim d Hd) as (G1 & G2 & G3).
  destruct (nth d ranges (Points [])) as [a b|l] eqn:Er; cbn [is_uniform]; [|exists p; split; auto; lia].
  fold s. rewrite (vget_ok (sp_knots s) _ []) by (unfold s; rewrite (bt_knots _ _ _ _ _ _ _ _ B); auto). cbn [bind]. fold (knot_of s d).
  rewrite (vget_ok (sp_range s) _ (0, 0)) by (unfold s; rewrite (bt_range _ _ _ _ _ _ _ _ B); auto). cbn [bind].
  rewrite s_per. rewrite (vget_ok per _ false) by auto. cbn [bind].
  rewrite (vget_ok (if_dx g) _ 0) by (rewrite (bt_dx _ _ _ _ _ _ _ _ B); auto). cbn [bind]. rewrite (DX a b) by auto.
  set (M := coords_num nd (nth d per false) (nth d dims 0%nat)) in *.
  set (dx := (b - a) / INR (M - 1)) in *.
  assert (Hdx : 0 < dx). { apply Rdiv_lt_0_compat; [lra|apply INR_pos; lia]. }
  change (odiv Rops (osub Rops x (fst (rng s d))) dx) with (odiv Rops (x - fst (rng s d)) dx). rewrite Rdiv_ok by lra. cbn [bind].
  set (v := osub Rops _ _).
  assert (Hv : v < IZR (two64 - 1)).
  { assert (Hq : (x - a) / dx < IZR (two64 - 1)).
    { apply Rmult_lt_reg_r with dx; auto. unfold Rdiv. rewrite Rmult_assoc, Rinv_l by lra. cbn [countable] in Hc. fold dx in Hc. lra. }
    assert (Hx0 : xs_of d 0%nat = a). { unfold xs_of, gridx. rewrite Er. unfold grid_of. change (INR 0) with 0. ring. }
    unfold v. change (osub Rops) with Rminus. change (omul Rops) with Rmult. change (ohalf Rops) with (/ 2). change (o1 Rops) with 1. change (onat Rops) with INR.
    rewrite (s_rng d Hd). cbn [fst]. destruct (nth d per false) eqn:Ep.
    - destruct (s_pk d Hd Ep) as [L V]. rewrite V by lia.
      pose proof (per_uniform a b p (nth d W 0%nat) p HN) as PU.
      assert (EM : M = (nth d W 0 + 1)%nat). { unfold M, W. rewrite ddims_nth by auto. rewrite Ep. reflexivity. }
      assert (Ex : xs_of d = grid_of (Uniform a b) (nth d W 0 + 1)%nat). { rewrite <- EM. unfold xs_of, gridx, M. rewrite Er, Ep. reflexivity. }
      assert (Edx : dx = (b - a) / INR (nth d W 0%nat)). { unfold dx. rewrite EM. do 2 f_equal. lia. }
      replace (xs_of d (nth d W 0%nat) - xs_of d 0%nat) with (b - a).
      + rewrite Ex, PU, <- Edx. apply Rle_lt_trans with ((x - a) / dx); auto.
        assert (E : (x - (a + (INR p - INR p - (if Nat.even p then / 2 else 0)) * dx)) / dx - 1 = (x - a) / dx + (if Nat.even p then / 2 else 0) - 1) by (field; lra).
        rewrite E. destruct (Nat.even p); lra.
      + rewrite Hx0, Ex. unfold grid_of. replace (nth d W 0 + 1 - 1)%nat with (nth d W 0%nat) by lia. field. apply not_0_INR. lia.
    - destruct (s_ap d Hd Ep) as [L V]. rewrite V by lia. rewrite ap_lo by (auto; apply s_two; auto). rewrite Hx0.
      pose proof (pos_INR (p + 1)). lra. }
  set (w := if olt Rops (o0 Rops) v then v else o0 Rops).
  assert (Hw : 0 <= w < IZR (two64 - 1)).
  { unfold w. cbn [olt o0 Rops]. unfold Rltb. destruct (Rlt_dec 0 v); [lra|]. split; [lra|]. unfold two64. apply IZR_lt. reflexivity. }
  assert (Eo : exists k, oceil Rops w = Ok k).
  { cbn [oceil Rops]. unfold Rceil. destruct (base_Int_part (- w)) as [I1 I2]. set (z := Int_part (- w)) in *.
    assert (Z1 : (-z <? 0)%Z = false). { apply Z.ltb_ge. assert (IZR z <= 0) by lra. apply le_IZR in H. lia. }
    assert (Z2 : (two64 <=? - z)%Z = false).
    { apply Z.leb_gt. assert (IZR (- z) < IZR two64).
      { rewrite opp_IZR. replace two64 with (two64 - 1 + 1)%Z by lia. rewrite plus_IZR. lra. }
      apply lt_IZR in H. auto. }
    rewrite Z1, Z2. cbn [orb]. eauto. }
  destruct Eo as (k & Ek). rewrite Ek. cbn [bind]. rewrite usub_ok by lia. cbn [bind]. rewrite usub_ok by lia. cbn [bind].
  eexists. split; [reflexivity|]. lia.
Qed.

Lemma s_hints xs : length xs = length per -> countable_point nd per dims ranges xs ->
  exists coords, add_hints Rops g xs = Ok coords /\ length coords = length per /\ map fst coords = xs /\
    forall d, (d < length per)%nat -> hint_for Rops g d (nth d xs 0) = Ok (snd (nth d coords (0%R, 0%nat))) /\
      (p <= snd (nth d coords (0%R, 0%nat)) <= last_of s d)%nat.
Proof.
  intros Hl Hc. unfold add_hints. fold s. rewrite s_dim.
  set (h := fun d => match hint_for Rops g d (nth d xs 0) with Ok h => h | _ => 0%nat end).
  assert (Hh : forall d, (d < length per)%nat -> hint_for Rops g d (nth d xs 0) = Ok (h d) /\ (p <= h d <= last_of s d)%nat).
  { intros d Hd. destruct (s_hint d (nth d xs 0) Hd (Hc d Hd)) as (k & E & B). unfold h. rewrite E. auto. }
  rewrite (mapM_ok _ (fun d => (nth d xs 0, h d))).
  - eexists. split; [reflexivity|]. split; [rewrite map_length, seq_length; auto|]. split.
    + rewrite map_map. cbn [fst]. apply (nth_ext _ _ 0 0).
      * rewrite map_length, seq_length. auto.
      * intros d Hd. rewrite map_length, seq_length in Hd. rewrite map_seq_nth by auto. auto.
    + intros d Hd. rewrite map_seq_nth by auto. cbn [snd]. auto.
  - intros d Hd. apply in_seq in Hd. rewrite (vget_ok _ _ 0) by lia. cbn [bind].
    destruct (Hh d ltac:(lia)) as [E _]. rewrite E. reflexivity.
Qed.

Lemma s_eval xs : length xs = length per -> countable_point nd per dims ranges xs ->
  interp_eval Rops g xs = Ok (sval s xs).
Proof.
  intros Hl Hc. destruct (s_hints xs Hl Hc) as (coords & E & L & Ef & Hh). unfold interp_eval. rewrite E. cbn [bind]. fold s.
  rewrite <- Ef. apply eval_sval_hint.
  - apply s_good.
  - rewrite s_dim; auto.
  - rewrite s_dim, s_order. intros d Hd. apply Hh; auto.
Qed.

(** The end point of a period has the weights of the first point. *)
Lemma s_beta_end d j : (d < length per)%nat -> nth d per false = true ->
  beta s d j (xs_of d (nth d W 0%nat)) = beta s d j (xs_of d 0%nat).
Proof.
  intros Hd E. unfold beta.
  destruct (loc_spec s d (xs_of d 0%nat) s_good ltac:(rewrite s_dim; auto)) as [H1 H2].
  assert (EL : loc s d (xs_of d (nth d W 0%nat)) = loc s d (xs_of d 0%nat)).
  { rewrite (surjective_pairing (loc s d (xs_of d 0%nat))). apply loc_unique; auto.
    - apply s_good.
    - rewrite s_dim; auto.
    - rewrite s_per_of, E in *. destruct (s_period d Hd E) as (EP & E1 & E2). destruct H1 as ((m & Em) & Hm).
      pose proof (s_incr d Hd) as Hx. rewrite E in Hx. pose proof (s_N d Hd) as HN. destruct (s_pk d Hd E) as [L V].
      assert (A1 : fst (rng s d) <= xs_of d 0%nat).
      { rewrite E1, V by lia. apply (per_at p (nth d W 0%nat) (xs_of d) Hx HN 0 ltac:(lia)). }
      pose proof (Hx 0%nat (nth d W 0%nat) ltac:(lia)) as A2. split.
      + exists (m - 1)%Z. rewrite Em. rewrite minus_IZR. rewrite EP. ring.
      + destruct (Rle_dec (fst (rng s d)) (xs_of d 0%nat)); [|lra].
        destruct (Rle_dec (fst (rng s d)) (xs_of d (nth d W 0%nat))); auto. lra. }
  rewrite EL. auto.
Qed.

Lemma s_value idx : length dims = length per -> valid dims idx ->
  sval s (grid_point nd per dims ranges idx) = val_at f (representative nd per dims idx).
Proof.
  intros Ld V. pose proof (valid_length _ _ V) as Li. rewrite valid_nth in V by auto.
  set (ix := representative nd per dims idx).
  assert (Nix : forall d, (d < length per)%nat -> nth d ix 0%nat = if nth d per false then (nth d idx 0 mod nth d W 0)%nat else nth d idx 0%nat).
  { intros d Hd. unfold ix, representative. rewrite map_seq_nth by auto. unfold W. rewrite ddims_nth by auto.
    destruct (nth d per false); auto. }
  assert (Lix : length ix = length per) by (unfold ix, representative; rewrite map_length, seq_length; auto).
  assert (Vix : valid W ix).
  { apply valid_nth; [unfold W; rewrite ddims_length; auto|]. unfold W at 1. rewrite ddims_length. intros d Hd. rewrite Nix by auto.
    pose proof (s_N d Hd). destruct (nth d per false) eqn:E; [apply Nat.mod_upper_bound; lia|].
    unfold W. rewrite ddims_nth by auto. unfold distinct. rewrite E. cbn [andb]. apply V. lia. }
  rewrite <- (ip_eqs _ _ _ _ _ _ _ _ IP ix Vix). fold W. unfold sval. rewrite s_dim.
  assert (LW : length W = length per) by apply ddims_length.
  assert (Lm := ip_mats _ _ _ _ _ _ _ _ IP).
  assert (Lr : length (rows nd p per dims ix) = length per) by apply rows_length.
  apply tensor_ext_gen; auto.
  - rewrite mrow_dims by lia. rewrite map_map. cbn [fst]. apply (nth_ext _ _ 0%nat 0%nat).
    + rewrite map_length, seq_length. auto.
    + intros d Hd. rewrite map_length, seq_length in Hd. rewrite map_seq_nth by auto. apply s_num.
  - intros d j Hd Hj. rewrite map_length, seq_length in Hd.
    rewrite map_map in Hj. cbn [fst] in Hj. rewrite map_seq_nth in Hj by auto. rewrite s_num in Hj.
    rewrite (map_seq_nth (fun d0 => (num_of s d0, fun j0 => beta s d0 j0 (nth d0 (grid_point nd per dims ranges idx) 0)))) by auto. cbn [snd].
    assert (EM : forall D M I e, length M = length D -> length I = length D -> (e < length D)%nat ->
       snd (nth e (mrow D M I) (0%nat, fun _ => 0)) j = nth e M (fun _ _ => 0) (nth e I 0%nat) j).
    { clear. induction D as [|n D IH]; intros [|A M] [|i I] e H1 H2 He; simpl in *; try discriminate; try lia.
      destruct e; auto. apply IH; lia. }
    rewrite EM by lia. fold (mat_at mats d). rewrite rows_nth by auto. fold W. rewrite Nix by auto.
    unfold grid_point. rewrite map_seq_nth by auto. unfold coordinate. fold (gridx nd (nth d per false) (nth d dims 0%nat) (nth d ranges (Points []))).
    fold (xs_of d). pose proof (s_N d Hd) as HN.
    specialize (V d ltac:(lia)).
    assert (EWd : nth d W 0%nat = distinct nd (nth d per false) (nth d dims 0%nat)) by (apply ddims_nth; auto).
    destruct (nth d per false) eqn:E.
    + assert (HI : (nth d idx 0 <= nth d W 0)%nat). { rewrite EWd. unfold distinct. destruct (true && negb nd); lia. }
      destruct (Nat.eq_dec (nth d idx 0%nat) (nth d W 0%nat)) as [Eq|Neq].
      * rewrite Eq. rewrite s_beta_end by auto. rewrite Nat.mod_same by lia. rewrite s_beta by (auto; lia). rewrite E. auto.
      * rewrite Nat.mod_small by lia. rewrite s_beta by (auto; lia). rewrite E. auto.
    + rewrite s_beta; auto.
      * rewrite E. auto.
      * rewrite EWd. unfold distinct. cbn [andb]. auto.
Qed.
End Spline.

(** Grid points are countable. *)
Lemma grid_countable nd p per dims ranges idx : good_input nd p per dims ranges -> valid dims idx ->
  (forall d, (d < length per)%nat -> (Z.of_nat (nth d dims 0%nat) < two64)%Z) ->
  countable_point nd per dims ranges (grid_point nd per dims ranges idx).
Proof.
  intros (Hne & Ld & Lr & GG) V Hs d Hd. specialize (Hs d Hd). pose proof (valid_length _ _ V) as Li. rewrite valid_nth in V by auto.
  specialize (V d ltac:(lia)). unfold grid_point. rewrite map_seq_nth by auto. unfold coordinate.
  destruct (GG d Hd) as (G1 & G2 & G3). set (M := coords_num nd (nth d per false) (nth d dims 0%nat)) in *.
  destruct (nth d ranges (Points [])) as [a b|l]; cbn [countable grid_of]; auto.
  apply Rplus_lt_compat_l. assert (0 < (b - a) / INR (M - 1)). { apply Rdiv_lt_0_compat; [lra|apply INR_pos; lia]. }
  apply Rmult_lt_compat_r; auto. rewrite INR_IZR_INZ. apply IZR_lt. lia.
Qed.
