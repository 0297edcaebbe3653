(** Rounding errors of derivative_at. *)
From Coq Require Import List Arith Lia Bool ZArith Reals Lra Psatz.
From Verif Require Import Base Num MeshM SplineM SpecMesh SpecBand SpecSpline SpecSplineObj SpecRound SpecRoundD MeshProofs SumR MulProofs
  SplineProofs TensorR BasisProofs EvalProofs EvalR DerivProofs DerivLoops RoundSpline RoundEval RoundDeriv RoundDerivLoops RoundDerivEval.
Import ListNotations.
Local Open Scope R_scope.

Lemma vb_mono u eta g order D c c' : 0 <= u -> 0 <= coef_growth u eta g order D -> c <= c' ->
  value_bound u eta g order D c <= value_bound u eta g order D c'.
Proof.
  intros Hu HQ Hc. unfold value_bound. apply Rmult_le_compat_l; [apply pow_le; lra|]. apply Rplus_le_compat_r. apply Rmult_le_compat_l; [lra|]. apply Rmult_le_compat_r; auto.
Qed.

Lemma mapM_exists {B} (F : nat -> res B) (db : B) (Pr : nat -> B -> Prop) n :
  (forall d, (d < n)%nat -> exists b, F d = Ok b /\ Pr d b) ->
  exists l, mapM F (seq 0 n) = Ok l /\ length l = n /\ forall d, (d < n)%nat -> Pr d (nth d l db).
Proof.
  induction n; intros H.
  - exists []. split; auto. split; auto. intros; lia.
  - destruct IHn as (l & El & Hll & Hl); [intros; apply H; lia|]. destruct (H n) as (b & Eb & Hb); [lia|].
    exists (l ++ [b]). split; [|split].
    + apply (mapM_ok_nth _ _ _ 0%nat db).
      * rewrite app_length, seq_length. cbn. lia.
      * rewrite seq_length. intros i Hi. rewrite seq_nth by auto. cbn [Nat.add]. destruct (Nat.eq_dec i n).
        -- subst i. rewrite app_nth2 by lia. rewrite Hll, Nat.sub_diag. auto.
        -- rewrite app_nth1 by lia. rewrite <- (mapM_nth _ _ _ i 0%nat db El) by (rewrite seq_length; lia). rewrite seq_nth by lia. reflexivity.
    + rewrite app_length. cbn. lia.
    + intros d Hd. destruct (Nat.eq_dec d n).
      * subst d. rewrite app_nth2 by lia. rewrite Hll, Nat.sub_diag. auto.
      * rewrite app_nth1 by lia. apply Hl. lia.
Qed.

Lemma map2_map_seq_nth {A} (fs : nat -> A -> R) (idx : list A) n (da : A) : length idx = n ->
  map2 (fun f a => f a) (map fs (seq 0 n)) idx = map (fun d => fs d (nth d idx da)) (seq 0 n).
Proof.
  intros Hl. apply (nth_ext' _ _ 0).
  - rewrite map2_length, !length_map_seq; rewrite ?length_map_seq; auto.
  - intros d Hd. rewrite map2_length, length_map_seq in Hd by (rewrite length_map_seq; auto).
    rewrite (map2_nth _ _ _ d (fs 0%nat) da 0) by (rewrite ?length_map_seq; lia).
    rewrite !nth_map_seq by lia. reflexivity.
Qed.

Lemma slope_range order gap Lam ns : (forall d, (d < length ns)%nat -> 0 < gap d /\ 2 * INR order / gap d <= Lam) ->
  0 <= slope order gap ns <= Lam ^ order_sum ns.
Proof.
  intros HL. unfold slope, order_sum.
  assert (X : forall n l off, length l = n -> (off + n <= length ns)%nat -> 
    0 <= fold_right Rmult 1 (map (fun d => (2 * INR order / gap d) ^ nth (d - off) l 0%nat) (seq off n)) <= Lam ^ fold_right Nat.add 0%nat l).
  { induction n; intros l off Hl Ho.
    - destruct l; [|discriminate]. cbn. lra.
    - destruct l as [|a l]; [discriminate|]. cbn [seq map fold_right]. rewrite Nat.sub_diag. cbn [nth]. rewrite pow_add.
      specialize (IHn l (S off) ltac:(cbn in Hl; lia) ltac:(lia)).
      rewrite (map_ext_in _ (fun d => (2 * INR order / gap d) ^ nth (d - S off) l 0%nat)).
      2:{ intros d Hd. apply in_seq in Hd. replace (d - off)%nat with (S (d - S off)) by lia. reflexivity. }
      destruct (HL off ltac:(lia)) as [HL0 HL1].
      assert (0 <= 2 * INR order / gap off) by (apply Rmult_le_pos; [pose proof (pos_INR order); lra|apply Rlt_le, Rinv_0_lt_compat; auto]).
      assert (0 <= (2 * INR order / gap off) ^ a) by (apply pow_le; lra).
      assert ((2 * INR order / gap off) ^ a <= Lam ^ a) by (apply pow_incr; lra).
      split; [apply Rmult_le_pos; lra|apply Rmult_le_compat; lra]. }
  specialize (X (length ns) ns 0%nat eq_refl ltac:(lia)). rewrite (map_ext (fun d => (2 * INR order / gap d) ^ nth (d - 0) ns 0%nat) (fun d => (2 * INR order / gap d) ^ nth d ns 0%nat)) in X; [exact X|]. intros d. rewrite Nat.sub_0_r. reflexivity.
Qed.

Section DEval.
Context {T : Type} (o : ops T) (val : T -> R) (good : T -> Prop) (u eta big : R).
Context (RD : rounding o val good u eta big).
Variables (s : spline T) (g C Lam : R) (gap : nat -> R) (ns : list nat).
Hypothesis NS : number_spline val good big g C s.
Hypothesis SE : small_exact o val good (sp_order s).
Hypothesis Hg0 : 0 < g.
Hypothesis Hge : eta <= g.
Hypothesis HC : 0 <= C.
Let order := sp_order s.
Let D := sp_dim s.
Let N := ((order + 1) ^ D)%nat.
Let dims := repeat (order + 1)%nat D.
Let beta := basis_growth u eta g order.
Let Q := coef_growth u eta g order D.
Hypothesis Hgap : gaps val s gap.
Hypothesis Hgap0 : forall d, (d < D)%nat -> 0 < gap d.
Hypothesis HLam : 1 <= Lam.
Hypothesis HLamd : forall d, (d < D)%nat -> 2 * INR order / gap d <= Lam.
Hypothesis Lns : length ns = D.
Hypothesis Hns : forall d, (d < D)%nat -> (nth d ns 0 <= order)%nat.
Let m := order_sum ns.
Let B := C * slope order gap ns.
Let Cm := derived_bound u eta g Lam m B.
Let M := derived_bound u eta g Lam m (C * Lam ^ m).
Hypothesis Hbeta : beta <= 2.
Hypothesis HQ : Q <= big.
Hypothesis HM : INR (order + 1) * (4 * M) <= big.
Hypothesis HV : value_bound u eta g order D M <= big.
Let z := o0 o.
Let rs := real_spline val s.
Let Lf := fun d => 2 * INR order / gap d.

Lemma Lf_bound d : (d < D)%nat -> 0 <= Lf d <= Lam.
Proof using All.
  intros Hd. split; [|apply HLamd; auto]. unfold Lf. apply Rmult_le_pos; [pose proof (pos_INR order); lra|apply Rlt_le, Rinv_0_lt_compat; auto].
Qed.
Lemma total_lev so : length so = D -> (forall d, (d < D)%nat -> nth d so 0%nat = (order - nth d ns 0)%nat) -> lev s so D = m.
Proof using All.
  intros Hl H. unfold lev, m, order_sum. fold order. f_equal. apply (nth_ext' _ _ 0%nat).
  - rewrite length_map_seq. auto.
  - intros d Hd. rewrite length_map_seq in Hd. rewrite nth_map_seq by auto. rewrite H by auto. specialize (Hns d Hd). lia.
Qed.
Lemma slope_bound : 0 <= slope order gap ns <= Lam ^ m.
Proof using All. apply slope_range. intros d Hd. rewrite Lns in Hd. split; auto. Qed.
Lemma B_pos : 0 <= B <= C * Lam ^ m.
Proof using All. pose proof slope_bound. unfold B. split; [apply Rmult_le_pos; lra|apply Rmult_le_compat_l; lra]. Qed.
Lemma db_mono b b' : b <= b' -> derived_bound u eta g Lam m b <= derived_bound u eta g Lam m b'.
Proof using RD.
  intros H. unfold derived_bound. apply Rplus_le_compat_r. apply Rmult_le_compat_l; auto. apply pow_le. destruct RD as [[u0 u1] _ _ _ _ _ _ _ _ _ _]. lra.
Qed.
Lemma db_ge b : 0 <= b -> b <= derived_bound u eta g Lam m b.
Proof using All.
  intros H. unfold derived_bound. destruct RD as [[u0 u1] e0 _ _ _ _ _ _ _ _ _].
  pose proof (pow_R1_Rle (1 + 5 * u) m ltac:(lra)) as H1. 
  assert (0 <= eta * (17/15) / g) by (apply Rmult_le_pos; [lra|apply Rlt_le, Rinv_0_lt_compat; auto]).
  assert (0 <= INR m * (eta * (17/15) / g + eta) * ((1 + 5 * u) * Lam) ^ m).
  { apply Rmult_le_pos; [apply Rmult_le_pos; [apply pos_INR|lra]|]. apply pow_le. apply Rmult_le_pos; lra. }
  assert (1 * b <= (1 + 5 * u) ^ m * b) by (apply Rmult_le_compat_r; auto). lra.
Qed.
Lemma Cm_db : Cm <= M /\ C <= M /\ B <= Cm.
Proof using All.
  pose proof B_pos. pose proof (pow_R1_Rle Lam m HLam). split; [apply db_mono; lra|]. split; [|apply db_ge; lra].
  apply Rle_trans with (C * Lam ^ m); [|apply db_ge; lra]. rewrite <- (Rmult_1_r C) at 1. apply Rmult_le_compat_l; lra.
Qed.
Lemma Q_pos : 0 <= Q.
Proof using All.
  unfold Q, coef_growth. destruct RD as [[u0 u1] e0 _ _ _ _ _ _ _ _ _].
  assert (0 <= eta * (17/15) / g) by (apply Rmult_le_pos; [lra|apply Rlt_le, Rinv_0_lt_compat; auto]).
  assert (0 <= basis_growth u eta g order).
  { unfold basis_growth. apply Rmult_le_pos; [apply pow_le; lra|]. assert (0 <= INR order * (INR (order + 1) * (2 * (1 + u) * (eta * (17 / 15) / g + eta)))); [|lra]. repeat apply Rmult_le_pos; auto using pos_INR; lra. }
  apply Rmult_le_pos; [apply pow_le; apply Rmult_le_pos; lra|]. assert (0 <= INR ((order + 1) ^ D) * (INR D * eta)) by (apply Rmult_le_pos; [apply pos_INR|apply Rmult_le_pos; auto using pos_INR]). lra.
Qed.
Lemma HVC : value_bound u eta g order D C <= big.
Proof using All. eapply Rle_trans; [apply vb_mono|apply HV]; [destruct RD as [[u0 u1] _ _ _ _ _ _ _ _ _ _]; lra|apply Q_pos|apply Cm_db]. Qed.
Lemma HVm : value_bound u eta g order D Cm <= big.
Proof using All. eapply Rle_trans; [apply vb_mono|apply HV]; [destruct RD as [[u0 u1] _ _ _ _ _ _ _ _ _ _]; lra|apply Q_pos|apply Cm_db]. Qed.
Lemma M_eq : ((1 + 5 * u) * Lam) ^ m * (C + INR m * hlev eta g) = M.
Proof using All. unfold M, derived_bound, hlev. rewrite Rpow_mult_distr. ring. Qed.

Variables (xs xs' : list T) (hints : list nat).
Hypothesis Lx : length xs = D.
Hypothesis Lx' : length xs' = D.
Hypothesis Lh : length hints = D.
Hypothesis Hh : forall d, (d < D)%nat -> (order <= nth d hints 0 <= last_of s d)%nat.
Hypothesis Hwrap : forall d, (d < D)%nat -> wrap_coord o (per_of s d) (nth d (sp_range s) (z, z)) (nth d xs z) = Ok (nth d xs' z).
Hypothesis Gx' : forall d, (d < D)%nat -> good (nth d xs' z).
Hypothesis Hin : forall d, (d < D)%nat -> kn (knot_of rs d) order <= val (nth d xs' z) <= kn (knot_of rs d) (last_of s d + 1).
Hypothesis Hper : forall d, (d < D)%nat -> per_of s d = true -> fst (rng rs d) <= val (nth d xs' z) < snd (rng rs d).
Let coords := combine (combine xs hints) ns.
Let rcoords := combine (combine (map val xs') hints) ns.
Let so := map (fun n => order - n)%nat ns.

Lemma map_fst_combine {A B'} (l : list A) (l' : list B') : length l = length l' -> map fst (combine l l') = l.
Proof. revert l'; induction l; intros [|b l'] H; try discriminate; cbn [combine map fst]; f_equal; auto. Qed.
Lemma so_len : length so = D.
Proof using All. unfold so. rewrite map_length. auto. Qed.
Lemma so_nth d : (d < D)%nat -> nth d so 0%nat = (order - nth d ns 0)%nat.
Proof using All. intros Hd. unfold so. rewrite (nth_indep _ 0%nat (order - 0)%nat) by (rewrite map_length, Lns; auto). apply (map_nth (fun n => order - n)%nat). Qed.
Lemma so_le d : (d < D)%nat -> (nth d so 0 <= order)%nat.
Proof using All. intros. rewrite so_nth by auto. lia. Qed.
Lemma so_of_combine {A} (sp : spline A) (l : list (A * nat)) : sp_order sp = order -> length l = D -> so_of sp (combine l ns) = so.
Proof using All.
  intros E Hl. apply (nth_ext' _ _ 0%nat).
  - unfold so_of. rewrite map_length, combine_length, so_len, Lns, Hl. lia.
  - intros d Hd. unfold so_of in *. rewrite map_length, combine_length, Lns, Hl in Hd. assert (Hd' : (d < D)%nat) by lia. clear Hd. rewrite so_nth by auto.
    assert (X : forall (l : list (A * nat)) (k : list nat) d, length l = length k -> (d < length k)%nat -> (nth d k 0 <= order)%nat ->
      nth d (map (fun c : A * nat * nat => if (snd c <=? sp_order sp)%nat then (sp_order sp - snd c)%nat else (sp_order sp + 1)%nat) (combine l k)) 0%nat = (order - nth d k 0)%nat).
    { clear - E. induction l as [|a l IH]; intros [|b k] d Hl Hd Ho; cbn [length] in *; try lia. destruct d; cbn [combine map nth snd] in *.
      - rewrite E. destruct (Nat.leb_spec b order); lia.
      - apply IH; lia. }
    apply X; try lia. apply Hns; auto.
Qed.

Lemma beta_ge so' : (so' <= order)%nat -> grow u eta order g so' <= beta.
Proof using All.
  intros H. unfold beta, basis_growth, grow, hstep. destruct RD as [[u0 u1] e0 _ _ _ _ _ _ _ _ _].
  assert (0 <= eta * (17/15) / g) by (apply Rmult_le_pos; [lra|apply Rlt_le, Rinv_0_lt_compat; auto]).
  set (h := INR (order + 1) * (2 * (1 + u) * (eta * (17 / 15) / g + eta))). assert (0 <= h) by (unfold h; apply Rmult_le_pos; [apply pos_INR|apply Rmult_le_pos; lra]).
  assert (INR so' <= INR order) by (apply le_INR; auto). pose proof (pos_INR so'). assert (0 <= INR so' * h) by (apply Rmult_le_pos; auto).
  apply Rmult_le_compat; try lra. apply pow_le; lra. apply Rle_pow; [lra|auto]. assert (INR so' * h <= INR order * h) by (apply Rmult_le_compat_r; auto). lra.
Qed.

Lemma dvals_round riters iters :
  good_iters Rops rs riters -> good_iters o s iters ->
  (forall d, (d < D)%nat ->
    fst (nth d riters (0, 0%nat)) = val (nth d xs' z) /\ fst (nth d iters (z, 0%nat)) = nth d xs' z /\
    snd (nth d iters (z, 0%nat)) = snd (nth d riters (0, 0%nat)) /\
    segment (kn (knot_of rs d)) order (last_of s d) (val (nth d xs' z)) (snd (nth d riters (0, 0%nat)))) ->
  exists rvals vals,
    calc_base_spline_vals Rops rs riters so = Ok rvals /\ calc_base_spline_vals o s iters so = Ok vals /\
    good_vals rs rvals /\ good_vals s vals /\
    forall d, (d < D)%nat -> (forall a, (a < order + 1)%nat -> good (nth a (nth d vals []) z)) /\
      close (order + 1) beta (fun a => val (nth a (nth d vals []) z)) (fun a => nth a (nth d rvals []) 0) /\
      forall a, (a < nth d ns 0)%nat -> val (nth a (nth d vals []) z) = 0 /\ nth a (nth d rvals []) 0 = 0.
Proof using All.
  intros Gr Gi H.
  pose proof (s_wf o val good u eta big RD s g C NS Hg0 Hge HC Hbeta HQ HVC) as W.
  pose proof (rs_knot o val good u eta big RD s g C NS Hg0 Hge HC Hbeta HQ HVC) as RK. fold rs in RK.
  pose proof (knot_in o val good u eta big RD s g C NS Hg0 Hge HC Hbeta HQ HVC) as KI.
  pose proof (val0 o val good u eta big RD) as V0. fold z in V0.
  destruct (calc_vals_ok rs riters so) as (rvals & Er & Grv & Hrv); auto.
  { apply (ns_real _ _ _ _ _ _ NS). } { apply so_len. } { intros d Hd. apply so_le. auto. }
  { intros d Hd. destruct (H d Hd) as (_ & _ & _ & _ & ? & _). auto. }
  unfold calc_base_spline_vals at 2.
  destruct (mapM_exists (fun d => it <- vget iters d ;; kn <- vget (sp_knots s) d ;; q <- vget so d ;; base_spline_value o (sp_order s) kn (snd it) (fst it) q) []
    (fun d b => length b = (order + 1)%nat /\ (forall a, (a < order + 1)%nat -> good (nth a b z)) /\
       close (order + 1) beta (fun a => val (nth a b z)) (fun a => nth a (nth d rvals []) 0) /\
       (forall a, (a < nth d ns 0)%nat -> val (nth a b z) = 0 /\ nth a (nth d rvals []) 0 = 0)) D) as (vals & E & Hl & Hv).
  { intros d Hd. destruct (H d Hd) as (E1 & E2 & E3 & Hseg). destruct Gi as [Gl Gi]. specialize (Gi d Hd). fold z in Gi.
    rewrite (vget_ok iters d (z, 0%nat)) by (rewrite Gl; auto). cbn [bind]. rewrite (vget_ok (sp_knots s) d []) by (rewrite (wf_knots _ W); auto). cbn [bind].
    rewrite (vget_ok so d 0%nat) by (rewrite so_len; auto). cbn [bind]. fold (knot_of s d). fold order.
    pose proof (so_le d Hd) as Hsole. pose proof (so_nth d Hd) as Hson. pose proof (Hns d Hd) as Hnd'. set (q := nth d so 0%nat) in *.
    rewrite E2. set (k := snd (nth d iters (z, 0%nat))) in *. rewrite <- E3 in Hseg. pose proof (wf_len _ W d Hd) as HL. fold order in HL, Gi. unfold last_of in Gi. fold order in Gi.
    assert (Hxk : kn (map val (knot_of s d)) k <= val (nth d xs' z) <= kn (map val (knot_of s d)) (k + 1)).
    { destruct Hseg as (_ & _ & A & A'). specialize (Hin d Hd). rewrite <- RK. split; [destruct A as [->|]; lra|destruct A' as [->|]; lra]. }
    assert (Hkk : kn (map val (knot_of s d)) k < kn (map val (knot_of s d)) (k + 1)) by (rewrite <- RK; apply Hseg).
    assert (Hnd : nondecreasing (map val (knot_of s d))) by (rewrite <- RK; apply (gs_sorted _ (ns_real _ _ _ _ _ _ NS)); auto).
    assert (Hgk : forall i, (i < length (knot_of s d))%nat -> good (nth i (knot_of s d) (o0 o))) by (intros i Hi; apply (ns_knots _ _ _ _ _ _ NS (knot_of s d)); [apply KI; auto|apply nth_In; auto]).
    assert (Hgp : g <= kn (map val (knot_of s d)) (k + 1) - kn (map val (knot_of s d)) k) by (apply (ns_gap _ _ _ _ _ _ NS (knot_of s d)); auto; apply KI; auto).
    assert (Hwide : kn (map val (knot_of s d)) (k + order + 1) - kn (map val (knot_of s d)) (k - order) <= big / 4).
    { unfold kn. rewrite <- V0, !map_nth. apply (ns_wide _ _ _ _ _ _ NS (knot_of s d)); [apply KI; auto|apply nth_In; lia|apply nth_In; lia]. }
    destruct (basis_round_so o val good u eta big RD order (knot_of s d) k (nth d xs' z) g Hgk Hnd ltac:(lia) ltac:(lia) Hg0 Hgp Hwide (Gx' d Hd) Hxk Hge Hbeta q Hsole) as (b & Eb & (Hb1 & Hb2 & Hb3) & Hb4).
    exists b. split; auto. split; auto. split; auto.
    destruct (Hrv d Hd) as (_ & Hz & Hp). fold q in Hz, Hp. change (sp_order rs) with order in Hz, Hp.
    assert (EP : forall j, (j <= q)%nat -> nth (order - q + j) (nth d rvals []) 0 = P val (knot_of s d) k (nth d xs' z) q j).
    { intros j Hj. rewrite Hp by auto. unfold P. rewrite RK, E1, <- E3. reflexivity. }
    fold z in Hb2, Hb3, Hb4.
    split; [|intros a Ha; rewrite Hb4, Hz by lia; auto].
    replace (order + 1)%nat with ((order - q) + (q + 1))%nat by lia. unfold close. rewrite !(sum_app (order - q) (q + 1)).
    rewrite (sum_0 (order - q)) by (intros i Hi; rewrite Hb4, Hz, V0, Rminus_0_r by lia; apply Rabs_R0).
    rewrite (sum_0 (order - q)) by (intros i Hi; apply Hz; lia). rewrite !Rplus_0_l. split; [|split].
    - pose proof (beta_ge q Hsole). apply Rle_trans with (grow u eta order g q - 1); [|lra]. erewrite sum_ext; [apply Hb3|]. intros a Ha. cbv beta. rewrite EP by lia. reflexivity.
    - intros a Ha. destruct (Nat.lt_ge_cases a (order - q)) as [L|L]; [rewrite Hz by auto; lra|].
      replace a with (order - q + (a - (order - q)))%nat by lia. rewrite EP by lia.
      apply (P_nonneg o val good u eta big RD order (knot_of s d) k (nth d xs' z) g); auto; lia.
    - rewrite (sum_ext _ _ (P val (knot_of s d) k (nth d xs' z) q)) by (intros; apply EP; lia).
      apply (P_unity o val good u eta big RD order (knot_of s d) k (nth d xs' z) g); auto; lia. }
  exists rvals, vals. split; auto. split; auto. split; auto. split.
  - split; auto. intros d Hd. apply Hv; auto.
  - intros d Hd. destruct (Hv d Hd) as (_ & ? & ? & ?). auto.
Qed.

(** Products with a factor zero. *)
Lemma product_zero (bs : list T) bt : 1 <= bt -> (forall b, In b bs -> good b /\ Rabs (val b) <= bt) ->
  ((1 + u) * bt) ^ length bs * (1 + INR (length bs) * eta) <= big ->
  (exists b, In b bs /\ val b = 0) -> val (fold_left (omul o) bs (o1 o)) = 0.
Proof using RD SE.
  intros Hb. pose proof RD as [[u0 u1] e0 _ _ _ _ _ _ _ _ _]. assert (Q1 : 1 <= (1 + u) * bt) by nra.
  induction bs as [|b bs IH] using rev_ind; intros HB Hbig (b0 & I0 & Z0); [destruct I0|].
  rewrite fold_left_app. cbn [fold_left].
  assert (Hbig' : ((1 + u) * bt) ^ length bs * (1 + INR (length bs) * eta) <= big).
  { eapply Rle_trans; [|apply Hbig]. rewrite app_length. cbn [length]. rewrite Nat.add_1_r, S_INR. pose proof (pos_INR (length bs)). pose proof (pow_R1_Rle _ (length bs) Q1).
    assert (0 <= INR (length bs) * eta) by (apply Rmult_le_pos; auto). apply Rmult_le_compat; try lra. cbn [pow]. nra. }
  assert (HB' : forall b, In b bs -> good b /\ Rabs (val b) <= bt) by (intros; apply HB; apply in_or_app; auto).
  destruct (product_round o val good u eta big RD bt bs Hb HB' Hbig') as [Gc _].
  destruct (HB b) as [Gb _]; [apply in_or_app; right; left; auto|].
  apply (se_zero _ _ _ _ SE); auto. apply in_app_or in I0 as [I0|[<-|[]]]; [left|right]; auto. apply IH; eauto.
Qed.
Lemma prodR_zero l : In 0 l -> prodR l = 0.
Proof. induction l; intros I; [destruct I|]. rewrite prodR_cons. destruct I as [->|I]; [ring|]. rewrite IHl by auto. ring. Qed.

Lemma deriv_round on : exists v w,
  spline_derivative_at o on s coords = Ok v /\ spline_derivative_at Rops on rs rcoords = Ok w /\ good v /\
  Rabs (val v - w) <= value_bound u eta g order D Cm - B.
Proof using All.
  pose proof (s_wf o val good u eta big RD s g C NS Hg0 Hge HC Hbeta HQ HVC) as W.
  pose proof (rs_knot o val good u eta big RD s g C NS Hg0 Hge HC Hbeta HQ HVC) as RK. fold rs in RK.
  pose proof (knot_in o val good u eta big RD s g C NS Hg0 Hge HC Hbeta HQ HVC) as KI.
  pose proof (ctrl_val o val good u eta big RD s g C NS Hg0 Hge HC Hbeta HQ HVC) as CV. fold rs in CV.
  pose proof (ctrl_good o val good u eta big RD s g C NS Hg0 Hge HC Hbeta HQ HVC) as CG.
  pose proof (val0 o val good u eta big RD) as V0. fold z in V0.
  destruct (iters_val o val good u eta big RD s g C NS Hg0 Hge HC Hbeta HQ HVC xs xs' hints Lx Lx' Lh Hh Hwrap Gx' Hin Hper) as (riters & iters & E1 & E2 & Gr & Gi & Hit).
  fold rs D z order in E1, E2, Gr, Gi, Hit.
  destruct (dvals_round riters iters Gr Gi Hit) as (rvals & vals & E3 & E4 & Gr4 & Gv & Hv).
  pose proof (ns_real _ _ _ _ _ _ NS) as GS. fold rs in GS. pose proof (gs_wf _ GS) as Wr.
  set (ki := fun d => snd (nth d iters (z, 0%nat))).
  assert (Hline : forall d, (d < D)%nat ->
    (forall i, (i < length (knot_of s d))%nat -> good (nth i (knot_of s d) z)) /\
    nondecreasing (map val (knot_of s d)) /\ (order <= ki d)%nat /\ (ki d + order + 1 < length (knot_of s d))%nat /\
    g <= kn (map val (knot_of s d)) (ki d + 1) - kn (map val (knot_of s d)) (ki d) /\
    2 * INR order <= Lf d * (kn (map val (knot_of s d)) (ki d + 1) - kn (map val (knot_of s d)) (ki d)) /\
    kn (map val (knot_of s d)) (ki d + order) - kn (map val (knot_of s d)) (ki d - order) <= big / 4).
  { intros d Hd. destruct (Hit d Hd) as (_ & _ & E5 & Hseg). rewrite <- E5 in Hseg. fold (ki d) in Hseg. destruct Gi as [_ Gi]. specialize (Gi d Hd). fold z in Gi. fold (ki d) in Gi. fold order in Gi.
    pose proof (wf_len _ W d Hd) as HL. fold order in HL. pose proof Gi as Gi'. unfold last_of in Gi. fold order in Gi.
    assert (Hkk : kn (map val (knot_of s d)) (ki d) < kn (map val (knot_of s d)) (ki d + 1)) by (rewrite <- RK; apply Hseg).
    split. { intros i Hi; apply (ns_knots _ _ _ _ _ _ NS (knot_of s d)); [apply KI; auto|apply nth_In; auto]. }
    split. { rewrite <- RK. apply (gs_sorted _ GS). auto. }
    split; [lia|]. split; [lia|].
    split. { apply (ns_gap _ _ _ _ _ _ NS (knot_of s d)); auto. }
    split.
    { pose proof (Hgap d (ki d) Hd Gi' Hkk) as HG. cbv zeta in HG. pose proof (Hgap0 d Hd) as Hg1. unfold Lf.
      replace (2 * INR order) with (2 * INR order / gap d * gap d) at 1 by (field; lra). apply Rmult_le_compat_l; auto. apply (Lf_bound d Hd). }
    unfold kn. rewrite <- V0, !map_nth. apply (ns_wide _ _ _ _ _ _ NS (knot_of s d)); [apply KI; auto|apply nth_In; lia|apply nth_In; lia]. }
  set (rc := fun idx => ctrl_at Rops rs (gmap Rops rs riters idx)).
  set (ex := lineops rs riters so D rc).
  assert (Hgm : forall idx, gmap Rops rs riters idx = gmap o s iters idx).
  { intros idx. unfold gmap. change (sp_dim rs) with D. fold D. apply map_ext_in. intros d Hd. apply in_seq in Hd. unfold gidx. change (sp_order rs) with (sp_order s). change (per_of rs d) with (per_of s d). change (num_of rs d) with (num_of s d).
    destruct (Hit d ltac:(lia)) as (_ & _ & E5 & _). change (o0 Rops) with 0. fold z. rewrite E5. reflexivity. }
  (* the computed run *)
  destruct (derivative_run o on s coords iters vals (fun idx v => nearb val good u eta g Lam (lev s so D) (C * wt s Lf so D idx) v (ex idx))) as (ct & Hct & Ev); auto.
  { unfold coords. rewrite !combine_length, Lx, Lh, Lns. fold D. lia. }
  { intros d Hd. unfold coords. rewrite combine_nth by (rewrite combine_length, Lx, Lh, Lns; lia). cbn [snd]. apply Hns; auto. }
  { unfold coords. rewrite map_fst_combine by (rewrite combine_length, Lx, Lh, Lns; lia). apply E2. }
  { unfold coords. rewrite so_of_combine by (auto; rewrite combine_length, Lx, Lh; lia). apply E4. }
  { intros lcp A1 A2 A3. unfold coords. rewrite so_of_combine by (auto; rewrite combine_length, Lx, Lh; lia).
    apply (dims_round o val good u eta big RD s g Lam C m Lf ki Hg0 HLam HC); auto.
    - rewrite M_eq. apply HM.
    - apply (se_nat _ _ _ _ SE).
    - apply (wf_knots _ W).
    - apply Lf_bound.
    - apply so_len.
    - apply so_le.
    - apply Gi.
    - intros d Hd. split; auto. destruct (Hit d Hd) as (_ & _ & E5 & _). unfold ki. rewrite E5. reflexivity.
    - apply Nat.eq_le_incl. apply (total_lev so so_len so_nth).
    - intros idx Hi. rewrite A3 by auto. destruct (CG (gmap o s iters idx)) as [Gc Bc]. split; auto. unfold rc. rewrite CV, Hgm. split; auto.
      replace (val _ - val _) with 0 by ring. rewrite Rabs_R0. unfold gam, omg. cbn [pow INR]. lra. }
  (* the exact run *)
  destruct (derivative_run Rops on rs rcoords riters rvals (fun idx v => v = ex idx)) as (rct & Hrct & Ew); auto.
  { unfold rcoords. rewrite !combine_length, map_length, Lx', Lh, Lns. change (sp_dim rs) with D. lia. }
  { intros d Hd. unfold rcoords. rewrite combine_nth by (rewrite combine_length, map_length, Lx', Lh, Lns; lia). cbn [snd]. apply Hns; auto. }
  { unfold rcoords. rewrite map_fst_combine by (rewrite combine_length, map_length, Lx', Lh, Lns; lia). apply E1. }
  { unfold rcoords. rewrite so_of_combine by (auto; rewrite combine_length, map_length, Lx', Lh; lia). apply E3. }
  { intros lcp A1 A2 A3. unfold rcoords. rewrite so_of_combine by (auto; rewrite combine_length, map_length, Lx', Lh; lia).
    apply (dims_loop_ok on rs riters so lcp rc); auto.
    - apply so_len.
    - apply so_le.
    - intros d Hd. destruct (Hit d Hd) as (_ & _ & _ & Hseg). apply Hseg. }
  fold coords in Ev. fold rcoords in Ew. rewrite Ev, Ew. eexists _, _. split; [reflexivity|]. split; [reflexivity|].
  assert (B1 : 1 <= beta) by (apply (beta_1 o val good u eta big RD s g C NS Hg0 Hge HC Hbeta HQ HVC xs xs' hints Lx Lx' Lh Hh Hwrap Gx' Hin Hper)).
  pose proof RD as [[u0 u1] e0 _ _ _ RA _ RM _ _ _].
  set (fs := map (fun d a => val (nth a (nth d vals []) z)) (seq 0 D)).
  set (ps := map (fun d a => nth a (nth d rvals []) 0) (seq 0 D)).
  assert (Lfs : length fs = D) by apply length_map_seq.
  assert (Ep : prod dims = N) by apply prod_repeat.
  set (q := ((1 + u) * beta) ^ D). assert (Q1 : 1 <= (1 + u) * beta) by nra. assert (Hq1 : 1 <= q) by (apply pow_R1_Rle; auto).
  pose proof (pos_INR N) as IN. pose proof (pos_INR D) as ID. assert (Ide : 0 <= INR D * eta) by (apply Rmult_le_pos; auto).
  assert (EQ : Q = q * (1 + INR N * (INR D * eta))) by reflexivity.
  assert (N1 : 1 <= INR N). { apply (le_INR 1). unfold N. assert ((order + 1) ^ D <> 0)%nat by (apply Nat.pow_nonzero; lia). lia. }
  assert (Hqb : q * (1 + INR D * eta) <= big). { eapply Rle_trans; [|apply HQ]. rewrite EQ. apply Rmult_le_compat_l; [lra|]. nra. }
  (* coefficients *)
  set (cf := coef_of o s vals). set (pf := fun idx => prodR (pick ps idx)). set (bf := fun idx => prodR (pick fs idx)).
  set (bl := fun idx : list nat => map (fun d => nth (nth d idx 0%nat) (nth d vals []) z) (seq 0 D)).
  assert (Hbl : forall idx, valid dims idx -> length (bl idx) = D /\ cf idx = fold_left (omul o) (bl idx) (o1 o) /\
    (forall b, In b (bl idx) -> good b /\ Rabs (val b) <= beta) /\ bf idx = prodR (map val (bl idx)) /\ pf idx = prodR (map (fun d => nth (nth d idx 0%nat) (nth d rvals []) 0) (seq 0 D))).
  { intros idx Hi. assert (Hl := valid_length _ _ Hi). unfold dims in Hl. rewrite repeat_length in Hl. split; [apply length_map_seq|]. split; [|split; [|split]].
    - unfold cf, coef_of. rewrite (fold_left_map (omul o) (fun d => nth (nth d idx 0%nat) (nth d vals []) (o0 o))). reflexivity.
    - intros b Hb. unfold bl in Hb. apply in_map_iff in Hb as (d & <- & Hd). apply in_seq in Hd. destruct (Hv d ltac:(lia)) as (A1 & A2 & _).
      pose proof (local_lt s idx d Hi ltac:(lia)) as Hlt. split; [apply A1; apply Hlt|].
      apply (close_each (order + 1) beta B1 _ _ _ A2 Hlt).
    - unfold bf, pick, fs. rewrite (map2_map_seq_nth _ idx D 0%nat) by auto. unfold bl. rewrite map_map. reflexivity.
    - unfold pf, pick, ps. rewrite (map2_map_seq_nth _ idx D 0%nat) by auto. reflexivity. }
  assert (HCf : forall idx, valid dims idx -> good (cf idx) /\ Rabs (val (cf idx) - bf idx) <= ((1 + u) ^ D - 1) * Rabs (bf idx) + q * (INR D * eta)).
  { intros idx Hi. destruct (Hbl idx Hi) as (L1 & L2 & L3 & L4 & _). rewrite L2, L4. unfold q. rewrite <- L1. apply (product_round o val good u eta big RD beta (bl idx)); auto.
    rewrite L1. fold q. auto. }
  set (live := fun idx : list nat => forall d, (d < D)%nat -> (nth d ns 0 <= nth d idx 0)%nat).
  assert (Hdec : forall idx, live idx \/ exists d, (d < D)%nat /\ (nth d idx 0 < nth d ns 0)%nat).
  { intros idx. unfold live. clearbody D. clear. induction D as [|n IH]; [left; intros; lia|]. destruct IH as [IH|(d & Hd & Hx)]; [|right; exists d; split; [lia|auto]].
    destruct (Nat.lt_ge_cases (nth n idx 0%nat) (nth n ns 0%nat)) as [L|L]; [right; exists n; split; [lia|auto]|]. left. intros d Hd. destruct (Nat.eq_dec d n); [subst; auto|apply IH; lia]. }
  assert (Hdead : forall idx d, valid dims idx -> (d < D)%nat -> (nth d idx 0 < nth d ns 0)%nat -> val (cf idx) = 0 /\ pf idx = 0).
  { intros idx d Hi Hd Hx. destruct (Hbl idx Hi) as (L1 & L2 & L3 & _ & L5). destruct (Hv d Hd) as (_ & _ & Hz). destruct (Hz _ Hx) as [Z1 Z2]. split.
    - rewrite L2. apply (product_zero (bl idx) beta); auto. { rewrite L1. fold q. auto. }
      eexists; split; [|apply Z1]. unfold bl. apply in_map_iff. exists d. split; auto. apply in_seq; lia.
    - rewrite L5. apply prodR_zero. apply in_map_iff. exists d. split; auto. apply in_seq; lia. }
  assert (HF2 : Forall2 (close (order + 1) beta) fs ps).
  { unfold fs, ps. assert (X : forall n off, (off + n <= D)%nat -> Forall2 (close (order + 1) beta) (map (fun d a => val (nth a (nth d vals []) z)) (seq off n)) (map (fun d a => nth a (nth d rvals []) 0) (seq off n))).
    { induction n; intros off Ho; cbn [seq map]; constructor. apply Hv; lia. apply IHn; lia. }
    apply X. lia. }
  assert (S1 : isum dims (fun idx => Rabs (bf idx)) <= beta ^ D).
  { unfold bf, dims. rewrite <- Lfs. apply prod_sum_abs; auto. intros f Hf. apply in_map_iff in Hf as (d & <- & Hd). apply in_seq in Hd. apply (close_abs (order + 1) beta B1 _ _ (proj1 (proj2 (Hv d ltac:(lia))))). }
  assert (S2 : isum dims (fun idx => Rabs (bf idx - pf idx)) <= beta ^ D - 1).
  { unfold bf, pf, dims. rewrite <- Lfs. apply prod_sum_diff; auto. }
  pose proof (pow_R1_Rle (1 + u) D ltac:(lra)) as UD. assert (Eqd : q = (1 + u) ^ D * beta ^ D) by apply Rpow_mult_distr.
  assert (S3 : isum dims (fun idx => Rabs (val (cf idx) - pf idx)) <= Q - 1).
  { apply Rle_trans with (isum dims (fun idx => ((1 + u) ^ D - 1) * Rabs (bf idx) + q * (INR D * eta) + Rabs (bf idx - pf idx))).
    - apply isum_le. intros idx Hi. destruct (HCf idx Hi) as [_ HE]. replace (val (cf idx) - pf idx) with ((val (cf idx) - bf idx) + (bf idx - pf idx)) by ring. eapply Rle_trans; [apply Rabs_triang|]. lra.
    - rewrite !isum_plus, isum_scal, isum_const, Ep, EQ, Eqd.
      assert (((1 + u) ^ D - 1) * isum dims (fun idx => Rabs (bf idx)) <= ((1 + u) ^ D - 1) * beta ^ D) by (apply Rmult_le_compat_l; lra). lra. }
  assert (S4 : isum dims (fun idx => Rabs (val (cf idx))) <= Q).
  { assert (isum dims pf = 1).
    { unfold pf, dims. rewrite <- Lfs. clear - HF2. induction HF2; cbn [length repeat]; [rewrite isum_nil; reflexivity|]. rewrite isum_cons.
      rewrite (sum_ext _ _ (fun i => 1 * y i)). rewrite sum_scal. destruct H as (_ & _ & ->). ring.
      intros i Hi. rewrite <- IHHF2, Rmult_comm, <- isum_scal. unfold isum. apply sum_ext. intros j Hj. unfold pick. cbn [map2]. apply prodR_cons. }
    assert (forall idx, valid dims idx -> 0 <= pf idx).
    { unfold pf, dims. rewrite <- Lfs. clear - HF2. induction HF2; cbn [length repeat]; intros idx Hi.
      - destruct idx; unfold pick, prodR; cbn; lra.
      - destruct idx as [|i idx]; [apply valid_length in Hi; discriminate|]. apply valid_cons in Hi as [Hi1 Hi2]. unfold pick. cbn [map2]. rewrite prodR_cons. apply Rmult_le_pos.
        + apply H. auto.
        + apply IHHF2. auto. }
    apply Rle_trans with (isum dims (fun idx => Rabs (val (cf idx) - pf idx) + pf idx)).
    - apply isum_le. intros idx Hi. specialize (H0 idx Hi). replace (val (cf idx)) with ((val (cf idx) - pf idx) + pf idx) at 1 by ring. eapply Rle_trans; [apply Rabs_triang|]. rewrite (Rabs_pos_eq (pf idx)) by auto. lra.
    - rewrite isum_plus, H. lra. }
  assert (CfQ : forall idx, valid dims idx -> Rabs (val (cf idx)) <= Q).
  { intros idx Hi. apply Rle_trans with (2 := S4). unfold isum. rewrite <- (rank_unrank dims idx Hi) at 1. pose proof (row_major_lt dims idx Hi) as Hr. set (i0 := row_major dims idx) in *. 
    assert (X : forall m, (i0 < m)%nat -> Rabs (val (cf (unrank dims i0))) <= sum m (fun i => Rabs (val (cf (unrank dims i))))); [|auto].
    induction m0; intros Hm; [lia|]. cbn [sum]. destruct (Nat.eq_dec i0 m0).
    - rewrite e. assert (0 <= sum m0 (fun i => Rabs (val (cf (unrank dims i))))) by (apply sum_pos; intros; apply Rabs_pos). lra.
    - specialize (IHm0 ltac:(lia)). pose proof (Rabs_pos (val (cf (unrank dims m0)))). lra. }
  (* derived control points *)
  pose proof B_pos as PB. destruct Cm_db as (_ & _ & BC).
  assert (Hwt : forall idx, live idx -> C * wt s Lf so D idx = B).
  { intros idx Hl. unfold B, wt, slope. rewrite Lns. f_equal. unfold prodR. f_equal. apply map_ext_in. intros d Hd. apply in_seq in Hd. unfold Lf. f_equal.
    fold order. rewrite so_nth by lia. specialize (Hl d ltac:(lia)). specialize (Hns d ltac:(lia)). lia. }
  assert (Elev : lev s so D = m) by apply (total_lev so so_len so_nth).
  assert (ECm : Cm = (1 + gam u m) * B + omg u eta g Lam m) by (unfold Cm, derived_bound, gam, omg, hlev; ring).
  assert (Hcl : forall idx, valid dims idx -> live idx -> good (ct idx) /\ Rabs (ex idx) <= B /\ Rabs (val (ct idx) - ex idx) <= Cm - B /\ Rabs (val (ct idx)) <= Cm).
  { intros idx Hi Hl. destruct (Hct idx Hi) as (A1 & A2 & A3). rewrite (Hwt idx Hl) in A2, A3. rewrite Elev in A3. split; auto. split; auto.
    assert (A4 : Rabs (val (ct idx) - ex idx) <= Cm - B) by (eapply Rle_trans; [apply A3|]; rewrite ECm; lra). split; auto.
    replace (val (ct idx)) with ((val (ct idx) - ex idx) + ex idx) by ring. eapply Rle_trans; [apply Rabs_triang|]. lra. }
  (* terms *)
  set (tm := fun idx => omul o (cf idx) (ct idx)).
  pose proof Q_pos as PQ.
  assert (HQC : Cm * Q <= big /\ (1 + u) * (Cm * Q) + INR N * eta <= big /\ (1 + u) ^ N * ((1 + u) * (Cm * Q) + INR N * eta) <= big).
  { assert (0 <= Cm * Q) by (apply Rmult_le_pos; lra). assert (0 <= INR N * eta) by (apply Rmult_le_pos; auto). assert (0 <= u * (Cm * Q)) by (apply Rmult_le_pos; auto).
    pose proof (pow_R1_Rle (1 + u) N ltac:(lra)) as UN. pose proof HVm as HVm. change ((1 + u) ^ N * ((1 + u) * (Cm * Q) + INR N * eta) <= big) in HVm. 
    assert (0 <= ((1 + u) ^ N - 1) * ((1 + u) * (Cm * Q) + INR N * eta)) by (apply Rmult_le_pos; lra). repeat split; lra. }
  destruct HQC as (HB1 & HB2 & HB3).
  assert (HT : forall idx, valid dims idx -> good (tm idx) /\ Rabs (val (tm idx)) <= (1 + u) * Cm * Rabs (val (cf idx)) + eta /\
    Rabs (val (tm idx) - pf idx * ex idx) <= (u * Cm + (Cm - B)) * Rabs (val (cf idx)) + eta + B * Rabs (val (cf idx) - pf idx)).
  { intros idx Hi. destruct (HCf idx Hi) as [Gf _]. specialize (CfQ idx Hi). pose proof (Rabs_pos (val (cf idx))) as Pc.
    destruct (Hdec idx) as [Hl|(d & Hd & Hx)].
    - destruct (Hcl idx Hi Hl) as (Gc & Be & Ec & Bc). pose proof (Rabs_pos (val (ct idx))) as Pt.
      assert (Hp : Rabs (val (cf idx)) * Rabs (val (ct idx)) <= Cm * Rabs (val (cf idx))) by (rewrite Rmult_comm; apply Rmult_le_compat_r; auto).
      destruct (RM (cf idx) (ct idx)) as [G E]; auto.
      { rewrite Rabs_mult. eapply Rle_trans; [apply Hp|]. eapply Rle_trans; [|apply HB1]. apply Rmult_le_compat_l; auto. lra. }
      fold (tm idx) in G, E. split; auto. rewrite Rabs_mult in E.
      assert (E' : Rabs (val (tm idx) - val (cf idx) * val (ct idx)) <= u * (Cm * Rabs (val (cf idx))) + eta).
      { eapply Rle_trans; [apply E|]. apply Rplus_le_compat_r. apply Rmult_le_compat_l; auto. }
      split.
      + replace (val (tm idx)) with ((val (tm idx) - val (cf idx) * val (ct idx)) + val (cf idx) * val (ct idx)) by ring. eapply Rle_trans; [apply Rabs_triang|]. rewrite Rabs_mult. lra.
      + replace (val (tm idx) - pf idx * ex idx) with ((val (tm idx) - val (cf idx) * val (ct idx)) + (val (cf idx) * (val (ct idx) - ex idx) + (val (cf idx) - pf idx) * ex idx)) by ring.
        eapply Rle_trans; [apply Rabs_triang|]. assert (H2 : Rabs (val (cf idx) * (val (ct idx) - ex idx) + (val (cf idx) - pf idx) * ex idx) <= Rabs (val (cf idx)) * (Cm - B) + Rabs (val (cf idx) - pf idx) * B); [|lra].
        eapply Rle_trans; [apply Rabs_triang|]. rewrite !Rabs_mult. apply Rplus_le_compat; apply Rmult_le_compat_l; auto using Rabs_pos.
    - destruct (Hdead idx d Hi Hd Hx) as [Z1 Z2]. destruct (Hct idx Hi) as (Gc & _).
      destruct (se_zero _ _ _ _ SE (cf idx) (ct idx) Gf Gc (or_introl Z1)) as [G E]. fold (tm idx) in G, E. split; auto. rewrite E, Z1, Z2.
      rewrite Rmult_0_l, Rminus_0_r, Rabs_R0, !Rmult_0_r. lra. }
  assert (HTa : sum N (fun i => Rabs (val (tm (unrank dims i)))) <= (1 + u) * (Cm * Q) + INR N * eta).
  { rewrite <- Ep. fold (isum dims (fun idx => Rabs (val (tm idx)))). apply Rle_trans with (isum dims (fun idx => ((1 + u) * Cm) * Rabs (val (cf idx)) + eta)).
    - apply isum_le. intros idx Hi. apply HT; auto.
    - rewrite isum_plus, isum_scal, isum_const. assert (((1 + u) * Cm) * isum dims (fun idx => Rabs (val (cf idx))) <= ((1 + u) * Cm) * Q) by (apply Rmult_le_compat_l; auto; apply Rmult_le_pos; lra). lra. }
  (* the sum *)
  assert (Hgt : forall i, (i < N)%nat -> good (tm (unrank dims i))) by (intros i Hi; apply HT; apply unrank_valid; rewrite Ep; auto).
  destruct (sum_acc_round o val good u eta big RD N (fun i => tm (unrank dims i)) ((1 + u) * (Cm * Q) + INR N * eta)) as [GV EV]; auto.
  fold z in GV, EV. split; [exact GV|].
  change (fold_left _ (seq 0 (buf_size s)) (o0 o)) with (fold_left (fun v i => oadd o v (tm (unrank dims i))) (seq 0 N) z).
  set (v := fold_left (fun v i => oadd o v (tm (unrank dims i))) (seq 0 N) z) in *.
  match goal with |- Rabs (val v - ?ww) <= _ => assert (EW : ww = sum N (fun i => pf (unrank dims i) * ex (unrank dims i))) end.
  { change (o0 Rops) with 0. rewrite (fold_left_sum (fun i => omul Rops _ _)), Rplus_0_l. apply sum_ext. intros i Hi.
    assert (Hiv : valid dims (unrank dims i)) by (apply unrank_valid; rewrite Ep; auto). assert (Hl : length (unrank dims i) = D) by (rewrite (valid_length _ _ Hiv); apply repeat_length).
    change (repeat (sp_order rs + 1)%nat (sp_dim rs)) with dims. rewrite (Hrct _ Hiv), coef_of_prod by auto. simpl omul. f_equal.
    unfold pf, pick, vals_at, local_bs, ps. f_equal. change (sp_dim rs) with D. rewrite (map2_map_seq_nth _ (unrank dims i) D 0%nat) by auto.
    apply (nth_ext' _ _ 0).
    + rewrite map2_length, !length_map_seq; rewrite ?length_map_seq; auto.
    + intros d Hd. rewrite map2_length, length_map_seq in Hd by (rewrite length_map_seq; auto).
      rewrite (map2_nth _ _ _ d (0%nat, fun _ => 0) 0%nat 0) by (rewrite ?length_map_seq; lia). rewrite !nth_map_seq by lia. reflexivity. }
  rewrite EW.
  assert (ET : Rabs (sum N (fun i => val (tm (unrank dims i))) - sum N (fun i => pf (unrank dims i) * ex (unrank dims i))) <= (u * Cm + (Cm - B)) * Q + INR N * eta + B * (Q - 1)).
  { rewrite <- sum_minus. eapply Rle_trans; [apply sum_Rabs|]. rewrite <- Ep. fold (isum dims (fun idx => Rabs (val (tm idx) - pf idx * ex idx))).
    apply Rle_trans with (isum dims (fun idx => (u * Cm + (Cm - B)) * Rabs (val (cf idx)) + eta + B * Rabs (val (cf idx) - pf idx))).
    - apply isum_le. intros idx Hi. apply HT; auto.
    - assert (P1 : 0 <= u * Cm + (Cm - B)) by (assert (0 <= u * Cm) by (apply Rmult_le_pos; lra); lra).
      rewrite !isum_plus, !isum_scal, isum_const. assert ((u * Cm + (Cm - B)) * isum dims (fun idx => Rabs (val (cf idx))) <= (u * Cm + (Cm - B)) * Q) by (apply Rmult_le_compat_l; auto).
      assert (B * isum dims (fun idx => Rabs (val (cf idx) - pf idx)) <= B * (Q - 1)) by (apply Rmult_le_compat_l; lra). lra. }
  match goal with |- Rabs (val v - ?w) <= _ => replace (val v - w) with ((val v - sum N (fun i => val (tm (unrank dims i)))) + (sum N (fun i => val (tm (unrank dims i))) - w)) by ring end.
  eapply Rle_trans; [apply Rabs_triang|]. pose proof (pow_R1_Rle (1 + u) N ltac:(lra)) as UN.
  assert (((1 + u) ^ N - 1) * sum N (fun i => Rabs (val (tm (unrank dims i)))) <= ((1 + u) ^ N - 1) * ((1 + u) * (Cm * Q) + INR N * eta)) by (apply Rmult_le_compat_l; lra).
  change (value_bound u eta g order D Cm) with ((1 + u) ^ N * ((1 + u) * (Cm * Q) + INR N * eta)). lra.
Qed.
End DEval.
