(** The loops of derivative_at in rounded arithmetic. *)
From Coq Require Import List Arith Lia Bool ZArith Reals Lra Psatz.
From Verif Require Import Base Num MeshM SplineM SpecMesh SpecBand SpecSpline SpecSplineObj SpecRound MeshProofs SumR MulProofs
  SplineProofs TensorR BasisProofs EvalProofs EvalR DerivProofs DerivLoops RoundSpline RoundDeriv.
Import ListNotations.
Local Open Scope R_scope.

Lemma nth_set_nth_ne (l : list nat) d e v : e <> d -> nth e (set_nth l d v) 0%nat = nth e l 0%nat.
Proof. revert d e; induction l; intros [|d] [|e] H; cbn [set_nth nth]; auto; try lia. Qed.

Section Loops.
Context {T : Type} (o : ops T) (val : T -> R) (good : T -> Prop) (u eta big : R).
Context (RD : rounding o val good u eta big).
Let z := o0 o.
Variables (s : spline T) (g Lam C : R) (m : nat) (Lf : nat -> R) (ki : nat -> nat).
Let order := sp_order s.
Let dim := sp_dim s.
Let dims := repeat (order + 1)%nat dim.
Let rs := real_spline val s.
Notation gam := (gam u).
Notation omg := (omg u eta g Lam).
Let q := (1 + 5 * u) * Lam.
Let M := q ^ m * (C + INR m * hlev eta g).
Hypothesis Hg0 : 0 < g.
Hypothesis HLam : 1 <= Lam.
Hypothesis HC : 0 <= C.
Hypothesis HM : INR (order + 1) * (4 * M) <= big.
Hypothesis Hnat : forall k, (k <= order)%nat -> good (onat o k) /\ val (onat o k) = INR k.
Hypothesis Hkl : length (sp_knots s) = dim.
Hypothesis HLf : forall d, (d < dim)%nat -> 0 <= Lf d <= Lam.
Hypothesis Hline : forall d, (d < dim)%nat ->
  (forall i, (i < length (knot_of s d))%nat -> good (nth i (knot_of s d) z)) /\
  nondecreasing (map val (knot_of s d)) /\ (order <= ki d)%nat /\ (ki d + order + 1 < length (knot_of s d))%nat /\
  g <= kn (map val (knot_of s d)) (ki d + 1) - kn (map val (knot_of s d)) (ki d) /\
  2 * INR order <= Lf d * (kn (map val (knot_of s d)) (ki d + 1) - kn (map val (knot_of s d)) (ki d)) /\
  kn (map val (knot_of s d)) (ki d + order) - kn (map val (knot_of s d)) (ki d - order) <= big / 4.

(** [v] is within the bounds of [E] after [a] levels, [E] being at most [b]. *)
Definition nearb (a : nat) (b : R) (v : T) (E : R) : Prop :=
  good v /\ Rabs E <= b /\ Rabs (val v - E) <= gam a * b + omg a.

Lemma M_bound a b : (a <= m)%nat -> 0 <= b <= C * Lam ^ a -> (1 + gam a) * b + omg a <= M.
Proof using All.
  intros Ha Hb. pose proof (hlev_pos o val good u eta big RD order g Lam M Hg0 HLam) as Hh. pose proof (q_1 o val good u eta big RD order g Lam M Hg0 HLam) as Hq. fold q in Hq.
  pose proof (gam_pos o val good u eta big RD order g Lam M Hg0 HLam a) as Pg.
  unfold RoundDeriv.omg, M. fold q. apply Rle_trans with (q ^ a * (C + INR a * hlev eta g)).
  - assert ((1 + gam a) * b <= (1 + gam a) * (C * Lam ^ a)) by (apply Rmult_le_compat_l; lra).
    replace ((1 + gam a) * (C * Lam ^ a)) with (C * q ^ a) in H by (unfold RoundDeriv.gam, q; rewrite Rpow_mult_distr; ring). lra.
  - pose proof (pow_R1_Rle q a Hq). assert (INR a <= INR m) by (apply le_INR; auto). pose proof (pos_INR a). assert (0 <= INR a * hlev eta g) by (apply Rmult_le_pos; auto).
    apply Rmult_le_compat; try lra. apply Rle_pow; auto. assert (INR a * hlev eta g <= INR m * hlev eta g) by (apply Rmult_le_compat_r; auto). lra.
Qed.

(** All lines of one dimension. *)
Lemma hyper_round on d so (m0 : mesh T) a (b : list nat -> R) (c : list nat -> R) :
  (d < dim)%nat -> (so <= order)%nat -> wf_mesh m0 -> m_dims m0 = dims ->
  (a + (order - so) <= m)%nat ->
  (forall idx, valid dims idx -> 0 <= b idx <= C * Lam ^ a /\ forall pos, b (set_nth idx d pos) = b idx) ->
  (forall idx, valid dims idx -> nearb a (b idx) (mv z m0 idx) (c idx)) ->
  exists m', for_ 0 ((order + 1) ^ (dim - 1)) m0 (fun lcp i =>
      it <- mesh_begin on lcp d (digits_skip (order + 1) dim d i) ;;
      kn <- vget (sp_knots s) d ;;
      derive_line o order kn (ki d) so lcp it) = Ok m' /\
    m_dims m' = dims /\ wf_mesh m' /\
    forall idx, valid dims idx ->
      nearb (a + (order - so)) (b idx * Lf d ^ (Nat.min (order - so) (nth d idx 0%nat))) (mv z m' idx)
        (dline order (ki d) (map val (knot_of s d)) so (fun pos => c (set_nth idx d pos)) (nth d idx 0%nat)).
Proof using All.
  intros Hd Hso W Hm Ha Hb Hc. destruct (Hline d Hd) as (K1 & K2 & K3 & K4 & K5 & K6 & K7).
  match goal with |- context[for_ 0 ?hi ?s0 ?f] =>
    destruct (for_inv (fun i m' => m_dims m' = dims /\ wf_mesh m' /\
      forall idx, valid dims idx ->
        if (rank_skip (order + 1) d idx <? i)%nat
        then nearb (a + (order - so)) (b idx * Lf d ^ (Nat.min (order - so) (nth d idx 0%nat))) (mv z m' idx)
          (dline order (ki d) (map val (knot_of s d)) so (fun pos => c (set_nth idx d pos)) (nth d idx 0%nat))
        else mv z m' idx = mv z m0 idx) 0 hi s0 f) as (m' & E & A & Bq & Cq) end.
  - lia.
  - split; auto. split; auto. intros idx Hv. destruct (Nat.ltb_spec (rank_skip (order + 1) d idx) 0); [lia|reflexivity].
  - intros i m1 Hi (A & Bq & Cq).
    destruct (rank_digits_skip (order + 1) dim d i) as [[He1 He2]|]; try lia.
    set (e := digits_skip (order + 1) dim d i) in *. fold dims in He1.
    assert (Hve : valid (m_dims m1) e) by (rewrite A; auto).
    rewrite mesh_begin_ok; [|rewrite A; unfold dims; rewrite repeat_length; auto|].
    2:{ apply valid_set_nth_0; auto. }
    cbn [bind]. rewrite (vget_ok (sp_knots s) d []) by lia. cbn [bind]. fold (knot_of s d).
    destruct (Hb e He1) as [Hbe1 Hbe2].
    destruct (derive_line_round o val good u eta big RD order g Lam M Hg0 HLam (knot_of s d) (ki d) (Lf d) Hnat K1 K2 K3 K4 K5 K6 (HLf d Hd) K7 HM m1 d e Bq)
      with (a := a) (B := b e) (so := so) (f := fun pos => c (set_nth e d pos)) as (m2 & E2 & L1 & L2 & L3 & L4); auto.
    { rewrite A. unfold dims. rewrite repeat_length; auto. }
    { rewrite A. unfold dims. rewrite nth_repeat_dims; auto. }
    { lra. }
    { intros j Hj. apply M_bound; [lia|]. pose proof (HLf d Hd) as HL0. split.
      - apply Rmult_le_pos; [lra|]. apply pow_le; lra.
      - rewrite pow_add, <- Rmult_assoc. apply Rmult_le_compat; try lra. apply pow_le; lra. apply pow_incr; lra. }
    { intros pos Hp. assert (Hvp : valid dims (set_nth e d pos)). { apply valid_set_nth; auto. unfold dims. rewrite nth_repeat_lt by auto. lia. }
      pose proof (Cq (set_nth e d pos) Hvp) as Hx. rewrite rank_skip_set, He2 in Hx. destruct (Nat.ltb_spec i i); [lia|].
      fold z. rewrite Hx. destruct (Hc _ Hvp) as (N1 & N2 & N3). rewrite Hbe2 in *. split; auto. cbn [pow]. rewrite Rmult_1_r. split; auto. }
    exists m2. split; auto. split; [congruence|]. split; auto.
    intros idx Hv.
    assert (Hil : length idx = dim) by (apply valid_length in Hv; unfold dims in Hv; rewrite repeat_length in Hv; auto).
    assert (Hnd0 : (nth d idx 0 <= order)%nat).
    { assert (nth d idx 0 < nth d dims 0)%nat.
      { apply valid_nth; auto; unfold dims; rewrite repeat_length; auto. }
      unfold dims in H. rewrite nth_repeat_lt in H by auto. lia. }
    destruct (Nat.eq_dec (rank_skip (order + 1) d idx) i) as [Er|Er].
    + assert (Ee : set_nth idx d 0 = e).
      { unfold e. rewrite <- Er. symmetry. apply digits_skip_rank; auto. }
      assert (Eidx : forall pos, set_nth e d pos = set_nth idx d pos).
      { intros pos. rewrite <- Ee. apply set_nth_same. }
      rewrite Er. destruct (Nat.ltb_spec i (i + 1)); [|lia].
      specialize (L3 (nth d idx 0%nat) Hnd0). rewrite Eidx, set_nth_self in L3.
      replace (b idx) with (b e). 2:{ rewrite <- Ee. apply (Hb idx Hv). }
      destruct L3 as (N1 & N2 & N3). split; auto.
      rewrite (dline_ext order (ki d) (map val (knot_of s d)) so (fun pos => c (set_nth e d pos)) (fun pos => c (set_nth idx d pos))) in N2, N3 by (auto; intros; rewrite Eidx; auto).
      split; auto.
    + rewrite L4.
      * specialize (Cq idx Hv).
        destruct (Nat.ltb_spec (rank_skip (order + 1) d idx) i), (Nat.ltb_spec (rank_skip (order + 1) d idx) (i + 1)); auto; lia.
      * rewrite A; auto.
      * intros pos E. apply Er. rewrite E, rank_skip_set. auto.
  - exists m'. split; auto. split; auto. split; auto.
    intros idx Hv. specialize (Cq idx Hv).
    pose proof (rank_skip_lt (order + 1) dim d idx Hd Hv) as Hr.
    destruct (Nat.ltb_spec (rank_skip (order + 1) d idx) ((order + 1) ^ (dim - 1))); auto; lia.
Qed.

(** All dimensions. *)
Variables (so : list nat) (iters : list (T * nat)) (riters : list (R * nat)).
Hypothesis Hsl : length so = dim.
Hypothesis Hso : forall d, (d < dim)%nat -> (nth d so 0 <= order)%nat.
Hypothesis Hil : length iters = dim.
Hypothesis Hki : forall d, (d < dim)%nat -> snd (nth d iters (z, 0%nat)) = ki d /\ snd (nth d riters (0%R, 0%nat)) = ki d.
Definition lev (n : nat) : nat := fold_right Nat.add 0%nat (map (fun d => order - nth d so 0)%nat (seq 0 n)).
Definition wt (n : nat) (idx : list nat) : R := prodR (map (fun d => Lf d ^ Nat.min (order - nth d so 0%nat) (nth d idx 0%nat)) (seq 0 n)).
Hypothesis Hlev : (lev dim <= m)%nat.

Lemma fold_add_app l a : fold_right Nat.add 0%nat (l ++ [a]) = (fold_right Nat.add 0%nat l + a)%nat.
Proof. induction l; cbn [app fold_right]; lia. Qed.
Lemma lev_S n : lev (S n) = (lev n + (order - nth n so 0))%nat.
Proof using All. unfold lev. rewrite seq_S, map_app. cbn [map]. apply fold_add_app. Qed.
Lemma lev_le n k : (n <= k)%nat -> (lev n <= lev k)%nat.
Proof using All. induction 1; auto. rewrite lev_S. lia. Qed.
Lemma prodR_snoc l a : prodR (l ++ [a]) = prodR l * a.
Proof. induction l; unfold prodR in *; cbn [app fold_right]; [ring|]. rewrite IHl. ring. Qed.
Lemma wt_S n idx : wt (S n) idx = wt n idx * Lf n ^ Nat.min (order - nth n so 0%nat) (nth n idx 0%nat).
Proof using All. unfold wt. rewrite seq_S, map_app. cbn [map]. apply prodR_snoc. Qed.
Lemma wt_set n idx d pos : (n <= d)%nat -> wt n (set_nth idx d pos) = wt n idx.
Proof using All.
  intros Hn. unfold wt. f_equal. apply map_ext_in. intros e He. apply in_seq in He. f_equal. f_equal. apply nth_set_nth_ne. lia.
Qed.
Lemma wt_bound n idx : (n <= dim)%nat -> 0 <= wt n idx <= Lam ^ lev n.
Proof using All.
  induction n; intros Hn.
  - unfold wt, lev, prodR. cbn. lra.
  - rewrite wt_S, lev_S, pow_add. specialize (IHn ltac:(lia)). pose proof (HLf n ltac:(lia)) as HL0.
    assert (P : 0 <= Lf n ^ Nat.min (order - nth n so 0%nat) (nth n idx 0%nat)) by (apply pow_le; lra). split.
    + apply Rmult_le_pos; lra.
    + apply Rmult_le_compat; try lra. apply Rle_trans with (Lam ^ Nat.min (order - nth n so 0%nat) (nth n idx 0%nat)); [apply pow_incr; lra|apply Rle_pow; auto; lia].
Qed.

Lemma rs_knot_of d : knot_of rs d = map val (knot_of s d).
Proof using All. unfold knot_of, rs, real_spline. cbn [sp_knots]. change (@nil R) with (map val []). apply map_nth. Qed.

Lemma dims_round on lcp (c0 : list nat -> R) :
  m_dims lcp = dims -> wf_mesh lcp -> (forall idx, valid dims idx -> nearb 0 C (mv z lcp idx) (c0 idx)) ->
  exists m',
  for_ 0 dim lcp (fun lcp d =>
    q <- vget so d ;;
    if (q =? order)%nat then Ok lcp else
    n <- mesh_dim_size lcp d ;;
    hyper <- udiv (mesh_size lcp) n ;;
    for_ 0 hyper lcp (fun lcp i =>
      it <- mesh_begin on lcp d (digits_skip (order + 1) dim d i) ;;
      kn <- vget (sp_knots s) d ;;
      ki <- vget iters d ;;
      derive_line o order kn (snd ki) q lcp it)) = Ok m' /\
  m_dims m' = dims /\ wf_mesh m' /\
  forall idx, valid dims idx -> nearb (lev dim) (C * wt dim idx) (mv z m' idx) (lineops rs riters so dim c0 idx).
Proof using All.
  intros Hdm Wl H0.
  match goal with |- context[for_ 0 ?hi ?s0 ?f] =>
    destruct (for_inv (fun n m' => m_dims m' = dims /\ wf_mesh m' /\
      forall idx, valid dims idx -> nearb (lev n) (C * wt n idx) (mv z m' idx) (lineops rs riters so n c0 idx))
      0 hi s0 f) as (m' & E & A & Bq & Cq) end.
  - lia.
  - split; auto. split; auto. intros idx Hv. unfold wt, lev, lineops, prodR. cbn [seq map fold_right fold_left]. rewrite Rmult_1_r. auto.
  - intros d m1 Hd (A & Bq & Cq).
    rewrite (vget_ok so d 0%nat) by lia. cbn [bind].
    assert (Hstep : forall idx, lineops rs riters so (d + 1) c0 idx = lineop rs riters so d (lineops rs riters so d c0) idx).
    { intros idx. unfold lineops. rewrite Nat.add_1_r, seq_S, fold_left_app. reflexivity. }
    destruct (Hki d ltac:(lia)) as [Ek1 Ek2].
    assert (Hop : forall idx, lineop rs riters so d (lineops rs riters so d c0) idx =
      dline order (ki d) (map val (knot_of s d)) (nth d so 0%nat) (fun pos => lineops rs riters so d c0 (set_nth idx d pos)) (nth d idx 0%nat)).
    { intros idx. unfold lineop. rewrite Ek2, rs_knot_of. reflexivity. }
    replace (d + 1)%nat with (S d) in * by lia.
    destruct (Nat.eqb_spec (nth d so 0%nat) order) as [Eq|Ne].
    + exists m1. split; auto. split; auto. split; auto. intros idx Hv. rewrite Hstep, Hop, Eq, dline_order, set_nth_self, lev_S, wt_S, Eq, Nat.sub_diag. cbn [Nat.min pow]. rewrite Rmult_1_r, Nat.add_0_r. auto.
    + unfold mesh_dim_size. rewrite (vget_ok (m_dims m1) d 0%nat) by (rewrite A; unfold dims; rewrite repeat_length; lia).
      cbn [bind]. rewrite A. unfold dims at 1. rewrite nth_repeat_lt by lia. unfold udiv.
      destruct (Nat.eqb_spec (order + 1) 0); [lia|]. cbn [bind].
      assert (Hsz : (mesh_size m1 / (order + 1) = (order + 1) ^ (dim - 1))%nat).
      { unfold mesh_size. replace (length (m_data m1)) with (prod (m_dims m1)) by (symmetry; apply Bq).
        rewrite ?md_size_prod. rewrite A. unfold dims. rewrite prod_repeat. replace dim with (S (dim - 1)) at 1 by lia.
        cbn [Nat.pow]. rewrite Nat.mul_comm. apply Nat.div_mul. lia. }
      rewrite Hsz.
      destruct (hyper_round on d (nth d so 0%nat) m1 (lev d) (fun idx => C * wt d idx) (lineops rs riters so d c0)) as (m' & E & A' & B' & C'); auto.
      * lia. * apply Hso; lia.
      * rewrite <- lev_S. apply Nat.le_trans with (lev dim); auto. apply lev_le. lia.
      * intros idx Hv. pose proof (wt_bound d idx ltac:(lia)). split; [split; [apply Rmult_le_pos; lra|apply Rmult_le_compat_l; lra]|]. intros pos. rewrite wt_set; auto.
      * exists m'. split.
        -- rewrite <- E. apply for_ext. intros m2 i Hi. destruct (mesh_begin on m2 d _); auto. cbn [bind].
           destruct (vget (sp_knots s) d); auto. cbn [bind]. rewrite (vget_ok iters d (z, 0%nat)) by lia. cbn [bind]. rewrite Ek1. reflexivity.
        -- split; auto. split; auto. intros idx Hv. rewrite Hstep, Hop, lev_S, wt_S, <- Rmult_assoc. apply C'; auto.
  - exists m'. auto.
Qed.
End Loops.
