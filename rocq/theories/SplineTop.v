(** Periodicity, convex hull, continuity and derivatives of splines. *)
From Coq Require Import List Arith Lia Bool ZArith Reals Lra.
From Coquelicot Require Import Coquelicot.
From Verif Require Import Base Num MeshM SplineM SpecMesh SpecBand SpecSpline MeshProofs SumR MulProofs
  SplineProofs TensorR BasisProofs EvalProofs EvalR DerivProofs DerivLoops BetaProofs.
Import ListNotations.
Open Scope R_scope.

(** ** Periodicity *)
Section Per.
Variables (s : spline R) (d : nat).
Hypothesis G : good_spline s.
Hypothesis Hd : (d < sp_dim s)%nat.
Hypothesis PK : periodic_knots s d.
Let t := kn (knot_of s d).
Let n := num_of s d.
Let p := sp_order s.
Let P := snd (rng s d) - fst (rng s d).

Lemma P_pos : 0 < P.
Proof. pose proof (gs_range _ G d Hd (pk_per _ _ PK)). unfold P. lra. Qed.

Lemma seg_a k : segment t p (last_of s d) (t p) k -> k = p.
Proof.
  intros H. eapply (segment_unique (knot_of s d)); eauto. apply (gs_sorted _ G); auto.
  - pose proof (wf_len _ (gs_wf _ G) d Hd). unfold last_of. lia.
  - pose proof (gs_first _ G d Hd). fold t p in H0 |- *. pose proof (last_ge s d (gs_wf _ G) Hd).
    split; [unfold p; lia|]. split; auto.
Qed.

Lemma seg_b k : segment t p (last_of s d) (t (p + n)%nat) k -> k = last_of s d.
Proof.
  intros H. eapply (segment_unique (knot_of s d)); eauto. apply (gs_sorted _ G); auto.
  - pose proof (wf_len _ (gs_wf _ G) d Hd). unfold last_of. lia.
  - pose proof (gs_last _ G d Hd). fold t p in H0 |- *. pose proof (last_ge s d (gs_wf _ G) Hd).
    split; [unfold p; lia|]. split; auto. split; auto. right.
    apply (gs_sorted _ G); auto. pose proof (pk_len _ _ PK). fold n p in H2. pose proof (wf_len _ (gs_wf _ G) d Hd).
    unfold last_of. fold p in H3 |- *. pose proof (pk_n s d G Hd PK). fold n in H4. lia.
Qed.

Lemma edge_value j : (1 <= p)%nat \/ length (knot_of s d) = (n + 2 * p + 2)%nat ->
  bpoly s d (last_of s d) j (t (p + n)%nat) = bpoly s d p j (t p).
Proof.
  intros Hc. pose proof (gs_last _ G d Hd) as Hl. fold t in Hl. pose proof (pk_n s d G Hd PK) as Hn. fold n in Hn.
  destruct (pk_len _ _ PK) as [HL|HL]; fold n p in HL.
  - destruct Hc as [Hp|Hc]; [|lia].
    assert (E : last_of s d = (p + n - 1)%nat) by (unfold last_of; fold p; lia). rewrite E in *.
    apply bpoly_edge; auto. fold t p n. replace (p + n - 1 + 1)%nat with (p + n)%nat in Hl by lia. auto.
  - assert (E : last_of s d = (p + n)%nat) by (unfold last_of; fold p; lia). rewrite E.
    pose proof (bpoly_shift s d G Hd PK j (t p) HL) as H. fold p n P in H. rewrite <- H. f_equal.
    apply (pk_shift _ _ PK). fold n. lia.
Qed.

Lemma wrapped_range x x' : wrapped true (rng s d) x x' -> t p <= x' <= t (p + n)%nat.
Proof.
  intros [_ H]. rewrite (pk_fst s d G Hd), (pk_snd s d G Hd PK) in H. fold t p n in H.
  destruct (Rle_dec (t p) x); lra.
Qed.

Lemma beta_periodic j x (m : Z) :
  (1 <= p)%nat \/ length (knot_of s d) = (n + 2 * p + 2)%nat ->
  beta s d j (x + IZR m * P) = beta s d j x.
Proof.
  intros Hc. destruct (loc_spec s d x G Hd) as [Hx Sx]. destruct (loc_spec s d (x + IZR m * P) G Hd) as [Hy Sy].
  unfold beta. rewrite (pk_per _ _ PK) in Hx, Hy.
  pose proof (wrapped_range _ _ Hx) as Rx. pose proof (wrapped_range _ _ Hy) as Ry.
  destruct Hx as [[a Ha] _]. destruct Hy as [[b Hb] _]. fold P in Ha, Hb.
  destruct (loc s d x) as [x' k], (loc s d (x + IZR m * P)) as [y' l]. cbn [fst snd] in *.
  pose proof P_pos as HP.
  assert (Eb : t (p + n)%nat = t p + P).
  { pose proof (pk_fst s d G Hd). pose proof (pk_snd s d G Hd PK). fold t p n in H, H0. unfold P. lra. }
  assert (D : y' - x' = IZR (m + b - a) * P) by (rewrite minus_IZR, plus_IZR, Ha, Hb; ring).
  set (M := (m + b - a)%Z) in *. clearbody M.
  assert (-1 <= IZR M <= 1) by (split; nra).
  assert (HM : (-1 <= M <= 1)%Z) by (split; apply le_IZR; lra).
  assert (M = 0 \/ M = 1 \/ M = -1)%Z as [->|[->| ->]] by lia.
  - assert (E : y' = x') by lra. rewrite E in *. f_equal.
    apply (segment_unique (knot_of s d) (sp_order s) (last_of s d) x'); auto. apply (gs_sorted _ G); auto.
    pose proof (wf_len _ (gs_wf _ G) d Hd). unfold last_of. lia.
  - assert (Ex : x' = t p) by lra. assert (Ey : y' = t (p + n)%nat) by lra.
    rewrite Ex in Sx |- *. rewrite Ey in Sy |- *.
    rewrite (seg_a _ Sx), (seg_b _ Sy). apply edge_value; auto.
  - assert (Ey : y' = t p) by lra. assert (Ex : x' = t (p + n)%nat) by lra.
    rewrite Ex in Sx |- *. rewrite Ey in Sy |- *.
    rewrite (seg_a _ Sy), (seg_b _ Sx). symmetry. apply edge_value; auto.
Qed.
End Per.

Lemma sval_ext s xs ys :
  (forall d j, (d < sp_dim s)%nat -> beta s d j (nth d xs 0) = beta s d j (nth d ys 0)) -> sval s xs = sval s ys.
Proof.
  intros H. unfold sval. apply tensor_ext_gen.
  - rewrite !map_map. reflexivity.
  - intros d i Hd Hi. rewrite length_map_seq in Hd. rewrite !nth_map_seq by auto. apply H; auto.
  - auto.
Qed.

(** ** Convex hull *)
Lemma tensor_hull bs c lo hi :
  (forall d, (d < length bs)%nat ->
     sum (fst (nth d bs (0%nat, fun _ => 0))) (snd (nth d bs (0%nat, fun _ => 0))) = 1 /\
     forall i, (i < fst (nth d bs (0%nat, fun _ => 0%R)))%nat -> 0 <= snd (nth d bs (0%nat, fun _ => 0)) i) ->
  (forall idx, valid (map fst bs) idx -> lo <= c idx <= hi) -> lo <= tensor bs c <= hi.
Proof.
  revert c; induction bs as [|[m b] bs IH]; intros c Hb Hc; cbn [tensor].
  - apply Hc. constructor.
  - rewrite Rsum_sum. destruct (Hb 0%nat ltac:(simpl; lia)) as [H1 H2]. cbn [nth fst snd] in H1, H2.
    assert (Hi : forall i, (i < m)%nat -> lo <= tensor bs (fun idx => c (i :: idx)) <= hi).
    { intros i Hi. apply IH.
      - intros d Hd. apply (Hb (S d)). simpl; lia.
      - intros idx Hv. apply Hc. cbn [map fst]. apply valid_cons. auto. }
    split.
    + replace lo with (sum m (fun i => b i * lo)) by (rewrite sum_scal_r, H1; ring).
      apply sum_le. intros i Hii. apply Rmult_le_compat_l; auto. apply Hi; auto.
    + replace hi with (sum m (fun i => b i * hi)) by (rewrite sum_scal_r, H1; ring).
      apply sum_le. intros i Hii. apply Rmult_le_compat_l; auto. apply Hi; auto.
Qed.

Lemma sum_piece_all s d k x : good_spline s -> (d < sp_dim s)%nat -> (sp_order s <= k <= last_of s d)%nat ->
  kn (knot_of s d) k < kn (knot_of s d) (k + 1) ->
  sum (nbasis s d) (fun i => piece (kn (knot_of s d)) k (sp_order s) i x) = 1.
Proof.
  intros G Hd Hk Hs. pose proof (wf_len _ (gs_wf _ G) d Hd). unfold last_of in Hk.
  replace (nbasis s d) with ((k - sp_order s) + ((sp_order s + 1) + (nbasis s d - k - 1)))%nat by (unfold nbasis; lia).
  rewrite (sum_app (k - sp_order s)), (sum_app (sp_order s + 1)). rewrite (sum_0 (k - sp_order s)), (sum_0 (nbasis s d - k - 1)).
  - rewrite Rplus_0_l, Rplus_0_r. apply (piece_unity (kn (knot_of s d)) (length (knot_of s d))); try lia; auto.
    intros. apply (gs_sorted _ G); auto.
  - intros i Hi. apply piece_support. lia.
  - intros i Hi. apply piece_support. lia.
Qed.

Lemma sum_bpoly s d k x : good_spline s -> (d < sp_dim s)%nat -> (sp_order s <= k <= last_of s d)%nat ->
  kn (knot_of s d) k < kn (knot_of s d) (k + 1) ->
  sum (num_of s d) (fun j => bpoly s d k j x) = 1.
Proof.
  intros G Hd Hk Hs.
  pose (D := mkAggr (nbasis s d) (fun i => piece (kn (knot_of s d)) k (sp_order s) i x) (widx s d) (num_of s d)).
  pose proof (ag_sum D (fun _ => 1)) as H. cbn [ag_m ag_b ag_w ag_n D] in H.
  transitivity (sum (num_of s d) (fun j => ag_fun D j * 1)).
  - apply sum_ext. intros j Hj. unfold ag_fun, bpoly. cbn [ag_m ag_b ag_w D]. ring.
  - rewrite <- H.
    + etransitivity; [|apply (sum_piece_all s d k x G Hd Hk Hs)]. apply sum_ext. intros; ring.
    + intros i Hi. apply widx_lt; auto. apply (gs_wf _ G).
Qed.

Lemma bpoly_nonneg s d k j x : good_spline s -> (d < sp_dim s)%nat -> (sp_order s <= k <= last_of s d)%nat ->
  kn (knot_of s d) k < kn (knot_of s d) (k + 1) -> kn (knot_of s d) k <= x <= kn (knot_of s d) (k + 1) ->
  0 <= bpoly s d k j x.
Proof.
  intros G Hd Hk Hs Hx. unfold bpoly. apply sum_pos. intros i Hi. destruct (_ =? _)%nat; [|lra].
  pose proof (wf_len _ (gs_wf _ G) d Hd). unfold last_of, nbasis in *.
  apply (piece_nonneg (kn (knot_of s d)) (length (knot_of s d))); try lia; auto. intros. apply (gs_sorted _ G); auto.
Qed.

(** In range: anything for periodic dimensions, the closed range of the knots otherwise. *)
Lemma loc_in_segment s d x : good_spline s -> (d < sp_dim s)%nat -> in_range s d x ->
  kn (knot_of s d) (snd (loc s d x)) <= fst (loc s d x) <= kn (knot_of s d) (snd (loc s d x) + 1).
Proof.
  intros G Hd Hr. destruct (loc_spec s d x G Hd) as [Hw (H1 & H2 & H3 & H4)].
  set (x' := fst (loc s d x)) in *. set (k := snd (loc s d x)) in *. set (t := kn (knot_of s d)) in *.
  assert (Hr' : t (sp_order s) <= x' <= t (last_of s d + 1)%nat).
  { unfold in_range in Hr. fold t in Hr. destruct (per_of s d) eqn:Ep.
    - destruct Hw as [_ Hw]. destruct (gs_ends _ G d Hd) as [Ea Eb]. fold t in Ea, Eb. 
      assert (t (last_of s d) <= t (last_of s d + 1)%nat) by (left; apply (gs_last _ G d Hd)).
      rewrite Ea in Hw. destruct Eb as [Eb|Eb]; rewrite Eb in Hw; destruct (Rle_dec (t (sp_order s)) x); lra.
    - simpl in Hw. rewrite Hw. destruct Hr as [|Hr]; [discriminate|]. exact Hr. }
  destruct H3 as [E3|H3]; destruct H4 as [E4|H4]; try rewrite E3 in *; try rewrite E4 in *; lra.
Qed.

Lemma convex_hull s xs lo hi :
  good_spline s -> length xs = sp_dim s ->
  (forall d, (d < sp_dim s)%nat -> in_range s d (nth d xs 0)) ->
  (forall idx, valid (m_dims (sp_ctrl s)) idx -> lo <= ctrl_at Rops s idx <= hi) ->
  lo <= sval s xs <= hi.
Proof.
  intros G Hl Hr Hc. unfold sval. apply tensor_hull.
  - intros d Hd. rewrite length_map_seq in Hd. rewrite !nth_map_seq by auto. cbn [fst snd].
    destruct (loc_spec s d (nth d xs 0) G Hd) as [Hw (H1 & H2 & H3 & H4)].
    pose proof (loc_in_segment s d (nth d xs 0) G Hd (Hr d Hd)).
    unfold beta. split. apply sum_bpoly; auto. intros i Hi. apply bpoly_nonneg; auto.
  - intros idx Hv. apply Hc. rewrite map_map in Hv. cbn [fst] in Hv.
    replace (map (fun d => num_of s d) (seq 0 (sp_dim s))) with (m_dims (sp_ctrl s)) in Hv; auto.
    apply (nth_ext' _ _ 0%nat). rewrite length_map_seq. apply (wf_dims _ (gs_wf _ G)).
    intros d Hd. rewrite (wf_dims _ (gs_wf _ G)) in Hd. rewrite nth_map_seq by auto. reflexivity.
Qed.

(** ** Local form near a point *)
Lemma locally_lt (a x : R) : a < x -> locally x (fun y => a < y).
Proof. intros H. apply (open_gt a x H). Qed.
Lemma locally_gt (a x : R) : x < a -> locally x (fun y => y < a).
Proof. intros H. apply (open_lt a x H). Qed.

Lemma locally_shift (c x : R) (Q : R -> Prop) : locally (x + c) Q -> locally x (fun y => Q (y + c)).
Proof.
  intros [e H]. exists e. intros y Hy. apply H. unfold ball in *; simpl in *; unfold AbsRing_ball, abs, minus, plus, opp in *; simpl in *.
  replace (y + c + - (x + c)) with (y + - x) by ring. auto.
Qed.

(** Near a point of segment [k], points belong to [k], or to [k-1] if the point is the knot itself. *)
Lemma local_seg (t : nat -> R) lo hi x k :
  (forall i, (lo <= i <= hi)%nat -> t i < t (i + 1)%nat) ->
  segment t lo hi x k ->
  locally x (fun y => segment t lo hi y k \/ ((lo < k)%nat /\ x = t k /\ segment t lo hi y (k - 1))).
Proof.
  intros Hm (H1 & H2 & H3 & H4).
  assert (L1 : locally x (fun y => k = hi \/ y < t (k + 1)%nat)).
  { destruct H4 as [->|H4]. apply filter_forall; auto.
    apply (filter_imp (fun y => y < t (k + 1)%nat)). auto. apply locally_gt; auto. }
  destruct (Nat.eq_dec k lo) as [->|Hne].
  { apply (filter_imp _ _ (fun y Hy => or_introl (conj H1 (conj H2 (conj (or_introl eq_refl) Hy)))) L1). }
  destruct H3 as [|H3]; [contradiction|].
  destruct (Req_EM_T x (t k)) as [Ex|Ex].
  - assert (Hlt : t (k - 1)%nat < t k). { replace (t k) with (t (k - 1 + 1)%nat) by (f_equal; lia). apply Hm. lia. }
    assert (L2 : locally x (fun y => t (k - 1)%nat < y)) by (apply locally_lt; lra).
    generalize (filter_and _ _ L1 L2). apply filter_imp. intros y [Y1 Y2].
    destruct (Rle_dec (t k) y).
    + left. split; auto.
    + right. split; [lia|]. split; auto. unfold segment. replace (k - 1 + 1)%nat with k by lia.
      split; [lia|]. split; auto. split; [right; lra|right; lra].
  - assert (L2 : locally x (fun y => t k < y)) by (apply locally_lt; lra).
    generalize (filter_and _ _ L1 L2). apply filter_imp. intros y [Y1 Y2]. left. split; auto. split; auto. split; auto. right; lra.
Qed.

(** The wrapping is locally a translation. *)
Lemma local_wrap s d x : good_spline s -> (d < sp_dim s)%nat ->
  (per_of s d = true -> fst (rng s d) < fst (loc s d x) < snd (rng s d)) ->
  locally x (fun y => wrapped (per_of s d) (rng s d) y (y + (fst (loc s d x) - x))).
Proof.
  intros G Hd Hr. destruct (loc_spec s d x G Hd) as [Hw _]. destruct (per_of s d) eqn:Ep.
  - specialize (Hr eq_refl). destruct Hw as [[m Hm] _]. set (x' := fst (loc s d x)) in *.
    set (a := fst (rng s d)) in *. set (b := snd (rng s d)) in *.
    assert (L : locally x (fun y => a < y + (x' - x) < b)).
    { apply (locally_shift (x' - x) x (fun z => a < z < b)). replace (x + (x' - x)) with x' by ring.
      apply filter_and. apply locally_lt; lra. apply locally_gt; lra. }
    revert L. apply filter_imp. intros y Hy. unfold wrapped. fold a b. split.
    + exists m. rewrite Hm. ring.
    + destruct (Rle_dec a y); lra.
  - simpl in Hw. rewrite Hw. apply filter_forall. intros y. simpl. ring.
Qed.

(** Continuity by cases. *)
Lemma continuous_glue (f g h : R -> R) (x : R) :
  continuous g x -> continuous h x -> g x = f x -> h x = f x ->
  locally x (fun y => f y = g y \/ f y = h y) -> continuous f x.
Proof.
  intros Hg Hh Eg Eh L. apply filterlim_locally. intros eps.
  assert (Lg := proj1 (filterlim_locally _ _) Hg eps). assert (Lh := proj1 (filterlim_locally _ _) Hh eps).
  generalize (filter_and _ _ L (filter_and _ _ Lg Lh)). apply filter_imp.
  intros y [[E|E] [H1 H2]]; rewrite E. rewrite <- Eg; auto. rewrite <- Eh; auto.
Qed.

Lemma bpoly_continuous s d k j x : good_spline s -> (d < sp_dim s)%nat -> (sp_order s <= k <= last_of s d)%nat ->
  kn (knot_of s d) k < kn (knot_of s d) (k + 1) -> continuous (bpoly s d k j) x.
Proof.
  intros G Hd Hk Hs. apply (ex_derive_continuous (bpoly s d k j)). unfold bpoly.
  pose proof (wf_len _ (gs_wf _ G) d Hd). unfold last_of, nbasis in *.
  eexists. apply (is_derive_sum _ (fun i x => if (widx s d i =? j)%nat then piece (kn (knot_of s d)) k (sp_order s) i x else 0)
     (fun i => if (widx s d i =? j)%nat then dpiece (kn (knot_of s d)) k (sp_order s) i x else 0)).
  intros i Hi. destruct (widx s d i =? j)%nat.
  - apply (piece_derive _ (length (knot_of s d))); auto; try lia. intros. apply (gs_sorted _ G); auto.
  - apply @is_derive_const.
Qed.

Lemma continuous_shift (f : R -> R) c x : continuous f (x + c) -> continuous (fun y => f (y + c)) x.
Proof.
  intros H. apply (continuous_comp (fun y : R => y + c) f); auto.
  apply (continuous_plus (fun y : R => y) (fun _ => c)). apply continuous_id. apply continuous_const.
Qed.

Lemma beta_val s d x j x' k : good_spline s -> (d < sp_dim s)%nat ->
  wrapped (per_of s d) (rng s d) x x' -> segment (kn (knot_of s d)) (sp_order s) (last_of s d) x' k ->
  beta s d j x = bpoly s d k j x'.
Proof. intros G Hd Hw Hs. unfold beta. rewrite (loc_unique s d x x' k); auto. Qed.

Lemma beta_continuous s d j x :
  good_spline s -> (d < sp_dim s)%nat -> (1 <= sp_order s)%nat -> strict_knots s d ->
  (per_of s d = true -> periodic_knots s d) ->
  continuous (beta s d j) x.
Proof.
  intros G Hd Hp Hst Hper. assert (W := gs_wf _ G).
  set (t := kn (knot_of s d)). set (p := sp_order s) in *.
  destruct (loc_spec s d x G Hd) as [Hw Hs]. fold t p in Hs.
  destruct (loc s d x) as [x' k] eqn:El. cbn [fst snd] in *.
  assert (Hb : beta s d j x = bpoly s d k j x') by (unfold beta; rewrite El; auto).
  (* points where the wrapping is a translation *)
  assert (Hin : (per_of s d = true -> fst (rng s d) < x' < snd (rng s d)) -> continuous (beta s d j) x).
  { intros Hr. pose proof (local_wrap s d x G Hd) as LW. rewrite El in LW. cbn [fst] in LW. specialize (LW Hr).
    assert (LS := local_seg t p (last_of s d) x' k Hst Hs).
    assert (Ex : x' = x + (x' - x)) by ring. rewrite Ex in LS at 1. apply locally_shift in LS.
    assert (Hk := proj1 Hs).
    apply (continuous_glue _ (fun y => bpoly s d k j (y + (x' - x)))
       (fun y => bpoly s d (if Nat.eqb k p then k else if Req_EM_T x' (t k) then k - 1 else k)%nat j (y + (x' - x)))).
    - apply continuous_shift. apply bpoly_continuous; auto.
    - apply continuous_shift. apply bpoly_continuous; auto.
      + fold p. destruct (Nat.eqb_spec k p); [lia|]. destruct (Req_EM_T x' (t k)); lia.
      + apply Hst. fold p. destruct (Nat.eqb_spec k p); [lia|]. destruct (Req_EM_T x' (t k)); lia.
    - rewrite <- Ex. auto.
    - rewrite <- Ex, Hb. destruct (Nat.eqb_spec k p); auto. destruct (Req_EM_T x' (t k)) as [E|]; auto.
      pose proof (bpoly_glue s d (k - 1) j Hd Hp) as Gl. fold t in Gl.
      replace (k - 1 + 1)%nat with k in Gl by lia. replace (k - 1 + 2)%nat with (k + 1)%nat in Gl by lia.
      rewrite E. apply Gl.
      + replace (t k) with (t (k - 1 + 1)%nat) by (f_equal; lia). apply Hst. fold p. lia.
      + apply Hst. fold p. lia.
    - generalize (filter_and _ _ LW LS). apply filter_imp. intros y [Y1 [Y2|(Y2 & Y3 & Y4)]].
      + left. apply beta_val; auto.
      + right. destruct (Nat.eqb_spec k p); [lia|]. destruct (Req_EM_T x' (t k)); [|contradiction].
        apply beta_val; auto. }
  destruct (per_of s d) eqn:Ep; [|apply Hin; discriminate].
  specialize (Hper eq_refl). set (n := num_of s d).
  pose proof (pk_fst s d G Hd) as Ea. pose proof (pk_snd s d G Hd Hper) as Eb. fold t p n in Ea, Eb.
  pose proof (pk_n s d G Hd Hper) as Hn. fold n in Hn.
  pose proof (pk_len _ _ Hper) as HL. fold n p in HL.
  rewrite Ea, Eb in Hin.
  set (P := t (p + n)%nat - t p) in *.
  assert (HP : 0 < P). { pose proof (gs_range _ G d Hd Ep). unfold P. rewrite <- Ea, <- Eb. lra. }
  pose proof Hw as [[m Hm] Hw2]. rewrite Ea, Eb in Hm, Hw2. fold P in Hm.
  assert (Hlast : (p + n - 1 <= last_of s d)%nat) by (unfold last_of; fold p; lia).
  assert (Hedge := bpoly_edge s d G Hd Hper j Hp). fold t p n in Hedge.
  assert (Hlt1 : t (p + n - 1)%nat < t (p + n)%nat).
  { replace (t (p + n)%nat) with (t (p + n - 1 + 1)%nat) by (f_equal; lia). apply Hst. fold p. lia. }
  specialize (Hedge Hlt1).
  assert (Hlt0 : t p < t (p + 1)%nat) by (apply (gs_first _ G d Hd)).
  assert (Hfin : x' = t p \/ x' = t (p + n)%nat -> continuous (beta s d j) x).
  { intros Hx'. 
    (* c: translation that sends x to the left end *)
    assert (Hc : exists M : Z, t p = x + IZR M * P).
    { destruct Hx' as [E|E]. exists m; lra. exists (m - 1)%Z. rewrite minus_IZR. unfold P in *. lra. }
    destruct Hc as [M HM].
    assert (Hval : beta s d j x = bpoly s d p j (t p)).
    { rewrite Hb. destruct Hx' as [E|E]; rewrite E in Hs |- *.
      - rewrite (seg_a s d G Hd k); auto.
      - rewrite (seg_b s d G Hd Hper k) by auto. apply edge_value; auto. }
    apply (continuous_glue _ (fun y => bpoly s d p j (y + IZR M * P))
                             (fun y => bpoly s d (p + n - 1) j (y + (IZR M * P + P)))).
    - apply continuous_shift. apply bpoly_continuous; auto. fold p. lia.
    - apply continuous_shift. apply bpoly_continuous; auto. fold p. lia. apply Hst. fold p. lia.
    - rewrite <- HM. auto.
    - replace (x + (IZR M * P + P)) with (t (p + n)%nat) by (unfold P in *; lra). rewrite Hedge. auto.
    - assert (L1 : locally x (fun y => y + IZR M * P < t (p + 1)%nat)).
      { apply (locally_shift _ x (fun z => z < t (p + 1)%nat)). rewrite <- HM. apply locally_gt; auto. }
      assert (L2 : locally x (fun y => t (p + n - 1)%nat < y + (IZR M * P + P))).
      { apply (locally_shift _ x (fun z => t (p + n - 1)%nat < z)).
        replace (x + (IZR M * P + P)) with (t (p + n)%nat) by (unfold P in *; lra). apply locally_lt; auto. }
      assert (L3 : locally x (fun y => y + IZR M * P < t (p + n)%nat)).
      { apply (locally_shift _ x (fun z => z < t (p + n)%nat)). rewrite <- HM. apply locally_gt. unfold P in HP. lra. }
      assert (L4 : locally x (fun y => t p < y + (IZR M * P + P))).
      { apply (locally_shift _ x (fun z => t p < z)).
        replace (x + (IZR M * P + P)) with (t (p + n)%nat) by (unfold P in *; lra). apply locally_lt. unfold P in HP. lra. }
      generalize (filter_and _ _ (filter_and _ _ L1 L2) (filter_and _ _ L3 L4)). apply filter_imp.
      intros y [[Y1 Y2] [Y3 Y4]].
      destruct (Rtotal_order y x) as [Hy|[Hy|Hy]].
      + right. apply beta_val; auto.
        * rewrite Ep. unfold wrapped. rewrite Ea, Eb. fold P. split.
          -- exists (M + 1)%Z. rewrite plus_IZR. ring.
          -- destruct (Rle_dec (t p) y); unfold P in *; lra.
        * fold t p. split; [lia|]. split. { replace (p + n - 1 + 1)%nat with (p + n)%nat by lia. auto. }
          split. right; lra. right. replace (p + n - 1 + 1)%nat with (p + n)%nat by lia. unfold P in *; lra.
      + left. subst y. rewrite <- HM. auto.
      + left. apply beta_val; auto.
        * rewrite Ep. unfold wrapped. rewrite Ea, Eb. fold P. split.
          -- exists M. ring.
          -- destruct (Rle_dec (t p) y); unfold P in *; lra.
        * fold t p. split; [lia|]. split; auto. }
  destruct (Req_EM_T x' (t p)); [apply Hfin; auto|]. destruct (Req_EM_T x' (t (p + n)%nat)); [apply Hfin; auto|].
  apply Hin. intros _. destruct (Rle_dec (t p) x); lra.
Qed.
