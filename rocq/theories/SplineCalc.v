(** Joint continuity and mixed derivatives of splines. *)
From Coq Require Import List Arith Lia Bool ZArith Reals Lra FunctionalExtensionality.
From Coquelicot Require Import Coquelicot.
From Verif Require Import Base Num MeshM SplineM SpecMesh SpecBand SpecSpline SpecCalc MeshProofs SumR MulProofs
  SplineProofs TensorR BasisProofs EvalProofs EvalR DerivProofs DerivLoops BetaProofs SplineTop.
Import ListNotations.
Open Scope R_scope.

(** ** Continuity *)
Definition near (xs : list R) : (list R -> Prop) -> Prop := fun Q =>
  exists delta : posreal, forall ys, length ys = length xs ->
    (forall d, (d < length xs)%nat -> Rabs (nth d ys 0 - nth d xs 0) < delta) -> Q ys.

Global Instance near_filter xs : Filter (near xs).
Proof.
  split.
  - exists (mkposreal 1 Rlt_0_1). auto.
  - intros A B [a Ha] [b Hb]. exists (mkposreal (Rmin a b) (Rmin_stable_in_posreal a b)).
    intros ys Hl H. simpl in H. split; [apply Ha|apply Hb]; auto; intros d Hd; specialize (H d Hd).
    + eapply Rlt_le_trans; [exact H|apply Rmin_l].
    + eapply Rlt_le_trans; [exact H|apply Rmin_r].
  - intros A B H [a Ha]. exists a. auto.
Qed.

Lemma near_continuous f xs : filterlim f (near xs) (locally (f xs)) -> continuous_at f xs.
Proof.
  intros H eps He. destruct (proj1 (filterlim_locally _ _) H (mkposreal eps He)) as [delta Hd].
  exists delta. split. apply cond_pos. intros ys Hl Hy. apply (Hd ys Hl Hy).
Qed.

Lemma near_coord xs d (f : R -> R) : (d < length xs)%nat -> continuous f (nth d xs 0) ->
  filterlim (fun ys => f (nth d ys 0)) (near xs) (locally (f (nth d xs 0))).
Proof.
  intros Hd Hf. apply (filterlim_comp _ _ _ (fun ys => nth d ys 0) f _ (locally (nth d xs 0))); auto.
  apply filterlim_locally. intros eps. exists eps. intros ys Hl H. apply (H d Hd).
Qed.

Lemma near_sum xs n (f : nat -> list R -> R) (v : nat -> R) :
  (forall i, (i < n)%nat -> filterlim (f i) (near xs) (locally (v i))) ->
  filterlim (fun ys => sum n (fun i => f i ys)) (near xs) (locally (sum n v)).
Proof.
  induction n; intros H; cbn [sum].
  - apply filterlim_const.
  - apply (filterlim_comp_2 (F := near xs) (G := locally (sum n v)) (H := locally (v n)) (fun ys => sum n (fun i => f i ys)) (f n) Rplus).
    + apply IHn. intros; apply H; lia.
    + apply H; lia.
    + apply (filterlim_plus (sum n v) (v n)).
Qed.

Lemma near_mult xs (f g : list R -> R) a b :
  filterlim f (near xs) (locally a) -> filterlim g (near xs) (locally b) ->
  filterlim (fun ys => f ys * g ys) (near xs) (locally (a * b)).
Proof.
  intros Hf Hg. apply (filterlim_comp_2 (F := near xs) (G := locally a) (H := locally b) f g Rmult); auto.
  apply (filterlim_mult a b).
Qed.

Lemma near_tensor xs (ds : list nat) (n : nat -> nat) (b : nat -> nat -> R -> R) c :
  (forall d j, In d ds -> (d < length xs)%nat /\ continuous (b d j) (nth d xs 0)) ->
  filterlim (fun ys => tensor (map (fun d => (n d, fun j => b d j (nth d ys 0))) ds) c) (near xs)
    (locally (tensor (map (fun d => (n d, fun j => b d j (nth d xs 0))) ds) c)).
Proof.
  revert c; induction ds as [|d ds IH]; intros c H; cbn [map tensor].
  - apply filterlim_const.
  - rewrite Rsum_sum.
    apply (near_sum xs (n d) (fun i ys => b d i (nth d ys 0) * tensor (map (fun d => (n d, fun j => b d j (nth d ys 0))) ds) (fun idx => c (i :: idx)))
             (fun i => b d i (nth d xs 0) * tensor (map (fun d => (n d, fun j => b d j (nth d xs 0))) ds) (fun idx => c (i :: idx)))).
    intros i Hi. apply near_mult.
    + destruct (H d i) as [H1 H2]. simpl; auto. apply (near_coord xs d (b d i)); auto.
    + apply IH. intros; apply H; simpl; auto.
Qed.

Lemma sval_continuous s xs :
  good_spline s -> (1 <= sp_order s)%nat -> length xs = sp_dim s ->
  (forall d, (d < sp_dim s)%nat -> strict_knots s d /\ (per_of s d = true -> periodic_knots s d)) ->
  continuous_at (sval s) xs.
Proof.
  intros G Hp Hl H. apply near_continuous. unfold sval.
  apply (near_tensor xs (seq 0 (sp_dim s)) (num_of s) (beta s)).
  intros d j Hd. apply in_seq in Hd. split; [lia|]. destruct (H d ltac:(lia)). apply beta_continuous; auto. lia.
Qed.

(** ** Mixed derivatives of tensor products *)
Lemma is_mixed_ext orders : forall f f' xs v,
  length orders = length xs ->
  (forall l, length l = length xs -> f l = f' l) -> is_mixed orders f xs v -> is_mixed orders f' xs v.
Proof.
  induction orders as [|a orders IH]; intros f f' [|x xs] v Hl H Hm; try discriminate; cbn [is_mixed] in *.
  - rewrite <- H; auto.
  - destruct Hm as (g & L & D). exists g. split; auto. revert L. apply filter_imp. intros y.
    apply IH; auto. intros l Hll. apply H. simpl. congruence.
Qed.

Definition tensorf (fs : list (nat * (nat -> R -> R))) (ys : list R) (c : list nat -> R) : R :=
  tensor (map2 (fun f y => (fst f, fun j => snd f j y)) fs ys) c.

Lemma locally_all_lt n (x : R) (Q : nat -> R -> Prop) :
  (forall j, (j < n)%nat -> locally x (Q j)) -> locally x (fun y => forall j, (j < n)%nat -> Q j y).
Proof.
  induction n; intros H.
  - apply filter_forall. intros; lia.
  - assert (L1 := IHn ltac:(intros; apply H; lia)). assert (L2 := H n ltac:(lia)).
    generalize (filter_and _ _ L1 L2). apply filter_imp. intros y [A B] j Hj.
    destruct (Nat.eq_dec j n). subst; auto. apply A; lia.
Qed.

Lemma is_mixed_tensor : forall (fs qs : list (nat * (nat -> R -> R))) xs orders c,
  length fs = length xs -> length orders = length xs -> map fst qs = map fst fs ->
  (forall d j, (d < length xs)%nat -> (j < fst (nth d fs (0%nat, fun _ _ => 0%R)))%nat ->
     locally (nth d xs 0) (fun y => snd (nth d fs (0%nat, fun _ _ => 0%R)) j y = snd (nth d qs (0%nat, fun _ _ => 0%R)) j y) /\
     forall b y, ex_derive_n (snd (nth d qs (0%nat, fun _ _ => 0%R)) j) b y) ->
  is_mixed orders (fun ys => tensorf fs ys c) xs
    (tensor (map2 (fun f ax => (fst f, fun j => Derive_n (snd f j) (fst ax) (snd ax))) qs (combine orders xs)) c).
Proof.
  induction fs as [|[n f] fs IH]; intros [|[n' q] qs] [|x xs] [|a orders] c H1 H2 H3 H; try discriminate.
  - reflexivity.
  - cbn [map fst] in H3. injection H3 as -> H3. cbn [is_mixed].
    set (D := map2 (fun f ax => (fst f, fun j => Derive_n (snd f j) (fst ax) (snd ax))) qs (combine orders xs)).
    exists (fun y => sum n (fun i => f i y * tensor D (fun idx => c (i :: idx)))).
    split.
    + apply filter_forall. intros y.
      apply (is_mixed_ext orders (fun l => tensorf fs l (fun idx => sum n (fun i => f i y * c (i :: idx))))).
      * simpl in H2; lia.
      * intros l Hl. unfold tensorf. cbn [map2 tensor fst snd]. rewrite Rsum_sum.
        rewrite tensor_sum. apply sum_ext. intros i Hi. apply tensor_scal.
      * replace (sum n (fun i => f i y * tensor D (fun idx => c (i :: idx)))) with
          (tensor D (fun idx => sum n (fun i => f i y * c (i :: idx)))).
        2:{ rewrite tensor_sum. apply sum_ext. intros i Hi. apply tensor_scal. }
        apply IH; try (simpl in *; lia); auto. intros d j Hd Hj. apply (H (S d) j); auto. simpl; lia.
    + cbn [map2 combine tensor fst snd]. fold D. rewrite Rsum_sum.
      assert (H0 : forall j, (j < n)%nat -> locally x (fun y => f j y = q j y) /\ forall b y, ex_derive_n (q j) b y).
      { intros j Hj. apply (H 0%nat j); simpl; auto. lia. }
      assert (L : locally x (fun y => forall j, (j < n)%nat -> f j y = q j y)).
      { apply locally_all_lt. intros j Hj. apply H0; auto. }
      set (K := fun i => tensor D (fun idx => c (i :: idx))).
      apply (is_derive_n_ext_loc (fun y => sum n (fun i => K i * q i y))).
      { revert L. apply filter_imp. intros y Hy. apply sum_ext. intros i Hi. rewrite Hy by auto. unfold K. ring. }
      replace (sum n (fun i => Derive_n (q i) a x * tensor D (fun idx => c (i :: idx)))) with
        (Derive_n (fun y => sum n (fun i => K i * q i y)) a x).
      * apply Derive_n_correct. 
        assert (Hex : forall m b y, (m <= n)%nat -> ex_derive_n (fun x => sum m (fun i => K i * q i x)) b y).
        { induction m; intros b y Hm; cbn [sum].
          - apply ex_derive_n_const.
          - apply ex_derive_n_plus; apply filter_forall; intros.
            + apply IHm; lia.
            + apply ex_derive_n_scal_l. apply H0. lia. }
        apply Hex; auto.
      * rewrite (Derive_n_lin n K q).
        -- apply sum_ext. intros i Hi. unfold K. ring.
        -- intros i b y Hi. apply H0; auto.
Qed.

(** ** Off the knots the basis functions are locally polynomials *)
Lemma beta_local s d x j : good_spline s -> (d < sp_dim s)%nat -> off_knots s d x ->
  locally x (fun y => beta s d j y = bpoly s d (snd (loc s d x)) j (y + (fst (loc s d x) - x))).
Proof.
  intros G Hd Ho. destruct (loc_spec s d x G Hd) as [Hw Hs]. specialize (Ho _ Hw).
  set (x' := fst (loc s d x)) in *. set (k := snd (loc s d x)) in *. set (t := kn (knot_of s d)) in *.
  assert (Hl := last_ge s d (gs_wf _ G) Hd).
  assert (LW : locally x (fun y => wrapped (per_of s d) (rng s d) y (y + (x' - x)))).
  { apply local_wrap; auto. intros Ep. fold x'. rewrite Ep in Hw. destruct Hw as [_ Hw].
    destruct (gs_ends _ G d Hd) as [Ea Eb]. fold t in Ea, Eb.
    assert (x' <> t (sp_order s)) by (apply Ho; lia).
    assert (x' <> t (last_of s d)) by (apply Ho; lia). assert (x' <> t (last_of s d + 1)%nat) by (apply Ho; lia).
    rewrite Ea in *. destruct Eb as [Eb|Eb]; rewrite Eb in *; destruct (Rle_dec (t (sp_order s)) x); lra. }
  destruct Hs as (H1 & H2 & H3 & H4).
  assert (LS : locally x (fun y => segment t (sp_order s) (last_of s d) (y + (x' - x)) k)).
  { apply (locally_shift (x' - x) x (fun z => segment t (sp_order s) (last_of s d) z k)).
    replace (x + (x' - x)) with x' by ring.
    assert (A : locally x' (fun y => k = sp_order s \/ t k <= y)).
    { destruct H3 as [->|H3]. apply filter_forall; auto. apply (filter_imp (fun y => t k < y)). intros; right; lra.
      apply locally_lt. assert (x' <> t k) by (apply Ho; lia). lra. }
    assert (B : locally x' (fun y => k = last_of s d \/ y < t (k + 1)%nat)).
    { destruct H4 as [E4|H4]. apply filter_forall; auto. apply (filter_imp (fun y => y < t (k + 1)%nat)). auto. apply locally_gt; auto. }
    generalize (filter_and _ _ A B). apply filter_imp. intros y [? ?]. split; auto. }
  generalize (filter_and _ _ LW LS). apply filter_imp. intros y [? ?]. apply beta_val; auto.
Qed.

Lemma bpoly_ex_derive_n s d k j a x : good_spline s -> (d < sp_dim s)%nat -> (sp_order s <= k <= last_of s d)%nat ->
  kn (knot_of s d) k < kn (knot_of s d) (k + 1) -> ex_derive_n (bpoly s d k j) a x /\
  Derive_n (bpoly s d k j) a x = sum (nbasis s d) (fun i => if (widx s d i =? j)%nat then Derive_n (piece (kn (knot_of s d)) k (sp_order s) i) a x else 0).
Proof.
  intros G Hd Hk Hs.
  set (c := fun i => if (widx s d i =? j)%nat then 1 else 0).
  assert (Hp : forall i b y, (i < nbasis s d)%nat -> ex_derive_n (piece (kn (knot_of s d)) k (sp_order s) i) b y).
  { intros i b y Hi. destruct (Nat.lt_ge_cases k i) as [Hc|Hc]; [|destruct (Nat.lt_ge_cases (i + sp_order s) k) as [Hc2|Hc2]].
    - apply (ex_derive_n_ext (fun _ => 0)). intros; rewrite piece_support; auto; lia. apply ex_derive_n_const.
    - apply (ex_derive_n_ext (fun _ => 0)). intros; rewrite piece_support; auto; lia. apply ex_derive_n_const.
    - pose proof (wf_len _ (gs_wf _ G) d Hd). unfold last_of in Hk.
      apply (piece_ex_derive_n _ (length (knot_of s d))); auto; try lia. intros. apply (gs_sorted _ G); auto. }
  assert (E : forall y, sum (nbasis s d) (fun i => c i * piece (kn (knot_of s d)) k (sp_order s) i y) = bpoly s d k j y).
  { intros y. apply sum_ext. intros i Hi. unfold c. destruct (widx s d i =? j)%nat; ring. }
  split.
  - apply (ex_derive_n_ext _ _ _ _ E).
    assert (Hex : forall m b y, (m <= nbasis s d)%nat -> ex_derive_n (fun x => sum m (fun i => c i * piece (kn (knot_of s d)) k (sp_order s) i x)) b y).
    { induction m; intros b y Hm; cbn [sum].
      - apply ex_derive_n_const.
      - apply ex_derive_n_plus; apply filter_forall; intros.
        + apply IHm; lia.
        + apply ex_derive_n_scal_l. apply Hp. lia. }
    apply Hex; auto.
  - rewrite <- (Derive_n_ext _ _ _ _ E). rewrite (Derive_n_lin (nbasis s d) c); auto.
    apply sum_ext. intros i Hi. unfold c. destruct (widx s d i =? j)%nat; ring.
Qed.

Lemma Derive_n_shift (f : R -> R) c a x : Derive_n (fun y => f (y + c)) a x = Derive_n f a (x + c).
Proof. apply (Derive_n_comp_trans f a x c). Qed.

Lemma ex_derive_n_shift (f : R -> R) c a x : ex_derive_n f a (x + c) -> ex_derive_n (fun y => f (y + c)) a x.
Proof. apply (ex_derive_n_comp_trans f a x c). Qed.

(** derivative_at, tensor over control points; derivative orders above the
    spline order included. *)
Lemma derivative_sval_hint on s coords :
  good_spline s -> length coords = sp_dim s ->
  (forall d, (d < sp_dim s)%nat -> (sp_order s <= snd (fst (nth d coords (0%R, 0%nat, 0%nat))) <= last_of s d)%nat) ->
  spline_derivative_at Rops on s coords = Ok (
    tensor (map (fun d => (num_of s d, fun j =>
       Derive_n (bpoly s d (snd (loc s d (fst (fst (nth d coords (0%R, 0%nat, 0%nat)))))) j)
         (snd (nth d coords (0%R, 0%nat, 0%nat))) (fst (loc s d (fst (fst (nth d coords (0%R, 0%nat, 0%nat))))))))
       (seq 0 (sp_dim s))) (ctrl_at Rops s)).
Proof.
  intros G Hc Hh. assert (W := gs_wf _ G).
  destruct (existsb (fun c => sp_order s <? snd c)%nat coords) eqn:Ex.
  - apply existsb_exists in Ex as (c & Hin & Hlt). apply Nat.ltb_lt in Hlt.
    destruct (In_nth _ _ (0%R, 0%nat, 0%nat) Hin) as (d & Hd & En). rewrite Hc in Hd.
    rewrite (derivative_high Rops on s coords d) by (rewrite ?Hc; auto; cbn [o0 Rops]; rewrite En; auto).
    f_equal. simpl o0. symmetry.
    assert (Hz : forall j, Derive_n (bpoly s d (snd (loc s d (fst (fst (nth d coords (0%R, 0%nat, 0%nat)))))) j)
         (snd (nth d coords (0%R, 0%nat, 0%nat))) (fst (loc s d (fst (fst (nth d coords (0%R, 0%nat, 0%nat)))))) = 0).
    { intros j. destruct (loc_spec s d (fst (fst (nth d coords (0%R, 0%nat, 0%nat)))) G Hd) as [_ (H1 & H2 & _)].
      destruct (bpoly_ex_derive_n s d (snd (loc s d (fst (fst (nth d coords (0%R, 0%nat, 0%nat)))))) j
        (snd (nth d coords (0%R, 0%nat, 0%nat))) (fst (loc s d (fst (fst (nth d coords (0%R, 0%nat, 0%nat)))))) G Hd H1 H2) as [_ ->].
      apply sum_0. intros i Hi. destruct (widx s d i =? j)%nat; auto.
      set (k := snd (loc s d (fst (fst (nth d coords (0%R, 0%nat, 0%nat)))))) in *.
      pose proof (wf_len _ W d Hd). unfold last_of in H1.
      destruct (Nat.lt_ge_cases k i) as [Hk|Hk]; [|destruct (Nat.lt_ge_cases (i + sp_order s) k) as [Hk2|Hk2]].
      - rewrite (Derive_n_ext _ (fun _ => 0)) by (intros; apply piece_support; lia).
        rewrite En. destruct (snd c); [lia|]. apply Derive_n_const.
      - rewrite (Derive_n_ext _ (fun _ => 0)) by (intros; apply piece_support; lia).
        rewrite En. destruct (snd c); [lia|]. apply Derive_n_const.
      - rewrite (Derive_n_ext _ (comb (kn (knot_of s d)) k (sp_order s) (fun j => if (j =? i)%nat then 1 else 0))).
        + apply (comb_derive_high _ (length (knot_of s d))); auto; try lia.
          intros; apply (gs_sorted _ G); auto. rewrite En; auto.
        + intros; apply (piece_comb _ (length (knot_of s d))); auto; try lia. }
    rewrite tensor_flat. apply sum_0. intros i Hi.
    replace (prodR _) with 0; [ring|]. symmetry.
    assert (Hpz : forall l, In 0 l -> prodR l = 0).
    { induction l; simpl; intros Hl; [tauto|]. destruct Hl as [->|Hl]. ring. rewrite IHl by auto. ring. }
    apply Hpz. unfold vals_at.
    apply unrank_valid in Hi. apply valid_length in Hi. rewrite !map_length, seq_length in Hi.
    match goal with |- In 0 ?L => set (L0 := L) end.
    assert (HL : length L0 = sp_dim s).
    { unfold L0. rewrite map2_length; rewrite !length_map_seq; auto. }
    assert (HN : nth d L0 1 = 0).
    { unfold L0. rewrite (map2_nth _ _ _ d (0%nat, fun _ => 0) 0%nat) by (rewrite ?length_map_seq; lia).
      rewrite nth_map_seq by auto. cbn [snd]. apply Hz. }
    rewrite <- HN. apply nth_In. lia.
  - assert (Ho : forall d, (d < sp_dim s)%nat -> (snd (nth d coords (0%R, 0%nat, 0%nat)) <= sp_order s)%nat).
    { intros d Hd. destruct (Nat.le_gt_cases (snd (nth d coords (0%R, 0%nat, 0%nat))) (sp_order s)); auto.
      assert (existsb (fun c => sp_order s <? snd c)%nat coords = true); [|congruence].
      apply existsb_exists. exists (nth d coords (0%R, 0%nat, 0%nat)). split. apply nth_In; lia. apply Nat.ltb_lt; auto. }
    destruct (derivative_tensor on s coords G Hc Hh Ho) as (iters & Hl & Hi & ->).
    f_equal. rewrite tensor_wrap by auto. f_equal. apply map_ext_seq. intros d Hd. f_equal.
    destruct (Hi d Hd) as [H1 H2].
    rewrite (loc_unique s d _ _ _ G Hd H1 H2). cbn [fst snd].
    destruct H2 as (K1 & K2 & _).
    apply functional_extensionality. intros j. symmetry.
    apply (bpoly_ex_derive_n s d _ j _ _ G Hd K1 K2).
Qed.

(** The result is the mixed derivative of the function computed by operator(). *)
Lemma derivative_is_mixed on s f xs orders :
  good_spline s -> (forall ys, length ys = sp_dim s -> spline_eval_plain Rops s ys = Ok (f ys)) ->
  length xs = sp_dim s -> length orders = sp_dim s ->
  (forall d, (d < sp_dim s)%nat -> off_knots s d (nth d xs 0)) ->
  exists v, spline_derivative_plain Rops on s (combine xs orders) = Ok v /\ is_mixed orders f xs v.
Proof.
  intros G Hf Hl Ho Hoff. unfold spline_derivative_plain.
  assert (Hn : forall d, (d < sp_dim s)%nat ->
     nth d (map (fun c : R * nat => (fst c, sp_order s, snd c)) (combine xs orders)) (0%R, 0%nat, 0%nat) = (nth d xs 0, sp_order s, nth d orders 0%nat)).
  { intros d Hd. rewrite (nth_indep _ _ ((fun c : R * nat => (fst c, sp_order s, snd c)) (0%R, 0%nat)))
      by (rewrite map_length, combine_length; lia).
    rewrite (map_nth (fun c : R * nat => (fst c, sp_order s, snd c))). rewrite combine_nth by lia. reflexivity. }
  rewrite derivative_sval_hint; auto.
  2:{ rewrite map_length, combine_length. lia. }
  2:{ intros d Hd. rewrite Hn by auto. cbn [fst snd]. split; auto. apply last_ge; auto. apply (gs_wf _ G). }
  eexists; split; [reflexivity|].
  set (fs := map (fun d => (num_of s d, beta s d)) (seq 0 (sp_dim s))).
  set (qs := map (fun d => (num_of s d, fun j y => bpoly s d (snd (loc s d (nth d xs 0))) j (y + (fst (loc s d (nth d xs 0)) - nth d xs 0)))) (seq 0 (sp_dim s))).
  apply (is_mixed_ext orders (fun ys => tensorf fs ys (ctrl_at Rops s))).
  - congruence.
  - intros ys Hy. rewrite Hl in Hy. pose proof (Hf ys Hy) as E. rewrite eval_sval in E by auto.
    injection E as <-. unfold tensorf, sval, fs. f_equal. rewrite map2_map_l.
    apply (nth_ext' _ _ (0%nat, fun _ => 0)).
    + rewrite map2_length, map_length; rewrite ?seq_length; auto.
    + intros d Hd. rewrite map2_length, seq_length in Hd by (rewrite seq_length; auto).
      rewrite (map2_nth _ _ _ d 0%nat 0) by (rewrite ?seq_length; lia). rewrite seq_nth by auto. rewrite nth_map_seq by auto.
      reflexivity.
  - pose proof (is_mixed_tensor fs qs xs orders (ctrl_at Rops s)) as H.
    replace (tensor _ _) with (tensor (map2 (fun f ax => (fst f, fun j => Derive_n (snd f j) (fst ax) (snd ax))) qs (combine orders xs)) (ctrl_at Rops s)).
    + apply H.
      * unfold fs. rewrite length_map_seq. auto.
      * congruence.
      * unfold fs, qs. rewrite !map_map. reflexivity.
      * intros d j Hd Hj. rewrite Hl in Hd. unfold fs, qs in *. rewrite nth_map_seq in * by auto.
        rewrite nth_map_seq by auto. cbn [fst snd] in *. split.
        -- apply beta_local; auto.
        -- intros b y. apply (ex_derive_n_shift (bpoly s d (snd (loc s d (nth d xs 0))) j)).
           destruct (loc_spec s d (nth d xs 0) G Hd) as [_ (H1 & H2 & _)].
           apply bpoly_ex_derive_n; auto.
    + f_equal. unfold qs. rewrite map2_map_l. cbn [fst snd].
      apply (nth_ext' _ _ (0%nat, fun _ => 0)).
      * rewrite map2_length, map_length; rewrite ?seq_length, ?combine_length; auto; lia.
      * intros d Hd. rewrite map2_length, seq_length in Hd by (rewrite seq_length, combine_length; lia).
        rewrite (map2_nth _ _ _ d 0%nat (0%nat, 0)) by (rewrite ?seq_length, ?combine_length; lia).
        rewrite seq_nth by auto. rewrite nth_map_seq by auto. rewrite combine_nth by congruence. cbn [fst snd plus].
        rewrite Hn by auto. cbn [fst snd]. f_equal. apply functional_extensionality. intros j.
        rewrite (Derive_n_shift (bpoly s d (snd (loc s d (nth d xs 0))) j)).
        rewrite Rplus_comm. unfold Rminus. rewrite Rplus_assoc, Rplus_opp_l, Rplus_0_r. reflexivity.
Qed.
