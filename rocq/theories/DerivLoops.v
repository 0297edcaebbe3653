(** derivative_at: the loops of the whole function. *)
From Coq Require Import List Arith Lia Bool ZArith Reals Lra.
From Coquelicot Require Import Coquelicot.
From Verif Require Import Base Num MeshM SplineM SpecMesh SpecBand SpecSpline MeshProofs SumR MulProofs
  SplineProofs TensorR BasisProofs EvalProofs EvalR DerivProofs.
Import ListNotations.
Open Scope nat_scope.

(** ** Filling the local meshes (any arithmetic) *)
Section Fill.
Context {T : Type} (o : ops T) (on : bool).
Notation z := (o0 o).

Lemma fill_ok (s : spline T) iters vals :
  wf_spline s -> good_iters o s iters -> good_vals s vals ->
  exists lsv lcp,
  for_ 0 (buf_size s) (mesh_make z (repeat (sp_order s + 1) (sp_dim s)), mesh_make z (repeat (sp_order s + 1) (sp_dim s)))
   (fun st i =>
    let '(lsv, lcp) := st in
    let local_ind := digits (sp_order s + 1) (sp_dim s) i in
    ' (coef, ind_arr) <- for_ 0 (sp_dim s) (o1 o, repeat 0 (sp_dim s)) (fun st d =>
        let '(coef, ind_arr) := st in
        a <- vget local_ind d ;;
        bs <- vget vals d ;;
        b <- vget bs a ;;
        a' <- shifted_index s iters d a ;;
        ind_arr' <- vset ind_arr d a' ;;
        Ok (omul o coef b, ind_arr')) ;;
    lsv <- mesh_set lsv local_ind coef ;;
    c <- mesh_get (sp_ctrl s) ind_arr ;;
    lcp <- mesh_set lcp local_ind c ;;
    Ok (lsv, lcp)) = Ok (lsv, lcp) /\
  m_dims lsv = repeat (sp_order s + 1) (sp_dim s) /\ m_dims lcp = repeat (sp_order s + 1) (sp_dim s) /\
  wf_mesh lsv /\ wf_mesh lcp /\
  forall idx, valid (repeat (sp_order s + 1) (sp_dim s)) idx ->
    mv z lsv idx = coef_of o s vals idx /\ mv z lcp idx = ctrl_at o s (gmap o s iters idx).
Proof.
  intros W G V. set (dims := repeat (sp_order s + 1) (sp_dim s)).
  match goal with |- context[for_ 0 ?hi ?s0 ?f] =>
    destruct (for_inv (fun i (st : mesh T * mesh T) =>
      m_dims (fst st) = dims /\ m_dims (snd st) = dims /\ wf_mesh (fst st) /\ wf_mesh (snd st) /\
      forall idx, valid dims idx -> rank_low (sp_order s + 1) idx < i ->
        mv z (fst st) idx = coef_of o s vals idx /\ mv z (snd st) idx = ctrl_at o s (gmap o s iters idx))
      0 hi s0 f) as ([lsv lcp] & E & A & B & C & D & F) end.
  - lia.
  - cbn [fst snd]. split; auto. split; auto. split. apply wf_mesh_make. split. apply wf_mesh_make. intros; lia.
  - intros i [lsv lcp] Hi (A & B & C & D & F). cbn [fst snd] in *. cbv zeta.
    assert (Hv : valid dims (digits (sp_order s + 1) (sp_dim s) i)) by (apply digits_valid; unfold buf_size in Hi; lia).
    rewrite (deriv_inner_ok o s iters vals _ W G V Hv). cbn [bind].
    destruct (mesh_set_mv z lsv (digits (sp_order s + 1) (sp_dim s) i) (coef_of o s vals (digits (sp_order s + 1) (sp_dim s) i)))
      as (lsv' & E1 & A1 & C1 & G1 & H1); auto. rewrite A; auto.
    rewrite E1. cbn [bind]. rewrite (ctrl_get o) by (auto; eapply gmap_valid; eauto). cbn [bind].
    destruct (mesh_set_mv z lcp (digits (sp_order s + 1) (sp_dim s) i)
       (ctrl_at o s (gmap o s iters (digits (sp_order s + 1) (sp_dim s) i))))
      as (lcp' & E2 & B2 & D2 & G2 & H2); auto. rewrite B; auto.
    rewrite E2. cbn [bind]. eexists; split; [reflexivity|]. cbn [fst snd].
    split; [congruence|]. split; [congruence|]. split; auto. split; auto.
    intros idx Hx Hr. destruct (Nat.eq_dec (rank_low (sp_order s + 1) idx) i) as [Er|Er].
    + assert (idx = digits (sp_order s + 1) (sp_dim s) i) as ->.
      { rewrite <- Er. symmetry. apply digits_rank; auto. } auto.
    + assert (idx <> digits (sp_order s + 1) (sp_dim s) i).
      { intros ->. apply Er. apply rank_digits. unfold buf_size in Hi; lia. }
      rewrite H1, H2 by (auto; congruence). apply F; auto. lia.
  - exists lsv, lcp. cbn [fst snd] in *. split; auto. split; auto. split; auto. split; auto. split; auto.
    intros idx Hx. apply F; auto. apply rank_low_lt; auto.
Qed.

(** The final summation. *)
Lemma final_ok (s : spline T) (lsv lcp : mesh T) a c :
  m_dims lsv = repeat (sp_order s + 1) (sp_dim s) -> m_dims lcp = repeat (sp_order s + 1) (sp_dim s) ->
  wf_mesh lsv -> wf_mesh lcp ->
  (forall idx, valid (repeat (sp_order s + 1) (sp_dim s)) idx -> mv z lsv idx = a idx /\ mv z lcp idx = c idx) ->
  for_ 0 (mesh_size lsv) z (fun v i =>
    a <- vget (m_data lsv) i ;;
    c <- vget (m_data lcp) i ;;
    Ok (oadd o v (omul o a c))) =
  Ok (fold_left (fun v i => oadd o v (omul o (a (unrank (repeat (sp_order s + 1) (sp_dim s)) i))
                                        (c (unrank (repeat (sp_order s + 1) (sp_dim s)) i)))) (seq 0 (buf_size s)) z).
Proof.
  intros A B C D F.
  assert (HA : length (m_data lsv) = buf_size s) by (rewrite C, A; apply prod_repeat).
  assert (HB : length (m_data lcp) = buf_size s) by (rewrite D, B; apply prod_repeat).
  assert (HS : mesh_size lsv = buf_size s).
  { unfold mesh_size. rewrite ?md_size_prod, ?A, ?HA. try apply prod_repeat; auto. }
  rewrite HS. apply for_pure. intros v i Hi.
  rewrite (vget_ok (m_data lsv) i z), (vget_ok (m_data lcp) i z) by lia. cbn [bind].
  assert (Hp : i < prod (repeat (sp_order s + 1) (sp_dim s))) by (rewrite prod_repeat; auto).
  destruct (F (unrank (repeat (sp_order s + 1) (sp_dim s)) i)) as [F1 F2]. apply unrank_valid; auto.
  rewrite <- F1, <- F2. unfold mv. rewrite A, B, unrank_rank by auto. reflexivity.
Qed.

(** The level of differentiation requested for each dimension. *)
Definition so_of (s : spline T) (coords : list (T * nat * nat)) : list nat :=
  map (fun c => if snd c <=? sp_order s then sp_order s - snd c else sp_order s + 1) coords.

Lemma so_of_nth (s : spline T) coords d :
  d < length coords -> (forall d, d < length coords -> snd (nth d coords (z, 0, 0)) <= sp_order s) ->
  nth d (so_of s coords) 0 = sp_order s - snd (nth d coords (z, 0, 0)).
Proof.
  intros Hd H. unfold so_of. specialize (H d Hd). revert d Hd H.
  induction coords as [|c coords IH]; intros [|d] Hd H; cbn [map nth length] in *; try lia.
  - destruct (Nat.leb_spec (snd c) (sp_order s)); auto; lia.
  - apply IH; auto. lia.
Qed.

Lemma so_of_small (s : spline T) coords :
  (forall d, d < length coords -> snd (nth d coords (z, 0, 0)) <= sp_order s) ->
  existsb (fun q => sp_order s <? q) (so_of s coords) = false.
Proof.
  intros H. unfold so_of. induction coords as [|c coords IH]; auto. cbn [map existsb].
  rewrite IH.
  - pose proof (H 0 ltac:(simpl; lia)) as H0. cbn [nth] in H0.
    destruct (Nat.leb_spec (snd c) (sp_order s)); [|lia].
    destruct (Nat.ltb_spec (sp_order s) (sp_order s - snd c)); auto; lia.
  - intros d Hd. apply (H (S d)). simpl; lia.
Qed.

(** Order larger than that of the spline: zero. *)
Lemma derivative_high (s : spline T) coords d :
  d < length coords -> sp_order s < snd (nth d coords (z, 0, 0)) ->
  spline_derivative_at o on s coords = Ok z.
Proof.
  intros Hd H. unfold spline_derivative_at. fold (so_of s coords).
  assert (existsb (fun q => sp_order s <? q) (so_of s coords) = true) as ->; auto.
  apply existsb_exists. exists (sp_order s + 1). split.
  - unfold so_of. apply in_map_iff. exists (nth d coords (z, 0, 0)). split.
    + destruct (Nat.leb_spec (snd (nth d coords (z, 0, 0))) (sp_order s)); auto; lia.
    + apply nth_In; auto.
  - apply Nat.ltb_lt. lia.
Qed.

(** Order zero everywhere: the same operations as operator(). *)
Lemma so_of_zero (s : spline T) coords :
  (forall d, d < length coords -> snd (nth d coords (z, 0, 0)) = 0) ->
  so_of s coords = repeat (sp_order s) (length coords).
Proof.
  induction coords as [|c coords IH]; intros H; auto. cbn [so_of map length repeat].
  f_equal.
  - specialize (H 0 ltac:(simpl; lia)). cbn [nth] in H. rewrite H. cbn [Nat.leb]. lia.
  - apply IH. intros d Hd. apply (H (S d)). simpl; lia.
Qed.

Lemma derivative_zero_run (s : spline T) coords iters vals :
  wf_spline s -> length coords = sp_dim s ->
  (forall d, d < sp_dim s -> snd (nth d coords (z, 0, 0)) = 0) ->
  get_knot_iters o s (map fst coords) = Ok iters ->
  calc_base_spline_vals o s iters (repeat (sp_order s) (sp_dim s)) = Ok vals ->
  good_iters o s iters -> good_vals s vals ->
  spline_derivative_at o on s coords = Ok (eval_value o s iters vals).
Proof.
  intros W Hc H0 E1 E2 G V. unfold spline_derivative_at. fold (so_of s coords).
  rewrite so_of_small by (intros d Hd; rewrite H0; lia).
  rewrite so_of_zero by (rewrite Hc; auto). rewrite Hc.
  rewrite E1. cbn [bind]. rewrite E2. cbn [bind].
  destruct (fill_ok s iters vals W G V) as (lsv & lcp & E & A & B & C & D & F).
  cbv zeta in E |- *. rewrite E. cbn [bind].
  rewrite (for_pure (sp_dim s) _ (fun l _ => l)).
  2:{ intros m d Hd. rewrite (vget_ok _ _ 0) by (rewrite repeat_length; auto). cbn [bind].
      rewrite nth_repeat_lt by auto. rewrite Nat.eqb_refl. reflexivity. }
  cbn [bind].
  assert (Hf : forall l (x : mesh T), fold_left (fun l (_ : nat) => l) l x = x) by (induction l; simpl; auto).
  rewrite Hf. unfold eval_value.
  apply (final_ok s lsv lcp (coef_of o s vals) (fun idx => ctrl_at o s (gmap o s iters idx))); auto.
Qed.
End Fill.

(** ** All dimensions *)
Open Scope R_scope.
Definition lineop (s : spline R) (iters : list (R * nat)) (so : list nat) (d : nat) (c : list nat -> R) : list nat -> R :=
  fun idx => dline (sp_order s) (snd (nth d iters (0%R, 0%nat))) (knot_of s d) (nth d so 0%nat)
    (fun pos => c (set_nth idx d pos)) (nth d idx 0%nat).

Definition lineops s iters so (n : nat) (c : list nat -> R) : list nat -> R :=
  fold_left (fun c d => lineop s iters so d c) (seq 0 n) c.

Lemma dims_loop_ok on s iters so lcp (c0 : list nat -> R) :
  good_spline s -> good_iters Rops s iters -> length so = sp_dim s ->
  (forall d, (d < sp_dim s)%nat -> (nth d so 0 <= sp_order s)%nat) ->
  (forall d, (d < sp_dim s)%nat ->
     kn (knot_of s d) (snd (nth d iters (0%R, 0%nat))) < kn (knot_of s d) (snd (nth d iters (0%R, 0%nat)) + 1)) ->
  m_dims lcp = repeat (sp_order s + 1)%nat (sp_dim s) -> wf_mesh lcp ->
  (forall idx, valid (repeat (sp_order s + 1)%nat (sp_dim s)) idx -> mv 0 lcp idx = c0 idx) ->
  exists m',
  for_ 0 (sp_dim s) lcp (fun lcp d =>
    q <- vget so d ;;
    if (q =? sp_order s)%nat then Ok lcp else
    n <- mesh_dim_size lcp d ;;
    hyper <- udiv (mesh_size lcp) n ;;
    for_ 0 hyper lcp (fun lcp i =>
      it <- mesh_begin on lcp d (digits_skip (sp_order s + 1) (sp_dim s) d i) ;;
      kn <- vget (sp_knots s) d ;;
      ki <- vget iters d ;;
      derive_line Rops (sp_order s) kn (snd ki) q lcp it)) = Ok m' /\
  m_dims m' = repeat (sp_order s + 1)%nat (sp_dim s) /\ wf_mesh m' /\
  forall idx, valid (repeat (sp_order s + 1)%nat (sp_dim s)) idx -> mv 0 m' idx = lineops s iters so (sp_dim s) c0 idx.
Proof.
  intros G Gi Hsl Hso Hseg Hdm Wl H0. assert (W := gs_wf _ G).
  match goal with |- context[for_ 0 ?hi ?s0 ?f] =>
    destruct (for_inv (fun n m' => m_dims m' = repeat (sp_order s + 1)%nat (sp_dim s) /\ wf_mesh m' /\
      forall idx, valid (repeat (sp_order s + 1)%nat (sp_dim s)) idx -> mv 0 m' idx = lineops s iters so n c0 idx)
      0 hi s0 f) as (m' & E & A & B & C) end.
  - lia.
  - split; auto.
  - intros d m Hd (A & B & C).
    rewrite (vget_ok so d 0%nat) by lia. cbn [bind].
    assert (Hstep : forall idx, lineops s iters so (d + 1) c0 idx = lineop s iters so d (lineops s iters so d c0) idx).
    { intros idx. unfold lineops. rewrite Nat.add_1_r, seq_S, fold_left_app. reflexivity. }
    assert (Hvd : forall idx, valid (repeat (sp_order s + 1)%nat (sp_dim s)) idx -> (nth d idx 0 <= sp_order s)%nat).
    { intros idx Hv. pose proof (local_lt s idx d Hv ltac:(lia)). lia. }
    destruct (Nat.eqb_spec (nth d so 0%nat) (sp_order s)) as [Eq|Ne].
    + exists m. split; auto. split; auto. split; auto. intros idx Hv. rewrite Hstep. unfold lineop.
      rewrite Eq, dline_order, set_nth_self. auto.
    + unfold mesh_dim_size. rewrite (vget_ok (m_dims m) d 0%nat) by (rewrite A, repeat_length; lia).
      cbn [bind]. rewrite A, nth_repeat_lt by lia. unfold udiv.
      destruct (Nat.eqb_spec (sp_order s + 1) 0); [lia|]. cbn [bind].
      assert (Hsz : (mesh_size m / (sp_order s + 1) = (sp_order s + 1) ^ (sp_dim s - 1))%nat).
      { unfold mesh_size. replace (length (m_data m)) with (prod (m_dims m)) by (symmetry; apply B).
        rewrite ?md_size_prod. rewrite A, prod_repeat. replace (sp_dim s) with (S (sp_dim s - 1)) at 1 by lia.
        cbn [Nat.pow]. rewrite Nat.mul_comm. apply Nat.div_mul. lia. }
      rewrite Hsz.
      destruct Gi as [Hil Hik]. specialize (Hik d ltac:(lia)). change (o0 Rops) with 0 in Hik.
      set (ki := snd (nth d iters (0%R, 0%nat))) in *.
      destruct (hyper_loop_ok on s ki d (nth d so 0%nat) m) as (m' & E & A' & B' & C'); auto.
      * lia. * apply Hso; lia. * apply (gs_sorted _ G); lia. * lia.
      * pose proof (wf_len _ W d ltac:(lia)). unfold last_of in Hik. lia.
      * apply Hseg; lia. * apply (wf_knots _ W).
      * exists m'. split.
        -- rewrite <- E. apply for_ext. intros m1 i Hi. destruct (mesh_begin on m1 d _); auto. cbn [bind].
           destruct (vget (sp_knots s) d); auto. cbn [bind]. rewrite (vget_ok iters d (0%R, 0%nat)) by lia. reflexivity.
        -- split; [congruence|]. split; auto. intros idx Hv. rewrite C' by (rewrite A; auto). rewrite Hstep.
           unfold lineop. fold ki. apply dline_ext; auto. intros p Hp. apply C. apply valid_set_nth; auto.
           rewrite nth_repeat_lt by lia. lia.
  - exists m'. auto.
Qed.

(** ** The tensor form *)
Lemma tensor_sum bs n (g : nat -> list nat -> R) :
  tensor bs (fun l => sum n (fun i => g i l)) = sum n (fun i => tensor bs (g i)).
Proof.
  induction n; cbn [sum].
  - rewrite (tensor_ext bs _ (fun _ => 0 * 0)) by (intros; simpl; ring).
    rewrite (tensor_scal bs 0 (fun _ => 0)). ring.
  - rewrite tensor_plus, IHn. reflexivity.
Qed.

Lemma tensor_lineop bs bs' d (F : (nat -> R) -> nat -> R) c :
  map fst bs = map fst bs' -> (d < length bs)%nat ->
  (forall e, e <> d -> nth e bs (0%nat, fun _ => 0) = nth e bs' (0%nat, fun _ => 0)) ->
  (forall f, sum (fst (nth d bs (0%nat, fun _ => 0))) (fun pos => snd (nth d bs (0%nat, fun _ => 0)) pos * F f pos) =
             sum (fst (nth d bs (0%nat, fun _ => 0))) (fun pos => snd (nth d bs' (0%nat, fun _ => 0)) pos * f pos)) ->
  tensor bs (fun idx => F (fun pos => c (set_nth idx d pos)) (nth d idx 0%nat)) = tensor bs' c.
Proof.
  revert bs' d c; induction bs as [|[m b] bs IH]; intros [|[m' b'] bs'] d c Hf Hd He Ha; try discriminate.
  - simpl in Hd; lia.
  - cbn [map fst] in Hf. injection Hf as <- Hf. cbn [tensor]. destruct d.
    + cbn [nth fst snd] in Ha.
      assert (Eb : bs = bs').
      { apply (nth_ext' _ _ (0%nat, fun _ => 0)).
        - rewrite <- (map_length fst bs), Hf, map_length. reflexivity.
        - intros i Hi. apply (He (S i)). lia. }
      subst bs'. rewrite !Rsum_sum. cbn [set_nth nth].
      transitivity (sum m (fun i => tensor bs (fun l => b i * F (fun pos => c (pos :: l)) i))).
      { apply sum_ext. intros. rewrite tensor_scal. reflexivity. }
      rewrite <- tensor_sum.
      transitivity (tensor bs (fun l => sum m (fun i => b' i * c (i :: l)))).
      { apply tensor_ext. intros idx _. apply (Ha (fun pos => c (pos :: idx))). }
      rewrite tensor_sum. apply sum_ext. intros. rewrite tensor_scal. reflexivity.
    + pose proof (He 0%nat ltac:(lia)) as H0. cbn [nth] in H0. injection H0 as <-.
      rewrite !Rsum_sum. apply sum_ext. intros i Hi. f_equal. cbn [set_nth nth].
      apply (IH bs' d (fun idx => c (i :: idx))); auto.
      * simpl in Hd; lia.
      * intros e Hed. apply (He (S e)). lia.
Qed.

Lemma tensor_lineops s iters so (b b' : nat -> nat -> R) c0 :
  (forall d f, (d < sp_dim s)%nat ->
     sum (sp_order s + 1) (fun pos => b d pos *
        dline (sp_order s) (snd (nth d iters (0%R, 0%nat))) (knot_of s d) (nth d so 0%nat) f pos) =
     sum (sp_order s + 1) (fun pos => b' d pos * f pos)) ->
  tensor (map (fun d => ((sp_order s + 1)%nat, b d)) (seq 0 (sp_dim s))) (lineops s iters so (sp_dim s) c0) =
  tensor (map (fun d => ((sp_order s + 1)%nat, b' d)) (seq 0 (sp_dim s))) c0.
Proof.
  intros Ha.
  assert (H : forall n, (n <= sp_dim s)%nat ->
    tensor (map (fun d => ((sp_order s + 1)%nat, if (d <? n)%nat then b d else b' d)) (seq 0 (sp_dim s))) (lineops s iters so n c0) =
    tensor (map (fun d => ((sp_order s + 1)%nat, b' d)) (seq 0 (sp_dim s))) c0).
  { induction n; intros Hn.
    - reflexivity.
    - rewrite <- IHn by lia.
      assert (Hstep : forall idx, lineops s iters so (S n) c0 idx = lineop s iters so n (lineops s iters so n c0) idx).
      { intros idx. unfold lineops. rewrite seq_S, fold_left_app. reflexivity. }
      rewrite (tensor_ext _ _ _ (fun idx _ => Hstep idx)). unfold lineop.
      apply (tensor_lineop _ _ n (fun f pos => dline (sp_order s) (snd (nth n iters (0%R, 0%nat))) (knot_of s n) (nth n so 0%nat) f pos)).
      + rewrite !map_map. reflexivity.
      + rewrite length_map_seq. lia.
      + intros e He. destruct (Nat.lt_ge_cases e (sp_dim s)).
        * rewrite !nth_map_seq by auto. f_equal.
          destruct (Nat.ltb_spec e (S n)), (Nat.ltb_spec e n); auto; lia.
        * rewrite !nth_overflow by (rewrite length_map_seq; auto). reflexivity.
      + intros f. rewrite !nth_map_seq by lia. cbn [fst snd].
        destruct (Nat.ltb_spec n (S n)); [|lia]. destruct (Nat.ltb_spec n n); [lia|]. apply Ha; lia. }
  rewrite <- (H (sp_dim s)) by auto. f_equal. apply map_ext_seq. intros d Hd.
  destruct (Nat.ltb_spec d (sp_dim s)); auto; lia.
Qed.

(** ** One dimension: the derivative of the basis functions *)
Lemma Derive_n_lin n (c : nat -> R) (f : nat -> R -> R) a :
  (forall i b x, (i < n)%nat -> ex_derive_n (f i) b x) ->
  forall x, Derive_n (fun x => sum n (fun i => c i * f i x)) a x = sum n (fun i => c i * Derive_n (f i) a x).
Proof.
  induction n; intros Hf x; cbn [sum].
  - destruct a. reflexivity. apply Derive_n_const.
  - assert (Hex : forall m b y, (m <= n)%nat -> ex_derive_n (fun x => sum m (fun i => c i * f i x)) b y).
    { induction m; intros b y Hm; cbn [sum].
      - apply ex_derive_n_const.
      - apply ex_derive_n_plus; apply filter_forall; intros.
        + apply IHm; lia.
        + apply ex_derive_n_scal_l. apply Hf. lia. }
    rewrite (Derive_n_plus (fun x => sum n (fun i => c i * f i x)) (fun x => c n * f n x)).
    + rewrite IHn by (intros; apply Hf; lia). rewrite Derive_n_scal_l. reflexivity.
    + apply filter_forall. intros; apply Hex; lia.
    + apply filter_forall. intros. apply ex_derive_n_scal_l. apply Hf; lia.
Qed.

Section OneDim.
Variables (t : nat -> R) (N k p : nat).
Hypothesis Hmono : forall i j, (i <= j < N)%nat -> t i <= t j.
Hypothesis Hseg : t k < t (k + 1)%nat.
Hypothesis Hp : (p <= k)%nat.
Hypothesis Hk : (k + 1 < N)%nat.
Hypothesis HN : (k + p < N)%nat.

Lemma piece_comb i x : (k - p <= i <= k)%nat ->
  piece t k p i x = comb t k p (fun j => if (j =? i)%nat then 1 else 0) x.
Proof.
  intros Hi. unfold comb. symmetry.
  rewrite (sum_single (p + 1) (i - (k - p))).
  2: lia.
  2:{ intros j Hj Hne. destruct (Nat.eqb_spec (k - p + j) i); [lia|ring]. }
  destruct (Nat.eqb_spec (k - p + (i - (k - p))) i); [|lia].
  replace (k - p + (i - (k - p)))%nat with i by lia. ring.
Qed.

Lemma piece_ex_derive_n i a x : (k - p <= i <= k)%nat -> ex_derive_n (piece t k p i) a x.
Proof.
  intros Hi. apply (ex_derive_n_ext (comb t k p (fun j => if (j =? i)%nat then 1 else 0))).
  - intros y. symmetry. apply piece_comb; auto.
  - apply (comb_ex_derive_n t N k); auto.
Qed.

Lemma piece_adjoint a f x : (a <= p)%nat ->
  comb t k (p - a) (dcoefs t a p f) x =
  sum (p + 1) (fun j => Derive_n (piece t k p (k - p + j)) a x * f (k - p + j)%nat).
Proof.
  intros Ha. rewrite <- (comb_derive_n t N k) by auto. unfold comb.
  rewrite (Derive_n_lin (p + 1) (fun j => f (k - p + j)%nat) (fun j => piece t k p (k - p + j))).
  - apply sum_ext. intros; ring.
  - intros i b y Hi. apply piece_ex_derive_n. lia.
Qed.
End OneDim.

Lemma line_adjoint order k knots so b x f :
  nondecreasing knots -> (order <= k)%nat -> (k + order < length knots)%nat -> (k + 1 < length knots)%nat ->
  kn knots k < kn knots (k + 1) -> (so <= order)%nat ->
  bsv_level order knots k x so b ->
  sum (order + 1) (fun pos => nth pos b 0 * dline order k knots so f pos) =
  sum (order + 1) (fun pos => Derive_n (piece (kn knots) k order (k - order + pos)) (order - so) x * f pos).
Proof.
  intros Hnd Hk1 Hk2 Hk3 Hs Hso (Hl & Hz & Hb).
  transitivity (comb (kn knots) k (order - (order - so)) (dcoefs (kn knots) (order - so) order (fun i => f (i - (k - order))%nat)) x).
  - unfold comb. replace (order - (order - so))%nat with so by lia.
    replace (order + 1)%nat with ((order - so) + (so + 1))%nat by lia. rewrite sum_app.
    rewrite (sum_0 (order - so)) by (intros i Hi; rewrite Hz by auto; ring). rewrite Rplus_0_l.
    apply sum_ext. intros j Hj. rewrite Hb by lia.
    rewrite dline_dcoefs by lia.
    replace (k - order + (order - so + j))%nat with (k - so + j)%nat by lia. ring.
  - rewrite (piece_adjoint (kn knots) (length knots) k order) by (auto; lia).
    apply sum_ext. intros j Hj. f_equal. f_equal. lia.
Qed.

(** ** The value of derivative_at *)
Lemma derivative_tensor on s coords :
  good_spline s -> length coords = sp_dim s ->
  (forall d, (d < sp_dim s)%nat -> (sp_order s <= snd (fst (nth d coords (0%R, 0%nat, 0%nat))) <= last_of s d)%nat) ->
  (forall d, (d < sp_dim s)%nat -> (snd (nth d coords (0%R, 0%nat, 0%nat)) <= sp_order s)%nat) ->
  exists iters,
    length iters = sp_dim s /\
    (forall d, (d < sp_dim s)%nat ->
       wrapped (per_of s d) (rng s d) (fst (fst (nth d coords (0%R, 0%nat, 0%nat)))) (fst (nth d iters (0%R, 0%nat))) /\
       segment (kn (knot_of s d)) (sp_order s) (last_of s d) (fst (nth d iters (0%R, 0%nat))) (snd (nth d iters (0%R, 0%nat)))) /\
    spline_derivative_at Rops on s coords = Ok (
      tensor (map (fun d => (nbasis s d, fun i =>
          Derive_n (piece (kn (knot_of s d)) (snd (nth d iters (0%R, 0%nat))) (sp_order s) i)
                   (snd (nth d coords (0%R, 0%nat, 0%nat))) (fst (nth d iters (0%R, 0%nat)))))
                  (seq 0 (sp_dim s)))
             (fun idx => ctrl_at Rops s (wrap_idx s idx))).
Proof.
  intros G Hc Hh Ho. assert (W := gs_wf _ G).
  assert (Hfst : forall d, nth d (map fst coords) (0%R, 0%nat) = fst (nth d coords (0%R, 0%nat, 0%nat))).
  { intros d. rewrite <- (map_nth fst). reflexivity. }
  destruct (spline_iters_ok s (map fst coords) G) as (iters & E & Gi & H).
  { rewrite map_length; auto. }
  { intros d Hd. rewrite Hfst. auto. }
  exists iters. split. apply Gi. split.
  { intros d Hd. rewrite <- Hfst. auto. }
  set (so := so_of s coords).
  assert (Hsl : length so = sp_dim s) by (unfold so, so_of; rewrite map_length; auto).
  assert (Hson : forall d, (d < sp_dim s)%nat -> nth d so 0%nat = (sp_order s - snd (nth d coords (0%R, 0%nat, 0%nat)))%nat).
  { intros d Hd. unfold so. rewrite (so_of_nth Rops); auto. lia. rewrite Hc. auto. }
  assert (Hseg : forall d, (d < sp_dim s)%nat ->
     kn (knot_of s d) (snd (nth d iters (0%R, 0%nat))) < kn (knot_of s d) (snd (nth d iters (0%R, 0%nat)) + 1)).
  { intros d Hd. destruct (H d Hd) as [_ (_ & ? & _)]. auto. }
  destruct (calc_vals_ok s iters so) as (vals & Ev & Gv & Hv); auto.
  { intros d Hd. rewrite Hson by auto. lia. }
  unfold spline_derivative_at. fold (so_of s coords). fold so.
  replace (existsb (fun q => sp_order s <? q)%nat so) with false
    by (symmetry; apply (so_of_small Rops); rewrite Hc; auto).
  rewrite E. cbn [bind]. rewrite Ev. cbn [bind].
  destruct (fill_ok Rops s iters vals W Gi Gv) as (lsv & lcp & Ef & A & B & C & D & F).
  cbv zeta in Ef |- *. rewrite Ef. cbn [bind].
  destruct (dims_loop_ok on s iters so lcp (fun idx => ctrl_at Rops s (gmap Rops s iters idx)) G Gi Hsl)
    as (m' & Em & Am & Bm & Cm); auto.
  { intros d Hd. rewrite Hson by auto. lia. }
  { intros idx Hi. apply (F idx Hi). }
  rewrite Em. cbn [bind].
  rewrite (final_ok Rops s lsv m' (coef_of Rops s vals) (lineops s iters so (sp_dim s) (fun idx => ctrl_at Rops s (gmap Rops s iters idx)))); auto.
  2:{ intros idx Hi. split; auto. apply (F idx Hi). }
  f_equal. change (o0 Rops) with 0.
  rewrite (fold_left_sum (fun i => omul Rops _ _)). rewrite Rplus_0_l.
  transitivity (tensor (local_bs s vals) (lineops s iters so (sp_dim s) (fun idx => ctrl_at Rops s (gmap Rops s iters idx)))).
  - rewrite tensor_flat, map_fst_local, prod_repeat. unfold buf_size. apply sum_ext. intros i Hi. simpl omul.
    rewrite coef_of_prod; auto.
    rewrite (valid_length (repeat (sp_order s + 1)%nat (sp_dim s))), repeat_length; auto.
    apply unrank_valid. rewrite prod_repeat. auto.
  - unfold local_bs.
    rewrite (tensor_lineops s iters so (fun d a => nth a (nth d vals []) 0)
       (fun d pos => Derive_n (piece (kn (knot_of s d)) (snd (nth d iters (0%R, 0%nat))) (sp_order s) (snd (nth d iters (0%R, 0%nat)) - sp_order s + pos))
          (snd (nth d coords (0%R, 0%nat, 0%nat))) (fst (nth d iters (0%R, 0%nat))))).
    + rewrite (tensor_global s iters (fun d i =>
          Derive_n (piece (kn (knot_of s d)) (snd (nth d iters (0%R, 0%nat))) (sp_order s) i)
                   (snd (nth d coords (0%R, 0%nat, 0%nat))) (fst (nth d iters (0%R, 0%nat)))))
        with (c := ctrl_at Rops s); auto.
      intros d i Hd Hi.
      rewrite (Derive_n_ext _ (fun _ => 0)).
      * destruct (snd (nth d coords (0%R, 0%nat, 0%nat))). reflexivity. apply Derive_n_const.
      * intros x. apply piece_support. destruct Gi as [_ Gi]. specialize (Gi d Hd). simpl in Gi. lia.
    + intros d f Hd.
      destruct Gi as [Hil Gi]. specialize (Gi d Hd). simpl in Gi. pose proof (wf_len _ W d Hd). unfold last_of in Gi.
      rewrite (line_adjoint (sp_order s) _ (knot_of s d) (nth d so 0%nat) (nth d vals []) (fst (nth d iters (0%R, 0%nat))));
        auto; try lia.
      * apply sum_ext. intros pos Hpos. rewrite Hson by auto.
        replace (sp_order s - (sp_order s - snd (nth d coords (0%R, 0%nat, 0%nat))))%nat with (snd (nth d coords (0%R, 0%nat, 0%nat)))
          by (specialize (Ho d Hd); lia). reflexivity.
      * apply (gs_sorted _ G); auto.
      * rewrite Hson by auto. lia.
Qed.
