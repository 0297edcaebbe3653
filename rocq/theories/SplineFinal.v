(** The spline results in the form of the property theorems. *)
From Coq Require Import List Arith Lia Bool ZArith QArith Reals Lra.
From Coquelicot Require Import Coquelicot.
From Verif Require Import Base Num MeshM SplineM SpecMesh SpecBand SpecSpline SpecCalc MeshProofs SumR MulProofs
  SplineProofs TensorR BasisProofs EvalProofs EvalR DerivProofs DerivLoops SafeProofs BetaProofs SplineTop SplineCalc.
Import ListNotations.
Open Scope R_scope.

Lemma mapM_ext_in {A B} (f g : A -> res B) l : (forall a, In a l -> f a = g a) -> mapM f l = mapM g l.
Proof.
  induction l; intros H; cbn [mapM]; auto. rewrite H by (simpl; auto). rewrite IHl; auto. intros; apply H; simpl; auto.
Qed.

Lemma sum_S_first n f : sum (S n) f = f 0%nat + sum n (fun i => f (S i)).
Proof. induction n; cbn [sum] in *; [ring|]. rewrite IHn. ring. Qed.

(** ** Basis values *)
Lemma base_values_are_bsplines order knots k x so :
  nondecreasing knots -> (order <= k)%nat -> (k + order + 1 < length knots)%nat ->
  kn knots k <= x < kn knots (k + 1) -> (so <= order)%nat ->
  exists b, base_spline_value Rops order knots k x so = Ok b /\ length b = (order + 1)%nat /\
    (forall j, (j < order - so)%nat -> nth j b 0 = 0) /\
    (forall j, (j <= so)%nat -> nth (order - so + j) b 0 = bspline (kn knots) so (k - so + j) x) /\
    (forall i, (i + so + 1 < length knots)%nat -> (i + so < k \/ k < i)%nat -> bspline (kn knots) so i x = 0).
Proof.
  intros Hnd Hk Hl Hx Hso.
  destruct (base_spline_value_ok order knots k Hnd Hk ltac:(lia) ltac:(lia) ltac:(lra) x so Hso) as (b & E & H1 & H2 & H3).
  exists b. split; auto. split; auto. split; auto. split.
  - intros j Hj. rewrite H3 by auto. symmetry. apply bspline_piece; auto.
    intros; apply Hnd; lia.
  - intros i Hi Hc. rewrite (bspline_piece _ k); auto. apply piece_support; lia. intros; apply Hnd; lia.
Qed.

Lemma Rsum_list (b : list R) n : length b = n -> fold_right Rplus 0 b = Rsum n (fun j => nth j b 0).
Proof.
  intros <-. rewrite Rsum_sum. induction b; cbn [fold_right length]; [reflexivity|].
  rewrite sum_S_first. rewrite IHb. reflexivity.
Qed.

Lemma base_values_unity order knots k x :
  nondecreasing knots -> (order <= k)%nat -> (k + order + 1 < length knots)%nat -> kn knots k < kn knots (k + 1) ->
  exists b, base_spline_value Rops order knots k x order = Ok b /\ length b = (order + 1)%nat /\
    fold_right Rplus 0 b = 1 /\
    (kn knots k <= x <= kn knots (k + 1) -> List.Forall (fun v => 0 <= v) b).
Proof.
  intros Hnd Hk Hl Hs.
  destruct (base_spline_value_ok order knots k Hnd Hk ltac:(lia) ltac:(lia) Hs x order ltac:(lia)) as (b & E & H1 & H2 & H3).
  exists b. split; auto. split; auto. split.
  - rewrite (Rsum_list b (order + 1)), Rsum_sum by auto.
    rewrite <- (piece_unity (kn knots) (length knots) k Hnd ltac:(lia) Hs order x Hk ltac:(lia)).
    apply sum_ext. intros j Hj. specialize (H3 j ltac:(lia)). replace (order - order + j)%nat with j in H3 by lia. auto.
  - intros Hx. apply List.Forall_forall. intros v Hv. destruct (In_nth _ _ 0 Hv) as (j & Hj & <-).
    specialize (H3 j ltac:(lia)). replace (order - order + j)%nat with j in H3 by lia. rewrite H3.
    apply (piece_nonneg (kn knots) (length knots)); auto; lia.
Qed.

(** ** Knot lookup *)
Lemma knot_lookup {T} (o : ops T) order periodic knots range x x' hint dflt :
  total_order o ->
  (forall i j, (order <= i <= j)%nat -> (j <= length knots - order - 2)%nat ->
     ole o (nth i knots dflt) (nth j knots dflt) = true) ->
  (order <= hint)%nat -> (hint + order + 2 <= length knots)%nat ->
  wrap_coord o periodic range x = Ok x' ->
  exists k, get_knot_iter o order periodic knots range x hint = Ok (x', k) /\
    (order <= k <= length knots - order - 2)%nat /\
    (k = order \/ ole o (nth k knots dflt) x' = true) /\
    (k = (length knots - order - 2)%nat \/ olt o x' (nth (k + 1) knots dflt) = true).
Proof.
  intros Hto Hs H1 H2 E.
  destruct (get_knot_iter_ok o Hto dflt knots order periodic range x x' hint E H1 H2 Hs) as (k & Ek & K). eauto.
Qed.

Lemma knot_lookup_real order periodic knots range x hint :
  nondecreasing knots -> (order <= hint)%nat -> (hint + order + 2 <= length knots)%nat ->
  kn knots order < kn knots (order + 1) ->
  kn knots (length knots - order - 2) < kn knots (length knots - order - 1) ->
  (periodic = true -> fst range < snd range) ->
  exists x' k, get_knot_iter Rops order periodic knots range x hint = Ok (x', k) /\
    wrapped periodic range x x' /\
    segment (kn knots) order (length knots - order - 2) x' k.
Proof.
  intros Hnd H1 H2 Hf Hl Hr. destruct (wrap_coord_R periodic range x Hr) as (x' & E & Hw).
  destruct (get_knot_iter_ok Rops Rops_total 0 knots order periodic range x x' hint E H1 H2) as (k & Ek & K).
  { apply sorted_on_R; auto. lia. }
  exists x', k. split; auto. split; auto. apply seg_in_R in K; auto; try lia.
  replace (length knots - order - 2 + 1)%nat with (length knots - order - 1)%nat by lia. auto.
Qed.

(** ** Hints *)
Lemma hint_irrelevant {T} (o : ops T) order periodic knots range x h1 h2 dflt :
  total_order o ->
  (forall i j, (order <= i <= j)%nat -> (j <= length knots - order - 2)%nat ->
     ole o (nth i knots dflt) (nth j knots dflt) = true) ->
  (order <= h1)%nat -> (h1 + order + 2 <= length knots)%nat ->
  (order <= h2)%nat -> (h2 + order + 2 <= length knots)%nat ->
  get_knot_iter o order periodic knots range x h1 = get_knot_iter o order periodic knots range x h2.
Proof.
  intros Hto Hs H1 H2 H3 H4. destruct (wrap_coord o periodic range x) as [x'|e|f] eqn:E.
  - destruct (get_knot_iter_ok o Hto dflt knots order periodic range x x' h1 E H1 H2 Hs) as (k & Ek & K).
    destruct (get_knot_iter_ok o Hto dflt knots order periodic range x x' h2 E H3 H4 Hs) as (k2 & Ek2 & K2).
    rewrite Ek, Ek2. do 2 f_equal. apply (seg_in_unique o Hto dflt knots _ _ _ _ _ Hs K K2).
  - unfold get_knot_iter. rewrite !usub_ok by lia. cbn [bind]. rewrite usub_ok by lia. cbn [bind].
    unfold get_knot_iter_last. rewrite E. reflexivity.
  - unfold get_knot_iter. rewrite !usub_ok by lia. cbn [bind]. rewrite usub_ok by lia. cbn [bind].
    unfold get_knot_iter_last. rewrite E. reflexivity.
Qed.

(** Knots in order, for the arithmetic at hand. *)
Definition sorted_knots {T} (o : ops T) (s : spline T) : Prop :=
  forall d i j, (d < sp_dim s)%nat -> (sp_order s <= i <= j)%nat -> (j <= last_of s d)%nat ->
    ole o (nth i (knot_of s d) (o0 o)) (nth j (knot_of s d) (o0 o)) = true.

Definition hints_ok {T} (s : spline T) (hints : list nat) : Prop :=
  length hints = sp_dim s /\
  forall d, (d < sp_dim s)%nat -> (sp_order s <= nth d hints 0%nat <= last_of s d)%nat.

Lemma iters_hint {T} (o : ops T) s xs h1 h2 :
  total_order o -> wf_spline s -> sorted_knots o s -> length xs = sp_dim s -> hints_ok s h1 -> hints_ok s h2 ->
  get_knot_iters o s (combine xs h1) = get_knot_iters o s (combine xs h2).
Proof.
  intros Hto W Hs Hl [A1 A2] [B1 B2]. unfold get_knot_iters.
  apply mapM_ext_in. intros d Hd. apply in_seq in Hd.
  rewrite !(vget_ok (combine xs _) d (o0 o, 0%nat)) by (rewrite combine_length; lia). cbn [bind].
  rewrite !combine_nth by lia. rewrite vget_per by lia. cbn [bind].
  rewrite (vget_ok (sp_knots s) d []) by (rewrite (wf_knots _ W); lia). cbn [bind].
  destruct (vget (sp_range s) d); cbn [bind fst snd]; auto.
  fold (knot_of s d). pose proof (wf_len _ W d ltac:(lia)). specialize (A2 d ltac:(lia)). specialize (B2 d ltac:(lia)).
  unfold last_of in *.
  apply (hint_irrelevant o) with (dflt := o0 o); auto; try lia.
  intros; apply (Hs d); auto; lia.
Qed.

Lemma eval_hint {T} (o : ops T) s xs h1 h2 :
  total_order o -> wf_spline s -> sorted_knots o s -> length xs = sp_dim s -> hints_ok s h1 -> hints_ok s h2 ->
  spline_eval o s (combine xs h1) = spline_eval o s (combine xs h2).
Proof. intros. unfold spline_eval. rewrite (iters_hint o s xs h1 h2); auto. Qed.

Lemma combine_map_fst {A B} (l : list A) (l' : list B) : length l = length l' -> map fst (combine l l') = l.
Proof. revert l'; induction l; intros [|b l']; simpl; intros; try discriminate; auto. f_equal; auto. Qed.
Lemma combine_map_snd {A B} (l : list A) (l' : list B) : length l = length l' -> map snd (combine l l') = l'.
Proof. revert l'; induction l; intros [|b l']; simpl; intros; try discriminate; auto. f_equal; auto. Qed.

Lemma derivative_hint {T} (o : ops T) on s xs h1 h2 orders :
  total_order o -> wf_spline s -> sorted_knots o s -> length xs = sp_dim s -> length orders = sp_dim s ->
  hints_ok s h1 -> hints_ok s h2 ->
  spline_derivative_at o on s (combine (combine xs h1) orders) = spline_derivative_at o on s (combine (combine xs h2) orders).
Proof.
  intros Hto W Hs Hl Ho A B. unfold spline_derivative_at.
  assert (E : forall h : list nat, length h = sp_dim s -> map fst (combine (combine xs h) orders) = combine xs h).
  { intros. apply combine_map_fst. rewrite combine_length. lia. }
  assert (E2 : forall h : list nat, length h = sp_dim s ->
    map (fun c => if (snd c <=? sp_order s)%nat then (sp_order s - snd c)%nat else (sp_order s + 1)%nat) (combine (combine xs h) orders)
    = map (fun a => if (a <=? sp_order s)%nat then (sp_order s - a)%nat else (sp_order s + 1)%nat) orders).
  { intros h Hh. rewrite <- (combine_map_snd (combine xs h) orders) at 2 by (rewrite combine_length; lia).
    rewrite map_map. reflexivity. }
  rewrite (E h1), (E h2), (E2 h1), (E2 h2) by (apply A || apply B).
  rewrite (iters_hint o s xs h1 h2); auto.
Qed.

(** ** Evaluation *)
Lemma nth_combine_hint {A} (xs : list A) (h : list nat) d dx : length xs = length h -> nth d (combine xs h) (dx, 0%nat) = (nth d xs dx, nth d h 0%nat).
Proof. intros. apply combine_nth; auto. Qed.

Lemma eval_is_tensor s xs hints :
  good_spline s -> length xs = sp_dim s -> hints_ok s hints ->
  exists xs' ks, length xs' = sp_dim s /\ length ks = sp_dim s /\
    (forall d, (d < sp_dim s)%nat ->
       wrapped (per_of s d) (rng s d) (nth d xs 0) (nth d xs' 0) /\
       segment (kn (knot_of s d)) (sp_order s) (last_of s d) (nth d xs' 0) (nth d ks 0%nat)) /\
    spline_eval Rops s (combine xs hints) = Ok (
      tensor (map (fun d => (nbasis s d, fun i => piece (kn (knot_of s d)) (nth d ks 0%nat) (sp_order s) i (nth d xs' 0)))
                  (seq 0 (sp_dim s)))
             (fun idx => ctrl_at Rops s (wrap_idx s idx))).
Proof.
  intros G Hl [H1 H2].
  destruct (eval_tensor s (combine xs hints) G) as (iters & Hil & Hi & E).
  { rewrite combine_length; lia. }
  { intros d Hd. rewrite nth_combine_hint by lia. apply H2; auto. }
  exists (map fst iters), (map snd iters). rewrite !map_length. split; auto. split; auto.
  assert (N1 : forall d, nth d (map fst iters) 0 = fst (nth d iters (0%R, 0%nat))) by (intros; rewrite <- (map_nth fst); auto).
  assert (N2 : forall d, nth d (map snd iters) 0%nat = snd (nth d iters (0%R, 0%nat))) by (intros; rewrite <- (map_nth snd); auto).
  split.
  - intros d Hd. rewrite N1, N2. specialize (Hi d Hd). rewrite nth_combine_hint in Hi by lia. apply Hi.
  - rewrite E. do 2 f_equal. apply map_ext. intros d. rewrite N1, N2. reflexivity.
Qed.

(** With the coordinate inside the range the basis functions are the B-splines. *)
Lemma eval_is_bspline_sum s xs hints xs' :
  good_spline s -> length xs = sp_dim s -> hints_ok s hints ->
  (forall d, (d < sp_dim s)%nat ->
     wrapped (per_of s d) (rng s d) (nth d xs 0) (nth d xs' 0) /\
     kn (knot_of s d) (sp_order s) <= nth d xs' 0 < kn (knot_of s d) (last_of s d + 1)) ->
  spline_eval Rops s (combine xs hints) = Ok (
    tensor (map (fun d => (nbasis s d, fun i => bspline (kn (knot_of s d)) (sp_order s) i (nth d xs' 0)))
                (seq 0 (sp_dim s)))
           (fun idx => ctrl_at Rops s (wrap_idx s idx))).
Proof.
  intros G Hl Hh Hx. destruct (eval_is_tensor s xs hints G Hl Hh) as (ys & ks & _ & _ & H & ->).
  f_equal. apply tensor_ext_gen.
  - rewrite !map_map. reflexivity.
  - intros d i Hd Hi. rewrite length_map_seq in Hd. rewrite map_map in Hi. rewrite !nth_map_seq in * by auto. cbn [fst snd] in *.
    destruct (H d Hd) as [Hw (K1 & K2 & K3 & K4)]. destruct (Hx d Hd) as [Hw' Hr].
    assert (E : nth d ys 0 = nth d xs' 0).
    { eapply wrapped_unique; [|exact Hw|exact Hw']. destruct (per_of s d) eqn:Ep; auto. left. apply (gs_range _ G); auto. }
    rewrite E in *. symmetry. apply bspline_piece.
    + intros a b Hab Hb. apply (gs_sorted _ G d Hd). unfold nbasis in Hi. pose proof (wf_len _ (gs_wf _ G) d Hd).
      unfold last_of in *. lia.
    + split.
      * destruct K3 as [->|]; lra.
      * destruct K4 as [->|]; lra.
  - auto.
Qed.

Lemma eval_hull s xs lo hi :
  good_spline s -> length xs = sp_dim s ->
  (forall d, (d < sp_dim s)%nat -> in_range s d (nth d xs 0)) ->
  (forall c, In c (m_data (sp_ctrl s)) -> lo <= c <= hi) ->
  exists v, spline_eval_plain Rops s xs = Ok v /\ lo <= v <= hi.
Proof.
  intros G Hl Hr Hc. exists (sval s xs). split. apply eval_sval; auto. apply convex_hull; auto.
  intros idx Hv. apply Hc. unfold ctrl_at. apply nth_In. rewrite (wf_ctrl _ (gs_wf _ G)). apply row_major_lt; auto.
Qed.

(** ** Safety *)
Lemma eval_safe {T} (o : ops T) on s xs hints orders :
  divides o -> wf_spline s -> length xs = sp_dim s -> hints_ok s hints -> length orders = sp_dim s ->
  ((exists v, spline_eval o s (combine xs hints) = Ok v) \/ spline_eval o s (combine xs hints) = Fault DivByZero) /\
  ((exists v, spline_derivative_at o on s (combine (combine xs hints) orders) = Ok v) \/
    spline_derivative_at o on s (combine (combine xs hints) orders) = Fault DivByZero).
Proof.
  intros Ho W Hl [H1 H2] Hlo. split; apply post_div.
  - apply spline_eval_safe; auto using divides_quiet. rewrite combine_length; lia.
    intros d Hd. rewrite combine_nth by lia. apply H2; auto.
  - apply spline_derivative_safe; auto using divides_quiet. rewrite !combine_length; lia.
    intros d Hd. rewrite combine_nth by (rewrite combine_length; lia). cbn [fst]. rewrite combine_nth by lia. apply H2; auto.
Qed.

Lemma eval_total {T} (o : ops T) on s xs hints orders :
  total_ops o -> wf_spline s -> length xs = sp_dim s -> hints_ok s hints -> length orders = sp_dim s ->
  (exists v, spline_eval o s (combine xs hints) = Ok v) /\
  (exists v, spline_derivative_at o on s (combine (combine xs hints) orders) = Ok v).
Proof.
  intros Ho W Hl [H1 H2] Hlo. split; apply post_total.
  - apply spline_eval_safe; auto using total_quiet. rewrite combine_length; lia.
    intros d Hd. rewrite combine_nth by lia. apply H2; auto.
  - apply spline_derivative_safe; auto using total_quiet. rewrite !combine_length; lia.
    intros d Hd. rewrite combine_nth by (rewrite combine_length; lia). cbn [fst]. rewrite combine_nth by lia. apply H2; auto.
Qed.

Lemma eval_ok_real on s xs hints orders :
  good_spline s -> length xs = sp_dim s -> hints_ok s hints -> length orders = sp_dim s ->
  (exists v, spline_eval Rops s (combine xs hints) = Ok v) /\
  (exists v, spline_derivative_at Rops on s (combine (combine xs hints) orders) = Ok v).
Proof.
  intros G Hl [H1 H2] Hlo. split.
  - rewrite eval_sval_hint; eauto. rewrite combine_length; lia.
    intros d Hd. rewrite nth_combine_hint by lia. apply H2; auto.
  - rewrite derivative_sval_hint; eauto. rewrite !combine_length; lia.
    intros d Hd. rewrite combine_nth by (rewrite combine_length; lia). cbn [fst]. rewrite nth_combine_hint by lia. apply H2; auto.
Qed.

(** ** Periodicity *)
Lemma eval_periodic s xs ys d (m : Z) :
  good_spline s -> length xs = sp_dim s -> length ys = sp_dim s -> (d < sp_dim s)%nat ->
  periodic_knots s d ->
  ((1 <= sp_order s)%nat \/ length (knot_of s d) = (num_of s d + 2 * sp_order s + 2)%nat) ->
  (forall e, (e < sp_dim s)%nat -> e <> d -> nth e ys 0 = nth e xs 0) ->
  nth d ys 0 = nth d xs 0 + IZR m * (snd (rng s d) - fst (rng s d)) ->
  spline_eval_plain Rops s ys = spline_eval_plain Rops s xs.
Proof.
  intros G Hx Hy Hd PK Hc He E. rewrite !eval_sval by auto. f_equal. apply sval_ext.
  intros e j Hee. destruct (Nat.eq_dec e d) as [->|Hne].
  - rewrite E. apply beta_periodic; auto.
  - rewrite He; auto.
Qed.

(** ** Derivatives *)
Lemma derivative_value on s xs hints orders :
  good_spline s -> length xs = sp_dim s -> hints_ok s hints -> length orders = sp_dim s ->
  (forall d, (d < sp_dim s)%nat -> (nth d orders 0 <= sp_order s)%nat) ->
  exists xs' ks, length xs' = sp_dim s /\ length ks = sp_dim s /\
    (forall d, (d < sp_dim s)%nat ->
       wrapped (per_of s d) (rng s d) (nth d xs 0) (nth d xs' 0) /\
       segment (kn (knot_of s d)) (sp_order s) (last_of s d) (nth d xs' 0) (nth d ks 0%nat)) /\
    spline_derivative_at Rops on s (combine (combine xs hints) orders) = Ok (
      tensor (map (fun d => (nbasis s d, fun i =>
                     Derive_n (piece (kn (knot_of s d)) (nth d ks 0%nat) (sp_order s) i) (nth d orders 0%nat) (nth d xs' 0)))
                  (seq 0 (sp_dim s)))
             (fun idx => ctrl_at Rops s (wrap_idx s idx))).
Proof.
  intros G Hl [H1 H2] Hlo Hor.
  assert (Hn : forall d, (d < sp_dim s)%nat -> nth d (combine (combine xs hints) orders) (0%R, 0%nat, 0%nat) =
     (nth d xs 0, nth d hints 0%nat, nth d orders 0%nat)).
  { intros d Hd. rewrite combine_nth by (rewrite combine_length; lia). rewrite nth_combine_hint by lia. reflexivity. }
  destruct (derivative_tensor on s (combine (combine xs hints) orders) G) as (iters & Hil & Hi & E).
  { rewrite !combine_length; lia. }
  { intros d Hd. rewrite Hn by auto. apply H2; auto. }
  { intros d Hd. rewrite Hn by auto. apply Hor; auto. }
  exists (map fst iters), (map snd iters). rewrite !map_length. split; auto. split; auto.
  assert (N1 : forall d, nth d (map fst iters) 0 = fst (nth d iters (0%R, 0%nat))) by (intros; rewrite <- (map_nth fst); auto).
  assert (N2 : forall d, nth d (map snd iters) 0%nat = snd (nth d iters (0%R, 0%nat))) by (intros; rewrite <- (map_nth snd); auto).
  split.
  - intros d Hd. rewrite N1, N2. specialize (Hi d Hd). rewrite Hn in Hi by lia. apply Hi.
  - rewrite E. do 2 f_equal. apply map_ext_seq. intros d Hd. rewrite N1, N2, Hn by auto. reflexivity.
Qed.

Lemma derivative_order_zero {T} (o : ops T) on s xs hints :
  divides o -> wf_spline s -> length xs = sp_dim s -> hints_ok s hints ->
  spline_derivative_at o on s (combine (combine xs hints) (repeat 0%nat (sp_dim s))) = spline_eval o s (combine xs hints).
Proof.
  intros Ho W Hl [H1 H2].
  rewrite (derivative_zero_is_eval _ o on (divides_quiet o Ho)); auto.
  - f_equal. apply combine_map_fst. rewrite combine_length, repeat_length; lia.
  - rewrite !combine_length, repeat_length; lia.
  - intros d Hd. rewrite combine_nth by (rewrite combine_length, repeat_length; lia). cbn [fst]. rewrite combine_nth by lia. apply H2; auto.
  - intros d Hd. rewrite combine_nth by (rewrite combine_length, repeat_length; lia). cbn [snd]. apply nth_repeat.
Qed.

Lemma derivative_order_high {T} (o : ops T) on (s : spline T) coords d :
  (d < length coords)%nat -> (sp_order s < snd (nth d coords (o0 o, 0, 0)))%nat ->
  spline_derivative_at o on s coords = Ok (o0 o).
Proof. apply derivative_high. Qed.

(** ** Local influence *)
(** Index [j] belongs to one of the order+1 basis functions of segment [k]. *)
Definition attached {T} (s : spline T) (d k j : nat) : Prop :=
  exists i, (k <= i + sp_order s /\ i <= k)%nat /\ j = (if per_of s d then i mod num_of s d else i)%nat.

Lemma influence {T} (o : ops T) s s' xs hints iters :
  divides o -> wf_spline s -> wf_spline s' ->
  sp_order s' = sp_order s -> sp_per s' = sp_per s -> sp_knots s' = sp_knots s -> sp_range s' = sp_range s ->
  m_dims (sp_ctrl s') = m_dims (sp_ctrl s) ->
  length xs = sp_dim s -> hints_ok s hints ->
  get_knot_iters o s (combine xs hints) = Ok iters ->
  (forall idx, valid (m_dims (sp_ctrl s)) idx ->
     (forall d, (d < sp_dim s)%nat -> attached s d (snd (nth d iters (o0 o, 0%nat))) (nth d idx 0%nat)) ->
     ctrl_at o s' idx = ctrl_at o s idx) ->
  spline_eval o s' (combine xs hints) = spline_eval o s (combine xs hints).
Proof.
  intros Ho W W' A B C D E Hl [H1 H2] Ei H.
  assert (G : good_iters o s iters).
  { pose proof (get_knot_iters_post _ o (divides_quiet o Ho) s (combine xs hints) W) as P. rewrite Ei in P. apply P.
    - rewrite combine_length; lia.
    - intros d Hd. rewrite combine_nth by lia. apply H2; auto. }
  apply (local_influence _ o (divides_quiet o Ho) s s' _ iters); auto.
  - split; auto. split; auto. split; auto. split; auto. split; auto. apply (wf_ctrl _ W').
  - intros idx Hv Ha. rewrite (ctrl_get o s idx W Hv). rewrite (ctrl_get o s' idx W') by (rewrite E; auto).
    f_equal. apply H; auto. intros d Hd. destruct (Ha d Hd) as (a & Ha1 & Ha2).
    destruct G as [_ G]. specialize (G d Hd).
    exists (a + (snd (nth d iters (o0 o, 0%nat)) - sp_order s))%nat. split. lia. auto.
Qed.

(** ** Continuity *)
Lemma eval_continuous s f xs :
  good_spline s -> (forall ys, length ys = sp_dim s -> spline_eval_plain Rops s ys = Ok (f ys)) ->
  (1 <= sp_order s)%nat -> length xs = sp_dim s ->
  (forall d, (d < sp_dim s)%nat -> strict_knots s d /\ (per_of s d = true -> periodic_knots s d)) ->
  continuous_at f xs.
Proof.
  intros G Hf Hp Hl H.
  assert (E : forall ys, length ys = sp_dim s -> f ys = sval s ys).
  { intros ys Hy. specialize (Hf ys Hy). rewrite eval_sval in Hf by auto. congruence. }
  intros eps He. destruct (sval_continuous s xs G Hp Hl H eps He) as (dl & H1 & H2).
  exists dl. split; auto. intros ys Hy Hd. rewrite !E by congruence. apply H2; auto.
Qed.
