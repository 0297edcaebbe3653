(** Monotone control points give a monotone function. *)
From Coq Require Import List Arith Lia Bool ZArith Reals Lra FunctionalExtensionality.
From Coquelicot Require Import Coquelicot.
From Verif Require Import Base Num MeshM SplineM SpecMesh SpecBand SpecSpline SpecSplineObj SpecCalc MeshProofs SumR MulProofs
  SplineProofs TensorR BasisProofs EvalProofs EvalR DerivProofs DerivLoops BetaProofs SplineTop SplineCalc SpecSmooth SmoothProofs SmoothTop SpecMono.
Import ListNotations.
Open Scope R_scope.

(** ** Sums of the last basis functions *)
Definition tail (t : nat -> R) (k p M m : nat) (x : R) : R := sum (M - m) (fun i => piece t k p (m + i) x).

Lemma telescope (A : nat -> R) m : forall L, sum L (fun i => A (m + i)%nat - A (m + i + 1)%nat) = A m - A (m + L)%nat.
Proof.
  induction L; simpl. rewrite Nat.add_0_r. ring.
  rewrite IHL. replace (m + S L)%nat with (m + L + 1)%nat by lia. ring.
Qed.

Section Tail.
Variables (t : nat -> R) (N k M : nat).
Hypothesis Hm : forall i j, (i <= j < N)%nat -> t i <= t j.
Hypothesis Hk : (k + 1 < N)%nat.
Hypothesis Hs : t k < t (k + 1)%nat.
Hypothesis HM : (k < M)%nat.

Lemma tail_derive p m (x : R) : (M + S p < N)%nat -> (m <= M)%nat ->
  is_derive (fun x : R => tail t k (S p) M m x) x (INR (S p) * (frac 1 (t (m + S p)%nat - t m) * piece t k p m x)).
Proof.
  intros HN Hmm. unfold tail.
  pose (A i := frac 1 (t (i + S p)%nat - t i) * piece t k p i x).
  replace (INR (S p) * (frac 1 (t (m + S p)%nat - t m) * piece t k p m x))
    with (sum (M - m) (fun i => dp t k 1 (S p) (m + i) x)).
  - apply (is_derive_sum (M - m) (fun i x => piece t k (S p) (m + i) x)). intros i Hi.
    apply (dp_derive t N k 0 Hm Hk Hs (S p) (m + i) x). lia.
  - transitivity (sum (M - m) (fun i => INR (S p) * (A (m + i)%nat - A (m + i + 1)%nat))).
    + apply sum_ext. intros i Hi. unfold A. cbn [dp].
      replace (m + i + 1 + S p)%nat with (m + i + S p + 1)%nat by lia. reflexivity.
    + rewrite sum_scal, telescope. replace (m + (M - m))%nat with M by lia.
      replace (A M) with 0. unfold A. ring. unfold A. rewrite piece_support by lia. ring.
Qed.

Lemma frac_nonneg a b : 0 <= a -> 0 <= b -> 0 <= frac a b.
Proof. intros Ha Hb. unfold frac. destruct (Req_EM_T b 0); [lra|]. apply Rdiv_le_0_compat; lra. Qed.

(** Monotone on the segment; for order at most 1 everywhere. *)
Lemma tail_mono p m x y : (M + p < N)%nat -> (m <= M)%nat -> x <= y ->
  (p <= 1)%nat \/ (t k <= x /\ y <= t (k + 1)%nat) -> tail t k p M m x <= tail t k p M m y.
Proof.
  intros HN Hmm Hxy Hr. destruct p as [|p].
  - right. reflexivity.
  - destruct (Req_dec x y) as [->|Ne]; [lra|].
    destruct (MVT_gen (fun x : R => tail t k (S p) M m x) x y (fun x : R => INR (S p) * (frac 1 (t (m + S p)%nat - t m) * piece t k p m x))) as (c & Hc & E).
    + intros z Hz. apply tail_derive; auto.
    + intros z Hz. apply continuity_pt_filterlim. apply (ex_derive_continuous (K := R_AbsRing) (V := R_NormedModule) (fun x : R => tail t k (S p) M m x)).
      eexists. apply tail_derive; auto.
    + rewrite Rmin_left, Rmax_right in Hc by lra.
      assert (0 <= INR (S p) * (frac 1 (t (m + S p)%nat - t m) * piece t k p m c)).
      { apply Rmult_le_pos; [apply pos_INR|]. apply Rmult_le_pos.
        - apply frac_nonneg; [lra|]. assert (t m <= t (m + S p)%nat) by (apply Hm; lia). lra.
        - destruct Hr as [Hp|Hr].
          + replace p with 0%nat by lia. unfold piece; simpl. destruct (Nat.eqb m k); lra.
          + apply (piece_nonneg t N k Hm Hk Hs); [lia|lra]. }
      assert (0 <= tail t k (S p) M m y - tail t k (S p) M m x) by (rewrite E; apply Rmult_le_pos; lra). lra.
Qed.
End Tail.

(** ** Across segments *)
Lemma segments_mono (t : nat -> R) (g : nat -> R -> R) (Q : Prop) lo hi :
  (forall k x y, (lo <= k <= hi)%nat -> x <= y -> (k = lo /\ Q) \/ t k <= x -> (k = hi /\ Q) \/ y <= t (k + 1)%nat -> g k x <= g k y) ->
  (forall k, (lo <= k < hi)%nat -> g k (t (k + 1)%nat) <= g (k + 1)%nat (t (k + 1)%nat)) ->
  (forall k, (lo <= k <= hi)%nat -> t k <= t (k + 1)%nat) ->
  forall n k x y, (lo <= k)%nat -> (k + n <= hi)%nat -> x <= y ->
    (k = lo /\ Q) \/ t k <= x -> (n = 0%nat \/ x <= t (k + 1)%nat) ->
    (n = 0%nat \/ t (k + n)%nat <= y) -> (k + n = hi /\ Q)%nat \/ y <= t (k + n + 1)%nat -> g k x <= g (k + n)%nat y.
Proof.
  intros H1 H2 Ht. induction n; intros k x y Hlo Hhi Hxy Hx Hx' Hy' Hy.
  - rewrite Nat.add_0_r in Hhi, Hy |- *. apply H1; auto.
  - destruct Hx' as [|Hx']; [lia|]. destruct Hy' as [|Hy']; [lia|].
    replace (k + S n)%nat with (k + 1 + n)%nat in * by lia.
    assert (Hmid : t (k + 1)%nat <= t (k + 1 + n)%nat).
    { assert (forall j, (j <= n)%nat -> t (k + 1)%nat <= t (k + 1 + j)%nat); [|auto].
      induction j; intros Hj; [rewrite Nat.add_0_r; lra|]. replace (k + 1 + S j)%nat with (k + 1 + j + 1)%nat by lia.
      apply Rle_trans with (t (k + 1 + j)%nat); [apply IHj; lia|apply Ht; lia]. }
    apply Rle_trans with (g k (t (k + 1)%nat)).
    { apply H1; auto; [lia|]. right. lra. }
    apply Rle_trans with (g (k + 1)%nat (t (k + 1)%nat)).
    { apply H2. lia. }
    apply IHn; auto; try lia; try lra.
    right. apply Ht. lia.
Qed.

(** ** Summation by parts *)
Lemma abel_pos : forall n (e c : nat -> R),
  (forall m, (1 <= m <= n)%nat -> 0 <= sum (n - m) (fun i => e (m + i)%nat)) ->
  (forall i, (S i < n)%nat -> c i <= c (S i)) -> c 0%nat * sum n e <= sum n (fun i => e i * c i).
Proof.
  induction n; intros e c He Hc; [simpl; lra|].
  rewrite !sum_S_l. destruct n as [|n]; [simpl; lra|].
  pose proof (IHn (fun i => e (S i)) (fun i => c (S i))) as I.
  assert (I1 : c 1%nat * sum (S n) (fun i => e (S i)) <= sum (S n) (fun i => e (S i) * c (S i))).
  { apply I.
    - intros m Hm. apply (He (S m)). lia.
    - intros i Hi. apply Hc. lia. }
  assert (0 <= sum (S n) (fun i => e (S i))).
  { specialize (He 1%nat ltac:(lia)). replace (S (S n) - 1)%nat with (S n) in He by lia. exact He. }
  assert (c 0%nat <= c 1%nat) by (apply Hc; lia). nra.
Qed.

Lemma abel_le n (b b' c : nat -> R) :
  (forall m, (1 <= m <= n)%nat -> sum (n - m) (fun i => b (m + i)%nat) <= sum (n - m) (fun i => b' (m + i)%nat)) ->
  sum n b = sum n b' -> (forall i, (S i < n)%nat -> c i <= c (S i)) ->
  sum n (fun i => b i * c i) <= sum n (fun i => b' i * c i).
Proof.
  intros H E Hc. pose proof (abel_pos n (fun i => b' i - b i) c) as A.
  rewrite sum_minus in A.
  assert (A' : c 0%nat * (sum n b' - sum n b) <= sum n (fun i => (b' i - b i) * c i)).
  { apply A; auto. intros m Hm. rewrite sum_minus. specialize (H m Hm). lra. }
  replace (sum n (fun i => (b' i - b i) * c i)) with (sum n (fun i => b' i * c i) - sum n (fun i => b i * c i)) in A'
    by (rewrite <- sum_minus; apply sum_ext; intros; ring).
  rewrite E in A'. lra.
Qed.

(** ** Tensor products *)
Fixpoint up (n : nat -> nat) (d0 : nat) (ds : list nat) (c : list nat -> R) : Prop :=
  match ds with
  | [] => True
  | e :: ds => if (e =? d0)%nat then forall i idx, (S i < n e)%nat -> valid (map n ds) idx -> c (i :: idx) <= c (S i :: idx)
               else forall i, (i < n e)%nat -> up n d0 ds (fun idx => c (i :: idx))
  end.

Lemma up_seq n r : forall L a c,
  (r < L)%nat ->
  (forall idx, valid (map n (seq a L)) idx -> (S (nth r idx 0) < n (a + r))%nat -> c idx <= c (with_at idx r (S (nth r idx 0%nat)))) ->
  up n (a + r) (seq a L) c.
Proof.
  induction r; intros L a c HL H; (destruct L as [|L]; [lia|]); cbn [seq up].
  - rewrite Nat.add_0_r, Nat.eqb_refl in *. intros i idx Hi V.
    apply (H (i :: idx)); auto. cbn [seq map]. apply valid_cons. split; auto. lia.
  - destruct (Nat.eqb_spec a (a + S r)); [lia|]. intros i Hi. replace (a + S r)%nat with (S a + r)%nat by lia.
    apply IHr; [lia|]. intros idx V Hlt. apply (H (i :: idx)).
    + cbn [seq map]. apply valid_cons. auto.
    + cbn [nth]. replace (a + S r)%nat with (S a + r)%nat by lia. auto.
Qed.

Lemma tensor_le_coef (n : nat -> nat) (b : nat -> nat -> R) : forall ds c c', (forall e i, In e ds -> (i < n e)%nat -> 0 <= b e i) ->
  (forall idx, valid (map n ds) idx -> c idx <= c' idx) ->
  tensor (map (fun e => (n e, b e)) ds) c <= tensor (map (fun e => (n e, b e)) ds) c'.
Proof.
  induction ds as [|e ds IH]; intros c c' Hb Hc; cbn [map tensor].
  - apply Hc. constructor.
  - rewrite !Rsum_sum. apply sum_le. intros i Hi. apply Rmult_le_compat_l; [apply Hb; simpl; auto|].
    apply IH. { intros; apply Hb; simpl; auto. } intros idx V. apply Hc. cbn [map]. apply valid_cons. auto.
Qed.

Lemma tensor_mono (n : nat -> nat) d0 (f f' : nat -> R) (b : nat -> nat -> R) : forall ds c,
  NoDup ds -> In d0 ds ->
  (forall c', (forall i, (S i < n d0)%nat -> c' i <= c' (S i)) -> sum (n d0) (fun i => f i * c' i) <= sum (n d0) (fun i => f' i * c' i)) ->
  (forall e i, In e ds -> e <> d0 -> (i < n e)%nat -> 0 <= b e i) -> up n d0 ds c ->
  tensor (map (fun e => (n e, fun j => if (e =? d0)%nat then f j else b e j)) ds) c <=
  tensor (map (fun e => (n e, fun j => if (e =? d0)%nat then f' j else b e j)) ds) c.
Proof.
  intros ds c ND HI Hf. revert c. induction ds as [|e ds IH]; intros c Hb HU; [destruct HI|].
  inversion ND as [|? ? N1 N2]; subst. cbn [map tensor up] in *. rewrite !Rsum_sum. destruct (Nat.eqb_spec e d0) as [->|Ne].
  - assert (X : forall h : nat -> R, map (fun e => (n e, fun j => if (e =? d0)%nat then h j else b e j)) ds = map (fun e => (n e, b e)) ds).
    { intros h. apply map_ext_in. intros e He. f_equal. apply functional_extensionality. intros j.
      destruct (Nat.eqb_spec e d0); auto. subst. contradiction. }
    rewrite !X. apply Hf. intros i Hi. apply tensor_le_coef.
    + intros e j He Hj. apply Hb; simpl; auto. intros ->. contradiction.
    + intros idx V. apply HU; auto.
  - apply sum_le. intros i Hi. apply Rmult_le_compat_l; [apply Hb; simpl; auto|].
    apply IH; auto. { destruct HI; [congruence|auto]. } intros; apply Hb; simpl; auto.
Qed.

(** ** Splines *)
Lemma beta_ap s d j x : good_spline s -> (d < sp_dim s)%nat -> per_of s d = false -> (j < nbasis s d)%nat ->
  beta s d j x = piece (kn (knot_of s d)) (snd (loc s d x)) (sp_order s) j x.
Proof.
  intros G Hd Ep Hj. destruct (loc_spec s d x G Hd) as [Hw _]. rewrite Ep in Hw. cbn in Hw.
  unfold beta, bpoly, widx. rewrite Ep, Hw.
  rewrite (sum_single _ j); [rewrite Nat.eqb_refl; reflexivity|auto|]. intros i Hi Hne. destruct (Nat.eqb_spec i j); [lia|auto].
Qed.

Section Spl.
Variables (s : spline R) (d : nat).
Hypothesis G : good_spline s.
Hypothesis Hd : (d < sp_dim s)%nat.
Hypothesis Ep : per_of s d = false.
Hypothesis SK : strict_knots s d.

Lemma beta_tail_mono m x y : (m <= num_of s d)%nat -> x <= y -> (sp_order s <= 1)%nat \/ (in_range s d x /\ in_range s d y) ->
  sum (num_of s d - m) (fun i => beta s d (m + i) x) <= sum (num_of s d - m) (fun i => beta s d (m + i) y).
Proof.
  intros Hm Hxy Hr. pose proof (wf_num _ (gs_wf _ G) d Hd) as HN. rewrite Ep in HN. pose proof (wf_len _ (gs_wf _ G) d Hd) as HL.
  assert (EN : num_of s d = nbasis s d) by exact HN.
  set (t := kn (knot_of s d)). set (p := sp_order s). set (M := nbasis s d). rewrite EN in *. fold M in Hm |- *.
  assert (ET : forall z, sum (M - m) (fun i => beta s d (m + i) z) = tail t (snd (loc s d z)) p M m z).
  { intros z. unfold tail. apply sum_ext. intros i Hi. apply beta_ap; auto. fold M. lia. }
  rewrite !ET.
  destruct (loc_spec s d x G Hd) as [Wx Sx]. destruct (loc_spec s d y G Hd) as [Wy Sy]. rewrite Ep in Wx, Wy. cbn in Wx, Wy.
  rewrite Wx in Sx. rewrite Wy in Sy. set (k := snd (loc s d x)) in *. set (l := snd (loc s d y)) in *.
  destruct Sx as (K1 & K2 & K3 & K4). destruct Sy as (L1 & L2 & L3 & L4). fold t p in K1, K2, K3, K4, L1, L2, L3, L4.
  assert (Sorted : forall i j, (i <= j < length (knot_of s d))%nat -> t i <= t j) by (intros; apply (gs_sorted _ G); auto).
  unfold last_of in *. fold p in SK, HL, HN, K1, K4, L1, L4. unfold M, nbasis in *. fold p in Hm |- *.
  set (hi := (length (knot_of s d) - p - 2)%nat) in *.
  assert (Hkl : (k <= l)%nat).
  { destruct (Nat.le_gt_cases k l) as [|C]; auto. exfalso.
    destruct K3 as [E|K3]; [lia|]. destruct L4 as [E|L4]; [lia|]. assert (t (l + 1)%nat <= t k) by (apply Sorted; lia). lra. }
  pose proof (segments_mono t (fun k x => tail t k p (length (knot_of s d) - p - 1) m x) ((p <= 1)%nat) p hi) as SM.
  replace l with (k + (l - k))%nat by lia.
  assert (IR : (p <= 1)%nat \/ (t p <= x /\ y <= t (hi + 1)%nat)).
  { destruct Hr as [Hr|[Hx Hy]]; [auto|right]. unfold in_range in Hx, Hy. rewrite Ep in Hx, Hy.
    destruct Hx as [|Hx]; [discriminate|]. destruct Hy as [|Hy]; [discriminate|]. unfold last_of in Hy. fold t p hi in Hx, Hy. lra. }
  apply SM; clear SM.
  - intros j u v Hj Huv Hu Hv.
    assert (t j < t (j + 1)%nat) by (apply SK; unfold last_of; fold p hi; lia).
    apply (tail_mono t (length (knot_of s d))); auto; try lia.
    destruct Hu as [[_ Q]|Hu]; [left; exact Q|]. destruct Hv as [[_ Q]|Hv]; [left; exact Q|]. right. auto.
  - intros j Hj. unfold tail. destruct (Nat.eq_dec p 0) as [E0|].
    + rewrite E0. destruct (Nat.le_gt_cases m j) as [Hj'|Hj'].
      * right. transitivity 1.
        -- rewrite (sum_single _ (j - m)); try lia.
           ++ unfold piece; simpl. replace (m + (j - m))%nat with j by lia. rewrite Nat.eqb_refl. reflexivity.
           ++ intros i Hi Hne. unfold piece; simpl. destruct (Nat.eqb_spec (m + i) j); [lia|auto].
        -- rewrite (sum_single _ (j + 1 - m)); try lia.
           ++ unfold piece; simpl. replace (m + (j + 1 - m))%nat with (j + 1)%nat by lia. rewrite Nat.eqb_refl. reflexivity.
           ++ intros i Hi Hne. unfold piece; simpl. destruct (Nat.eqb_spec (m + i) (j + 1)); [lia|auto].
      * rewrite sum_0; [apply sum_pos|]; intros i Hi; unfold piece; simpl.
        -- destruct (Nat.eqb _ _); lra.
        -- destruct (Nat.eqb_spec (m + i) j); [lia|auto].
    + right. apply sum_ext. intros i Hi. apply piece_glue; [lia| |].
      * apply SK. unfold last_of. fold p hi. lia.
      * replace (j + 2)%nat with (j + 1 + 1)%nat by lia. apply SK. unfold last_of. fold p hi. lia.
  - intros j Hj. apply Sorted. lia.
  - lia.
  - lia.
  - auto.
  - destruct K3 as [E|K3]; [|auto]. destruct IR as [Q|[Hx _]]; [left; split; auto|right; rewrite E; auto].
  - destruct K4 as [E|K4]; [left; lia|right; lra].
  - destruct L3 as [E|L3]; [left; lia|right]. replace (k + (l - k))%nat with l by lia. auto.
  - replace (k + (l - k))%nat with l by lia. destruct L4 as [E|L4]; [|right; lra].
    destruct IR as [Q|[_ Hy]]; [left; split; auto|right; rewrite E; auto].
Qed.

Lemma spline_mono xs y : length xs = sp_dim s -> nth d xs 0 <= y ->
  (forall e, (e < sp_dim s)%nat -> e <> d -> in_range s e (nth e xs 0)) ->
  (sp_order s <= 1)%nat \/ (in_range s d (nth d xs 0) /\ in_range s d y) ->
  forall c, increasing_along (m_dims (sp_ctrl s)) c d ->
  tensor (map (fun e => (num_of s e, fun j => beta s e j (nth e xs 0))) (seq 0 (sp_dim s))) c <=
  tensor (map (fun e => (num_of s e, fun j => beta s e j (nth e (with_at xs d y) 0))) (seq 0 (sp_dim s))) c.
Proof.
  intros Lx Hxy Ho Hr c Hc.
  assert (ED : m_dims (sp_ctrl s) = map (num_of s) (seq 0 (sp_dim s))).
  { apply (nth_ext' _ _ 0%nat). rewrite length_map_seq. apply (wf_dims _ (gs_wf _ G)).
    intros e He. rewrite (wf_dims _ (gs_wf _ G)) in He. rewrite nth_map_seq by auto. reflexivity. }
  pose proof (tensor_mono (num_of s) d (fun j => beta s d j (nth d xs 0)) (fun j => beta s d j y) (fun e j => beta s e j (nth e xs 0)) (seq 0 (sp_dim s)) c) as TM.
  match goal with |- ?a <= ?b => match type of TM with _ -> _ -> _ -> _ -> _ -> ?a' <= ?b' => replace a with a'; [replace b with b'|] end end.
  - apply TM; clear TM.
    + apply seq_NoDup.
    + apply in_seq. lia.
    + intros c' Hc'. apply abel_le; auto.
      * intros m Hm. apply beta_tail_mono; auto. lia.
      * destruct (loc_spec s d (nth d xs 0) G Hd) as [_ (A1 & A2 & _)]. destruct (loc_spec s d y G Hd) as [_ (B1 & B2 & _)].
        unfold beta. rewrite !sum_bpoly; auto.
    + intros e i He Ne Hi. apply in_seq in He. destruct (loc_spec s e (nth e xs 0) G ltac:(lia)) as [_ (A1 & A2 & _)].
      apply bpoly_nonneg; auto; try lia. apply loc_in_segment; auto; try lia. apply Ho; auto; lia.
    + change d with (0 + d)%nat at 1. apply up_seq; [auto|]. intros idx V Hlt. cbn [plus] in Hlt. apply Hc; [rewrite ED; auto|].
      rewrite ED, nth_map_seq by auto. auto.
  - f_equal. apply map_ext_seq. intros e He. f_equal. apply functional_extensionality. intros j.
    rewrite with_nth by lia. destruct (Nat.eqb_spec e d); subst; auto.
  - f_equal. apply map_ext_seq. intros e He. f_equal. apply functional_extensionality. intros j.
    destruct (Nat.eqb_spec e d); subst; auto.
Qed.
End Spl.
