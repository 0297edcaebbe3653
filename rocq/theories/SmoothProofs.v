(** Derivatives below the order are continuous across simple knots. *)
From Coq Require Import List Arith Lia Bool ZArith Reals Lra FunctionalExtensionality.
From Coquelicot Require Import Coquelicot.
From Verif Require Import Base Num MeshM SplineM SpecMesh SpecBand SpecSpline SpecSplineObj SpecCalc MeshProofs SumR MulProofs
  SplineProofs TensorR BasisProofs EvalProofs EvalR DerivProofs DerivLoops BetaProofs SplineTop SplineCalc.
Import ListNotations.
Open Scope R_scope.

(** ** Derivatives of one piece *)
Fixpoint dp (t : nat -> R) (k a p i : nat) (x : R) : R :=
  match a with
  | O => piece t k p i x
  | S a => match p with
           | O => 0
           | S q => INR p * (frac 1 (t (i + p)%nat - t i) * dp t k a q i x
                             - frac 1 (t (i + p + 1)%nat - t (i + 1)%nat) * dp t k a q (i + 1) x)
           end
  end.

Lemma dp_derive t N k a : (forall i j, (i <= j < N)%nat -> t i <= t j) -> (k + 1 < N)%nat -> t k < t (k + 1)%nat ->
  forall p i (x : R), (i + p + 1 < N)%nat -> is_derive (fun x : R => dp t k a p i x) x (dp t k (S a) p i x).
Proof.
  intros Hm Hk Hs. induction a; intros p i x Hi.
  - cbn [dp]. pose proof (piece_derive t N k Hm Hk Hs p i x Hi) as D. destruct p; exact D.
  - destruct p as [|q]; [apply (is_derive_const (K := R_AbsRing) (V := R_NormedModule) 0)|].
    change (is_derive (fun x0 : R => INR (S q) * (frac 1 (t (i + S q)%nat - t i) * dp t k a q i x0
        - frac 1 (t (i + S q + 1)%nat - t (i + 1)%nat) * dp t k a q (i + 1) x0)) x
       (INR (S q) * (frac 1 (t (i + S q)%nat - t i) * dp t k (S a) q i x
        - frac 1 (t (i + S q + 1)%nat - t (i + 1)%nat) * dp t k (S a) q (i + 1) x))).
    apply is_derive_scal. apply (is_derive_minus (fun x0 : R => _ * dp t k a q i x0) (fun x0 : R => _ * dp t k a q (i + 1) x0));
      apply is_derive_scal; apply IHa; lia.
Qed.

Lemma dp_Derive_n t N k a : (forall i j, (i <= j < N)%nat -> t i <= t j) -> (k + 1 < N)%nat -> t k < t (k + 1)%nat ->
  forall p i x, (i + p + 1 < N)%nat -> Derive_n (piece t k p i) a x = dp t k a p i x.
Proof.
  intros Hm Hk Hs p i x Hi. revert x. induction a; intros x; [reflexivity|].
  cbn [Derive_n]. rewrite (Derive_ext _ _ x IHa). apply is_derive_unique. apply (dp_derive t N); auto.
Qed.

(** Adjacent pieces agree at the knot between them, with their derivatives
    below the order. *)
Lemma dp_glue t k a : t k < t (k + 1)%nat -> t (k + 1)%nat < t (k + 2)%nat ->
  forall p i, (a < p)%nat -> dp t k a p i (t (k + 1)%nat) = dp t (k + 1) a p i (t (k + 1)%nat).
Proof.
  intros H1 H2. induction a; intros p i Ha.
  - apply piece_glue; auto.
  - destruct p as [|q]; [lia|]. cbn [dp]. rewrite !IHa by lia. reflexivity.
Qed.

Lemma dp_support t k a : forall p i x, (k < i \/ i + p < k)%nat -> dp t k a p i x = 0.
Proof.
  induction a; intros p i x H; [apply piece_support; auto|]. destruct p as [|q]; auto. cbn [dp]. rewrite !IHa by lia. ring.
Qed.

Lemma dp_left t k a : forall p, (a < p)%nat -> dp t k a p k (t k) = 0.
Proof.
  induction a; intros p Ha; [apply piece_left_end; auto|]. destruct p as [|q]; [lia|]. cbn [dp].
  rewrite IHa by lia. rewrite dp_support by lia. ring.
Qed.

Lemma dp_ext t t' k a : forall p i x, (forall m, (i <= m <= i + p + 1)%nat -> t m = t' m) -> dp t k a p i x = dp t' k a p i x.
Proof.
  induction a; intros p i x H; [apply piece_ext; intros; apply H; lia|].
  destruct p as [|q]; auto. cbn [dp]. rewrite !IHa by (intros; apply H; lia). rewrite !H by lia. reflexivity.
Qed.

Lemma dp_shift t t' k n P a : forall p i x,
  (forall m, (i <= m <= i + p + 1)%nat -> t' (m + n)%nat = t m + P) -> dp t' (k + n) a p (i + n) (x + P) = dp t k a p i x.
Proof.
  induction a; intros p i x H; [apply piece_shift; intros; apply H; lia|].
  destruct p as [|q]; auto. cbn [dp].
  replace (i + n + 1)%nat with (i + 1 + n)%nat by lia. rewrite !IHa by (intros; apply H; lia).
  replace (i + n + S q)%nat with (i + S q + n)%nat by lia. replace (i + S q + n + 1)%nat with (i + S q + 1 + n)%nat by lia.
  rewrite !H by lia.
  replace (t (i + S q)%nat + P - (t i + P)) with (t (i + S q)%nat - t i) by ring.
  replace (t (i + S q + 1)%nat + P - (t (i + 1)%nat + P)) with (t (i + S q + 1)%nat - t (i + 1)%nat) by ring. reflexivity.
Qed.

(** ** Derivatives of the basis polynomials of a dimension *)
Definition bD (s : spline R) d k j a (x : R) : R :=
  sum (nbasis s d) (fun i => if (widx s d i =? j)%nat then dp (kn (knot_of s d)) k a (sp_order s) i x else 0).

Lemma bD_derive s d k j a x : good_spline s -> (d < sp_dim s)%nat -> (sp_order s <= k <= last_of s d)%nat ->
  kn (knot_of s d) k < kn (knot_of s d) (k + 1) -> is_derive (fun x : R => bD s d k j a x) x (bD s d k j (S a) x).
Proof.
  intros G Hd Hk Hs. unfold bD. pose proof (wf_len _ (gs_wf _ G) d Hd). unfold last_of, nbasis in *.
  apply (is_derive_sum _ (fun i x => if (widx s d i =? j)%nat then dp (kn (knot_of s d)) k a (sp_order s) i x else 0)
     (fun i => if (widx s d i =? j)%nat then dp (kn (knot_of s d)) k (S a) (sp_order s) i x else 0)).
  intros i Hi. destruct (widx s d i =? j)%nat.
  - apply (dp_derive _ (length (knot_of s d))); auto; try lia. intros. apply (gs_sorted _ G); auto.
  - apply @is_derive_const.
Qed.

Lemma bD_Derive_n s d k j a x : good_spline s -> (d < sp_dim s)%nat -> (sp_order s <= k <= last_of s d)%nat ->
  kn (knot_of s d) k < kn (knot_of s d) (k + 1) -> Derive_n (bpoly s d k j) a x = bD s d k j a x.
Proof.
  intros G Hd Hk Hs. revert x. induction a; intros x; [reflexivity|].
  cbn [Derive_n]. rewrite (Derive_ext _ _ x IHa). apply is_derive_unique. apply bD_derive; auto.
Qed.

Lemma bD_glue s d k j a : (a < sp_order s)%nat ->
  kn (knot_of s d) k < kn (knot_of s d) (k + 1) ->
  kn (knot_of s d) (k + 1) < kn (knot_of s d) (k + 2) ->
  bD s d k j a (kn (knot_of s d) (k + 1)) = bD s d (k + 1) j a (kn (knot_of s d) (k + 1)).
Proof.
  intros Ha H1 H2. unfold bD. apply sum_ext. intros i Hi. destruct (widx s d i =? j)%nat; auto. apply dp_glue; auto.
Qed.

Section Edge.
Variables (s : spline R) (d : nat).
Hypothesis G : good_spline s.
Hypothesis Hd : (d < sp_dim s)%nat.
Hypothesis PK : periodic_knots s d.
Let t := kn (knot_of s d).
Let n := num_of s d.
Let p := sp_order s.
Let P := snd (rng s d) - fst (rng s d).

Lemma bD_window k j a x : (p <= k)%nat -> (k < nbasis s d)%nat ->
  bD s d k j a x = sum (p + 1) (fun m => if (widx s d (k - p + m) =? j)%nat then dp t k a p (k - p + m) x else 0).
Proof.
  intros H1 H2. unfold bD. fold t p.
  replace (nbasis s d) with ((k - p) + ((p + 1) + (nbasis s d - k - 1)))%nat by lia.
  rewrite !sum_app. rewrite (sum_0 (k - p)), (sum_0 (nbasis s d - k - 1)).
  - rewrite Rplus_0_l, Rplus_0_r. reflexivity.
  - intros i Hi. destruct (widx s d _ =? j)%nat; auto. apply dp_support. lia.
  - intros i Hi. destruct (widx s d _ =? j)%nat; auto. apply dp_support. lia.
Qed.

Lemma bD_shift j a x : length (knot_of s d) = (n + 2 * p + 2)%nat -> bD s d (p + n) j a (x + P) = bD s d p j a x.
Proof.
  intros HL. pose proof (pk_n s d G Hd PK) as Hn. fold n in Hn.
  assert (Hnb : nbasis s d = (n + p + 1)%nat) by (unfold nbasis; fold p; lia).
  rewrite !bD_window by lia. apply sum_ext. intros m Hm.
  replace (p + n - p + m)%nat with (p - p + m + n)%nat by lia. unfold n. rewrite (widx_shift s d G Hd PK).
  destruct (widx s d (p - p + m) =? j)%nat; auto. apply dp_shift.
  intros i' Hi'. apply (pk_shift _ _ PK). fold n. lia.
Qed.

Lemma bD_edge j a : (a < p)%nat -> t (p + n - 1)%nat < t (p + n)%nat ->
  bD s d (p + n - 1) j a (t (p + n)%nat) = bD s d p j a (t p).
Proof.
  intros Ha Hlt. pose proof (pk_n s d G Hd PK) as Hn. fold n in Hn. pose proof (gs_first _ G d Hd) as Hf. fold p t in Hf.
  pose proof (gs_last _ G d Hd) as Hlast. fold t in Hlast.
  pose proof (pk_shift _ _ PK) as Hsh. fold t n P in Hsh.
  destruct (pk_len _ _ PK) as [HL|HL]; fold n p in HL.
  - assert (Hnb : nbasis s d = (n + p)%nat) by (unfold nbasis; fold p; lia).
    assert (Hlo : last_of s d = (p + n - 1)%nat) by (unfold last_of; fold p; lia).
    rewrite Hlo in Hlast. replace (p + n - 1 + 1)%nat with (p + n)%nat in Hlast by lia.
    set (t' := fun i => if (i <? n + 2 * p + 1)%nat then t i else t (i - n)%nat + P).
    assert (Et' : forall i, (i < n + 2 * p + 1)%nat -> t' i = t i).
    { intros i Hi. unfold t'. destruct (Nat.ltb_spec i (n + 2 * p + 1)); auto; lia. }
    assert (Hsh' : forall i, (i <= 2 * p + 1)%nat -> t' (i + n)%nat = t i + P).
    { intros i Hi. unfold t'. destruct (Nat.ltb_spec (i + n) (n + 2 * p + 1)).
      - apply Hsh. lia.
      - f_equal. f_equal. lia. }
    rewrite !bD_window by lia.
    rewrite Nat.add_1_r, sum_S_l. cbn [sum].
    replace (p - p + p)%nat with p by lia.
    assert (E0 : (if (widx s d p =? j)%nat then dp t p a p p (t p) else 0) = 0)
      by (destruct (widx s d p =? j)%nat; auto; apply dp_left; auto).
    rewrite E0.
    assert (Hglue : forall i, (i <= p + n - 1)%nat ->
      dp t (p + n - 1) a p i (t (p + n)%nat) = dp t' (p + n) a p i (t (p + n)%nat)).
    { intros i Hi. rewrite (dp_ext t t') by (intros; symmetry; apply Et'; lia).
      pose proof (fun A B => dp_glue t' (p + n - 1) a A B p i Ha) as Gl.
      replace (p + n - 1 + 1)%nat with (p + n)%nat in Gl by lia.
      replace (p + n - 1 + 2)%nat with (p + 1 + n)%nat in Gl by lia.
      rewrite (Hsh' (p + 1)%nat) in Gl by lia. rewrite !Et' in Gl by lia. apply Gl; auto.
      rewrite Hsh by lia. lra. }
    replace (p + n - 1 - p + 0)%nat with (n - 1)%nat by lia.
    rewrite Hglue by lia. rewrite (dp_support t' (p + n) a p (n - 1)) by lia.
    replace (if (widx s d (n - 1) =? j)%nat then 0 else 0) with 0 by (destruct (widx s d (n - 1) =? j)%nat; auto).
    rewrite Rplus_0_l, Rplus_0_r. apply sum_ext. intros m Hm.
    replace (p + n - 1 - p + S m)%nat with (p - p + m + n)%nat by lia. unfold n at 1. rewrite (widx_shift s d G Hd PK).
    destruct (widx s d (p - p + m) =? j)%nat; auto. rewrite Hglue by lia.
    rewrite Hsh by lia. apply dp_shift. intros i' Hi'. apply Hsh'. lia.
  - assert (Hlo : last_of s d = (p + n)%nat) by (unfold last_of; fold p; lia). rewrite Hlo in Hlast.
    pose proof (bD_shift j a (t p) HL) as Hbs. rewrite <- Hsh in Hbs by lia.
    rewrite <- Hbs.
    pose proof (bD_glue s d (p + n - 1) j a Ha) as Gl. fold t in Gl.
    replace (p + n - 1 + 1)%nat with (p + n)%nat in Gl by lia.
    replace (p + n - 1 + 2)%nat with (p + n + 1)%nat in Gl by lia. apply Gl; auto.
Qed.

(** The value at the right end of the range. *)
Lemma edge_D j a : (a < p)%nat -> t (p + n - 1)%nat < t (p + n)%nat ->
  bD s d (last_of s d) j a (t (p + n)%nat) = bD s d p j a (t p).
Proof.
  intros Ha Hlt. pose proof (pk_n s d G Hd PK) as Hn. fold n in Hn.
  destruct (pk_len _ _ PK) as [HL|HL]; fold n p in HL.
  - assert (E : last_of s d = (p + n - 1)%nat) by (unfold last_of; fold p; lia). rewrite E. apply bD_edge; auto.
  - assert (E : last_of s d = (p + n)%nat) by (unfold last_of; fold p; lia). rewrite E.
    rewrite <- (bD_shift j a (t p) HL). f_equal. apply (pk_shift _ _ PK). fold n. lia.
Qed.
End Edge.

(** ** Derivatives of the basis functions *)
Definition dbeta (s : spline R) d j a (x : R) : R := bD s d (snd (loc s d x)) j a (fst (loc s d x)).

Lemma dbeta_val s d x j a x' k : good_spline s -> (d < sp_dim s)%nat ->
  wrapped (per_of s d) (rng s d) x x' -> segment (kn (knot_of s d)) (sp_order s) (last_of s d) x' k ->
  dbeta s d j a x = bD s d k j a x'.
Proof. intros G Hd Hw Hs. unfold dbeta. rewrite (loc_unique s d x x' k); auto. Qed.

(** Near any point there are at most two polynomials, which agree there. *)
Lemma dbeta_local s d j x :
  good_spline s -> (d < sp_dim s)%nat -> strict_knots s d ->
  (per_of s d = true -> periodic_knots s d) ->
  exists k1 k2 c1 c2, (sp_order s <= k1 <= last_of s d)%nat /\ (sp_order s <= k2 <= last_of s d)%nat /\
    (forall a, (a < sp_order s)%nat -> dbeta s d j a x = bD s d k1 j a (x + c1) /\ dbeta s d j a x = bD s d k2 j a (x + c2)) /\
    locally x (fun y => forall a, (a < sp_order s)%nat -> dbeta s d j a y = bD s d k1 j a (y + c1) \/ dbeta s d j a y = bD s d k2 j a (y + c2)).
Proof.
  intros G Hd Hst Hper. assert (W := gs_wf _ G).
  set (t := kn (knot_of s d)). set (p := sp_order s) in *.
  destruct (loc_spec s d x G Hd) as [Hw Hs]. fold t p in Hs.
  destruct (loc s d x) as [x' k] eqn:El. cbn [fst snd] in *.
  assert (Hb : forall a, dbeta s d j a x = bD s d k j a x') by (intros; unfold dbeta; rewrite El; auto).
  assert (Hin : (per_of s d = true -> fst (rng s d) < x' < snd (rng s d)) ->
    exists k1 k2 c1 c2, (p <= k1 <= last_of s d)%nat /\ (p <= k2 <= last_of s d)%nat /\
    (forall a, (a < p)%nat -> dbeta s d j a x = bD s d k1 j a (x + c1) /\ dbeta s d j a x = bD s d k2 j a (x + c2)) /\
    locally x (fun y => forall a, (a < p)%nat -> dbeta s d j a y = bD s d k1 j a (y + c1) \/ dbeta s d j a y = bD s d k2 j a (y + c2))).
  { intros Hr. pose proof (local_wrap s d x G Hd) as LW. rewrite El in LW. cbn [fst] in LW. specialize (LW Hr).
    assert (LS := local_seg t p (last_of s d) x' k Hst Hs).
    assert (Ex : x' = x + (x' - x)) by ring. rewrite Ex in LS at 1. apply locally_shift in LS.
    assert (Hk := proj1 Hs).
    exists k, (if Nat.eqb k p then k else if Req_EM_T x' (t k) then k - 1 else k)%nat, (x' - x), (x' - x).
    split; [auto|]. split; [destruct (Nat.eqb_spec k p); [lia|]; destruct (Req_EM_T x' (t k)); lia|]. split.
    - intros a Ha. rewrite <- Ex, Hb. split; auto. destruct (Nat.eqb_spec k p); auto. destruct (Req_EM_T x' (t k)) as [E|]; auto.
      pose proof (bD_glue s d (k - 1) j a Ha) as Gl. fold t in Gl.
      replace (k - 1 + 1)%nat with k in Gl by lia. replace (k - 1 + 2)%nat with (k + 1)%nat in Gl by lia.
      rewrite E. symmetry. apply Gl.
      + replace (t k) with (t (k - 1 + 1)%nat) by (f_equal; lia). apply Hst. fold p. lia.
      + apply Hst. fold p. lia.
    - generalize (filter_and _ _ LW LS). apply filter_imp. intros y [Y1 [Y2|(Y2 & Y3 & Y4)]] a Ha.
      + left. apply dbeta_val; auto.
      + right. destruct (Nat.eqb_spec k p); [lia|]. destruct (Req_EM_T x' (t k)); [|contradiction].
        apply dbeta_val; auto. }
  destruct (per_of s d) eqn:Ep; [|apply Hin; discriminate].
  specialize (Hper eq_refl). set (n := num_of s d).
  pose proof (pk_fst s d G Hd) as Ea. pose proof (pk_snd s d G Hd Hper) as Eb. fold t p n in Ea, Eb.
  pose proof (pk_n s d G Hd Hper) as Hn. fold n in Hn.
  pose proof (pk_len _ _ Hper) as HL. fold n p in HL.
  rewrite Ea, Eb in Hin.
  set (P := t (p + n)%nat - t p) in *.
  assert (HP : 0 < P). { pose proof (gs_range _ G d Hd Ep). unfold P. rewrite <- Ea, <- Eb. lra. }
  pose proof Hw as [[m Hm] Hw2]. rewrite Ea, Eb in Hm, Hw2. fold P in Hm.
  assert (Hlast : (p + n - 1 <= last_of s d)%nat) by (unfold last_of; fold p; lia).
  assert (Hlt1 : t (p + n - 1)%nat < t (p + n)%nat).
  { replace (t (p + n)%nat) with (t (p + n - 1 + 1)%nat) by (f_equal; lia). apply Hst. fold p. lia. }
  assert (Hlt0 : t p < t (p + 1)%nat) by (apply (gs_first _ G d Hd)).
  destruct (Req_EM_T x' (t p)) as [Hx1|Hx1]; [|destruct (Req_EM_T x' (t (p + n)%nat)) as [Hx2|Hx2]].
  3:{ apply Hin. intros _. destruct (Rle_dec (t p) x); unfold P in *; lra. }
  all: assert (Hx' : x' = t p \/ x' = t (p + n)%nat) by auto.
  all: assert (Hc : exists M : Z, t p = x + IZR M * P)
    by (destruct Hx' as [E|E]; [exists m; lra|exists (m - 1)%Z; rewrite minus_IZR; unfold P in *; lra]).
  all: destruct Hc as [M HM].
  all: assert (Hval : forall a, (a < p)%nat -> dbeta s d j a x = bD s d p j a (t p))
    by (intros a Ha; rewrite Hb; destruct Hx' as [E|E]; rewrite E in Hs |- *;
      [rewrite (seg_a s d G Hd k); auto | rewrite (seg_b s d G Hd Hper k) by auto; apply edge_D; auto]).
  all: exists p, (p + n - 1)%nat, (IZR M * P), (IZR M * P + P).
  all: split; [lia|]; split; [lia|]; split.
  all: try (intros a Ha; rewrite <- HM; split; [auto|];
    replace (x + (IZR M * P + P)) with (t (p + n)%nat) by (unfold P in *; lra); rewrite Hval by auto;
    symmetry; apply (bD_edge s d G Hd Hper); auto).
  all: assert (L1 : locally x (fun y => y + IZR M * P < t (p + 1)%nat))
      by (apply (locally_shift _ x (fun z => z < t (p + 1)%nat)); rewrite <- HM; apply locally_gt; auto).
  all: assert (L2 : locally x (fun y => t (p + n - 1)%nat < y + (IZR M * P + P)))
      by (apply (locally_shift _ x (fun z => t (p + n - 1)%nat < z));
        replace (x + (IZR M * P + P)) with (t (p + n)%nat) by (unfold P in *; lra); apply locally_lt; auto).
  all: assert (L3 : locally x (fun y => y + IZR M * P < t (p + n)%nat))
      by (apply (locally_shift _ x (fun z => z < t (p + n)%nat)); rewrite <- HM; apply locally_gt; unfold P in HP; lra).
  all: assert (L4 : locally x (fun y => t p < y + (IZR M * P + P)))
      by (apply (locally_shift _ x (fun z => t p < z));
        replace (x + (IZR M * P + P)) with (t (p + n)%nat) by (unfold P in *; lra); apply locally_lt; unfold P in HP; lra).
  all: generalize (filter_and _ _ (filter_and _ _ L1 L2) (filter_and _ _ L3 L4)); apply filter_imp.
  all: intros y [[Y1 Y2] [Y3 Y4]] a Ha.
  all: destruct (Rtotal_order y x) as [Hy|[Hy|Hy]];
    [right; apply dbeta_val; auto|left; subst y; rewrite <- HM; auto|left; apply dbeta_val; auto].
  all: try (rewrite Ep; unfold wrapped; rewrite Ea, Eb; fold P; split;
     [first [exists M; ring | exists (M + 1)%Z; rewrite plus_IZR; ring]
     |destruct (Rle_dec (t p) y); unfold P in *; lra]).
  all: fold t p.
  all: try (split; [lia|]; split; [replace (p + n - 1 + 1)%nat with (p + n)%nat by lia; auto|];
     split; [right; lra|right; replace (p + n - 1 + 1)%nat with (p + n)%nat by lia; unfold P in *; lra]).
  all: split; [lia|]; split; [auto|]; split; [left; auto|right; lra].
Qed.

Lemma is_derive_glue (f g h : R -> R) (x l : R) :
  is_derive g x l -> is_derive h x l -> f x = g x -> f x = h x ->
  locally x (fun y => f y = g y \/ f y = h y) -> is_derive f x l.
Proof.
  intros Dg Dh Eg Eh L. apply is_derive_Reals in Dg, Dh. apply is_derive_Reals.
  intros eps He. destruct (Dg eps He) as (d1 & H1). destruct (Dh eps He) as (d2 & H2). destruct L as (d3 & H3).
  assert (Hm : 0 < Rmin d1 (Rmin d2 d3)) by (apply Rmin_pos; [apply cond_pos|apply Rmin_pos; apply cond_pos]).
  exists (mkposreal _ Hm). intros u Hu Hlt. cbn [pos] in Hlt.
  pose proof (Rmin_l d1 (Rmin d2 d3)). pose proof (Rmin_r d1 (Rmin d2 d3)). pose proof (Rmin_l d2 d3). pose proof (Rmin_r d2 d3).
  destruct (H3 (x + u)) as [E|E].
  - unfold ball; simpl; unfold AbsRing_ball, abs, minus, plus, opp; simpl. replace (x + u + - x) with u by ring. lra.
  - rewrite E, Eg. apply H1; auto. lra.
  - rewrite E, Eh. apply H2; auto. lra.
Qed.

Lemma bD_shifted s d k j a c x : good_spline s -> (d < sp_dim s)%nat -> (sp_order s <= k <= last_of s d)%nat ->
  kn (knot_of s d) k < kn (knot_of s d) (k + 1) -> is_derive (fun y : R => bD s d k j a (y + c)) x (bD s d k j (S a) (x + c)).
Proof.
  intros G Hd Hk Hs. pose proof (bD_derive s d k j a (x + c) G Hd Hk Hs) as D.
  rewrite <- (Rmult_1_l (bD s d k j (S a) (x + c))).
  apply (is_derive_comp (fun z : R => bD s d k j a z) (fun y : R => y + c)); auto.
  rewrite <- (Rplus_0_r 1). apply (is_derive_plus (fun y : R => y) (fun _ => c)).
  apply (is_derive_id (K := R_AbsRing)). apply (is_derive_const (K := R_AbsRing) (V := R_NormedModule)).
Qed.

Section Smooth.
Variables (s : spline R) (d : nat).
Hypothesis G : good_spline s.
Hypothesis Hd : (d < sp_dim s)%nat.
Hypothesis Hst : strict_knots s d.
Hypothesis Hper : per_of s d = true -> periodic_knots s d.

Lemma dbeta_continuous j a x : (a < sp_order s)%nat -> continuous (fun y : R => dbeta s d j a y) x.
Proof.
  intros Ha. destruct (dbeta_local s d j x G Hd Hst Hper) as (k1 & k2 & c1 & c2 & B1 & B2 & E & L).
  destruct (E a Ha) as [E1 E2].
  apply (continuous_glue _ (fun y => bD s d k1 j a (y + c1)) (fun y => bD s d k2 j a (y + c2))); auto.
  - apply (ex_derive_continuous (fun y : R => bD s d k1 j a (y + c1))). eexists. apply bD_shifted; auto.
  - apply (ex_derive_continuous (fun y : R => bD s d k2 j a (y + c2))). eexists. apply bD_shifted; auto.
  - revert L. apply filter_imp. intros y H. apply H. auto.
Qed.

Lemma dbeta_derive j a x : (S a < sp_order s)%nat -> is_derive (fun y : R => dbeta s d j a y) x (dbeta s d j (S a) x).
Proof.
  intros Ha. destruct (dbeta_local s d j x G Hd Hst Hper) as (k1 & k2 & c1 & c2 & B1 & B2 & E & L).
  destruct (E a ltac:(lia)) as [E1 E2]. destruct (E (S a) Ha) as [F1 F2].
  apply (is_derive_glue _ (fun y => bD s d k1 j a (y + c1)) (fun y => bD s d k2 j a (y + c2))); auto.
  - rewrite F1. apply bD_shifted; auto.
  - rewrite F2. apply bD_shifted; auto.
  - revert L. apply filter_imp. intros y H. apply H. lia.
Qed.

Lemma dbeta_0 j x : dbeta s d j 0 x = beta s d j x.
Proof. reflexivity. Qed.

Lemma dbeta_Derive_n j a : (a < sp_order s)%nat -> forall x, Derive_n (beta s d j) a x = dbeta s d j a x.
Proof.
  induction a; intros Ha x; [reflexivity|]. cbn [Derive_n].
  rewrite (Derive_ext _ _ x (IHa ltac:(lia))). apply is_derive_unique. apply dbeta_derive. auto.
Qed.

Lemma beta_ex_derive_n j a x : (a < sp_order s)%nat -> ex_derive_n (beta s d j) a x.
Proof.
  intros Ha. destruct a; [exact I|]. cbn [ex_derive_n].
  apply (ex_derive_ext (fun y : R => dbeta s d j a y)); [intros y; symmetry; apply dbeta_Derive_n; lia|].
  eexists. apply dbeta_derive. auto.
Qed.
End Smooth.

(** ** Tensor products *)
Lemma tensor_mixed : forall (fs : list (nat * (nat -> R -> R))) xs orders c,
  length fs = length xs -> length orders = length xs ->
  (forall d j b y, (d < length xs)%nat -> (b <= nth d orders 0)%nat -> ex_derive_n (snd (nth d fs (0%nat, fun _ _ => 0%R)) j) b y) ->
  is_mixed orders (fun ys => tensorf fs ys c) xs
    (tensor (map2 (fun f ax => (fst f, fun j => Derive_n (snd f j) (fst ax) (snd ax))) fs (combine orders xs)) c).
Proof.
  induction fs as [|[n f] fs IH]; intros [|x xs] [|a orders] c H1 H2 H; try discriminate.
  - reflexivity.
  - cbn [is_mixed].
    set (D := map2 (fun f ax => (fst f, fun j => Derive_n (snd f j) (fst ax) (snd ax))) fs (combine orders xs)).
    exists (fun y => sum n (fun i => f i y * tensor D (fun idx => c (i :: idx)))).
    split.
    + apply filter_forall. intros y.
      apply (is_mixed_ext orders (fun l => tensorf fs l (fun idx => sum n (fun i => f i y * c (i :: idx))))).
      * simpl in H2; lia.
      * intros l Hl. unfold tensorf. cbn [map2 tensor fst snd]. rewrite Rsum_sum.
        rewrite tensor_sum. apply sum_ext. intros i Hi. apply tensor_scal.
      * replace (sum n (fun i => f i y * tensor D (fun idx => c (i :: idx)))) with
          (tensor D (fun idx => sum n (fun i => f i y * c (i :: idx)))).
        2:{ rewrite tensor_sum. apply sum_ext. intros i Hi. apply tensor_scal. }
        apply IH; try (simpl in *; lia); auto. intros d j b z Hd Hb. apply (H (S d) j b z); auto. simpl; lia.
    + cbn [map2 combine tensor fst snd]. fold D. rewrite Rsum_sum.
      set (K := fun i => tensor D (fun idx => c (i :: idx))).
      assert (H0 : forall i b y, (b <= a)%nat -> ex_derive_n (f i) b y).
      { intros i b y Hb. apply (H 0%nat i b y); simpl; auto. lia. }
      assert (S : forall m b, (b <= a)%nat ->
         (forall y, ex_derive_n (fun y => sum m (fun i => f i y * K i)) b y) /\
         (forall y, Derive_n (fun y => sum m (fun i => f i y * K i)) b y = sum m (fun i => Derive_n (f i) b y * K i))).
      { induction m; intros b Hb; cbn [sum].
        - split; [intros; apply ex_derive_n_const|]. intros y. destruct b; [reflexivity|]. apply Derive_n_const.
        - assert (A1 : forall y : R, forall k, (k <= b)%nat -> ex_derive_n (fun y => sum m (fun i => f i y * K i)) k y)
            by (intros y k Hk; apply (IHm k); lia).
          assert (A2 : forall y : R, forall k, (k <= b)%nat -> ex_derive_n (fun y => f m y * K m) k y)
            by (intros y k Hk; apply ex_derive_n_scal_r; apply H0; lia).
          split; intros y.
          + apply ex_derive_n_plus; apply filter_forall; auto.
          + rewrite Derive_n_plus by (apply filter_forall; auto). rewrite (proj2 (IHm b Hb)).
            rewrite Derive_n_scal_r. reflexivity. }
      destruct (S n a (le_n a)) as [S1 S2]. rewrite <- S2. apply Derive_n_correct. apply S1.
Qed.

(** In one variable. *)
Lemma tensor_const_dim (n : nat -> nat) d0 (f : nat -> R -> R) b (ds : list nat) c : ~ In d0 ds -> forall x y,
  tensor (map (fun d => (n d, fun j => if (d =? d0)%nat then f j x else b d j)) ds) c =
  tensor (map (fun d => (n d, fun j => if (d =? d0)%nat then f j y else b d j)) ds) c.
Proof.
  intros H x y. f_equal. apply map_ext_in. intros d Hd. f_equal. apply functional_extensionality. intros j.
  destruct (Nat.eqb_spec d d0); auto. subst. contradiction.
Qed.

Lemma tensor_derive (n : nat -> nat) d0 (f : nat -> R -> R) (f' : nat -> R) b (x : R) : forall ds c,
  NoDup ds -> In d0 ds -> (forall j, is_derive (fun x : R => f j x) x (f' j)) ->
  is_derive (fun x : R => tensor (map (fun d => (n d, fun j => if (d =? d0)%nat then f j x else b d j)) ds) c) x
    (tensor (map (fun d => (n d, fun j => if (d =? d0)%nat then f' j else b d j)) ds) c).
Proof.
  intros ds c ND HI D. revert c. induction ds as [|e ds IH]; intros c; [destruct HI|].
  inversion ND as [|? ? N1 N2]; subst. cbn [map tensor]. rewrite Rsum_sum.
  apply (is_derive_ext (fun x : R => sum (n e) (fun i => (if (e =? d0)%nat then f i x else b e i) *
     tensor (map (fun d => (n d, fun j => if (d =? d0)%nat then f j x else b d j)) ds) (fun idx => c (i :: idx))))).
  { intros y. reflexivity. }
  apply (is_derive_sum (n e) (fun i (x : R) => (if (e =? d0)%nat then f i x else b e i) *
     tensor (map (fun d => (n d, fun j => if (d =? d0)%nat then f j x else b d j)) ds) (fun idx => c (i :: idx)))).
  intros i Hi. destruct (Nat.eqb_spec e d0) as [->|Ne].
  - set (K := tensor (map (fun d => (n d, fun j => if (d =? d0)%nat then f j x else b d j)) ds) (fun idx => c (i :: idx))).
    replace (tensor (map (fun d => (n d, fun j => if (d =? d0)%nat then f' j else b d j)) ds) (fun idx => c (i :: idx))) with K.
    2:{ unfold K.
        f_equal. apply map_ext_in. intros d Hd. f_equal. apply functional_extensionality. intros j. destruct (Nat.eqb_spec d d0); auto. subst; contradiction. }
    apply (is_derive_ext (fun x : R => K * f i x)).
    { intros y. rewrite Rmult_comm. f_equal. unfold K. apply tensor_const_dim. auto. }
    rewrite (Rmult_comm (f' i)). apply is_derive_scal. apply D.
  - apply is_derive_scal. apply IH; auto. destruct HI as [E|]; auto. congruence.
Qed.
