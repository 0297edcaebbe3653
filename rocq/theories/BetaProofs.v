(** Evaluation as a tensor product over control points; periodicity. *)
From Coq Require Import List Arith Lia Bool ZArith Reals Lra.
From Coquelicot Require Import Coquelicot.
From Verif Require Import Base Num MeshM SplineM SpecMesh SpecBand SpecSpline MeshProofs SumR MulProofs
  SplineProofs TensorR BasisProofs EvalProofs EvalR DerivProofs DerivLoops.
Import ListNotations.
Open Scope R_scope.

(** ** Aggregating basis functions that share a control point *)
Record aggr := mkAggr { ag_m : nat; ag_b : nat -> R; ag_w : nat -> nat; ag_n : nat }.
Definition ag_fun (D : aggr) (j : nat) : R :=
  sum (ag_m D) (fun i => if (ag_w D i =? j)%nat then ag_b D i else 0).

Lemma ag_sum (D : aggr) (G : nat -> R) :
  (forall i, (i < ag_m D)%nat -> (ag_w D i < ag_n D)%nat) ->
  sum (ag_m D) (fun i => ag_b D i * G (ag_w D i)) = sum (ag_n D) (fun j => ag_fun D j * G j).
Proof.
  intros H. unfold ag_fun.
  transitivity (sum (ag_n D) (fun j => sum (ag_m D) (fun i => (if (ag_w D i =? j)%nat then ag_b D i else 0) * G j))).
  - rewrite sum_swap. apply sum_ext. intros i Hi.
    rewrite (sum_single (ag_n D) (ag_w D i)).
    + rewrite Nat.eqb_refl. reflexivity.
    + auto.
    + intros j Hj Hne. destruct (Nat.eqb_spec (ag_w D i) j); [congruence|ring].
  - apply sum_ext. intros j Hj. rewrite sum_scal_r. reflexivity.
Qed.

Lemma tensor_agg (Ds : list aggr) c :
  (forall D, In D Ds -> forall i, (i < ag_m D)%nat -> (ag_w D i < ag_n D)%nat) ->
  tensor (map (fun D => (ag_m D, ag_b D)) Ds) (fun idx => c (map2 (fun D i => ag_w D i) Ds idx)) =
  tensor (map (fun D => (ag_n D, ag_fun D)) Ds) c.
Proof.
  revert c; induction Ds as [|D Ds IH]; intros c H; cbn [map tensor map2]; auto.
  rewrite !Rsum_sum. etransitivity.
  2: apply (ag_sum D (fun j => tensor (map (fun D => (ag_n D, ag_fun D)) Ds) (fun idx => c (j :: idx)))).
  - apply sum_ext. intros i Hi. f_equal. rewrite <- IH; auto. intros; apply H; simpl; auto.
  - apply H; simpl; auto.
Qed.

(** ** Located position *)
Definition loc (s : spline R) (d : nat) (x : R) : R * nat :=
  match get_knot_iter Rops (sp_order s) (per_of s d) (knot_of s d) (rng s d) x (sp_order s) with
  | Ok r => r | _ => (0, 0%nat)
  end.

Definition widx (s : spline R) d i : nat := if per_of s d then (i mod num_of s d)%nat else i.

(** The combination of basis polynomials multiplying control point [j] on segment [k]. *)
Definition bpoly (s : spline R) d k j (x : R) : R :=
  sum (nbasis s d) (fun i => if (widx s d i =? j)%nat then piece (kn (knot_of s d)) k (sp_order s) i x else 0).

Definition beta (s : spline R) d j x : R := bpoly s d (snd (loc s d x)) j (fst (loc s d x)).

Lemma loc_spec s d x : good_spline s -> (d < sp_dim s)%nat ->
  wrapped (per_of s d) (rng s d) x (fst (loc s d x)) /\
  segment (kn (knot_of s d)) (sp_order s) (last_of s d) (fst (loc s d x)) (snd (loc s d x)).
Proof.
  intros G Hd. assert (W := gs_wf _ G). pose proof (wf_len _ W d Hd) as HL.
  destruct (wrap_coord_R (per_of s d) (rng s d) x) as (x' & E & Hw). apply (gs_range _ G); auto.
  destruct (get_knot_iter_ok Rops Rops_total 0 (knot_of s d) (sp_order s) (per_of s d) (rng s d) x x' (sp_order s))
    as (k & Ek & Hs); auto; try lia.
  { apply sorted_on_R. apply (gs_sorted _ G); auto. lia. }
  unfold loc. rewrite Ek. cbn [fst snd]. split; auto.
  apply seg_in_R in Hs; auto.
  - apply (gs_sorted _ G); auto.
  - lia.
  - apply (gs_first _ G); auto.
  - apply (gs_last _ G); auto.
Qed.

Lemma loc_unique s d x x' k : good_spline s -> (d < sp_dim s)%nat ->
  wrapped (per_of s d) (rng s d) x x' ->
  segment (kn (knot_of s d)) (sp_order s) (last_of s d) x' k ->
  loc s d x = (x', k).
Proof.
  intros G Hd Hw Hs. destruct (loc_spec s d x G Hd) as [H1 H2].
  assert (E : fst (loc s d x) = x').
  { apply (wrapped_unique (per_of s d) (rng s d) x); auto.
    destruct (per_of s d) eqn:Ep; [left; apply (gs_range _ G); auto|right; reflexivity]. }
  rewrite E in H2. destruct (loc s d x) as [y l]. cbn [fst snd] in *. subst y. f_equal.
  eapply segment_unique; eauto. apply (gs_sorted _ G); auto.
  pose proof (wf_len _ (gs_wf _ G) d Hd). unfold last_of. lia.
Qed.

Lemma widx_lt s d i : wf_spline s -> (d < sp_dim s)%nat -> (i < nbasis s d)%nat -> (widx s d i < num_of s d)%nat.
Proof.
  intros W Hd Hi. pose proof (wf_num _ W d Hd). unfold widx, nbasis in *. destruct (per_of s d).
  - apply Nat.mod_upper_bound; lia.
  - lia.
Qed.

Lemma wrap_idx_map2 s (b : nat -> nat -> R) idx : length idx = sp_dim s ->
  wrap_idx s idx = map2 (fun D i => ag_w D i)
    (map (fun d => mkAggr (nbasis s d) (b d) (widx s d) (num_of s d)) (seq 0 (sp_dim s))) idx.
Proof.
  intros Hl. rewrite map2_map_l. cbn [ag_w]. rewrite map2_map_seq by auto. reflexivity.
Qed.

Lemma tensor_wrap s (b : nat -> nat -> R) c : wf_spline s ->
  tensor (map (fun d => (nbasis s d, b d)) (seq 0 (sp_dim s))) (fun idx => c (wrap_idx s idx)) =
  tensor (map (fun d => (num_of s d, fun j => sum (nbasis s d) (fun i => if (widx s d i =? j)%nat then b d i else 0)))
            (seq 0 (sp_dim s))) c.
Proof.
  intros W.
  set (Ds := map (fun d => mkAggr (nbasis s d) (b d) (widx s d) (num_of s d)) (seq 0 (sp_dim s))).
  transitivity (tensor (map (fun D => (ag_m D, ag_b D)) Ds) (fun idx => c (map2 (fun D i => ag_w D i) Ds idx))).
  - unfold Ds at 1. rewrite map_map. cbn [ag_m ag_b]. apply tensor_ext. intros idx Hv. f_equal.
    apply wrap_idx_map2. apply valid_length in Hv. rewrite !map_length, seq_length in Hv. auto.
  - rewrite tensor_agg.
    + unfold Ds. rewrite map_map. reflexivity.
    + intros D HD. apply in_map_iff in HD as (d & <- & Hd). apply in_seq in Hd. cbn [ag_m ag_w ag_n].
      intros i Hi. apply widx_lt; auto. lia.
Qed.

(** ** The function computed by operator() *)
Definition sval (s : spline R) (xs : list R) : R :=
  tensor (map (fun d => (num_of s d, fun j => beta s d j (nth d xs 0))) (seq 0 (sp_dim s))) (ctrl_at Rops s).

Lemma eval_sval_hint s coords :
  good_spline s -> length coords = sp_dim s ->
  (forall d, (d < sp_dim s)%nat -> (sp_order s <= snd (nth d coords (0%R, 0%nat)) <= last_of s d)%nat) ->
  spline_eval Rops s coords = Ok (sval s (map fst coords)).
Proof.
  intros G Hc Hh. destruct (eval_tensor s coords G Hc Hh) as (iters & Hl & Hi & ->).
  f_equal. rewrite tensor_wrap by apply (gs_wf _ G). unfold sval. f_equal.
  apply map_ext_seq. intros d Hd. f_equal. unfold beta, bpoly.
  assert (E : loc s d (nth d (map fst coords) 0) = nth d iters (0%R, 0%nat)).
  { destruct (Hi d Hd) as [H1 H2]. rewrite (surjective_pairing (nth d iters (0%R, 0%nat))).
    apply loc_unique; auto. 
    replace (nth d (map fst coords) 0) with (fst (nth d coords (0%R, 0%nat))) by (rewrite <- (map_nth fst); reflexivity). auto. }
  rewrite E. reflexivity.
Qed.

Lemma last_ge (s : spline R) d : wf_spline s -> (d < sp_dim s)%nat -> (sp_order s <= last_of s d)%nat.
Proof. intros W Hd. pose proof (wf_len _ W d Hd). unfold last_of. lia. Qed.

Lemma eval_sval s xs : good_spline s -> length xs = sp_dim s -> spline_eval_plain Rops s xs = Ok (sval s xs).
Proof.
  intros G Hl. unfold spline_eval_plain. rewrite eval_sval_hint; auto.
  - rewrite map_map, map_id. reflexivity.
  - rewrite map_length; auto.
  - intros d Hd. 
    replace (nth d (map (fun x : R => (x, sp_order s)) xs) (0%R, 0%nat)) with (nth d xs 0, sp_order s).
    + cbn [snd]. split; auto. apply last_ge; auto. apply (gs_wf _ G).
    + rewrite (nth_indep _ _ ((fun x : R => (x, sp_order s)) 0)) by (rewrite map_length; lia).
      rewrite (map_nth (fun x : R => (x, sp_order s))). reflexivity.
Qed.

(** ** Properties of the pieces *)
Lemma piece_ext t t' k p i x :
  (forall i', (i <= i' <= i + p + 1)%nat -> t i' = t' i') -> piece t k p i x = piece t' k p i x.
Proof.
  revert i; induction p; intros i H; [reflexivity|].
  rewrite !piece_S. rewrite (IHp i), (IHp (i + 1)%nat) by (intros; apply H; lia).
  rewrite !H by lia. reflexivity.
Qed.

Lemma piece_shift t t' n P k p i x :
  (forall i', (i <= i' <= i + p + 1)%nat -> t' (i' + n)%nat = t i' + P) ->
  piece t' (k + n) p (i + n) (x + P) = piece t k p i x.
Proof.
  revert i; induction p; intros i H.
  - unfold piece. simpl. destruct (Nat.eqb_spec (i + n) (k + n)), (Nat.eqb_spec i k); auto; lia.
  - rewrite !piece_S. rewrite IHp by (intros; apply H; lia).
    replace (i + n + 1)%nat with (i + 1 + n)%nat by lia. rewrite IHp by (intros; apply H; lia).
    replace (i + n + S p)%nat with (i + S p + n)%nat by lia.
    replace (i + S p + n + 1)%nat with (i + S p + 1 + n)%nat by lia.
    rewrite !H by lia.
    replace (x + P - (t i + P)) with (x - t i) by ring.
    replace (t (i + S p)%nat + P - (t i + P)) with (t (i + S p)%nat - t i) by ring.
    replace (t (i + S p + 1)%nat + P - (x + P)) with (t (i + S p + 1)%nat - x) by ring.
    replace (t (i + S p + 1)%nat + P - (t (i + 1)%nat + P)) with (t (i + S p + 1)%nat - t (i + 1)%nat) by ring.
    reflexivity.
Qed.

(** Adjacent pieces agree at the knot between them. *)
Lemma piece_glue t k p i : (1 <= p)%nat ->
  t k < t (k + 1)%nat -> t (k + 1)%nat < t (k + 2)%nat ->
  piece t k p i (t (k + 1)%nat) = piece t (k + 1) p i (t (k + 1)%nat).
Proof.
  intros Hp H1 H2. revert i. destruct p; [lia|]. clear Hp. induction p; intros i.
  - rewrite !piece_S. unfold piece; simpl.
    destruct (Nat.eqb_spec i k), (Nat.eqb_spec (i + 1) k), (Nat.eqb_spec i (k + 1)), (Nat.eqb_spec (i + 1) (k + 1)); subst; try lia.
    + replace (k + 1 + 1)%nat with (k + 2)%nat by lia. rewrite !frac_ok by lra. field. lra.
    + replace (i + 1 + 1)%nat with (i + 2)%nat in * by lia.
      replace (t (i + 1 + 1)%nat) with (t (i + 2)%nat) by (f_equal; lia). unfold frac.
      destruct (Req_EM_T (t (i + 2)%nat - t (i + 1)%nat) 0). lra.
      replace (i + 1 + 1)%nat with (i + 2)%nat by lia. field. lra.
    + unfold frac. destruct (Req_EM_T (t (k + 1 + 1)%nat - t (k + 1)%nat) 0).
      { replace (k + 1 + 1)%nat with (k + 2)%nat in * by lia. lra. } field. auto.
    + ring.
  - rewrite !(piece_S _ _ (S p)). rewrite !IHp. reflexivity.
Qed.

(** The last basis function vanishes at the left end of its support. *)
Lemma piece_left_end t k p : (1 <= p)%nat -> piece t k p k (t k) = 0.
Proof.
  destruct p; [lia|]. intros _. rewrite piece_S. rewrite (piece_support t k p (k + 1)) by lia.
  replace (t k - t k) with 0 by ring. unfold frac. destruct (Req_EM_T _ _); unfold Rdiv; ring.
Qed.

(** ** Periodic knots *)
Lemma bpoly_glue s d k j : (d < sp_dim s)%nat -> (1 <= sp_order s)%nat ->
  kn (knot_of s d) k < kn (knot_of s d) (k + 1) ->
  kn (knot_of s d) (k + 1) < kn (knot_of s d) (k + 2) ->
  bpoly s d k j (kn (knot_of s d) (k + 1)) = bpoly s d (k + 1) j (kn (knot_of s d) (k + 1)).
Proof.
  intros Hd Hp H1 H2. unfold bpoly. apply sum_ext. intros i Hi.
  destruct (widx s d i =? j)%nat; auto. apply piece_glue; auto.
Qed.

Section Edge.
Variables (s : spline R) (d : nat).
Hypothesis G : good_spline s.
Hypothesis Hd : (d < sp_dim s)%nat.
Hypothesis PK : periodic_knots s d.
Let t := kn (knot_of s d).
Let n := num_of s d.
Let p := sp_order s.
Let P := snd (rng s d) - fst (rng s d).

Lemma pk_n : (0 < n)%nat.
Proof. pose proof (wf_num _ (gs_wf _ G) d Hd) as H. rewrite (pk_per _ _ PK) in H. exact H. Qed.

Lemma pk_fst : fst (rng s d) = t p.
Proof. apply (gs_ends _ G d Hd). Qed.

Lemma pk_snd : snd (rng s d) = t (p + n)%nat.
Proof.
  pose proof pk_n. pose proof (pk_shift _ _ PK p) as H0. fold n t in H0. rewrite H0.
  - rewrite pk_fst. ring.
  - pose proof (pk_len _ _ PK). fold n p in H1. lia.
Qed.

Lemma widx_shift i : widx s d (i + n) = widx s d i.
Proof.
  unfold widx. rewrite (pk_per _ _ PK). fold n. pose proof pk_n.
  replace (i + n)%nat with (i + 1 * n)%nat by lia. apply Nat.mod_add. lia.
Qed.

(** Restricting the sum to the support. *)
Lemma bpoly_window k j x : (p <= k)%nat -> (k < nbasis s d)%nat ->
  bpoly s d k j x = sum (p + 1) (fun a => if (widx s d (k - p + a) =? j)%nat then piece t k p (k - p + a) x else 0).
Proof.
  intros H1 H2. unfold bpoly. fold t p.
  replace (nbasis s d) with ((k - p) + ((p + 1) + (nbasis s d - k - 1)))%nat by lia.
  rewrite !sum_app. rewrite (sum_0 (k - p)), (sum_0 (nbasis s d - k - 1)).
  - rewrite Rplus_0_l, Rplus_0_r. reflexivity.
  - intros i Hi. destruct (widx s d _ =? j)%nat; auto. apply piece_support. lia.
  - intros i Hi. destruct (widx s d _ =? j)%nat; auto. apply piece_support. lia.
Qed.

(** One more segment than periods: its last segment is the first one shifted. *)
Lemma bpoly_shift j x : length (knot_of s d) = (n + 2 * p + 2)%nat ->
  bpoly s d (p + n) j (x + P) = bpoly s d p j x.
Proof.
  intros HL. pose proof pk_n.
  assert (Hnb : nbasis s d = (n + p + 1)%nat) by (unfold nbasis; fold p; lia).
  rewrite !bpoly_window by lia. apply sum_ext. intros a Ha.
  replace (p + n - p + a)%nat with (p - p + a + n)%nat by lia. rewrite widx_shift.
  destruct (widx s d (p - p + a) =? j)%nat; auto. apply piece_shift.
  intros i' Hi'. apply (pk_shift _ _ PK). fold n. lia.
Qed.

(** The polynomial of the last proper segment at the right end is the first
    one at the left end. *)
Lemma bpoly_edge j : (1 <= p)%nat -> t (p + n - 1)%nat < t (p + n)%nat ->
  bpoly s d (p + n - 1) j (t (p + n)%nat) = bpoly s d p j (t p).
Proof.
  intros Hp Hlt. pose proof pk_n as Hn. pose proof (gs_first _ G d Hd) as Hf. fold p t in Hf.
  pose proof (gs_last _ G d Hd) as Hlast. fold t in Hlast.
  pose proof (gs_sorted _ G d Hd) as Hsort.
  pose proof (pk_shift _ _ PK) as Hsh. fold t n P in Hsh.
  destruct (pk_len _ _ PK) as [HL|HL]; fold n p in HL.
  - assert (Hnb : nbasis s d = (n + p)%nat) by (unfold nbasis; fold p; lia).
    assert (Hlo : last_of s d = (p + n - 1)%nat) by (unfold last_of; fold p; lia).
    rewrite Hlo in Hlast. replace (p + n - 1 + 1)%nat with (p + n)%nat in Hlast by lia.
    set (t' := fun i => if (i <? n + 2 * p + 1)%nat then t i else t (i - n)%nat + P).
    assert (Et' : forall i, (i < n + 2 * p + 1)%nat -> t' i = t i).
    { intros i Hi. unfold t'. destruct (Nat.ltb_spec i (n + 2 * p + 1)); auto; lia. }
    assert (Hsh' : forall i, (i <= 2 * p + 1)%nat -> t' (i + n)%nat = t i + P).
    { intros i Hi. unfold t'. destruct (Nat.ltb_spec (i + n) (n + 2 * p + 1)).
      - apply Hsh. lia.
      - f_equal. f_equal. lia. }
    rewrite !bpoly_window by lia.
    rewrite Nat.add_1_r, sum_S_l. cbn [sum].
    replace (p - p + p)%nat with p by lia.
    assert (E0 : (if (widx s d p =? j)%nat then piece t p p p (t p) else 0) = 0)
      by (destruct (widx s d p =? j)%nat; auto; apply piece_left_end; auto).
    rewrite E0.
    assert (Hglue : forall i, (i <= p + n - 1)%nat ->
      piece t (p + n - 1) p i (t (p + n)%nat) = piece t' (p + n) p i (t (p + n)%nat)).
    { intros i Hi. rewrite (piece_ext t t') by (intros; symmetry; apply Et'; lia).
      pose proof (piece_glue t' (p + n - 1) p i Hp) as Gl.
      replace (p + n - 1 + 1)%nat with (p + n)%nat in Gl by lia.
      replace (p + n - 1 + 2)%nat with (p + 1 + n)%nat in Gl by lia.
      rewrite (Hsh' (p + 1)%nat) in Gl by lia. rewrite !Et' in Gl by lia. apply Gl; auto.
      rewrite Hsh by lia. lra. }
    replace (p + n - 1 - p + 0)%nat with (n - 1)%nat by lia.
    rewrite Hglue by lia. rewrite (piece_support t' (p + n) p (n - 1)) by lia.
    replace (if (widx s d (n - 1) =? j)%nat then 0 else 0) with 0 by (destruct (widx s d (n - 1) =? j)%nat; auto).
    rewrite Rplus_0_l, Rplus_0_r. apply sum_ext. intros a Ha.
    replace (p + n - 1 - p + S a)%nat with (p - p + a + n)%nat by lia. rewrite widx_shift.
    destruct (widx s d (p - p + a) =? j)%nat; auto. rewrite Hglue by lia.
    rewrite Hsh by lia. apply piece_shift. intros i' Hi'. apply Hsh'. lia.
  - assert (Hlo : last_of s d = (p + n)%nat) by (unfold last_of; fold p; lia). rewrite Hlo in Hlast.
    pose proof (bpoly_shift j (t p) HL) as Hbs. rewrite <- Hsh in Hbs by lia.
    rewrite <- Hbs.
    pose proof (bpoly_glue s d (p + n - 1) j Hd Hp) as Gl. fold t in Gl.
    replace (p + n - 1 + 1)%nat with (p + n)%nat in Gl by lia.
    replace (p + n - 1 + 2)%nat with (p + n + 1)%nat in Gl by lia. apply Gl; auto.
Qed.
End Edge.
