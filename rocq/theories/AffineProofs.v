(** Affine data is reproduced (Greville abscissae). *)
From Coq Require Import List Arith Lia Bool ZArith Reals Lra FunctionalExtensionality.
From Verif Require Import Base Num MeshM SpecMesh MeshProofs ProgM BandM LUM SplineM InterpM.
From Verif Require Import SumR DenseLU SpecBand BandProofs MulProofs LUProofs LUConv SpecSpline SpecSplineObj SplineProofs BasisProofs BetaProofs TensorR EvalR SplineTop SplineCalc SpecInterp KnotProofs KnotShape CoefProofs SolverProofs RoundProofs SolveProofs BuildProofs WeightProofs InterpProofs PerDom InterpTop InterpFinal.
Import ListNotations.
Open Scope R_scope.

Section Greville.
Variables (t : nat -> R) (N k : nat).
Hypothesis Hmono : forall i j, (i <= j < N)%nat -> t i <= t j.
Hypothesis Hk : (k + 1 < N)%nat.
Hypothesis Hseg : t k < t (k + 1)%nat.

Lemma greville_sum p x : (p <= k)%nat -> (k + p < N)%nat ->
  sum (p + 1) (fun a => sum p (fun l => t (k - p + a + 1 + l)%nat) * piece t k p (k - p + a) x) = INR p * x.
Proof.
  revert x; induction p; intros x Hp HN.
  - cbn [sum Nat.add]. simpl (INR 0). ring.
  - replace (S p + 1)%nat with (S (p + 1)) by lia. set (c := fun i => sum (S p) (fun l => t (i + 1 + l)%nat)).
    transitivity (sum (S (p+1)) (fun j => c (k - S p + j)%nat * (wgt t (S p) (k - S p + j) x * piece t k p (k - S p + j) x))
      + sum (S (p+1)) (fun j => c (k - S p + j)%nat * ((1 - wgt t (S p) (k - S p + j + 1) x) * piece t k p (k - S p + j + 1) x))).
    + rewrite <- sum_plus. apply sum_ext. intros j Hj. fold (c (k - S p + j)%nat).
      destruct (Nat.eq_dec j (p+1)).
      * subst j. rewrite (piece_support t k p (k - S p + (p+1) + 1)) by lia.
        rewrite piece_S. rewrite (piece_support t k p (k - S p + (p+1) + 1)) by lia.
        unfold wgt. ring.
      * rewrite (piece_rec t N k) by (auto; lia). ring.
    + rewrite (sum_S_l (p+1) (fun j => c _ * (wgt t (S p) _ _ * _))).
      rewrite (piece_support t k p (k - S p + 0)) by lia.
      cbn [sum]. rewrite (piece_support t k p (k - S p + (p+1) + 1)) by lia.
      rewrite !Rmult_0_r, Rplus_0_l, Rplus_0_r, <- sum_plus.
      rewrite (sum_ext _ _ (fun a => sum p (fun l => t (k - p + a + 1 + l)%nat) * piece t k p (k - p + a) x + x * piece t k p (k - p + a) x)).
      * rewrite sum_plus, IHp by lia. rewrite sum_scal, (piece_unity t N k) by (auto; lia). rewrite S_INR. ring.
      * intros a Ha. replace (k - S p + S a)%nat with (k - p + a)%nat by lia.
        replace (k - S p + a + 1)%nat with (k - p + a)%nat by lia. set (j := (k - p + a)%nat).
        replace (k - S p + a)%nat with (j - 1)%nat by (unfold j; lia).
        assert (C1 : c j = sum p (fun l => t (j + 1 + l)%nat) + t (j + S p)%nat).
        { unfold c. cbn [sum]. do 2 f_equal. lia. }
        assert (C2 : c (j - 1)%nat = t j + sum p (fun l => t (j + 1 + l)%nat)).
        { unfold c. rewrite sum_S_l. f_equal; [f_equal; unfold j; lia|]. apply sum_ext. intros l Hl. f_equal. unfold j; lia. }
        rewrite C1, C2. unfold wgt.
        assert (0 < t (j + S p)%nat - t j) by (apply (gap t N k Hmono Hk Hseg); unfold j; lia).
        rewrite frac_ok by lra. field. lra.
Qed.

End Greville.

(** Mean of the knots j+1, ..., j+p. *)
Definition greville (t : nat -> R) (p j : nat) : R := sum p (fun l => t (j + 1 + l)%nat) / INR p.

Lemma greville_beta s d x : good_spline s -> (d < sp_dim s)%nat -> per_of s d = false -> (1 <= sp_order s)%nat ->
  sum (num_of s d) (fun j => beta s d j x * greville (kn (knot_of s d)) (sp_order s) j) = x.
Proof.
  intros G Hd Ep Hp. destruct (loc_spec s d x G Hd) as [Hw (H1 & H2 & _)]. rewrite Ep in Hw. cbn [wrapped] in Hw.
  unfold beta. rewrite Hw. clear Hw. set (k := snd (loc s d x)) in *.
  pose proof (wf_num _ (gs_wf _ G) d Hd) as Wn. rewrite Ep in Wn. pose proof (wf_len _ (gs_wf _ G) d Hd) as WL.
  set (t := kn (knot_of s d)) in *. set (p := sp_order s) in *. unfold last_of in H1. fold p in H1.
  assert (EB : forall j, (j < num_of s d)%nat -> bpoly s d k j x = piece t k p j x).
  { intros j Hj. unfold bpoly, widx. rewrite Ep. rewrite (sum_single _ j (fun i => if (i =? j)%nat then _ else 0)).
    - rewrite Nat.eqb_refl. reflexivity.
    - unfold nbasis. fold p. lia.
    - intros i Hi Hne. destruct (Nat.eqb_spec i j); auto; congruence. }
  rewrite (sum_ext _ _ (fun j => piece t k p j x * greville t p j)) by (intros; rewrite EB; auto).
  rewrite (sum_range _ (k - p) (p + 1)).
  - assert (INR p <> 0) by (apply not_0_INR; lia).
    transitivity ((INR p * x) / INR p); [|field; auto].
    rewrite <- (greville_sum t (length (knot_of s d)) k) with (p := p) (x := x); try lia; auto.
    + unfold Rdiv. rewrite <- sum_scal_r. apply sum_ext. intros a Ha. unfold greville. field. auto.
    + intros; apply (gs_sorted _ G); auto.
  - lia.
  - intros j Hj Hn. rewrite piece_support by lia. ring.
Qed.

Lemma tensor_affine bs : forall (xi : list (nat -> R)) (b x : list R) a,
  length xi = length bs -> length b = length bs -> length x = length bs ->
  (forall d, (d < length bs)%nat -> let D := nth d bs (0%nat, fun _ => 0) in
     sum (fst D) (snd D) = 1 /\ sum (fst D) (fun j => snd D j * nth d xi (fun _ => 0) j) = nth d x 0) ->
  tensor bs (fun idx => a + dot b (map2 (fun f i => f i) xi idx)) = a + dot b x.
Proof.
  induction bs as [|[m u] bs IH]; intros [|f xi] [|b0 b] [|x0 x] a L1 L2 L3 H; cbn [length] in *; try discriminate.
  - reflexivity.
  - cbn [tensor map2 dot]. rewrite Rsum_sum.
    destruct (H 0%nat ltac:(lia)) as [Hs Hx]. cbn [nth fst snd] in Hs, Hx.
    rewrite (sum_ext _ _ (fun i => u i * (a + dot b x) + b0 * (u i * f i))).
    + rewrite sum_plus, sum_scal_r, sum_scal, Hs, Hx. ring.
    + intros i Hi. rewrite (tensor_ext _ _ (fun idx => (a + b0 * f i) + dot b (map2 (fun f i => f i) xi idx))) by (intros; ring).
      rewrite (IH xi b x) by (try lia; intros d Hd; apply (H (S d)); lia). ring.
Qed.

Lemma affine_data on nd p per dims ranges f g a b :
  good_input nd p per dims ranges -> List.Forall (fun v => v = false) per -> (1 <= p)%nat ->
  m_dims f = dims -> wf_mesh f -> length b = length per ->
  (forall idx, valid dims idx -> val_at f idx = a + dot b (grid_point nd per dims ranges idx)) ->
  interp_make Rops on nd p per f ranges = Ok g ->
  forall xs, length xs = length per -> countable_point nd per dims ranges xs ->
    interp_eval Rops g xs = Ok (a + dot b xs).
Proof.
  intros GI Ap Hp Ef Wf Lb Hf E xs Lx C. pose proof (all_false per Ap) as AF.
  destruct (interp_make_spec on nd p per dims ranges f GI Ef Wf) as (mats & Lm & _ & HG & _).
  pose proof (HG g E) as IP. set (s := if_spline g). set (W := ddims nd per dims).
  pose proof (s_good nd p per dims ranges f g mats GI IP) as SG. fold s in SG.
  pose proof (s_dim _ _ _ _ _ _ _ _ IP) as SD. fold s in SD. pose proof (s_order _ _ _ _ _ _ _ _ IP) as SO. fold s in SO.
  set (xi := map (fun d => greville (kn (knot_of s d)) p) (seq 0 (length per))).
  set (c := fun idx => a + dot b (map2 (fun f i => f i) xi idx)).
  assert (Lxi : length xi = length per) by (unfold xi; rewrite map_length, seq_length; auto).
  assert (HT : forall ys, length ys = length per ->
     tensor (map (fun d => (num_of s d, fun j => beta s d j (nth d ys 0))) (seq 0 (length per))) c = a + dot b ys).
  { intros ys Ly. apply tensor_affine; rewrite ?map_length, ?seq_length; auto.
    intros d Hd. cbv zeta. rewrite (map_seq_nth (fun d => (num_of s d, fun j => beta s d j (nth d ys 0)))) by auto. cbn [fst snd].
    split.
    - apply (sum_dbas s d 0 (nth d ys 0)); auto. lia.
    - unfold xi. rewrite (map_seq_nth (fun d => greville (kn (knot_of s d)) p)) by auto. replace p with (sp_order s). apply greville_beta; auto; try lia.
      unfold per_of, s. rewrite (s_per _ _ _ _ _ _ _ _ IP). apply AF. }
  assert (EC : forall idx, valid W idx -> ctrl_at Rops s idx = c idx).
  { apply (ctrl_unique nd p per dims ranges f g mats GI IP c). intros idx V.
    rewrite (mrow_beta nd p per dims ranges f g mats GI IP _ idx V). fold s.
    rewrite Hf by (apply (valid_W_dims nd per dims (proj1 (proj2 GI))); auto).
    rewrite <- HT by (unfold grid_point; rewrite map_length, seq_length; auto). f_equal.
    apply map_ext_seq. intros d Hd. f_equal. apply functional_extensionality. intros j. f_equal.
    unfold grid_point. rewrite map_seq_nth by auto. reflexivity. }
  rewrite (s_eval nd p per dims ranges f g mats GI IP) by auto. f_equal. fold s. rewrite <- (HT xs Lx).
  unfold sval. rewrite SD. apply tensor_ext. rewrite map_map. cbn [fst].
  replace (map (fun d => num_of s d) (seq 0 (length per))) with W; auto.
  apply (nth_ext _ _ 0%nat 0%nat).
  - unfold W. rewrite ddims_length, map_length, seq_length. auto.
  - unfold W. rewrite ddims_length. intros d Hd. rewrite map_seq_nth by auto. symmetry. apply (s_num _ _ _ _ _ _ _ _ IP).
Qed.
