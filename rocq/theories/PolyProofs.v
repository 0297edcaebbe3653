(** Polynomials up to the spline order are reproduced. *)
From Coq Require Import List Arith Lia Bool ZArith Reals Lra FunctionalExtensionality.
From Coquelicot Require Import Coquelicot.
From Verif Require Import Base Num MeshM SpecMesh MeshProofs ProgM BandM LUM SplineM InterpM.
From Verif Require Import SumR DenseLU SpecBand BandProofs MulProofs LUProofs LUConv SpecSpline SpecSplineObj SplineProofs BasisProofs BetaProofs TensorR EvalR SplineTop SplineCalc SpecInterp KnotProofs KnotShape CoefProofs SolverProofs RoundProofs SolveProofs BuildProofs WeightProofs InterpProofs PerDom InterpTop InterpFinal SpecPoly.
Import ListNotations.
Open Scope R_scope.

(** ** Symmetric functions of consecutive knots *)

(** Elementary symmetric function of degree [m] of t(j+1), ..., t(j+p). *)
Fixpoint esym (t : nat -> R) (j p m : nat) : R :=
  match p with
  | O => if (m =? 0)%nat then 1 else 0
  | S p => esym t j p m + match m with O => 0 | S m => t (j + p + 1)%nat * esym t j p m end
  end.
Fixpoint bin (p m : nat) : R :=
  match p with
  | O => if (m =? 0)%nat then 1 else 0
  | S p => bin p m + match m with O => 0 | S m => bin p m end
  end.

Lemma esym_left t j p m : esym t j (S p) m = esym t (j + 1) p m + match m with O => 0 | S m => t (j + 1)%nat * esym t (j + 1) p m end.
Proof.
  revert m. induction p; intros m.
  - cbn [esym]. destruct m; replace (j + 0 + 1)%nat with (j + 1)%nat by lia; reflexivity.
  - change (esym t j (S (S p)) m) with (esym t j (S p) m + match m with O => 0 | S m => t (j + S p + 1)%nat * esym t j (S p) m end).
    change (esym t (j + 1) (S p) m) with (esym t (j + 1) p m + match m with O => 0 | S m => t (j + 1 + p + 1)%nat * esym t (j + 1) p m end).
    rewrite IHp. destruct m; [ring|]. rewrite (IHp m).
    change (esym t (j + 1) (S p) m) with (esym t (j + 1) p m + match m with O => 0 | S m => t (j + 1 + p + 1)%nat * esym t (j + 1) p m end).
    replace (j + S p + 1)%nat with (j + 1 + p + 1)%nat by lia. destruct m; ring.
Qed.

Lemma bin_nonneg p : forall m, 0 <= bin p m.
Proof. induction p; intros m; cbn [bin]. - destruct (m =? 0)%nat; lra. - destruct m; [specialize (IHp 0%nat)|pose proof (IHp m); specialize (IHp (S m))]; lra. Qed.
Lemma bin_pos p : forall m, (m <= p)%nat -> 0 < bin p m.
Proof.
  induction p; intros m Hm; cbn [bin].
  - assert (m = 0)%nat as -> by lia. cbn. lra.
  - destruct m; [specialize (IHp 0%nat ltac:(lia)); lra|]. pose proof (bin_nonneg p (S m)). specialize (IHp m ltac:(lia)). lra.
Qed.

Section Symmetric.
Variables (t : nat -> R) (N k : nat).
Hypothesis Hmono : forall i j, (i <= j < N)%nat -> t i <= t j.
Hypothesis Hk : (k + 1 < N)%nat.
Hypothesis Hseg : t k < t (k + 1)%nat.

Lemma esym_sum p : forall m x, (p <= k)%nat -> (k + p < N)%nat ->
  sum (p + 1) (fun a => esym t (k - p + a) p m * piece t k p (k - p + a) x) = bin p m * x ^ m.
Proof.
  induction p; intros m x Hp HN.
  - cbn [sum Nat.add esym bin]. unfold piece; cbn [cox]. replace (k - 0 + 0)%nat with k by lia. rewrite Nat.eqb_refl.
    destruct m; simpl; ring.
  - replace (S p + 1)%nat with (S (p + 1)) by lia. set (c := fun i => esym t i (S p) m).
    transitivity (sum (S (p+1)) (fun j => c (k - S p + j)%nat * (wgt t (S p) (k - S p + j) x * piece t k p (k - S p + j) x))
      + sum (S (p+1)) (fun j => c (k - S p + j)%nat * ((1 - wgt t (S p) (k - S p + j + 1) x) * piece t k p (k - S p + j + 1) x))).
    + rewrite <- sum_plus. apply sum_ext. intros j Hj. fold (c (k - S p + j)%nat).
      destruct (Nat.eq_dec j (p+1)).
      * subst j. rewrite (piece_support t k p (k - S p + (p+1) + 1)) by lia.
        rewrite piece_S. rewrite (piece_support t k p (k - S p + (p+1) + 1)) by lia.
        unfold wgt. ring.
      * rewrite (piece_rec t N k) by (auto; lia). ring.
    + rewrite (sum_S_l (p+1) (fun j => c _ * (wgt t (S p) _ _ * _))).
      rewrite (piece_support t k p (k - S p + 0)) by lia.
      cbn [sum]. rewrite (piece_support t k p (k - S p + (p+1) + 1)) by lia.
      rewrite !Rmult_0_r, Rplus_0_l, Rplus_0_r, <- sum_plus.
      rewrite (sum_ext _ _ (fun a => esym t (k - p + a) p m * piece t k p (k - p + a) x
         + x * match m with O => 0 | S m => esym t (k - p + a) p m * piece t k p (k - p + a) x end)).
      * rewrite sum_plus, IHp by lia. rewrite sum_scal. cbn [bin]. destruct m.
        -- rewrite sum_0 by auto. simpl. ring.
        -- rewrite IHp by lia. simpl. ring.
      * intros a Ha. replace (k - S p + S a)%nat with (k - p + a)%nat by lia.
        replace (k - S p + a + 1)%nat with (k - p + a)%nat by lia. set (j := (k - p + a)%nat).
        replace (k - S p + a)%nat with (j - 1)%nat by (unfold j; lia).
        assert (C1 : c j = esym t j p m + match m with O => 0 | S m => t (j + S p)%nat * esym t j p m end).
        { unfold c. cbn [esym]. replace (j + p + 1)%nat with (j + S p)%nat by lia. reflexivity. }
        assert (C2 : c (j - 1)%nat = esym t j p m + match m with O => 0 | S m => t j * esym t j p m end).
        { unfold c. rewrite esym_left. replace (j - 1 + 1)%nat with j by (unfold j; lia). reflexivity. }
        rewrite C1, C2. unfold wgt.
        assert (0 < t (j + S p)%nat - t j) by (apply (gap t N k Hmono Hk Hseg); unfold j; lia).
        rewrite frac_ok by lra. destruct m; field; lra.
Qed.
End Symmetric.

(** Coefficients of x^m. *)
Definition pcoef (t : nat -> R) (p m j : nat) : R := esym t j p m / bin p m.

Lemma pcoef_bpoly s d k m y : good_spline s -> (d < sp_dim s)%nat -> per_of s d = false -> (m <= sp_order s)%nat ->
  (sp_order s <= k <= last_of s d)%nat -> kn (knot_of s d) k < kn (knot_of s d) (k + 1) ->
  sum (num_of s d) (fun j => bpoly s d k j y * pcoef (kn (knot_of s d)) (sp_order s) m j) = y ^ m.
Proof.
  intros G Hd Ep Hm H1 H2.
  pose proof (wf_num _ (gs_wf _ G) d Hd) as Wn. rewrite Ep in Wn. pose proof (wf_len _ (gs_wf _ G) d Hd) as WL.
  set (t := kn (knot_of s d)) in *. set (p := sp_order s) in *. unfold last_of in H1. fold p in H1.
  assert (EB : forall j, (j < num_of s d)%nat -> bpoly s d k j y = piece t k p j y).
  { intros j Hj. unfold bpoly, widx. rewrite Ep. rewrite (sum_single _ j (fun i => if (i =? j)%nat then _ else 0)).
    - rewrite Nat.eqb_refl. reflexivity.
    - unfold nbasis. fold p. lia.
    - intros i Hi Hne. destruct (Nat.eqb_spec i j); auto; congruence. }
  rewrite (sum_ext _ _ (fun j => piece t k p j y * pcoef t p m j)) by (intros; rewrite EB; auto).
  pose proof (bin_pos p m Hm) as Hb.
  rewrite (sum_range _ (k - p) (p + 1)).
  - transitivity ((bin p m * y ^ m) / bin p m); [|field; lra].
    rewrite <- (esym_sum t (length (knot_of s d)) k) with (p := p) (x := y); try lia; auto.
    + unfold Rdiv. rewrite <- sum_scal_r. apply sum_ext. intros a Ha. unfold pcoef. field. lra.
    + intros; apply (gs_sorted _ G); auto.
  - lia.
  - intros j Hj Hn. rewrite piece_support by lia. ring.
Qed.

Lemma Derive_n_monomial e r x : Derive_n (fun y => y ^ e) r x = falling e r * x ^ (e - r).
Proof.
  revert x; induction r; intros x.
  - cbn. rewrite Nat.sub_0_r. ring.
  - cbn [Derive_n falling]. rewrite (Derive_ext _ (fun y => falling e r * y ^ (e - r))) by auto.
    rewrite Derive_scal. rewrite Derive_pow by apply ex_derive_id.
    rewrite Derive_id. replace (Init.Nat.pred (e - r)) with (e - S r)%nat by lia. ring.
Qed.

Lemma falling_0 r : falling 0 r = if (r =? 0)%nat then 1 else 0.
Proof. induction r; [reflexivity|]. cbn [falling Nat.eqb]. replace (0 - r)%nat with 0%nat by lia. simpl. ring. Qed.

Lemma pcoef_dbas s d r m x : good_spline s -> (d < sp_dim s)%nat -> (m <= if per_of s d then 0 else sp_order s)%nat ->
  sum (num_of s d) (fun j => Derive_n (bpoly s d (snd (loc s d x)) j) r (fst (loc s d x)) *
    (if per_of s d then 1 else pcoef (kn (knot_of s d)) (sp_order s) m j)) = falling m r * x ^ (m - r).
Proof.
  intros G Hd Hm. destruct (per_of s d) eqn:Ep.
  - assert (m = 0)%nat as -> by lia. rewrite sum_scal_r, sum_dbas by auto. rewrite falling_0. simpl. ring.
  - destruct (loc_spec s d x G Hd) as [Hw (H1 & H2 & _)]. rewrite Ep in Hw. cbn [wrapped] in Hw. rewrite Hw.
    set (k := snd (loc s d x)) in *. rewrite <- Derive_n_monomial.
    rewrite <- (Derive_n_ext _ _ r x (fun y => pcoef_bpoly s d k m y G Hd Ep Hm H1 H2)).
    destruct (Derive_n_sum (num_of s d) (fun j y => bpoly s d k j y * pcoef (kn (knot_of s d)) (sp_order s) m j) r x) as [E _].
    { intros j z Hj b. apply ex_derive_n_scal_r. apply (bpoly_ex_derive_n s d k j b z G Hd H1 H2). }
    rewrite E. apply sum_ext. intros j Hj. rewrite Derive_n_scal_r. reflexivity.
Qed.

(** Products of functions of one index each. *)
Fixpoint iprod (xi : list (nat -> R)) (idx : list nat) : R :=
  match xi, idx with f :: xi, i :: idx => f i * iprod xi idx | _, _ => 1 end.
Lemma tensor_monomial bs : forall (xi : list (nat -> R)) (k e : list nat) (x : list R),
  length xi = length bs -> length k = length bs -> length e = length bs -> length x = length bs ->
  (forall d, (d < length bs)%nat -> let D := nth d bs (0%nat, fun _ => 0) in
     sum (fst D) (fun j => snd D j * nth d xi (fun _ => 0) j) =
     falling (nth d e 0%nat) (nth d k 0%nat) * nth d x 0 ^ (nth d e 0%nat - nth d k 0%nat)) ->
  tensor bs (iprod xi) = monomial_derivative k e x.
Proof.
  induction bs as [|[m u] bs IH]; intros [|f xi] [|k0 k] [|e0 e] [|x0 x] L1 L2 L3 L4 H; cbn [length] in *; try discriminate; [reflexivity|].
  cbn [tensor monomial_derivative]. rewrite Rsum_sum.
  pose proof (H 0%nat ltac:(lia)) as H0. cbn [nth fst snd] in H0. rewrite <- H0, <- sum_scal_r.
  apply sum_ext. intros i Hi. cbn [iprod]. rewrite tensor_scal.
  rewrite (IH xi k e x) by (try lia; intros d Hd; apply (H (S d)); lia). ring.
Qed.

Lemma monomial_derivative_0 e : forall x, length x = length e -> monomial_derivative (repeat 0%nat (length e)) e x = monomial e x.
Proof.
  induction e as [|e0 e IH]; intros [|x0 x] L; cbn [length] in *; try discriminate; [reflexivity|].
  cbn [repeat monomial_derivative monomial falling]. rewrite IH, Nat.sub_0_r by lia. ring.
Qed.

Lemma polynomial_derivative_0 n l x : List.Forall (fun m => length (snd m) = n) l -> length x = n ->
  polynomial_derivative (repeat 0%nat n) l x = polynomial l x.
Proof.
  intros H Lx. induction H as [|m l Hm H IH]; [reflexivity|]. unfold polynomial_derivative, polynomial in *. cbn [fold_right].
  rewrite IH. subst n. rewrite monomial_derivative_0 by auto. reflexivity.
Qed.

(** ** The spline through the values of a given combination of basis functions *)
Section Reproduce.
Variables (on nd : bool) (p : nat) (per : list bool) (dims : list nat) (ranges : list (xrange R)) (f : MeshM.mesh R)
  (g : interp R) (mats : list mat).
Hypothesis GI : good_input nd p per dims ranges.
Hypothesis IP : interpolant nd p per dims ranges f g mats.
Let W := ddims nd per dims.
Let s := if_spline g.

Lemma reproduce c :
  (forall idx, valid W idx -> val_at f idx =
     tensor (dbas s (grid_point nd per dims ranges idx) (repeat 0%nat (length per))) c) ->
  forall xs orders, length xs = length per -> length orders = length per -> countable_point nd per dims ranges xs ->
    interp_eval Rops g xs = Ok (tensor (dbas s xs (repeat 0%nat (length per))) c) /\
    interp_derivative Rops on g xs orders = Ok (tensor (dbas s xs orders) c).
Proof.
  intros Hf xs orders Lx Lo C. pose proof (s_dim _ _ _ _ _ _ _ _ IP) as SD. fold s in SD.
  assert (EC : forall idx, valid W idx -> ctrl_at Rops s idx = c idx).
  { apply (ctrl_unique nd p per dims ranges f g mats GI IP c). intros idx V.
    rewrite (mrow_beta nd p per dims ranges f g mats GI IP _ idx V). fold s. rewrite Hf by auto. unfold dbas. rewrite SD. f_equal.
    apply map_ext_seq. intros d Hd. f_equal. apply functional_extensionality. intros j.
    rewrite nth_repeat. cbn [Derive_n]. unfold grid_point. rewrite map_seq_nth by auto. reflexivity. }
  rewrite (s_eval nd p per dims ranges f g mats GI IP) by auto.
  rewrite (s_derivative nd p per dims ranges f g mats GI IP) by auto. fold s. rewrite sval_dbas. rewrite SD.
  split; f_equal; apply tensor_ext; rewrite (dbas_dims nd p per dims ranges f g mats IP); apply EC.
Qed.

Lemma of_degree_len l : of_degree p per l -> List.Forall (fun m => length (snd m) = length per) l.
Proof. intros H. eapply Forall_impl; [|exact H]. intros m [H1 _]. exact H1. Qed.

Definition mcoef (e : list nat) : list (nat -> R) :=
  map (fun d j => if per_of s d then 1 else pcoef (kn (knot_of s d)) p (nth d e 0%nat) j) (seq 0 (length per)).

Lemma dbas_polynomial l xs orders : of_degree p per l -> length xs = length per -> length orders = length per ->
  tensor (dbas s xs orders) (fun idx => fold_right (fun m v => fst m * iprod (mcoef (snd m)) idx + v) 0 l) =
  polynomial_derivative orders l xs.
Proof.
  intros H Lx Lo. pose proof (s_good nd p per dims ranges f g mats GI IP) as SG. fold s in SG.
  pose proof (s_dim _ _ _ _ _ _ _ _ IP) as SD. fold s in SD. pose proof (s_order _ _ _ _ _ _ _ _ IP) as SO. fold s in SO.
  induction H as [|m l [Lm Hm] H IH]; cbn [fold_right].
  - unfold polynomial_derivative. cbn [fold_right]. rewrite (tensor_ext _ _ (fun idx => 0 * 0)) by (intros; ring).
    rewrite tensor_scal. ring.
  - rewrite tensor_plus, tensor_scal, IH. unfold polynomial_derivative. cbn [fold_right]. f_equal. f_equal.
    apply tensor_monomial; rewrite ?(len_dbas nd p per dims ranges f g mats IP); auto.
    { unfold mcoef. rewrite map_length, seq_length. auto. }
    intros d Hd. cbv zeta. rewrite (nth_dbas nd p per dims ranges f g mats IP) by auto. cbn [fst snd]. fold s.
    unfold mcoef. rewrite (map_seq_nth (fun d j => if per_of s d then 1 else pcoef (kn (knot_of s d)) p (nth d (snd m) 0%nat) j)) by auto.
    rewrite <- SO. apply pcoef_dbas; auto; [lia|]. rewrite SO. unfold per_of, s. rewrite (s_per _ _ _ _ _ _ _ _ IP). apply Hm; auto.
Qed.
End Reproduce.

Lemma polynomial_data on nd p per dims ranges f g l :
  good_input nd p per dims ranges -> m_dims f = dims -> wf_mesh f -> of_degree p per l ->
  (forall idx, valid dims idx -> val_at f idx = polynomial l (grid_point nd per dims ranges idx)) ->
  interp_make Rops on nd p per f ranges = Ok g ->
  forall xs orders, length xs = length per -> length orders = length per -> countable_point nd per dims ranges xs ->
    interp_eval Rops g xs = Ok (polynomial l xs) /\
    interp_derivative Rops on g xs orders = Ok (polynomial_derivative orders l xs).
Proof.
  intros GI Ef Wf Hl Hf E xs orders Lx Lo C.
  destruct (interp_make_spec on nd p per dims ranges f GI Ef Wf) as (mats & Lm & _ & HG & _).
  pose proof (HG g E) as IP. pose proof (of_degree_len p per l Hl) as Ll.
  destruct (reproduce on nd p per dims ranges f g mats GI IP
     (fun idx => fold_right (fun m v => fst m * iprod (mcoef p per g (snd m)) idx + v) 0 l)) with (xs := xs) (orders := orders)
    as [E1 E2]; auto.
  - intros idx V. rewrite Hf by (apply (valid_W_dims nd per dims (proj1 (proj2 GI))); auto).
    assert (length (grid_point nd per dims ranges idx) = length per) by (unfold grid_point; rewrite map_length, seq_length; auto).
    rewrite (dbas_polynomial nd p per dims ranges f g mats GI IP) by (auto; apply repeat_length).
    rewrite polynomial_derivative_0; auto.
  - rewrite E1, E2. rewrite !(dbas_polynomial nd p per dims ranges f g mats GI IP) by (auto; apply repeat_length).
    rewrite polynomial_derivative_0; auto.
Qed.

(** ** Samples of a spline give the spline *)
Lemma good_spline_shape s s' : good_spline s -> sp_order s = sp_order s' -> sp_per s = sp_per s' -> sp_knots s = sp_knots s' ->
  sp_range s = sp_range s' -> m_dims (sp_ctrl s) = m_dims (sp_ctrl s') -> wf_mesh (sp_ctrl s') -> good_spline s'.
Proof.
  destruct s as [o per kn c r], s' as [o' per' kn' c' r']. cbn. intros [[W1 W2 W3 W4 W5 W6] G1 G2 G3 G4 G5] -> -> -> -> E Wf.
  constructor; auto. constructor; auto.
  - cbn. rewrite <- E. auto.
  - cbn in *. unfold num_of in *. cbn in *. rewrite <- E. auto.
Qed.

Lemma mesh_ext (a b : MeshM.mesh R) : wf_mesh a -> wf_mesh b -> m_dims a = m_dims b ->
  (forall idx, valid (m_dims a) idx -> val_at a idx = val_at b idx) -> a = b.
Proof.
  destruct a as [da la], b as [db lb]. unfold wf_mesh, val_at. cbn. intros Wa Wb -> H. f_equal.
  apply (nth_ext _ _ 0 0); [congruence|]. intros k Hk. rewrite Wa in Hk.
  destruct (row_major_surj db k Hk) as (idx & V & E). rewrite <- E. apply H; auto.
Qed.

Lemma spline_samples on nd p per dims ranges f g s0 :
  good_input nd p per dims ranges -> m_dims f = dims -> wf_mesh f ->
  interp_make Rops on nd p per f ranges = Ok g ->
  sp_order s0 = sp_order (if_spline g) -> sp_per s0 = sp_per (if_spline g) -> sp_knots s0 = sp_knots (if_spline g) ->
  sp_range s0 = sp_range (if_spline g) -> m_dims (sp_ctrl s0) = m_dims (sp_ctrl (if_spline g)) -> wf_mesh (sp_ctrl s0) ->
  (forall idx, valid dims idx -> spline_eval_plain Rops s0 (grid_point nd per dims ranges idx) = Ok (val_at f idx)) ->
  if_spline g = s0.
Proof.
  intros GI Ef Wf E E1 E2 E3 E4 E5 Ws Hs.
  destruct (interp_make_spec on nd p per dims ranges f GI Ef Wf) as (mats & Lm & _ & HG & _).
  pose proof (HG g E) as IP. pose proof (s_good nd p per dims ranges f g mats GI IP) as SG.
  pose proof (s_dim _ _ _ _ _ _ _ _ IP) as SD.
  assert (G0 : good_spline s0) by (apply (good_spline_shape (if_spline g)); auto).
  assert (SD0 : sp_dim s0 = length per) by (rewrite <- SD; unfold sp_dim; rewrite E2; auto).
  assert (EC : forall idx, valid (ddims nd per dims) idx -> ctrl_at Rops (if_spline g) idx = ctrl_at Rops s0 idx).
  { apply (ctrl_unique nd p per dims ranges f g mats GI IP). intros idx V.
    rewrite (mrow_beta nd p per dims ranges f g mats GI IP _ idx V).
    assert (Lg : length (grid_point nd per dims ranges idx) = length per) by (unfold grid_point; rewrite map_length, seq_length; auto).
    specialize (Hs idx (valid_W_dims nd per dims (proj1 (proj2 GI)) idx V)).
    rewrite eval_sval in Hs by (auto; lia). injection Hs as <-.
    unfold sval. rewrite SD0. f_equal. apply map_ext_seq. intros d Hd.
    unfold grid_point. rewrite map_seq_nth by auto. f_equal.
    - unfold num_of. rewrite E5. reflexivity.
    - apply functional_extensionality. intros j. unfold beta, bpoly, loc, nbasis, widx, knot_of, per_of, num_of. rewrite E1, E2, E3, E4, E5. reflexivity. }
  pose proof (ip_ctrl _ _ _ _ _ _ _ _ IP) as ED. pose proof (ip_wf _ _ _ _ _ _ _ _ IP) as EW.
  assert (sp_ctrl (if_spline g) = sp_ctrl s0).
  { apply mesh_ext; auto. rewrite ED. apply EC. }
  destruct (if_spline g), s0. cbn in *. congruence.
Qed.
