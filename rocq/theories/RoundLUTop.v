(** Rounding errors of the band solvers at the level of the public interface,
    and in doubles. *)
From Coq Require Import FunctionalExtensionality List Arith Lia Bool ZArith Reals Lra Psatz Floats.
From Flocq Require Import Core BinarySingleNaN PrimFloat.
From Verif Require Import Base Num FloatM MeshM BandM ProgM LUM SpecBand SumR DenseLU BandProofs MulProofs LUProofs LUTop SpecRound GenLU RoundLU RoundSpline RoundEval FloatProofs RoundDouble.
Import ListNotations.
Local Open Scope R_scope.

Definition dvo {T} (o : ops T) (a b : T) : T := match odiv o a b with Ok c => c | _ => o0 o end.

Lemma brow_range n p k i : brow n p k i = true -> (k < i < n)%nat.
Proof. unfold brow. destruct (Nat.ltb_spec k i), (Nat.ltb_spec i n); cbn; try discriminate; lia. Qed.
Lemma erow_range n p q k i : erow n p q k i = true -> (k < i < n)%nat.
Proof. unfold erow. destruct (Nat.ltb_spec k i), (Nat.ltb_spec i n); cbn; try discriminate; lia. Qed.
Lemma brow_mono n p t k i : (t < k < i)%nat -> brow n p t i = true -> brow n p k i = true.
Proof. unfold brow. rewrite !andb_true_iff, !Nat.ltb_lt, !Nat.leb_le. lia. Qed.
Lemma erow_mono n p q t k i : (t < k < i)%nat -> erow n p q t i = true -> erow n p q k i = true.
Proof. unfold erow. rewrite !andb_true_iff, !orb_true_iff, !Nat.ltb_lt, !Nat.leb_le. lia. Qed.
Lemma brow_false n p k i : (k < i < n)%nat -> brow n p k i = false -> (k + p < i)%nat.
Proof. unfold brow. intros H. destruct (Nat.ltb_spec k i), (Nat.ltb_spec i n), (Nat.leb_spec i (k + p)); cbn; try discriminate; lia. Qed.
Lemma erow_false n p q k i : (k < i < n)%nat -> erow n p q k i = false -> (k + p < i /\ i + q < n)%nat.
Proof. unfold erow. intros H. destruct (Nat.ltb_spec k i), (Nat.ltb_spec i n), (Nat.leb_spec i (k + p)), (Nat.leb_spec n (i + q)); cbn; try discriminate; lia. Qed.

Section Top.
Context {T : Type} (o : ops T) (val : T -> R) (good : T -> Prop) (u eta : R) (Hr : strict_rounding o val good u eta).
Lemma dvo_ok a b : odiv o a b = Ok (dvo o a b).
Proof using All. destruct (sr_div _ _ _ _ _ Hr a b) as (c & E & _). unfold dvo. rewrite E. reflexivity. Qed.

Lemma gholds_vector_at n iter m0 m x :
  (forall i, (i < n)%nat -> mem_ok m0 (iter i)) -> GenLU.holds o n iter m0 m x -> vector_at n iter m0 m x.
Proof using.
  intros Hok (Hm & Hl & Hv & Ho). split; [|split]; auto.
  - intros i Hi. rewrite (mem_get_ok (o0 o)). rewrite Hv; auto. apply Hm; auto.
  - intros l Hne. rewrite !(mem_get_cases (o0 o)). rewrite (Ho l Hne).
    specialize (Hm l). unfold mem_ok in Hm. bdr; auto; lia.
Qed.
Lemma vector_values n iter m0 b : good_iter n iter m0 -> vector_at n iter m0 m0 b -> forall i, (i < n)%nat -> mval (o0 o) m0 (iter i) = b i.
Proof using.
  intros Hg (_ & Hb & _) i Hi. specialize (Hb i Hi). rewrite (mem_get_ok (o0 o)) in Hb by (eapply good_iter_ok; eauto). congruence.
Qed.

Lemma solve_inputs n rw cl A b : 
  (forall k i, rw k i = true -> (k < i < n)%nat) -> (forall k i, cl k i = true -> (k < i < n)%nat) ->
  (forall t k i, (t < k < i)%nat -> rw t i = true -> rw k i = true) -> (forall t k i, (t < k < i)%nat -> cl t i = true -> cl k i = true) ->
  (forall i k, (k < i < n)%nat -> rw k i = false -> A i k = o0 o) -> (forall k j, (k < j < n)%nat -> cl k j = false -> A k j = o0 o) ->
  let F := giter o (dvo o) rw cl A (n - 1) in let x := biter o (dvo o) cl F n (fiter o rw F b n) n in
  (forall i j, (i < n)%nat -> (j < n)%nat -> good (F i j)) -> (forall i, (i < n)%nat -> good (x i)) ->
  forall i, (i < n)%nat -> good (b i) /\ (forall j, (j < n)%nat -> good (A i j)) /\
    Rabs (Rsum n (fun j => val (A i j) * val (x j)) - val (b i)) <= residual_bound u eta n (fun i j => val (F i j)) (fun j => val (x j)) i.
Proof using All.
  intros Hrw Hcl Mrw Mcl ZL ZU F x GF GX i Hi.
  assert (GF' : forall i j, (i < n)%nat -> (j < n)%nat -> good (giter o (dvo o) rw cl A (n - 1) i j)) by exact GF.
  pose proof (M_zero_lower o (dvo o) n rw cl Hrw Hcl Mrw A ZL (n - 1)) as FL. pose proof (M_zero_upper o (dvo o) n rw cl Hrw Hcl Mcl A ZU (n - 1)) as FU.
  split; [|split].
  - assert (GY : forall i, (i < n)%nat -> good (fiter o rw F b n i)).
    { intros k Hk. pose proof (X_good o val good u eta Hr (dvo o) dvo_ok n rw cl Hrw Hcl Mrw Mcl F GF FL FU _ GX n k ltac:(lia) Hk) as G. rewrite Nat.sub_diag in G. exact G. }
    pose proof (V_good o val good u eta Hr (dvo o) dvo_ok n rw cl Hrw Hcl Mrw Mcl F GF FL FU b GY n i ltac:(lia) Hi) as G. rewrite Nat.sub_diag in G. exact G.
  - intros j Hj. exact (M_good' o val good u eta Hr (dvo o) dvo_ok n rw cl Hrw Hcl Mrw Mcl A ZL ZU GF' 0 i j ltac:(lia) Hi Hj).
  - change Rsum with sum. apply (residual_error o val good u eta Hr (dvo o) dvo_ok n rw cl Hrw Hcl Mrw Mcl A b ZL ZU GF' GX i Hi).
Qed.

Lemma band_residual on n p q h iter m0 b :
  (0 < n)%nat -> writes_in (in_band n p q) h -> good_iter n iter m0 -> vector_at n iter m0 m0 b ->
  exists m f m1 F x,
    build_band o on n p q h = Ok m /\ band_lu o on m = Ok f /\ run (band_solve o on f iter) m0 = Ok (tt, m1) /\
    vector_at n iter m0 m1 x /\
    (forall i j, in_band n p q i j -> band_get on f i j = Ok (F i j)) /\ (forall i j, ~ in_band n p q i j -> F i j = o0 o) /\
    ((forall i j, in_band n p q i j -> good (F i j)) -> (forall i, (i < n)%nat -> good (x i)) ->
     forall i, (i < n)%nat -> good (b i) /\ (forall j, (j < n)%nat -> good (content (o0 o) h i j)) /\
       Rabs (Rsum n (fun j => val (content (o0 o) h i j) * val (x j)) - val (b i)) <= residual_bound u eta n (fun i j => val (F i j)) (fun j => val (x j)) i).
Proof using All.
  intros Hn H Hg Hb. destruct (band_history o (o0 o) on n p q h H) as (m & E & Hw & Hc).
  destruct (gband_lu o (dvo o) dvo_ok on n p q m Hw Hn) as (f & Ef & Hwf & Hf).
  destruct (gband_solve o (dvo o) dvo_ok on n p q f iter m0 b (proj1 Hg) (good_iter_ok _ _ _ Hg) Hwf (vector_values n iter m0 b Hg Hb)) as (m1 & Es & Hh).
  assert (EF : babs (o0 o) f = giter o (dvo o) (brow n p) (brow n q) (babs (o0 o) m) (n - 1)).
  { apply functional_extensionality. intros i. apply functional_extensionality. intros j. apply Hf. }
  assert (EA : babs (o0 o) m = content (o0 o) h).
  { apply functional_extensionality. intros i. apply functional_extensionality. intros j.
    assert (in_band n p q i j \/ ~ in_band n p q i j) as [Hx|Hx] by (unfold in_band; lia); [apply Hc; auto|].
    rewrite (babs_out (o0 o) n p q m i j Hw Hx), (content_out (o0 o) (in_band n p q) h) by auto. reflexivity. }
  assert (Z : forall i j, ~ in_band n p q i j -> babs (o0 o) f i j = o0 o) by (intros; apply (babs_out (o0 o) n p q); auto).
  eexists m, f, m1, (babs (o0 o) f), _. split; [exact E|]. split; [exact Ef|]. split; [exact Es|].
  split; [apply gholds_vector_at; [exact (good_iter_ok _ _ _ Hg)|exact Hh]|].
  split; [intros; apply (band_get_ok (o0 o) on n p q); auto|]. split; [exact Z|].
  intros GF GX. rewrite EA in EF. 
  assert (GF' : forall i j, (i < n)%nat -> (j < n)%nat -> good (babs (o0 o) f i j)).
  { intros i j Hi Hj. assert (in_band n p q i j \/ ~ in_band n p q i j) as [Hx|Hx] by (unfold in_band; lia); auto.
    rewrite Z by auto. apply (sr_0 _ _ _ _ _ Hr). }
  clear GF Z. rewrite EF in *.
  apply solve_inputs; auto; try apply brow_range; try apply brow_mono.
  - intros i k Hk Ho. apply brow_false in Ho; auto. apply (content_out (o0 o) (in_band n p q)); auto. unfold in_band. lia.
  - intros i k Hk Ho. apply brow_false in Ho; auto. apply (content_out (o0 o) (in_band n p q)); auto. unfold in_band. lia.
Qed.

Lemma eband_residual on n p q h iter m0 b :
  (p < n)%nat -> (q < n)%nat -> (p + q <= n)%nat -> writes_in (in_ext n p q) h -> good_iter n iter m0 -> vector_at n iter m0 m0 b ->
  exists m f m1 F x,
    build_eband o on n p q h = Ok m /\ eband_lu o on m = Ok f /\ run (eband_solve o on f iter) m0 = Ok (tt, m1) /\
    vector_at n iter m0 m1 x /\
    (forall i j, in_ext n p q i j -> eb_get on f i j = Ok (F i j)) /\ (forall i j, ~ in_ext n p q i j -> F i j = o0 o) /\
    ((forall i j, in_ext n p q i j -> good (F i j)) -> (forall i, (i < n)%nat -> good (x i)) ->
     forall i, (i < n)%nat -> good (b i) /\ (forall j, (j < n)%nat -> good (content (o0 o) h i j)) /\
       Rabs (Rsum n (fun j => val (content (o0 o) h i j) * val (x j)) - val (b i)) <= residual_bound u eta n (fun i j => val (F i j)) (fun j => val (x j)) i).
Proof using All.
  intros Hp Hq Hpq H Hg Hb. destruct (eband_history o (o0 o) on n p q h Hp Hq H) as (m' & m & E0 & E & Hw & Hc).
  assert (Eb : build_eband o on n p q h = Ok m) by (unfold build_eband; rewrite E0; exact E).
  destruct (geband_lu o (dvo o) dvo_ok on n p q m Hw) as (f & Ef & Hwf & Hf).
  destruct (geband_solve o (dvo o) dvo_ok on n p q f iter m0 b (proj1 Hg) (good_iter_ok _ _ _ Hg) Hwf Hpq (vector_values n iter m0 b Hg Hb)) as (m1 & Es & Hh).
  assert (EF : eabs (o0 o) f = giter o (dvo o) (erow n p q) (erow n q p) (eabs (o0 o) m) (n - 1)).
  { apply functional_extensionality. intros i. apply functional_extensionality. intros j. apply Hf. }
  assert (EA : eabs (o0 o) m = content (o0 o) h).
  { apply functional_extensionality. intros i. apply functional_extensionality. intros j.
    assert (in_ext n p q i j \/ ~ in_ext n p q i j) as [Hx|Hx] by (unfold in_ext, in_band; lia); [apply Hc; auto|].
    rewrite (eabs_out (o0 o) n p q m i j Hw Hx), (content_out (o0 o) (in_ext n p q) h) by auto. reflexivity. }
  assert (Z : forall i j, ~ in_ext n p q i j -> eabs (o0 o) f i j = o0 o) by (intros; apply (eabs_out (o0 o) n p q); auto).
  eexists m, f, m1, (eabs (o0 o) f), _. split; [exact Eb|]. split; [exact Ef|]. split; [exact Es|].
  split; [apply gholds_vector_at; [exact (good_iter_ok _ _ _ Hg)|exact Hh]|].
  split; [intros; apply (eb_get_ok (o0 o) on n p q); auto|]. split; [exact Z|].
  intros GF GX. rewrite EA in EF. 
  assert (GF' : forall i j, (i < n)%nat -> (j < n)%nat -> good (eabs (o0 o) f i j)).
  { intros i j Hi Hj. assert (in_ext n p q i j \/ ~ in_ext n p q i j) as [Hx|Hx] by (unfold in_ext, in_band; lia); auto.
    rewrite Z by auto. apply (sr_0 _ _ _ _ _ Hr). }
  clear GF Z. rewrite EF in *.
  apply solve_inputs; auto; try apply erow_range; try apply erow_mono.
  - intros i k Hk Ho. apply erow_false in Ho; auto. apply (content_out (o0 o) (in_ext n p q)); auto. unfold in_ext, in_band. lia.
  - intros i k Hk Ho. apply erow_false in Ho; auto. apply (content_out (o0 o) (in_ext n p q)); auto. unfold in_ext, in_band. lia.
Qed.
End Top.

(** Doubles. *)
Lemma finite_cases x : double_finite x <-> is_finite (Prim2B x) = true.
Proof. apply finite_B. Qed.
Lemma overflow_inf s : is_finite_SF (binary_overflow prec emax mode_NE s) = false.
Proof. unfold binary_overflow. cbn. reflexivity. Qed.
Lemma F_strict : strict_rounding Fops double_val double_finite Fu Feta.
Proof.
  split.
  - apply F_rounding.
  - apply F_rounding.
  - split; [exact I|reflexivity].
  - intros a b G. cbn [osub Fops] in *. rewrite !finite_B in *. rewrite sub_equiv in G.
    assert (is_finite (Prim2B a) = true /\ is_finite (Prim2B b) = true) as [Ha Hb].
    { revert G. destruct (Prim2B a) as [s|s| |s m e H], (Prim2B b) as [s'|s'| |s' m' e' H']; cbn; auto; try discriminate; destruct (Bool.eqb _ _); cbn; discriminate. }
    split; auto. split; auto. rewrite !val_B2R, sub_equiv.
    pose proof (Bminus_correct prec emax eq_refl eq_refl mode_NE (Prim2B a) (Prim2B b) Ha Hb) as C. cbn [round_mode] in C.
    destruct (Rlt_bool _ _) in C.
    + match goal with |- Rabs (?v - _) <= _ => replace v with (rnd (B2R (Prim2B a) - B2R (Prim2B b))) by (symmetry; exact (proj1 C)) end. rewrite <- !val_B2R. exact (rnd_plus (double_val a) (- double_val b) (val_format a) (generic_format_opp _ _ _ (val_format b))).
    + destruct C as [C _]. exfalso. match type of G with is_finite ?z = true => assert (V : is_finite_SF (B2SF z) = true) by (rewrite is_finite_SF_B2SF; exact G) end. pose proof (eq_trans (f_equal is_finite_SF (eq_sym C)) V) as V'. rewrite overflow_inf in V'. discriminate.
  - intros a b G. cbn [omul Fops] in *. rewrite !finite_B in *. rewrite mul_equiv in G.
    assert (is_finite (Prim2B a) = true /\ is_finite (Prim2B b) = true) as [Ha Hb].
    { revert G. destruct (Prim2B a) as [s|s| |s m e H], (Prim2B b) as [s'|s'| |s' m' e' H']; cbn; auto; try discriminate. }
    split; auto. split; auto. rewrite !val_B2R, mul_equiv.
    pose proof (Bmult_correct prec emax eq_refl eq_refl mode_NE (Prim2B a) (Prim2B b)) as C. cbn [round_mode] in C.
    destruct (Rlt_bool _ _) in C.
    + match goal with |- Rabs (?v - _) <= _ => replace v with (rnd (B2R (Prim2B a) * B2R (Prim2B b))) by (symmetry; exact (proj1 C)) end. apply rnd_error.
    + exfalso. match type of G with is_finite ?z = true => assert (V : is_finite_SF (B2SF z) = true) by (rewrite is_finite_SF_B2SF; exact G) end. pose proof (eq_trans (f_equal is_finite_SF (eq_sym C)) V) as V'. rewrite overflow_inf in V'. discriminate.
  - intros a b. cbn [odiv Fops]. eexists. split; [reflexivity|]. intros Hb G. rewrite !finite_B in *. rewrite div_equiv in G.
    assert (is_finite (Prim2B a) = true /\ B2R (Prim2B b) <> 0) as [Ha Nb].
    { revert Hb G. destruct (Prim2B a) as [s|s| |s m e H], (Prim2B b) as [s'|s'| |s' m' e' H'] eqn:Eb; cbn [is_finite Bdiv]; try discriminate; intros _ G;
      (split; [reflexivity|]; cbn [B2R]; apply F2R_neq_0; destruct s'; discriminate) || (cbn in G; discriminate). }
    split; auto. rewrite !val_B2R. split; auto. rewrite div_equiv.
    pose proof (Bdiv_correct prec emax eq_refl eq_refl mode_NE (Prim2B a) (Prim2B b) Nb) as C. cbn [round_mode] in C.
    destruct (Rlt_bool _ _) in C.
    + match goal with |- Rabs (?v - _) <= _ => replace v with (rnd (B2R (Prim2B a) / B2R (Prim2B b))) by (symmetry; exact (proj1 C)) end. apply rnd_error.
    + exfalso. match type of G with is_finite ?z = true => assert (V : is_finite_SF (B2SF z) = true) by (rewrite is_finite_SF_B2SF; exact G) end. pose proof (eq_trans (f_equal is_finite_SF (eq_sym C)) V) as V'. rewrite overflow_inf in V'. discriminate.
Qed.

Lemma Fu_val : Fu = powerRZ 2 (-53) /\ 0 < Fu <= / 1000000.
Proof.
  rewrite <- (bpow_powerRZ radix2). unfold Fu. split.
  - change (-53)%Z with (-1 + -52)%Z. rewrite bpow_plus. change (bpow radix2 (-1)) with (/ 2). reflexivity.
  - assert (0 < bpow radix2 (-52)) by apply bpow_gt_0. assert (bpow radix2 (-52) <= bpow radix2 (-20)) by (apply bpow_le; lia).
    change (bpow radix2 (-20)) with (/ 1048576) in *. lra.
Qed.
Lemma w_double : 0 <= Fu / (1 - Fu) <= 1001 / 1000 * Fu.
Proof.
  destruct Fu_val as [_ [H0 H1]]. split.
  - apply Rmult_le_pos; [lra|]. left. apply Rinv_0_lt_compat. lra.
  - apply Rmult_le_reg_r with (1 - Fu); [lra|]. unfold Rdiv at 1. rewrite Rmult_assoc, Rinv_l by lra. nra.
Qed.
Lemma growth_double n : INR n <= powerRZ 2 40 ->
  0 <= solve_growth Fu n <= / 500 /\ 3 * solve_growth Fu n + solve_growth Fu n * solve_growth Fu n <= INR n * powerRZ 2 (-51).
Proof.
  intros Hn. destruct Fu_val as [Eu [H0 H1]]. destruct w_double as [W0 W1]. pose proof (pos_INR n) as Pn.
  set (w := Fu / (1 - Fu)) in *. set (t := INR n * w).
  assert (Q : INR n * Fu <= powerRZ 2 (-13)).
  { apply Rle_trans with (powerRZ 2 40 * Fu); [apply Rmult_le_compat_r; lra|]. rewrite Eu, <- powerRZ_add by lra. right. reflexivity. }
  assert (Q2 : powerRZ 2 (-13) <= / 8000) by (rewrite <- (bpow_powerRZ radix2); change (bpow radix2 (-13)) with (/ 8192); lra).
  assert (T0 : 0 <= t) by (apply Rmult_le_pos; auto).
  assert (T1 : t <= 1001 / 1000 * (INR n * Fu)) by (unfold t; apply Rle_trans with (INR n * (1001 / 1000 * Fu)); [apply Rmult_le_compat_l; auto|lra]).
  pose proof (exp_pow w n W0) as E. pose proof (exp_small t ltac:(lra)) as E2. fold t in E.
  assert (G : 0 <= solve_growth Fu n) by (unfold solve_growth; fold w; pose proof (pow_ge1 w n W0); lra).
  assert (G1 : solve_growth Fu n <= 1003 / 1000 * t) by (unfold solve_growth; fold w; lra).
  split; [lra|].
  assert (E4 : powerRZ 2 (-51) = 4 * Fu) by (rewrite Eu, <- !(bpow_powerRZ radix2); change (-51)%Z with (2 + -53)%Z; rewrite bpow_plus; change (bpow radix2 2) with 4; reflexivity).
  rewrite E4. set (g := solve_growth Fu n) in *. assert (g * g <= / 500 * g) by (apply Rmult_le_compat_r; lra). lra.
Qed.
Lemma residual_double n F x i : INR n <= powerRZ 2 40 -> residual_bound Fu Feta n F x i <= double_residual n F x i.
Proof.
  intros Hn. destruct (growth_double n Hn) as [[G0 G1] G2]. unfold residual_bound, double_residual. cbv zeta. set (g := solve_growth Fu n) in *.
  assert (E : 2 * Feta = powerRZ 2 (-1074)) by (unfold Feta; rewrite bpow_powerRZ; cbn [radix_val radix2]; field).
  assert (He : 0 <= Feta) by apply F_rounding. pose proof (pos_INR n) as Pn.
  change Rsum with sum.
  set (W := sum n (fun k => Rabs (lower F i k) * sum n _)). set (D := sum n (fun k => Rabs (lower F i k) * (1 + Rabs (F k k)))). set (X := sum n (fun j => Rabs (x j) * _)).
  assert (HW : 0 <= W) by (apply sum_pos; intros; apply Rmult_le_pos; [apply Rabs_pos|]; apply sum_pos; intros; apply Rmult_le_pos; apply Rabs_pos).
  assert (HD : 0 <= D) by (apply sum_pos; intros k _; apply Rmult_le_pos; [apply Rabs_pos|]; pose proof (Rabs_pos (F k k)); lra).
  assert (HX : 0 <= X) by (apply sum_pos; intros k _; apply Rmult_le_pos; [apply Rabs_pos|]; pose proof (Rabs_pos (F k k)); lra).
  apply Rplus_le_compat; [apply Rmult_le_compat_r; auto|]. rewrite <- E.
  assert ((1 + g) * D <= 2 * D) by (apply Rmult_le_compat_r; lra). assert (0 <= (1 + g) * D) by (apply Rmult_le_pos; lra).
  apply Rmult_le_compat; [apply Rmult_le_pos; [apply Rmult_le_pos; lra|exact He]|lra| |lra].
  rewrite <- Rmult_assoc. apply Rmult_le_compat_r; auto. apply Rmult_le_compat_l; lra.
Qed.

Lemma band_residual_double on n p q h iter m0 b :
  (0 < n)%nat -> INR n <= powerRZ 2 40 -> writes_in (in_band n p q) h -> good_iter n iter m0 -> vector_at n iter m0 m0 b ->
  exists m f m1 F x,
    build_band Fops on n p q h = Ok m /\ band_lu Fops on m = Ok f /\ run (band_solve Fops on f iter) m0 = Ok (tt, m1) /\
    vector_at n iter m0 m1 x /\
    (forall i j, in_band n p q i j -> band_get on f i j = Ok (F i j)) /\ (forall i j, ~ in_band n p q i j -> F i j = zero) /\
    ((forall i j, in_band n p q i j -> double_finite (F i j)) -> (forall i, (i < n)%nat -> double_finite (x i)) ->
     forall i, (i < n)%nat -> double_finite (b i) /\ (forall j, (j < n)%nat -> double_finite (content zero h i j)) /\
       Rabs (Rsum n (fun j => double_val (content zero h i j) * double_val (x j)) - double_val (b i)) <=
         double_residual n (fun i j => double_val (F i j)) (fun j => double_val (x j)) i).
Proof.
  intros Hn Hn' H Hg Hb. destruct (band_residual Fops double_val double_finite Fu Feta F_strict on n p q h iter m0 b Hn H Hg Hb) as (m & f & m1 & F & x & A1 & A2 & A3 & A4 & A5 & A6 & A7).
  exists m, f, m1, F, x. repeat (split; auto); intros; destruct (A7 H0 H1 i H2) as (B1 & B2 & B3); auto.
  eapply Rle_trans; [exact B3|apply residual_double; auto].
Qed.
Lemma eband_residual_double on n p q h iter m0 b :
  (p < n)%nat -> (q < n)%nat -> (p + q <= n)%nat -> INR n <= powerRZ 2 40 -> writes_in (in_ext n p q) h -> good_iter n iter m0 -> vector_at n iter m0 m0 b ->
  exists m f m1 F x,
    build_eband Fops on n p q h = Ok m /\ eband_lu Fops on m = Ok f /\ run (eband_solve Fops on f iter) m0 = Ok (tt, m1) /\
    vector_at n iter m0 m1 x /\
    (forall i j, in_ext n p q i j -> eb_get on f i j = Ok (F i j)) /\ (forall i j, ~ in_ext n p q i j -> F i j = zero) /\
    ((forall i j, in_ext n p q i j -> double_finite (F i j)) -> (forall i, (i < n)%nat -> double_finite (x i)) ->
     forall i, (i < n)%nat -> double_finite (b i) /\ (forall j, (j < n)%nat -> double_finite (content zero h i j)) /\
       Rabs (Rsum n (fun j => double_val (content zero h i j) * double_val (x j)) - double_val (b i)) <=
         double_residual n (fun i j => double_val (F i j)) (fun j => double_val (x j)) i).
Proof.
  intros Hp Hq Hpq Hn' H Hg Hb. destruct (eband_residual Fops double_val double_finite Fu Feta F_strict on n p q h iter m0 b Hp Hq Hpq H Hg Hb) as (m & f & m1 & F & x & A1 & A2 & A3 & A4 & A5 & A6 & A7).
  exists m, f, m1, F, x. repeat (split; auto); intros; destruct (A7 H0 H1 i H2) as (B1 & B2 & B3); auto.
  eapply Rle_trans; [exact B3|apply residual_double; auto].
Qed.
