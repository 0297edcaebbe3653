(** Knots of uniform grids in doubles. *)
From Coq Require Import List Arith Lia Bool ZArith Reals Floats Lra Psatz.
From Flocq Require Import Core BinarySingleNaN PrimFloat Relative Plus_error.
From Verif Require Import Base Num MeshM ProgM BandM LUM SplineM InterpM FloatM SpecBand SpecSpline SpecInterp SpecRound.
From Verif Require Import SumR BandProofs MulProofs KnotProofs FloatProofs RoundLU RoundLUTop.
Import ListNotations.
Local Open Scope R_scope.
Local Notation float := PrimFloat.float.

Lemma rnd_mono x y : x <= y -> rnd x <= rnd y.
Proof. apply round_le; [apply fexp_correct; reflexivity|apply valid_rnd_N]. Qed.
Lemma rnd_exact x : generic_format radix2 fe x -> rnd x = x.
Proof. intros H. apply round_generic; auto. apply valid_rnd_N. Qed.
Lemma half_val : double_finite 0.5%float /\ double_val 0.5%float = / 2.
Proof. split; [exact I|]. unfold double_val. replace (Prim2SF 0.5) with (S754_finite false 4503599627370496 (-53)) by (vm_compute; reflexivity). rewrite <- (bpow_powerRZ radix2). cbn -[IZR]. lra. Qed.

Lemma nat_small k e : INR k <= powerRZ 2 e -> (0 <= e <= 53)%Z -> (Z.of_nat k <= 2 ^ e)%Z.
Proof.
  intros H He. rewrite INR_IZR_INZ, <- (bpow_powerRZ radix2), <- IZR_Zpower in H by lia. apply le_IZR in H. exact H.
Qed.
Lemma u_facts : 0 < Fu <= / 1000000 /\ 0 < Feta.
Proof. split; [apply Fu_val|]. unfold Feta. pose proof (bpow_gt_0 radix2 (-1074)). lra. Qed.
Lemma half_format c : (Z.abs c <= 2 ^ 53)%Z -> generic_format radix2 fe (IZR c / 2).
Proof. intros H. change (IZR c / 2) with (IZR c * bpow radix2 (-1)). apply small_format; lia. Qed.

Section Uni.
Context (a b : float) (m : nat) (X : R).
Context (Ha : double_finite a) (Hb : double_finite b).
Local Notation A := (double_val a).
Local Notation B := (double_val b).
Context (HA : Rabs A <= X) (HB : Rabs B <= X) (HX : X <= powerRZ 2 1000).
Context (HD : powerRZ 2 (-900) <= B - A).
Context (Hm1 : (1 <= m)%nat) (Hm2 : INR m <= powerRZ 2 40).
Local Notation D := (B - A).
Local Notation dx := (D / INR m).
Definition step : float := ((b - a) / Fnat m)%float.

Lemma m_pos : 1 <= INR m.
Proof using Hm1. apply (le_INR 1). auto. Qed.
Lemma m_exact : double_finite (Fnat m) /\ double_val (Fnat m) = INR m.
Proof using Hm1 Hm2. apply Fnat_exact. pose proof (nat_small m 40 Hm2 ltac:(lia)). lia. Qed.
Lemma D_facts : 0 < D /\ D <= 2 * X /\ 0 < dx /\ dx <= D /\ INR m * dx = D.
Proof using All.
  assert (0 < powerRZ 2 (-900)) by (rewrite <- (bpow_powerRZ radix2); apply bpow_gt_0). pose proof m_pos as M.
  pose proof (Rabs_le_inv _ _ HA). pose proof (Rabs_le_inv _ _ HB).
  assert (E : INR m * dx = D) by (field; lra).
  assert (P : 0 < dx) by (apply Rdiv_lt_0_compat; lra).
  repeat split; try lra. rewrite <- E at 2. apply Rle_trans with (1 * dx); [lra|]. apply Rmult_le_compat_r; lra.
Qed.
Lemma eta_small : Feta <= Fu * dx / 1000000 /\ 32 * (X + 16 * D) <= Fbig.
Proof using All.
  destruct D_facts as (D0 & D1 & P & _ & E). split.
  - assert (Q : powerRZ 2 (-940) <= dx).
    { apply Rmult_le_reg_r with (INR m); [pose proof m_pos; lra|]. rewrite (Rmult_comm dx), E. eapply Rle_trans; [|apply HD].
      apply Rle_trans with (powerRZ 2 (-940) * powerRZ 2 40); [apply Rmult_le_compat_l; auto; rewrite <- (bpow_powerRZ radix2); apply bpow_ge_0|].
      rewrite <- powerRZ_add by lra. right. reflexivity. }
    destruct Fu_val as [Eu [U0 U1]]. apply Rle_trans with (Fu * powerRZ 2 (-940) / 1048576).
    + rewrite Eu, <- !(bpow_powerRZ radix2). change (/ 1048576) with (bpow radix2 (-20)). unfold Feta. change (/ 2) with (bpow radix2 (-1)).
      unfold Rdiv. change (/ 1048576) with (bpow radix2 (-20)). rewrite <- !bpow_plus. apply bpow_le. lia.
    + assert (Fu * powerRZ 2 (-940) <= Fu * dx) by (apply Rmult_le_compat_l; lra). assert (0 <= Fu * dx) by (apply Rmult_le_pos; lra). lra.
  - unfold Fbig. apply Rle_trans with (powerRZ 2 1000 * 2048); [lra|]. rewrite <- (bpow_powerRZ radix2). change 2048 with (bpow radix2 11). rewrite <- bpow_plus. apply bpow_le. lia.
Qed.
Lemma step_ok : double_finite step /\ Rabs (double_val step - dx) <= 3 * Fu * dx.
Proof using All.
  destruct D_facts as (D0 & D1 & P & P1 & E). destruct eta_small as [S1 S2]. destruct u_facts as [[U0 U1] E0].
  destruct m_exact as [Gm Vm]. pose proof m_pos as M. unfold step.
  assert (AD : Rabs D = D) by (apply Rabs_pos_eq; lra).
  destruct (rd_sub _ _ _ _ _ _ F_rounding b a Hb Ha) as [G1 Q1]; [rewrite AD; lra|]. cbn [osub Fops] in *.
  rewrite AD in Q1. set (y := (b - a)%float) in *.
  assert (Y : Rabs (double_val y / INR m) <= dx * (1 + Fu)).
  { unfold Rdiv at 1. rewrite Rabs_mult, Rabs_inv, (Rabs_pos_eq (INR m)) by lra. apply Rmult_le_reg_r with (INR m); [lra|].
    rewrite Rmult_assoc, Rinv_l, Rmult_1_r by lra. replace (dx * (1 + Fu) * INR m) with (D * (1 + Fu)) by (field; lra).
    replace (double_val y) with ((double_val y - D) + D) by ring. eapply Rle_trans; [apply Rabs_triang|]. rewrite AD. lra. }
  assert (FD : 0 <= Fu * dx <= dx / 1000000) by (split; [apply Rmult_le_pos; lra|unfold Rdiv at 2; rewrite (Rmult_comm dx); apply Rmult_le_compat_r; lra]).
  destruct (rd_div _ _ _ _ _ _ F_rounding y (Fnat m) G1 Gm) as (c & Ec & G2 & Q2); rewrite ?Vm; try lra.
  cbn [odiv Fops] in Ec. injection Ec as <-. split; auto. rewrite Vm in Q2.
  replace (double_val (y / Fnat m)%float - dx) with ((double_val (y / Fnat m)%float - double_val y / INR m) + (double_val y - D) / INR m) by (field; lra).
  eapply Rle_trans; [apply Rabs_triang|].
  assert (Z : Rabs ((double_val y - D) / INR m) <= Fu * dx).
  { unfold Rdiv at 1. rewrite Rabs_mult, Rabs_inv, (Rabs_pos_eq (INR m)) by lra. apply Rmult_le_reg_r with (INR m); [lra|].
    rewrite Rmult_assoc, Rinv_l by lra. replace (Fu * dx * INR m) with (Fu * D) by (field; lra). lra. }
  pose proof (Rmult_le_compat_l Fu _ _ (Rlt_le _ _ U0) Y) as W.
  assert (Fu * (Fu * dx) <= Fu * dx / 1000000) by (apply Rle_trans with (Fu * (dx / 1000000)); [apply Rmult_le_compat_l; lra|lra]). lra.
Qed.

Context (extra : nat) (Hex : INR extra <= powerRZ 2 42).
Definition mult (i : nat) : R := INR i - INR extra / 2.
Definition knot (i : nat) : float := (a + (Fnat i - 0.5 * Fnat extra) * step)%float.

Lemma mult_ok i : INR i <= powerRZ 2 43 -> double_finite (Fnat i - 0.5 * Fnat extra)%float /\ double_val (Fnat i - 0.5 * Fnat extra)%float = mult i.
Proof using Hm1 Hex.
  intros Hi. pose proof (nat_small i 43 Hi ltac:(lia)) as Zi. pose proof (nat_small extra 42 Hex ltac:(lia)) as Ze.
  destruct (Fnat_exact i) as [Gi Vi]; [lia|]. destruct (Fnat_exact extra) as [Ge Ve]; [lia|]. destruct half_val as [Gh Vh].
  assert (Big : powerRZ 2 43 * 4 <= Fbig).
  { rewrite <- (bpow_powerRZ radix2). change 4 with (bpow radix2 2). rewrite <- bpow_plus. apply bpow_le. lia. }
  assert (L : powerRZ 2 42 <= powerRZ 2 43) by (rewrite <- !(bpow_powerRZ radix2); apply bpow_le; lia).
  pose proof (pos_INR i). pose proof (pos_INR extra).
  destruct (Fmul_val 0.5%float (Fnat extra)) as [G1 V1]; auto; rewrite Vh, Ve in *.
  { rewrite Rabs_pos_eq; lra. }
  rewrite rnd_exact in V1. 2:{ replace (/ 2 * INR extra) with (IZR (Z.of_nat extra) / 2) by (rewrite INR_IZR_INZ; field). apply half_format. lia. }
  destruct (Fsub_val (Fnat i) (0.5 * Fnat extra)%float) as [G2 V2]; auto; rewrite Vi, V1 in *.
  { apply Rabs_le. lra. }
  split; auto. rewrite V2, rnd_exact; [unfold mult; lra|].
  replace (INR i - / 2 * INR extra) with (IZR (2 * Z.of_nat i - Z.of_nat extra) / 2).
  - apply half_format. lia.
  - rewrite minus_IZR, mult_IZR, !INR_IZR_INZ. field.
Qed.
Definition prod (i : nat) : R := rnd (mult i * double_val step).
Lemma step_pos : 0 < double_val step.
Proof using HA HB HD HX Ha Hb Hm1 Hm2.
  destruct step_ok as [_ H]. destruct D_facts as (D0 & D1 & P & P1 & E). destruct u_facts as [[U0 U1] E0].
  assert (Fu * dx <= dx / 1000000) by (unfold Rdiv at 2; rewrite (Rmult_comm dx); apply Rmult_le_compat_r; lra).
  apply Rabs_le_inv in H. lra.
Qed.
Lemma prod_ok i : Rabs (mult i) <= 2 * INR m -> Rabs (prod i - mult i * dx) <= Fu * dx * (5 * Rabs (mult i) + 1).
Proof using HA HB HD HX Ha Hb Hm1 Hm2.
  intros Hc. destruct step_ok as [_ H]. destruct D_facts as (D0 & D1 & P & P1 & E). destruct u_facts as [[U0 U1] E0]. destruct eta_small as [S1 S2].
  unfold prod. set (c := mult i) in *. set (h := double_val step) in *. pose proof (Rabs_pos c) as C0.
  assert (FD : 0 <= Fu * dx <= dx / 1000000) by (split; [apply Rmult_le_pos; lra|unfold Rdiv at 2; rewrite (Rmult_comm dx); apply Rmult_le_compat_r; lra]).
  assert (C1 : Rabs (c * h) <= Rabs c * (dx * (1 + / 1000))).
  { rewrite Rabs_mult. apply Rmult_le_compat_l; auto. replace h with ((h - dx) + dx) by ring. eapply Rle_trans; [apply Rabs_triang|]. rewrite (Rabs_pos_eq dx) by lra. lra. }
  pose proof (rnd_error (c * h)) as R. replace (rnd (c * h) - c * dx) with ((rnd (c * h) - c * h) + c * (h - dx)) by ring.
  eapply Rle_trans; [apply Rabs_triang|]. rewrite (Rabs_mult c (h - dx)).
  pose proof (Rmult_le_compat_l Fu _ _ (Rlt_le _ _ U0) C1) as W. pose proof (Rmult_le_compat_l _ _ _ C0 H) as W2.
  assert (0 <= Rabs c * (Fu * dx)) by (apply Rmult_le_pos; lra). lra.
Qed.
Lemma prod_abs i : Rabs (mult i) <= 2 * INR m -> Rabs (prod i - mult i * dx) <= 11 * Fu * D /\ Rabs (mult i * dx) <= 2 * D.
Proof using HA HB HD HX Ha Hb Hm1 Hm2.
  intros Hc. pose proof (prod_ok i Hc) as H. destruct D_facts as (D0 & D1 & P & P1 & E). destruct u_facts as [[U0 U1] E0].
  assert (C : Rabs (mult i) * dx <= 2 * D) by (apply Rle_trans with (2 * INR m * dx); [apply Rmult_le_compat_r; lra|lra]).
  split; [|rewrite Rabs_mult, (Rabs_pos_eq dx) by lra; exact C].
  eapply Rle_trans; [exact H|]. replace (Fu * dx * (5 * Rabs (mult i) + 1)) with (Fu * (5 * (Rabs (mult i) * dx) + dx)) by ring.
  replace (11 * Fu * D) with (Fu * (11 * D)) by ring. apply Rmult_le_compat_l; lra.
Qed.
Lemma knot_val i : INR i <= powerRZ 2 43 -> Rabs (mult i) <= 2 * INR m ->
  double_finite (knot i) /\ double_val (knot i) = rnd (A + prod i) /\ Rabs (double_val (knot i) - (A + mult i * dx)) <= powerRZ 2 (-48) * X.
Proof using All.
  intros Hi Hc. destruct (mult_ok i Hi) as [Gc Vc]. destruct step_ok as [Gs Vs]. destruct (prod_abs i Hc) as [Q1 Q2].
  destruct D_facts as (D0 & D1 & P & P1 & E). destruct u_facts as [[U0 U1] E0]. destruct eta_small as [S1 S2].
  assert (FD : 0 <= Fu * D <= D / 1000000) by (split; [apply Rmult_le_pos; lra|unfold Rdiv; rewrite (Rmult_comm D); apply Rmult_le_compat_r; lra]).
  assert (C1 : Rabs (mult i * double_val step) <= 3 * D).
  { rewrite Rabs_mult. replace (double_val step) with ((double_val step - dx) + dx) by ring.
    apply Rle_trans with (Rabs (mult i) * (dx * (1 + / 1000))).
    - apply Rmult_le_compat_l; [apply Rabs_pos|]. eapply Rle_trans; [apply Rabs_triang|]. rewrite (Rabs_pos_eq dx) by lra.
      assert (Fu * dx <= dx / 1000000) by (unfold Rdiv at 2; rewrite (Rmult_comm dx); apply Rmult_le_compat_r; lra). lra.
    - rewrite Rabs_mult, (Rabs_pos_eq dx) in Q2 by lra. lra. }
  destruct (Fmul_val (Fnat i - 0.5 * Fnat extra)%float step) as [Gp Vp]; auto; rewrite Vc in *; [pose proof (Rabs_pos A); lra|].
  fold (prod i) in Vp.
  assert (C2 : Rabs (prod i) <= 3 * D).
  { replace (prod i) with ((prod i - mult i * dx) + mult i * dx) by ring. eapply Rle_trans; [apply Rabs_triang|]. lra. }
  assert (C3 : Rabs (A + prod i) <= X + 3 * D) by (eapply Rle_trans; [apply Rabs_triang|]; lra).
  destruct (Fadd_val a ((Fnat i - 0.5 * Fnat extra) * step)%float) as [Gk Vk]; auto; rewrite Vp in *; [lra|].
  split; [exact Gk|]. split; [exact Vk|]. unfold knot. rewrite Vk.
  assert (Fp : generic_format radix2 fe (prod i)) by (rewrite <- Vp; apply val_format).
  pose proof (rnd_plus A (prod i) (val_format a) Fp) as R.
  pose proof (Rmult_le_compat_l Fu _ _ (Rlt_le _ _ U0) C3) as W.
  assert (E5 : powerRZ 2 (-48) = 32 * Fu).
  { rewrite (proj1 Fu_val), <- !(bpow_powerRZ radix2). change (-48)%Z with (5 + -53)%Z. rewrite bpow_plus. change (bpow radix2 5) with 32. reflexivity. }
  rewrite E5. replace (rnd (A + prod i) - (A + mult i * dx)) with ((rnd (A + prod i) - (A + prod i)) + (prod i - mult i * dx)) by ring.
  eapply Rle_trans; [apply Rabs_triang|]. pose proof (Rmult_le_compat_l Fu _ _ (Rlt_le _ _ U0) D1). lra.
Qed.
Lemma prod_mono i j : (i <= j)%nat -> prod i <= prod j.
Proof using HA HB HD HX Ha Hb Hm1 Hm2.
  intros H. apply rnd_mono. apply Rmult_le_compat_r; [left; apply step_pos|]. unfold mult. pose proof (le_INR i j H). lra.
Qed.
Lemma prod_pos i : 0 <= mult i -> 0 <= prod i.
Proof using HA HB HD HX Ha Hb Hm1 Hm2.
  intros H. rewrite <- (rnd_exact 0) by apply generic_format_0. apply rnd_mono. apply Rmult_le_pos; auto. left. apply step_pos.
Qed.
Lemma prod_le i : 0 <= mult i <= INR m - / 2 -> prod i <= D.
Proof using HA HB HD HX Ha Hb Hm1 Hm2.
  intros H. pose proof (prod_ok i) as Q. rewrite Rabs_pos_eq in Q by lra. specialize (Q ltac:(lra)).
  destruct D_facts as (D0 & D1 & P & P1 & E). destruct Fu_val as [Eu [U0 U1]].
  assert (M : Fu * INR m <= / 1000).
  { apply Rle_trans with (Fu * powerRZ 2 40); [apply Rmult_le_compat_l; lra|]. rewrite Eu, <- powerRZ_add by lra.
    rewrite <- (bpow_powerRZ radix2). change (bpow radix2 (-53 + 40)) with (/ 8192). lra. }
  apply Rabs_le_inv in Q.
  assert (W : Fu * dx * (5 * mult i + 1) <= dx * (7 / 1000)).
  { replace (Fu * dx * (5 * mult i + 1)) with (dx * (Fu * (5 * mult i + 1))) by ring. apply Rmult_le_compat_l; [lra|].
    apply Rle_trans with (Fu * (5 * INR m + 1)); [apply Rmult_le_compat_l; lra|]. lra. }
  assert (mult i * dx <= (INR m - / 2) * dx) by (apply Rmult_le_compat_r; lra).
  replace ((INR m - / 2) * dx) with (D - dx / 2) in * by lra. lra.
Qed.
End Uni.

(** Exact positions. *)
Lemma ap_uniform_at order n a b k : (2 <= n)%nat -> (order < k < n)%nat ->
  ap_knot order n (grid_of (Uniform a b) n) k = a + mult (order + 1) k * ((b - a) / INR (n - 1)).
Proof.
  intros Hn Hk. pose proof (uniform_ap true order n a b ltac:(lia) ltac:(lia)) as E. unfold mult, ap_knot.
  destruct (Nat.leb_spec k order); [lia|]. destruct (Nat.ltb_spec k n); [|lia]. unfold grid_of.
  destruct (Nat.eqb_spec order 0) as [->|Ho0].
  - rewrite minus_INR by lia. simpl. lra.
  - set (dx := (b - a) / INR (n - 1)). rewrite (mean_ext _ _ (fun j => (a + INR (k - order) * dx) + INR j * dx)).
    2:{ intros i Hi. rewrite plus_INR. ring. }
    rewrite mean_affine by lia. rewrite minus_INR, plus_INR by lia. simpl. field.
Qed.
Lemma per_uniform_at order m a b k : (1 <= m)%nat -> (order + 1 <= m)%nat ->
  per_knot order m (b - a) (grid_of (Uniform a b) (m + 1)) k = a + mult (2 * order + (1 - order mod 2)) k * ((b - a) / INR m).
Proof.
  intros Hm Ho. unfold per_knot, mult. rewrite even_mod2. set (dx := (b - a) / INR m).
  assert (Hn0 : INR m <> 0) by (apply not_0_INR; lia).
  assert (EP : b - a = INR m * dx) by (unfold dx; field; auto).
  assert (Ex : forall i, pext m (b - a) (fun i => a + INR i * ((b - a) / INR (m + 1 - 1))) i = a + INR i * dx).
  { intros i. rewrite EP at 1. replace (m + 1 - 1)%nat with m by lia. fold dx. apply pext_uniform. lia. }
  unfold grid_of. rewrite !Ex. rewrite EP.
  destruct (mod2_cases order) as [E|E]; rewrite E; cbn [Nat.eqb Nat.sub].
  - rewrite ?mult_INR, !minus_INR, ?plus_INR, ?mult_INR by lia. simpl. rewrite ?plus_INR. simpl. clearbody dx. field.
  - rewrite ?mult_INR, !minus_INR, ?plus_INR, ?mult_INR by lia. simpl. rewrite ?plus_INR. simpl. clearbody dx. field.
Qed.

Lemma uniform_ap_double nd order n a b X :
  (2 <= n)%nat -> (order + 1 <= n)%nat -> INR n <= powerRZ 2 40 ->
  double_finite a -> double_finite b -> Rabs (double_val a) <= X -> Rabs (double_val b) <= X -> X <= powerRZ 2 1000 ->
  powerRZ 2 (-900) <= double_val b - double_val a ->
  exists xs h, uniform_knots Fops nd order false n a b = Ok (xs, h) /\ length xs = (n + order + 1)%nat /\
    (forall k, (k <= order)%nat -> nth k xs 0%float = a) /\ (forall k, (n <= k < n + order + 1)%nat -> nth k xs 0%float = b) /\
    (forall k, (k < n + order + 1)%nat -> double_finite (nth k xs 0%float) /\
       Rabs (double_val (nth k xs 0%float) - ap_knot order n (grid_of (Uniform (double_val a) (double_val b)) n) k) <= powerRZ 2 (-48) * X) /\
    (forall j k, (j <= k < n + order + 1)%nat -> double_val (nth j xs 0%float) <= double_val (nth k xs 0%float)) /\
    double_finite h /\ Rabs (double_val h - (double_val b - double_val a) / INR (n - 1)) <= powerRZ 2 (-51) * ((double_val b - double_val a) / INR (n - 1)).
Proof.
  intros Hn Ho Hs Ha Hb HA HB HX HD. set (m := (n - 1)%nat).
  assert (Hm1 : (1 <= m)%nat) by lia.
  assert (Hm2 : INR m <= powerRZ 2 40) by (eapply Rle_trans; [apply le_INR|exact Hs]; lia).
  assert (L2 : powerRZ 2 40 <= powerRZ 2 42 /\ powerRZ 2 40 <= powerRZ 2 43) by (rewrite <- !(bpow_powerRZ radix2); split; apply bpow_le; lia).
  assert (Hex : INR (order + 1) <= powerRZ 2 42) by (apply Rle_trans with (powerRZ 2 40); [|lra]; eapply Rle_trans; [apply le_INR|exact Hs]; lia).
  destruct (D_facts a b m X HA HB HD Hm1) as (D0 & D1 & P & P1 & E) || destruct (D_facts a b m X) as (D0 & D1 & P & P1 & E); auto.
  assert (AD : double_val a <= double_val b) by lra.
  assert (X0 : 0 <= powerRZ 2 (-48) * X).
  { apply Rmult_le_pos; [rewrite <- (bpow_powerRZ radix2); apply bpow_ge_0|]. pose proof (Rabs_pos (double_val a)). lra. }
  unfold uniform_knots. rewrite andb_false_r, Nat.add_0_r. rewrite usub_ok by lia. cbn [bind]. fold m. cbn [odiv osub oadd omul onat ohalf Fops]. cbn [bind].
  fold (step a b m). rewrite repeat_length. rewrite (usub_ok (n + (order + 1)) order) by lia. cbn [bind].
  rewrite usub_ok by lia. cbn [bind].
  destruct (fill_loop 0%float (order + 1) (n + (order + 1) - order - 1) (repeat a (n + (order + 1))) (knot a b m (order + 1))) as (xs1 & E1 & L1 & N1).
  { rewrite repeat_length. lia. }
  unfold knot in E1. rewrite E1. cbn [bind]. rewrite repeat_length in L1.
  destruct (fill_loop 0%float (n + (order + 1) - order - 1) (length xs1) xs1 (fun _ => b)) as (xs2 & E2 & LL2 & N2); [lia|].
  rewrite E2. cbn [bind]. exists xs2, (step a b m). split; [reflexivity|]. split; [lia|].
  replace (n + (order + 1) - order - 1)%nat with n in * by lia.
  assert (Lo : forall k, (k <= order)%nat -> nth k xs2 0%float = a).
  { intros k Hk. rewrite N2, N1. destruct (Nat.leb_spec n k); [lia|]. destruct (Nat.leb_spec (order + 1) k); [lia|]. cbn [andb]. rewrite nth_repeat_lt by lia. reflexivity. }
  assert (Hi : forall k, (n <= k < n + order + 1)%nat -> nth k xs2 0%float = b).
  { intros k Hk. rewrite N2, L1. destruct (Nat.leb_spec n k); [|lia]. destruct (Nat.ltb_spec k (n + (order + 1))); [|lia]. reflexivity. }
  assert (Mi : forall k, (order < k < n)%nat -> nth k xs2 0%float = knot a b m (order + 1) k).
  { intros k Hk. rewrite N2, N1. destruct (Nat.leb_spec n k); [lia|]. cbn [andb]. destruct (Nat.leb_spec (order + 1) k); [|lia]. destruct (Nat.ltb_spec k n); [|lia]. reflexivity. }
  assert (Mb : forall k, (order < k < n)%nat -> 0 <= mult (order + 1) k <= INR m - / 2 /\ INR k <= powerRZ 2 43 /\ Rabs (mult (order + 1) k) <= 2 * INR m).
  { intros k Hk. assert (0 <= mult (order + 1) k <= INR m - / 2).
    { unfold mult. rewrite plus_INR. pose proof (le_INR (order + 1) k ltac:(lia)) as Q1. rewrite plus_INR in Q1. pose proof (pos_INR order). pose proof (le_INR k m ltac:(lia)).
      change (INR 1) with 1 in *. lra. }
    split; auto. split; [apply Rle_trans with (powerRZ 2 40); [|lra]; eapply Rle_trans; [apply le_INR|exact Hs]; lia|].
    rewrite Rabs_pos_eq by lra. pose proof (pos_INR m). lra. }
  assert (Bd : forall k, (order < k < n)%nat -> double_val a <= double_val (knot a b m (order + 1) k) <= double_val b).
  { intros k Hk. destruct (Mb k Hk) as (B1 & B2 & B3). destruct (knot_val a b m X Ha Hb HA HB HX HD Hm1 Hm2 (order + 1) Hex k B2 B3) as (_ & -> & _).
    pose proof (prod_pos a b m X Ha Hb HA HB HX HD Hm1 Hm2 (order + 1) k (proj1 B1)). pose proof (prod_le a b m X Ha Hb HA HB HX HD Hm1 Hm2 (order + 1) k B1).
    split.
    - rewrite <- (rnd_exact (double_val a)) at 1 by apply val_format. apply rnd_mono. lra.
    - rewrite <- (rnd_exact (double_val b)) by apply val_format. apply rnd_mono. lra. }
  split; [exact Lo|]. split; [exact Hi|]. split; [|split].
  - intros k Hk. destruct (Nat.le_gt_cases k order) as [K1|K1]; [|destruct (Nat.lt_ge_cases k n) as [K2|K2]].
    + rewrite Lo by auto. split; auto. unfold ap_knot, grid_of. destruct (Nat.leb_spec k order); [|lia]. simpl INR.
      replace (double_val a - _) with 0 by ring. rewrite Rabs_R0. exact X0.
    + rewrite Mi by lia. destruct (Mb k ltac:(lia)) as (B1 & B2 & B3).
      destruct (knot_val a b m X Ha Hb HA HB HX HD Hm1 Hm2 (order + 1) Hex k B2 B3) as (G & _ & V). split; auto.
      rewrite ap_uniform_at by lia. exact V.
    + rewrite Hi by lia. split; auto. unfold ap_knot, grid_of. destruct (Nat.leb_spec k order); [lia|]. destruct (Nat.ltb_spec k n); [lia|].
      fold m. replace (double_val b - _) with 0 by (field; pose proof (le_INR 1 m Hm1); change (INR 1) with 1 in *; lra). rewrite Rabs_R0. exact X0.
  - intros j k Hjk. destruct (Nat.le_gt_cases k order) as [K1|K1]; [rewrite !Lo by lia; lra|].
    destruct (Nat.lt_ge_cases k n) as [K2|K2].
    + rewrite (Mi k) by lia. destruct (Nat.le_gt_cases j order) as [J1|J1]; [rewrite Lo by auto; apply Bd; lia|].
      rewrite (Mi j) by lia. destruct (Mb k ltac:(lia)) as (B1 & B2 & B3). destruct (Mb j ltac:(lia)) as (C1 & C2 & C3).
      destruct (knot_val a b m X Ha Hb HA HB HX HD Hm1 Hm2 (order + 1) Hex k B2 B3) as (_ & -> & _).
      destruct (knot_val a b m X Ha Hb HA HB HX HD Hm1 Hm2 (order + 1) Hex j C2 C3) as (_ & -> & _).
      apply rnd_mono. apply Rplus_le_compat_l. apply (prod_mono a b m X Ha Hb HA HB HX HD Hm1 Hm2). lia.
    + rewrite (Hi k) by lia. destruct (Nat.le_gt_cases j order) as [J1|J1]; [rewrite Lo by auto; auto|].
      destruct (Nat.lt_ge_cases j n) as [J2|J2]; [rewrite Mi by lia; apply Bd; lia|rewrite Hi by lia; lra].
  - destruct (step_ok a b m X Ha Hb HA HB HX HD Hm1 Hm2) as [G V]. split; auto. eapply Rle_trans; [exact V|]. apply Rmult_le_compat_r; [lra|].
    assert (E4 : powerRZ 2 (-51) = 4 * Fu) by (rewrite (proj1 Fu_val), <- !(bpow_powerRZ radix2); change (-51)%Z with (2 + -53)%Z; rewrite bpow_plus; change (bpow radix2 2) with 4; reflexivity).
    destruct Fu_val as [_ [U0 _]]. lra.
Qed.

Lemma uniform_per_double (nd : bool) order m a b X :
  (order + 1 <= m)%nat -> INR m <= powerRZ 2 40 ->
  double_finite a -> double_finite b -> Rabs (double_val a) <= X -> Rabs (double_val b) <= X -> X <= powerRZ 2 1000 ->
  powerRZ 2 (-900) <= double_val b - double_val a ->
  let len := (m + 2 * order + 1 + (1 - order mod 2))%nat in
  exists xs h, uniform_knots Fops nd order true (m + (if nd then 0 else 1)) a b = Ok (xs, h) /\ length xs = len /\
    (forall k, (k < len)%nat -> double_finite (nth k xs 0%float) /\
       Rabs (double_val (nth k xs 0%float) - per_knot order m (double_val b - double_val a) (grid_of (Uniform (double_val a) (double_val b)) (m + 1)) k) <= powerRZ 2 (-48) * X) /\
    (forall j k, (j <= k < len)%nat -> double_val (nth j xs 0%float) <= double_val (nth k xs 0%float)) /\
    double_finite h /\ Rabs (double_val h - (double_val b - double_val a) / INR m) <= powerRZ 2 (-51) * ((double_val b - double_val a) / INR m).
Proof.
  intros Ho Hm2 Ha Hb HA HB HX HD len. assert (Hm1 : (1 <= m)%nat) by lia.
  set (extra := (2 * order + (1 - order mod 2))%nat).
  pose proof (mod2_cases order) as M2.
  assert (L2 : powerRZ 2 40 * 4 = powerRZ 2 42 /\ powerRZ 2 40 * 8 = powerRZ 2 43).
  { rewrite <- !(bpow_powerRZ radix2). change 4 with (bpow radix2 2). change 8 with (bpow radix2 3). rewrite <- !bpow_plus. split; reflexivity. }
  assert (Oe : INR extra <= 2 * INR m).
  { change 2 with (INR 2). rewrite <- mult_INR. apply le_INR. unfold extra. lia. }
  pose proof (pos_INR m) as Pm. pose proof (pos_INR extra) as Pe.
  assert (Hex : INR extra <= powerRZ 2 42) by lra.
  destruct (D_facts a b m X HA HB HD Hm1) as (D0 & D1 & P & P1 & E) || destruct (D_facts a b m X) as (D0 & D1 & P & P1 & E); auto.
  unfold uniform_knots. rewrite andb_true_r.
  replace (m + (if nd then 0 else 1) + (if nd then 1 else 0))%nat with (m + 1)%nat by (destruct nd; lia).
  rewrite usub_ok by lia. cbn [bind]. replace (m + 1 - 1)%nat with m by lia.
  cbn [odiv osub oadd omul onat ohalf Fops]. cbn [bind]. fold extra. fold (step a b m). rewrite repeat_length.
  destruct (fill_loop 0%float 0 (m + 1 + extra) (repeat a (m + 1 + extra)) (knot a b m extra)) as (xs1 & E1 & L1 & N1); [rewrite repeat_length; lia|].
  unfold knot in E1. rewrite E1. cbn [bind]. rewrite repeat_length in *. exists xs1, (step a b m).
  assert (El : len = (m + 1 + extra)%nat) by (unfold len, extra; lia).
  split; [reflexivity|]. split; [lia|].
  assert (Mi : forall k, (k < len)%nat -> nth k xs1 0%float = knot a b m extra k).
  { intros k Hk. rewrite N1. destruct (Nat.ltb_spec k (m + 1 + extra)); [|lia]. reflexivity. }
  assert (Mb : forall k, (k < len)%nat -> INR k <= powerRZ 2 43 /\ Rabs (mult extra k) <= 2 * INR m).
  { intros k Hk. pose proof (le_INR k (m + extra) ltac:(lia)) as Q. rewrite plus_INR in Q. pose proof (pos_INR k). split; [lra|].
    apply Rabs_le. unfold mult. split; [lra|]. lra. }
  split; [|split].
  - intros k Hk. rewrite Mi by auto. destruct (Mb k Hk) as (B2 & B3).
    destruct (knot_val a b m X Ha Hb HA HB HX HD Hm1 Hm2 extra Hex k B2 B3) as (G & _ & V). split; auto.
    rewrite per_uniform_at by lia. exact V.
  - intros j k Hjk. rewrite !Mi by lia. destruct (Mb k ltac:(lia)) as (B2 & B3). destruct (Mb j ltac:(lia)) as (C2 & C3).
    destruct (knot_val a b m X Ha Hb HA HB HX HD Hm1 Hm2 extra Hex k B2 B3) as (_ & -> & _).
    destruct (knot_val a b m X Ha Hb HA HB HX HD Hm1 Hm2 extra Hex j C2 C3) as (_ & -> & _).
    apply rnd_mono. apply Rplus_le_compat_l. apply (prod_mono a b m X Ha Hb HA HB HX HD Hm1 Hm2). lia.
  - destruct (step_ok a b m X Ha Hb HA HB HX HD Hm1 Hm2) as [G V]. split; auto. eapply Rle_trans; [exact V|]. apply Rmult_le_compat_r; [lra|].
    assert (E4 : powerRZ 2 (-51) = 4 * Fu) by (rewrite (proj1 Fu_val), <- !(bpow_powerRZ radix2); change (-51)%Z with (2 + -53)%Z; rewrite bpow_plus; change (bpow radix2 2) with 4; reflexivity).
    destruct Fu_val as [_ [U0 _]]. lra.
Qed.
