(** Ranges of either kind have what interpolation in doubles needs. *)
From Coq Require Import List Arith Lia Bool ZArith Reals Floats Lra Psatz.
From Flocq Require Import Core BinarySingleNaN PrimFloat Relative Plus_error.
From Verif Require Import Base Num MeshM SpecMesh MeshProofs ProgM BandM LUM SplineM InterpM FloatM SpecBand SpecSpline SpecSplineObj SpecInterp SpecRound SpecRoundInterp SpecRoundFit.
From Verif Require Import SumR BandProofs MulProofs DenseLU LUProofs SplineProofs BetaProofs BasisProofs TensorR KnotProofs CoefProofs SolveProofs BuildProofs WeightProofs LUConv.
From Verif Require Import KnotShape SWProofs SplineFinal FloatProofs RoundDouble GenLU RoundLU RoundLUTop RoundProofs GenKnots GenSolve RoundTensor RoundColl RoundTempl RoundUniform RoundUColl RoundGrid RoundInterp PiecePerturb FloatWrap RoundUGrid RoundFit SafeTop.
Import ListNotations.
Local Open Scope R_scope.
Local Notation float := PrimFloat.float.

(** ** Hints of uniform dimensions *)
Lemma two64_val : double_finite 0x1p64%float /\ double_val 0x1p64%float = powerRZ 2 64.
Proof. split; [exact I|]. unfold double_val. replace (Prim2SF 0x1p64) with (S754_finite false 4503599627370496 12) by (vm_compute; reflexivity). rewrite <- !(bpow_powerRZ radix2). cbn -[IZR]. lra. Qed.

Lemma ceil_small v : double_finite v -> double_val v < powerRZ 2 64 -> exists k, oceil Fops (if olt Fops (o0 Fops) v then v else o0 Fops) = Ok k.
Proof.
  intros Gv Hv. cbn [oceil olt o0 Fops]. destruct (zero <? v)%float eqn:E; [|exists 0%nat; reflexivity].
  apply Fceil_ok; auto. destruct (0x1p64 <=? v)%float eqn:E2; auto. destruct two64_val as [G2 V2].
  apply (rd_le _ _ _ _ _ _ F_rounding 0x1p64%float v G2 Gv) in E2. lra.
Qed.

Section Hint.
Context (g : interp float) (d : nat) (c : float) (p : nat) (pe : bool) (K : list float) (rg : float * float) (dx : float) (X h : R).
Hypothesis Ho : sp_order (if_spline g) = p.
Hypothesis E1 : vget (if_uniform g) d = Ok true.
Hypothesis E2 : vget (sp_knots (if_spline g)) d = Ok K.
Hypothesis E3 : vget (sp_range (if_spline g)) d = Ok rg.
Hypothesis E4 : vget (sp_per (if_spline g)) d = Ok pe.
Hypothesis E5 : vget (if_dx g) d = Ok dx.
Hypothesis Gc : double_finite c.
Hypothesis Gr : double_finite (fst rg).
Hypothesis Gd : double_finite dx.
Hypothesis Bc : Rabs (double_val c) <= 2 * X.
Hypothesis Br : Rabs (double_val (fst rg)) <= 4 * X.
Hypothesis HX : X <= powerRZ 2 1000.
Hypothesis Hh : powerRZ 2 (-798) <= h.
Hypothesis Hd : h / 2 <= double_val dx.
Hypothesis Hc : Rabs (double_val c - double_val (fst rg)) <= powerRZ 2 42 * h.
Hypothesis Hp : INR p <= powerRZ 2 40.
Hypothesis HL : (2 * p + 2 <= length K)%nat.

Lemma hint_uniform : exists hi, hint_for Fops g d c = Ok hi /\ (p <= hi <= length K - p - 2)%nat.
Proof using All.
  unfold hint_for. cbv zeta. rewrite E1, E2, E3, E4, E5, Ho. cbn [bind].
  destruct Fu_val as [Eu [U0 U1]]. destruct u_facts as [_ T0].
  assert (H0 : 0 < h) by (rewrite <- (bpow_powerRZ radix2) in Hh; pose proof (bpow_gt_0 radix2 (-798)); lra).
  apply Rabs_le_inv in Bc as Bc'. apply Rabs_le_inv in Br as Br'.
  assert (Hbig : 16 * X <= Fbig).
  { unfold Fbig. apply Rle_trans with (16 * powerRZ 2 1000); [lra|]. rewrite <- (bpow_powerRZ radix2). change 16 with (bpow radix2 4). rewrite <- bpow_plus. apply bpow_le. lia. }
  destruct (rd_sub _ _ _ _ _ _ F_rounding c (fst rg) Gc Gr) as [Gs Es]; [apply Rabs_le; lra|].
  set (s := osub Fops c (fst rg)) in *. 
  assert (B42 : 0 < powerRZ 2 42) by (rewrite <- (bpow_powerRZ radix2); apply bpow_gt_0).
  assert (E43 : powerRZ 2 43 = 2 * powerRZ 2 42) by (rewrite <- !(bpow_powerRZ radix2); change 43%Z with (1 + 42)%Z; rewrite bpow_plus; reflexivity).
  assert (E44 : powerRZ 2 44 = 4 * powerRZ 2 42) by (rewrite <- !(bpow_powerRZ radix2); change 44%Z with (2 + 42)%Z; rewrite bpow_plus; reflexivity).
  assert (E40 : powerRZ 2 42 = 4 * powerRZ 2 40) by (rewrite <- !(bpow_powerRZ radix2); change 42%Z with (2 + 40)%Z; rewrite bpow_plus; reflexivity).
  assert (B40 : 1 <= powerRZ 2 40) by (rewrite <- (bpow_powerRZ radix2); change 1 with (bpow radix2 0); apply bpow_le; lia).
  assert (Ss : Rabs (double_val s) <= powerRZ 2 43 * h).
  { set (y := double_val c - double_val (fst rg)) in *. replace (double_val s) with ((double_val s - y) + y) by ring. eapply Rle_trans; [apply Rabs_triang|].
    pose proof (Rabs_pos y). assert (Fu * Rabs y <= 1 * Rabs y) by (apply Rmult_le_compat_r; lra). rewrite E43. lra. }
  assert (D0 : 0 < double_val dx) by lra.
  assert (Qq : Rabs (double_val s / double_val dx) <= powerRZ 2 44).
  { unfold Rdiv. rewrite Rabs_mult, Rabs_inv, (Rabs_pos_eq (double_val dx)) by lra. apply Rmult_le_reg_r with (double_val dx); auto.
    rewrite Rmult_assoc, Rinv_l, Rmult_1_r by lra. eapply Rle_trans; [exact Ss|]. rewrite E43, E44. 
    replace (2 * powerRZ 2 42 * h) with (4 * powerRZ 2 42 * (h / 2)) by field. apply Rmult_le_compat_l; lra. }
  assert (B44 : 4 * powerRZ 2 44 <= Fbig).
  { unfold Fbig. change 4 with (bpow radix2 2). rewrite <- (bpow_powerRZ radix2), <- bpow_plus. apply bpow_le. lia. }
  destruct (rd_div _ _ _ _ _ _ F_rounding s dx Gs Gd ltac:(lra)) as (q & Eq & Gq & Vq); [lra|]. rewrite Eq. cbn [bind].
  assert (Feta <= 1) by (unfold Feta; rewrite <- (bpow_powerRZ radix2) in *; assert (bpow radix2 (-1074) <= bpow radix2 0) by (apply bpow_le; lia); cbn [bpow] in *; lra).
  assert (Bq : Rabs (double_val q) <= 2 * powerRZ 2 44).
  { set (y := double_val s / double_val dx) in *. replace (double_val q) with ((double_val q - y) + y) by ring. eapply Rle_trans; [apply Rabs_triang|].
    pose proof (Rabs_pos y). assert (Fu * Rabs y <= (1 / 2) * Rabs y) by (apply Rmult_le_compat_r; lra). lra. }
  set (w := if pe then o1 Fops else omul Fops (ohalf Fops) (onat Fops (p + 1))).
  assert (W : double_finite w /\ Rabs (double_val w) <= powerRZ 2 44).
  { unfold w. destruct pe.
    - destruct (rd_1 _ _ _ _ _ _ F_rounding) as [Z1 Z2]. split; auto. rewrite Z2, Rabs_R1. lra.
    - assert (P1 : INR (p + 1) <= 2 * powerRZ 2 40) by (rewrite plus_INR; change (INR 1) with 1; lra). pose proof (pos_INR (p + 1)) as P0.
      destruct (Fnat_exact (p + 1)) as [Gi Vi].
      { assert (Q : (Z.of_nat (p + 1) <= 2 ^ 41)%Z).
        { apply nat_small; [|lia]. eapply Rle_trans; [exact P1|]. rewrite <- !(bpow_powerRZ radix2). change 41%Z with (1 + 40)%Z. rewrite (bpow_plus radix2 1). cbn [bpow]. right. reflexivity. }
        clear - Q. lia. }
      destruct half_val as [Gh Vh].
      destruct (rd_mul _ _ _ _ _ _ F_rounding 0.5%float (Fnat (p + 1)) Gh Gi) as [Gm Em]; rewrite Vh, Vi in *.
      { rewrite Rabs_pos_eq by (apply Rmult_le_pos; lra). lra. }
      cbn [omul ohalf onat Fops] in *. split; auto. rewrite (Rabs_pos_eq (/ 2 * INR (p + 1))) in Em by (apply Rmult_le_pos; lra). apply Rabs_le_inv in Em.
      assert (Fu * (/ 2 * INR (p + 1)) <= 1 * (/ 2 * INR (p + 1))) by (apply Rmult_le_compat_r; [apply Rmult_le_pos; lra|lra]). apply Rabs_le. lra. }
  destruct W as [Gw Bw]. apply Rabs_le_inv in Bq. apply Rabs_le_inv in Bw.
  destruct (rd_sub _ _ _ _ _ _ F_rounding q w Gq Gw) as [Gv Ev]; [apply Rabs_le; lra|].
  set (v := osub Fops q w) in *.
  assert (Hv : double_val v < powerRZ 2 64).
  { set (y := double_val q - double_val w) in *. assert (Y : Rabs y <= 3 * powerRZ 2 44) by (apply Rabs_le; unfold y; lra). pose proof (Rabs_pos y).
    assert (Y1 : Fu * Rabs y <= 1 * Rabs y) by (apply Rmult_le_compat_r; lra). apply Rabs_le_inv in Ev. apply Rabs_le_inv in Y as Y2.
    assert (L : 7 * powerRZ 2 44 < powerRZ 2 64).
    { apply Rlt_le_trans with (8 * powerRZ 2 44); [lra|]. change 8 with (bpow radix2 3). rewrite <- !(bpow_powerRZ radix2), <- bpow_plus. apply bpow_le. lia. }
    lra. }
  destruct (ceil_small v Gv Hv) as (k & Ek). fold w. rewrite Ek. cbn [bind]. unfold usub.
  destruct (Nat.leb_spec p (length K)); [|lia]. cbn [bind]. destruct (Nat.leb_spec 2 (length K - p)); [|lia]. cbn [bind].
  eexists. split; [reflexivity|]. lia.
Qed.
End Hint.

(** ** Rows of uniform dimensions *)
Lemma sum_triangle n (a b c : nat -> R) : sum n (fun j => Rabs (a j - c j)) <= sum n (fun j => Rabs (a j - b j)) + sum n (fun j => Rabs (b j - c j)).
Proof.
  rewrite <- sum_plus. apply sum_le. intros j _. replace (a j - c j) with ((a j - b j) + (b j - c j)) by ring. apply Rabs_triang.
Qed.

Section UApRows.
Context (nd : bool) (a b : float) (n p : nat) (X sp : R) (K : list float) (dx : float).
Local Notation A := (double_val a).
Local Notation B := (double_val b).
Local Notation h := ((B - A) / INR (n - 1)).
Local Notation de := (powerRZ 2 (-48) * X).
Local Notation t := (kn (map double_val K)).
Hypothesis Ha : double_finite a.
Hypothesis Hb : double_finite b.
Hypothesis HA : Rabs A <= X.
Hypothesis HB : Rabs B <= X.
Hypothesis HX : X <= powerRZ 2 900.
Hypothesis P1 : (1 <= p)%nat.
Hypothesis Hp : (p + 1 <= n)%nat.
Hypothesis Hn : INR n <= powerRZ 2 40.
Hypothesis Hh : powerRZ 2 (-798) <= h.
Hypothesis Hx : powerRZ 2 (-44) * X <= h.
Hypothesis HK : uniform_knots Fops nd p false n a b = Ok (K, dx).
Hypothesis Hs : 0 < sp <= h.
Let beta := basis_growth Fu Feta (powerRZ 2 (-800)) p.

Definition at_row (m : solver float) (r : nat) (last : nat) (x : R) : Prop :=
  exists k y0, (p <= k <= last)%nat /\ t k <= y0 <= t (k + 1)%nat /\ Rabs (y0 - x) <= de /\
    sum n (fun j => Rabs (double_val (gsabs Fops m r j) - Bmat t p n k y0 j)) <= (beta - 1) + 2 * INR p * (4 * de / (sp / 2)).

Lemma at_row_room : 0 <= de /\ 0 <= 2 * INR p * (4 * de / (sp / 2)).
Proof using All.
  destruct (uap_scale nd a b n p X K dx Ha Hb HA HB HX P1 Hp Hn Hh Hx HK) as (X0 & h0 & d0 & _). split; [lra|].
  pose proof (pos_INR p). apply Rmult_le_pos; [lra|]. apply Rmult_le_pos; [lra|]. apply Rlt_le, Rinv_0_lt_compat. lra.
Qed.

Lemma uap_inner m rg i k0 x0 : fst rg = nth p K 0%float -> (1 <= i)%nat -> (i + 1 < n)%nat -> source Fops double_val p n dx rg i k0 x0 ->
  row_from Fops double_val Fu Feta p n K (powerRZ 2 (-800)) m i (useg p n i - p) k0 x0 -> at_row m i (n - 1) (A + INR i * h).
Proof using All.
  intros Er H1 H2 Hsrc Hr. unfold source in Hsrc. rewrite Er in Hsrc. cbn [oadd omul onat Fops] in Hsrc. unfold row_from in Hr. fold beta in Hr.
  destruct (uap_scale nd a b n p X K dx Ha Hb HA HB HX P1 Hp Hn Hh Hx HK) as (X0 & h0 & d0 & _). pose proof (half_cases p) as HC.
  destruct (uap_knots nd a b n p X K dx Ha Hb HA HB HX P1 Hp Hn Hh Hx HK) as (_ & _ & _ & Lk & _ & Mo & _ & _ & In1 & _).
  unfold nondecreasing in Mo. rewrite map_length, Lk in Mo.
  pose proof (uap_seg nd a b n p X K dx Ha Hb HA HB HX P1 Hp Hn Hh Hx HK i H1 H2) as Sg.
  destruct (uap_xf nd a b n p X K dx Ha Hb HA HB HX P1 Hp Hn Hh Hx HK i ltac:(lia)) as (_ & _ & Vx).
  pose proof (uap_gap nd a b n p X K dx Ha Hb HA HB HX P1 Hp Hn Hh Hx HK) as Gp.
  assert (Uk : (p <= useg p n i <= n - 1)%nat) by (unfold useg; destruct (Nat.ltb_spec (p / 2) i); lia).
  set (xi := double_val (nth p K 0 + Fnat i * dx)%float) in *.
  exists (useg p n i), xi. split; auto. split; auto. split; auto.
  eapply Rle_trans; [apply (sum_triangle n _ (placed p n (useg p n i - p) (upc double_val p K k0 x0)))|]. apply Rplus_le_compat; [exact Hr|].
  destruct Hsrc as [(-> & ->)|(-> & -> & L1 & L2)].
  - rewrite sum_0.
    + apply at_row_room.
    + intros j Hj. rewrite placed_Bmat. unfold upc. rewrite Rminus_eq_0. apply Rabs_R0.
  - destruct (uap_xf nd a b n p X K dx Ha Hb HA HB HX P1 Hp Hn Hh Hx HK (ubase p) ltac:(unfold ubase; lia)) as (_ & _ & Vb).
    assert (U0 : useg p n (ubase p) = (2 * p + 1)%nat) by (unfold useg, ubase; destruct (Nat.ltb_spec (p / 2) (2 * p + 1 - (p + 1) / 2)); lia).
    pose proof (uap_seg nd a b n p X K dx Ha Hb HA HB HX P1 Hp Hn Hh Hx HK (ubase p) ltac:(unfold ubase; lia) ltac:(unfold ubase; lia)) as Sb. rewrite U0 in Sb.
    set (xb := double_val (nth p K 0 + Fnat (ubase p) * dx)%float) in *.
    assert (Ui : useg p n i = (i + (p + 1) / 2)%nat) by (unfold useg in *; destruct (Nat.ltb_spec (p / 2) i); lia).
    pose proof (Gp (2 * p + 1)%nat ltac:(lia)) as G1. pose proof (Gp (useg p n i) ltac:(lia)) as G2.
    apply (transfer_same t (n + p + 1) p n (useg p n i) (2 * p + 1) xb xi (4 * de) (sp / 2)); auto; try lia; try lra.
    intros r Hr'. destruct (In1 (2 * p + 1 - p + r)%nat ltac:(lia)) as [_ V1]. destruct (In1 (useg p n i - p + r)%nat ltac:(lia)) as [_ V2].
    apply Rabs_le_inv in V1. apply Rabs_le_inv in V2. apply Rabs_le_inv in Vx. apply Rabs_le_inv in Vb.
    assert (Em : (mult (p + 1) (2 * p + 1 - p + r) - INR (ubase p)) * h = (mult (p + 1) (useg p n i - p + r) - INR i) * h).
    { f_equal. unfold mult. rewrite Ui. replace (i + (p + 1) / 2 - p + r)%nat with (i + ((p + 1) / 2 + r) - p)%nat by lia. replace (2 * p + 1 - p + r)%nat with (ubase p + ((p + 1) / 2 + r) - p)%nat by (unfold ubase; lia).
      rewrite !minus_INR by (unfold ubase; lia). rewrite !plus_INR. ring. }
    apply Rabs_le. lra.
Qed.

Lemma uap_end m i : (i = 0 \/ i + 1 = n)%nat -> (forall j, (j < n)%nat -> gsabs Fops m i j = if (j =? i)%nat then o1 Fops else o0 Fops) -> (1 <= beta) -> at_row m i (n - 1) (A + INR i * h).
Proof using All.
  intros Hi Hr Hbeta. destruct at_row_room as [D0 Rm].
  destruct (uap_scale nd a b n p X K dx Ha Hb HA HB HX P1 Hp Hn Hh Hx HK) as (X0 & h0 & _ & _ & _ & _ & Eh & _).
  destruct (uap_knots nd a b n p X K dx Ha Hb HA HB HX P1 Hp Hn Hh Hx HK) as (_ & _ & _ & Lk & _ & Mo & Lo & Hi' & _).
  unfold nondecreasing in Mo. rewrite map_length, Lk in Mo.
  pose proof (uap_gap nd a b n p X K dx Ha Hb HA HB HX P1 Hp Hn Hh Hx HK) as Gp.
  assert (St : forall i, (p <= i < n)%nat -> t i < t (i + 1)%nat) by (intros k Hk; pose proof (Gp k Hk); lra).
  assert (C1 : clamped_left t p) by (intros k Hk; rewrite !Lo by lia; auto).
  assert (C2 : clamped_right t p (n - 1)) by (intros k Hk; rewrite !Hi' by lia; auto).
  destruct (rd_0 _ _ _ _ _ _ F_rounding) as [_ Z0]. destruct (rd_1 _ _ _ _ _ _ F_rounding) as [_ Z1].
  assert (Z : forall v : nat -> R, (forall j, (j < n)%nat -> v j = if (j =? i)%nat then 1 else 0) -> sum n (fun j => Rabs (double_val (gsabs Fops m i j) - v j)) = 0).
  { intros v Hv. apply sum_0. intros j Hj. rewrite Hv, Hr by auto. destruct (Nat.eqb j i); rewrite ?Z0, ?Z1, Rminus_eq_0; apply Rabs_R0. }
  destruct Hi as [Hi|Hi].
  - exists p, (t p). split; [lia|]. split; [split; [lra|]; apply Rlt_le, St; lia|]. split.
    + rewrite Lo by lia. rewrite Hi. cbn [INR]. replace (A - (A + 0 * h)) with 0 by ring. rewrite Rabs_R0. lra.
    + rewrite Z; [lra|]. intros j Hj. rewrite (clamped_first t p n Hp Mo St C1 C2) by auto. rewrite Hi. auto.
  - exists (n - 1)%nat, (t n). split; [lia|]. replace (n - 1 + 1)%nat with n by lia. split; [split; [|lra]; pose proof (St (n - 1)%nat ltac:(lia)) as Q; replace (n - 1 + 1)%nat with n in Q by lia; lra|]. split.
    + rewrite Hi' by lia. replace i with (n - 1)%nat by lia. rewrite Eh. replace (B - (A + (B - A))) with 0 by ring. rewrite Rabs_R0. lra.
    + rewrite Z; [lra|]. intros j Hj. rewrite (clamped_last t p n Hp Mo St C1 C2) by auto. replace (n - 1)%nat with i by lia. auto.
Qed.
End UApRows.

Section UPerRows.
Context (nd : bool) (a b : float) (n p : nat) (X sp : R) (K : list float) (dx : float).
Local Notation A := (double_val a).
Local Notation B := (double_val b).
Local Notation h := ((B - A) / INR n).
Local Notation de := (powerRZ 2 (-48) * X).
Local Notation t := (kn (map double_val K)).
Hypothesis Ha : double_finite a.
Hypothesis Hb : double_finite b.
Hypothesis HA : Rabs A <= X.
Hypothesis HB : Rabs B <= X.
Hypothesis HX : X <= powerRZ 2 900.
Hypothesis P1 : (1 <= p)%nat.
Hypothesis Hp : (p + 1 <= n)%nat.
Hypothesis Hn : INR n <= powerRZ 2 40.
Hypothesis Hh : powerRZ 2 (-798) <= h.
Hypothesis Hx : powerRZ 2 (-44) * X <= h.
Hypothesis HK : uniform_knots Fops nd p true (n + (if nd then 0 else 1)) a b = Ok (K, dx).
Hypothesis Hs : 0 < sp <= h.

Lemma upe_at m i : (i < n)%nat -> row_from Fops double_val Fu Feta p n K (powerRZ 2 (-800)) m ((i + p / 2) mod n) i p (double_val (nth p K 0 + Fnat (1 - p mod 2) * dx * 0.5)%float) ->
  at_row n p X sp K m ((i + p / 2) mod n) (n + p - 1 + (1 - p mod 2)) (A + INR i * h).
Proof using All.
  intros Hi Hr. unfold row_from in Hr.
  destruct (upe_scale nd a b n p X K dx Ha Hb HA HB HX P1 Hp Hn Hh Hx HK) as (X0 & h0 & d0 & _).
  destruct (upe_knots nd a b n p X K dx Ha Hb HA HB HX P1 Hp Hn Hh Hx HK) as (_ & Lk & _ & Mo & _).
  unfold nondecreasing in Mo. rewrite map_length, Lk in Mo.
  pose proof (upe_gap nd a b n p X K dx Ha Hb HA HB HX P1 Hp Hn Hh Hx HK) as Gp.
  pose proof (upe_seg nd a b n p X K dx Ha Hb HA HB HX P1 Hp Hn Hh Hx HK) as Sg.
  destruct (upe_row nd a b n p X K dx Ha Hb HA HB HX P1 Hp Hn Hh Hx HK i Hi) as (y0 & Y1 & Y2 & Y3).
  set (xc := double_val (nth p K 0 + Fnat (1 - p mod 2) * dx * 0.5)%float) in *. exists (i + p)%nat, y0. split; [lia|]. split; auto. split; auto.
  eapply Rle_trans; [apply (sum_triangle n _ (placed p n i (upc double_val p K p xc)))|]. apply Rplus_le_compat; [exact Hr|].
  pose proof (Gp p ltac:(lia)) as G1. pose proof (Gp (i + p)%nat ltac:(lia)) as G2.
  pose proof (transfer_same t (n + 2 * p + 1 + (1 - p mod 2)) p n (i + p) p xc y0 (4 * de) (sp / 2)) as T.
  assert (Ei : (i + p - p)%nat = i) by lia. eapply Rle_trans; [|apply T]; [right; apply sum_ext; intros j Hj; rewrite Ei; reflexivity|..]; auto; try lia; try lra.
Qed.
End UPerRows.

(** ** Dimensions *)
Section Inst.
Context (on nd : bool) (p : nat) (per : list bool) (dims : list nat) (ranges : list (xrange float)) (t : templ float) (reach sp : nat -> R) (kap : R).
Let D := length per.
Let W := ddims nd per dims.
Local Notation pd d := (nth d per false).
Local Notation N d := (nth d W 0%nat).
Local Notation n d := (grid_size nd per dims d).
Local Notation s0 := (if_spline (tp_base t)).
Local Notation K d := (nth d (sp_knots s0) []).
Local Notation tk d := (kn (map double_val (K d))).
Local Notation g0 := (powerRZ 2 (-800)).
Local Notation xi := (grid_at nd per dims ranges).
Hypothesis Ht : templ_make Fops on nd p per dims ranges = Ok t.
Hypothesis Ld : length dims = length per.
Hypothesis Lr : length ranges = length per.
Hypothesis HD : (1 <= length per)%nat.
Hypothesis P1 : (1 <= p)%nat.
Hypothesis HR : INR (roundings p (length per)) <= powerRZ 2 40.
Hypothesis Hfit : forall d, (d < length per)%nat -> fit_range p (pd d) (n d) (range_at ranges d) (reach d) (sp d).
Hypothesis Hsp : forall d, (d < length per)%nat -> powerRZ 2 (-44) * reach d <= sp d.

Lemma gN d : (d < D)%nat -> N d = unknowns nd per dims d /\ (p + 1 <= N d)%nat /\ n d = (N d + (if pd d then 1 else 0))%nat.
Proof using All.
  intros Hd. unfold W. rewrite ddims_nth by auto. destruct (fr_order _ _ _ _ _ _ (Hfit d Hd)) as [_ H]. unfold unknowns, grid_size, distinct in *.
  destruct nd, (pd d); cbn [andb negb] in *; lia.
Qed.
Lemma grow : 1 <= basis_growth Fu Feta g0 p <= 2.
Proof using All.
  pose proof HR as HR'. rewrite <- !(bpow_powerRZ radix2) in *. destruct (double_growth p (length per) 0 HD HR') as [H _]; [split; [lra|apply bpow_ge_0]|]. split; auto.
  destruct (tiny_bound p (length per) HD HR') as (_ & T0 & _). destruct Fu_val as [_ [U0 _]].
  unfold basis_growth. set (e1 := INR p * (INR (p + 1) * _)) in *. rewrite <- (Rmult_1_l 1) at 1. apply Rmult_le_compat; try lra. apply pow_R1_Rle. lra.
Qed.

Lemma g_base d : (d < D)%nat -> sp_order s0 = p /\
  vget (sp_per s0) d = Ok (pd d) /\ vget (sp_knots s0) d = Ok (K d) /\
  vget (sp_range s0) d = Ok (nth p (K d) 0%float, nth (length (K d) - p - (2 - p mod 2)) (K d) 0%float) /\
  vget (tp_coords t) d = Ok (nth d (tp_coords t) []) /\ vget (if_uniform (tp_base t)) d = Ok (nth d (if_uniform (tp_base t)) false) /\
  vget (if_dx (tp_base t)) d = Ok (nth d (if_dx (tp_base t)) 0%float) /\ vget W d = Ok (N d) /\
  match range_at ranges d with
  | Uniform a b => uniform_knots Fops nd p (pd d) (nth d dims 0%nat) a b = Ok (K d, nth d (if_dx (tp_base t)) 0%float) /\ nth d (if_uniform (tp_base t)) false = true
  | Points l => (if pd d then periodic_points Fops p l else aperiodic_points Fops p l) = Ok (K d, nth d (tp_coords t) []) /\ nth d (if_uniform (tp_base t)) false = false
  end.
Proof using All.
  intros Hd. destruct (templ_inv Fops on nd p per dims ranges t Ht Ld) as (Eb & _). 
  pose proof (base_knots Fops on nd _ _ _ _ _ _ Eb) as (Ho & Hp & HK).
  pose proof (base_shape Fops on nd _ _ _ _ _ _ Eb) as (S1 & S2 & S3 & S4 & S5 & S6 & S7). cbv zeta in *. unfold D in Hd.
  destruct (HK d ltac:(lia)) as (r & b & m & R1 & R2 & R3 & R4).
  pose proof (nth_error_nth _ _ (Points []) R1) as Er. pose proof (nth_error_nth _ _ false R2) as Ep. pose proof (nth_error_nth _ _ 0%nat R3) as Em.
  split; auto. split; [unfold vget; rewrite Hp, R2; congruence|]. split; [apply vget_ok; lia|].
  split. { rewrite (vget_ok _ d (0%float, 0%float)) by lia. f_equal. apply (S7 d). lia. }
  split; [apply vget_ok; lia|]. split; [apply vget_ok; lia|]. split; [apply vget_ok; lia|]. split; [apply vget_ok; unfold W; rewrite ddims_length; auto|].
  unfold range_at. rewrite Er, Ep, Em. destruct r as [a b'|l]; destruct R4 as [R4 R5].
  - split; auto.
  - split; [apply points_inv in R4; auto|]. rewrite (nth_indep _ _ true) by lia. auto.
Qed.

(** The matrix before its rows are filled. *)
Lemma g_matrix d : (d < D)%nat -> exists m m0 cache st, coef_matrix Fops on (tp_base t) (tp_coords t) W d = Ok m /\ coef_factor Fops on m = Ok (gsv_at Fops (tp_solvers t) d) /\
  coef_cache Fops s0 d (nth d (if_uniform (tp_base t)) false) (nth d (if_dx (tp_base t)) 0%float) = Ok cache /\
  gsinv (pd d) (N d) (bw_of p (pd d)) m0 /\ (forall i j, gsabs Fops m0 i j = o0 Fops) /\
  for_ 0 (N d) (m0, cache) (fun st i => coef_row Fops on s0 d (nth d (if_uniform (tp_base t)) false) (nth d (if_dx (tp_base t)) 0%float) (nth d (tp_coords t) []) (N d) i st) = Ok st /\ fst st = m.
Proof using All.
  intros Hd. destruct (templ_inv Fops on nd p per dims ranges t Ht Ld) as (Eb & Td & Ls & Hm). destruct (Hm d Hd) as (m & Em & Ef). exists m.
  destruct (g_base d Hd) as (Ho & V1 & V2 & V3 & V4 & V5 & V6 & V7 & _). destruct (gN d Hd) as (_ & NB & _). pose proof (half_cases p) as HC.
  fold W in Em. pose proof Em as Em'. unfold coef_matrix in Em'. cbv zeta in Em'. rewrite V1, V5, V6, V4, V7 in Em'. cbn [bind] in Em'.
  apply bind_Ok in Em' as (cache & Ec & Em'). rewrite Ho in Em'.
  destruct (gcoef_make_ok Fops p (pd d) (N d)) as (m0 & Em0 & I0 & Z0); [intros _; lia|]. rewrite Em0 in Em'. cbn [bind] in Em'.
  apply bind_Ok in Em' as ([m' cc] & Em' & Ex). exists m0, cache, (m', cc). inversion Ex; subst m'. repeat (split; [assumption|]). split; auto.
Qed.

Lemma xi_chain d i j : (d < D)%nat -> (i <= j)%nat -> (j < n d)%nat -> xi d i <= xi d j.
Proof using All.
  intros Hd Hij Hj. destruct (fr_step _ _ _ _ _ _ (Hfit d Hd)) as [H1 H2]. rewrite <- (bpow_powerRZ radix2) in H1. pose proof (bpow_gt_0 radix2 (-798)).
  apply (steps_mono (xi d) (n d)); auto. intros k Hk. pose proof (H2 k Hk) as Q. unfold grid_at. lra.
Qed.
Lemma sp_pos d : (d < D)%nat -> 0 < sp d /\ g0 <= sp d / 2 /\ 0 <= reach d <= powerRZ 2 1000 /\ powerRZ 2 (-799) <= sp d.
Proof using All.
  intros Hd. destruct (fr_step _ _ _ _ _ _ (Hfit d Hd)) as [H1 H2]. destruct (fr_reach _ _ _ _ _ _ (Hfit d Hd)) as [H3 H4]. rewrite <- !(bpow_powerRZ radix2) in H1, H3 |- *.
  assert (E : bpow radix2 (-798) = 4 * bpow radix2 (-800)) by (change (-798)%Z with (2 + -800)%Z; rewrite bpow_plus; reflexivity).
  assert (E' : bpow radix2 (-798) = 2 * bpow radix2 (-799)) by (change (-798)%Z with (1 + -799)%Z; rewrite bpow_plus; reflexivity).
  pose proof (bpow_gt_0 radix2 (-800)). pose proof (bpow_gt_0 radix2 (-799)). destruct (gN d Hd) as (_ & Q & Qn). pose proof (H4 0%nat ltac:(lia)) as Q0. pose proof (Rabs_pos (grid_of (real_range (range_at ranges d)) (n d) 0)).
  assert (bpow radix2 900 <= bpow radix2 1000) by (apply bpow_le; lia).
  split; [lra|]. split; [lra|]. split; [split; [eapply Rle_trans; eassumption|eapply Rle_trans; [exact H3|rewrite <- ?(bpow_powerRZ radix2); apply bpow_le; lia]]|rewrite <- ?(bpow_powerRZ radix2); lra].
Qed.
Lemma sorted_between d i j k : nondecreasing (map double_val (K d)) -> (i <= j <= k)%nat -> (k < length (K d))%nat -> forall M, Rabs (tk d i) <= M -> Rabs (tk d k) <= M -> Rabs (tk d j) <= M.
Proof using All.
  intros Sd Hij Hk M HM1 HM2. unfold nondecreasing in Sd. rewrite map_length in Sd. pose proof (Sd i j ltac:(lia)). pose proof (Sd j k ltac:(lia)).
  apply Rabs_le_inv in HM1. apply Rabs_le_inv in HM2. apply Rabs_le. lra.
Qed.
Lemma eta_g0 : 0 < g0 /\ Feta <= g0.
Proof using All.
  rewrite <- !(bpow_powerRZ radix2). split; [apply bpow_gt_0|]. unfold Feta.
  assert (bpow radix2 (-1074) <= bpow radix2 (-800)) by (apply bpow_le; lia). pose proof (bpow_ge_0 radix2 (-1074)). lra.
Qed.
Lemma de_pos d : (d < D)%nat -> 0 <= powerRZ 2 (-48) * reach d /\ 0 <= 2 * INR p * (4 * (powerRZ 2 (-48) * reach d) / (sp d / 2)).
Proof using All.
  intros Hd. destruct (sp_pos d Hd) as (S0 & _ & R0 & _). assert (0 <= powerRZ 2 (-48) * reach d) by (apply Rmult_le_pos; [rewrite <- (bpow_powerRZ radix2); apply bpow_ge_0|lra]).
  split; auto. pose proof (pos_INR p). apply Rmult_le_pos; [lra|]. apply Rmult_le_pos; [lra|]. apply Rlt_le, Rinv_0_lt_compat. lra.
Qed.

Lemma points_dim d l : (d < D)%nat -> range_at ranges d = Points l -> dimfit on nd p per dims t xi reach sp d.
Proof using All.
  intros Hd Er. destruct (g_base d Hd) as (Ho & V1 & V2 & V3 & V4 & V5 & V6 & V7 & V8). destruct (gN d Hd) as (NU & NB & Nn).
  destruct (g_matrix d Hd) as (m & m0 & cache & st & Em & Ef & Ec & I0 & Z0 & Est & Efst).
  pose proof (Hfit d Hd) as [F1 F2 F3 F4 F5 F6]. rewrite Er in *. cbn [real_range] in *. destruct V8 as [V8 V9]. rewrite V9 in *. destruct F3 as [F3 F3'].
  destruct (sp_pos d Hd) as (S0 & S1 & S2 & S3). destruct (de_pos d Hd) as [D0 D1]. destruct F4 as [F4 F4']. destruct F5 as [F5 F5']. destruct F6 as [F6 F6'].
  assert (Xv : forall i, grid_of (Points (map double_val l)) (n d) i = double_val (nth i l 0%float)) by (intros i; cbn [grid_of]; apply (kn_vals l)).
  assert (Xi : forall i, xi d i = double_val (nth i l 0%float)) by (intros i; unfold grid_at; rewrite Er; apply Xv).
  assert (Ha : forall a, In a l -> Rabs (double_val a) <= reach d).
  { intros a Ia. apply (In_nth _ _ 0%float) in Ia as (k & Hk & <-). rewrite <- Xv. apply F4'. lia. }
  assert (Hg : forall i, (i + 1 < length l)%nat -> sp d <= double_val (nth (i + 1) l zero) - double_val (nth i l zero)).
  { intros i Hi. rewrite <- !Xv. apply F5'. lia. }
  pose proof (half_cases p) as HC. destruct eta_g0 as [G0 G1]. destruct grow as [G3 G2]. 
  assert (Hint : forall x i, double_finite x -> (i < N d)%nat -> xi d 0%nat <= double_val x -> Rabs (double_val x - xi d i) <= powerRZ 2 (-49) * reach d ->
    exists hi, hint_for Fops (tp_base t) d x = Ok hi /\ (p <= hi <= flen nd p per dims d - p - 2)%nat).
  { intros x i _ _ _ _. exists p. unfold hint_for. cbv zeta. rewrite V5. cbn [bind]. rewrite Ho. split; auto. unfold flen. fold W. destruct (pd d); lia. }
  assert (Rf : forall r last y, near_row Fops double_val Fu Feta p (N d) (K d) g0 m r last y -> exists k y0, (p <= k <= last)%nat /\ tk d k <= y0 <= tk d (k + 1)%nat /\ Rabs (y0 - y) <= powerRZ 2 (-48) * reach d /\
     sum (N d) (fun j => Rabs (double_val (gsabs Fops m r j) - Bmat (tk d) p (N d) k y0 j)) <= (basis_growth Fu Feta g0 p - 1) + 2 * INR p * (4 * (powerRZ 2 (-48) * reach d) / (sp d / 2))).
  { intros r last y (k & Sk & Ik & Hk). exists k, y. split; [apply Sk|]. split; auto. split; [rewrite Rminus_eq_0, Rabs_R0; auto|]. lra. }
  destruct (pd d) eqn:Epd.
  - destruct (per_facts_at p l (K d) (nth d (tp_coords t) []) (reach d) (sp d)) as ((A0 & A1 & A2 & A3) & A4 & A5 & A6 & A7 & A8 & A9 & A10 & A11); auto; try (rewrite ?F3; auto; lia).
    replace (length l - 1)%nat with (N d) in * by lia. rewrite A4 in *.
    constructor; rewrite ?Epd; fold W; auto; unfold flen; rewrite ?Epd; fold W; auto.
    + rewrite V3, A8. reflexivity.
    + intros i Hi. pose proof (A9 i ltac:(lia)). pose proof (A0 i ltac:(lia)). auto.
    + exists m. split; auto. unfold coef_cache in Ec. cbv zeta in Ec. rewrite V1 in Ec. cbn [bind andb] in Ec. injection Ec as <-.
      destruct (per_coll Fops double_val double_finite Fu Feta Fbig F_rounding on s0 d p (N d) (nth d (if_dx (tp_base t)) 0%float) (K d) l _ g0 Ho V2 V3 NB A5 F3' A6 A7 G0 G1 G2 V1 A8) with (sv := m0) (cache := @nil float) as (st' & E & I & R); auto.
      * lia.
      * intros i Hi. apply A9. lia.
      * rewrite E in Est. injection Est as <-. rewrite Efst in *. split; auto. split; auto.
        intros i Hi. unfold rowof. replace (N d + 2 * p + 1 + (1 - p mod 2) - p - 2)%nat with (N d + p - 1 + (1 - p mod 2))%nat by lia. apply Rf. rewrite Xi. apply (R i Hi).
    + split; [rewrite Xi; pose proof (A10 0%nat ltac:(lia)) as Q; cbn [Nat.add] in Q; lra|]. intros i Hi. apply xi_chain; auto; lia.
    + intros i Hi. replace (N d + 2 * p + 1 + (1 - p mod 2) - p - (2 - p mod 2))%nat with (N d + p)%nat by lia.
      pose proof (xi_chain d i (N d - 1)%nat Hd ltac:(lia) ltac:(lia)) as Q. rewrite (Xi (N d - 1)%nat) in Q. lra.
    + replace (N d + 2 * p + 1 + (1 - p mod 2) - p - (2 - p mod 2))%nat with (N d + p)%nat by lia. split; auto. intros i Hi. unfold grid_at. rewrite Er. apply F4'. lia.
  - destruct (ap_facts_at p l (K d) (nth d (tp_coords t) []) (reach d) (sp d)) as (A0 & A4 & A5 & A6 & A7 & A8 & A9 & A10 & A11 & A12 & A13 & A14); auto; try (rewrite ?F3; auto; lia).
    assert (Ll : length l = N d) by lia. rewrite Ll in A0, A8, A9, A11, A12, A13, A14. rewrite A4 in *.
    assert (Ab : forall i, (i < N d)%nat -> Rabs (xi d i) <= reach d) by (intros i Hi; unfold grid_at; rewrite Er; apply F4'; lia).
    constructor; rewrite ?Epd; fold W; auto; unfold flen; rewrite ?Epd; fold W; auto.
    + rewrite V3, A8. reflexivity.
    + intros i Hi. pose proof (A9 i ltac:(lia)). pose proof (A0 i ltac:(lia)). auto.
    + exists m. split; auto.
      destruct (ap_coll Fops double_val double_finite Fu Feta Fbig F_rounding on s0 d p (N d) (nth d (if_dx (tp_base t)) 0%float) (K d) l _ g0 Ho V2 V3 NB A5 F3' A6 A7 G0 G1 G2 V1 P1 A8) with (sv := m0) (cache := cache) as (st' & E & I & R); [auto..|].
      rewrite E in Est. injection Est as <-. rewrite Efst in *. split; auto. split; auto.
      intros i Hi. unfold rowof. replace (N d + p + 1 - p - 2)%nat with (N d - 1)%nat by lia. apply Rf. rewrite Xi. apply (R i Hi).
    + split; [rewrite Xi, A10 by lia; lra|]. intros i Hi. apply xi_chain; auto; lia.
    + replace (N d + p + 1 - p - 2 + 1)%nat with (N d) by lia. split; [rewrite Xi; apply A11; lia|]. intros i Hi. apply xi_chain; auto; lia.
    + split; auto.
      assert (B1 : Rabs (tk d p) <= 4 * reach d) by (rewrite A10, <- Xi by lia; pose proof (Ab 0%nat ltac:(lia)); lra).
      assert (B2 : Rabs (tk d (N d)) <= 4 * reach d) by (rewrite A11, <- Xi by lia; pose proof (Ab (N d - 1)%nat ltac:(lia)); lra).
      split; auto. apply (sorted_between d p _ (N d)); auto; lia.
Qed.

Lemma uniform_dim d a b : (d < D)%nat -> range_at ranges d = Uniform a b -> dimfit on nd p per dims t xi reach sp d.
Proof using All.
  intros Hd Er. destruct (g_base d Hd) as (Ho & V1 & V2 & V3 & V4 & V5 & V6 & V7 & V8). destruct (gN d Hd) as (NU & NB & Nn).
  destruct (g_matrix d Hd) as (m & m0 & cache & st & Em & Ef & Ec & I0 & Z0 & Est & Efst).
  pose proof (Hfit d Hd) as [F1 F2 F3 F4 F5 _]. rewrite Er in *. cbn [real_range grid_of] in *. destruct V8 as [V8 V9]. rewrite V9 in *. destruct F3 as [Ha Hb].
  destruct (sp_pos d Hd) as (S0 & S1 & S2 & S3). destruct (de_pos d Hd) as [D0 D1]. destruct F4 as [F4 F4']. destruct F5 as [F5 F5'].
  pose proof (Hsp d Hd) as S4. set (dx := nth d (if_dx (tp_base t)) 0%float) in *.
  set (h := (double_val b - double_val a) / INR (n d - 1)) in *.
  assert (Xi : forall i, xi d i = double_val a + INR i * h) by (intros i; unfold grid_at; rewrite Er; reflexivity).
  pose proof (half_cases p) as HC. destruct eta_g0 as [G0 G1]. destruct grow as [G3 G2].
  assert (N1 : 1 <= INR (n d - 1)) by (change 1 with (INR 1); apply le_INR; lia).
  assert (Eh : INR (n d - 1) * h = double_val b - double_val a) by (unfold h; field; lra).
  assert (HA : Rabs (double_val a) <= reach d). { pose proof (F4' 0%nat ltac:(lia)) as Q. cbn [INR] in Q. rewrite Rmult_0_l, Rplus_0_r in Q. exact Q. }
  assert (HB : Rabs (double_val b) <= reach d). { pose proof (F4' (n d - 1)%nat ltac:(lia)) as Q. rewrite Eh in Q. replace (double_val a + (double_val b - double_val a)) with (double_val b) in Q by ring. exact Q. }
  assert (Hs : 0 < sp d <= h). { pose proof (F5' 0%nat ltac:(lia)) as Q. cbn [Nat.add INR] in Q. lra. }
  assert (Hh : powerRZ 2 (-798) <= h) by lra. assert (Hx : powerRZ 2 (-44) * reach d <= h) by lra.
  assert (Ab : forall i, (i < N d)%nat -> Rabs (xi d i) <= reach d) by (intros i Hi; rewrite Xi; apply F4'; lia).
  assert (B40 : 1 <= powerRZ 2 40) by (rewrite <- (bpow_powerRZ radix2); change 1 with (bpow radix2 0); apply bpow_le; lia).
  assert (NH : INR (N d) <= powerRZ 2 40) by (eapply Rle_trans; [|exact F2]; apply le_INR; lia).
  assert (PH : INR p <= powerRZ 2 40) by (eapply Rle_trans; [|exact NH]; apply le_INR; lia).
  assert (E42 : powerRZ 2 42 = 4 * powerRZ 2 40) by (rewrite <- !(bpow_powerRZ radix2); change 42%Z with (2 + 40)%Z; rewrite bpow_plus; reflexivity).
  assert (E44 : powerRZ 2 (-44) = 32 * powerRZ 2 (-49)) by (rewrite <- !(bpow_powerRZ radix2); change (-44)%Z with (5 + -49)%Z; rewrite bpow_plus; reflexivity).
  assert (E51 : powerRZ 2 (-51) <= / 4) by (rewrite <- (bpow_powerRZ radix2); apply Rle_trans with (bpow radix2 (-2)); [apply bpow_le; lia|cbn; lra]).
  assert (B49 : powerRZ 2 (-49) * reach d <= reach d).
  { rewrite <- (Rmult_1_l (reach d)) at 2. apply Rmult_le_compat_r; [lra|]. rewrite <- (bpow_powerRZ radix2); change 1 with (bpow radix2 0); apply bpow_le; lia. }
  (* hints *)
  assert (Hint : double_finite dx -> Rabs (double_val dx - h) <= powerRZ 2 (-51) * h -> double_finite (nth p (K d) 0%float) -> length (K d) = flen nd p per dims d ->
     double_val a - h <= tk d p <= double_val a -> Rabs (tk d p) <= 4 * reach d ->
     forall x i, double_finite x -> (i < N d)%nat -> xi d 0%nat <= double_val x -> Rabs (double_val x - xi d i) <= powerRZ 2 (-49) * reach d ->
    exists hi, hint_for Fops (tp_base t) d x = Ok hi /\ (p <= hi <= flen nd p per dims d - p - 2)%nat).
  { intros Gd Vd Gp Lk Tp Tb x i Gx Hi X0 Xd. rewrite <- Lk. rewrite kn_vals in Tp, Tb.
    apply (hint_uniform (tp_base t) d x p (pd d) (K d) _ dx (reach d) h Ho V5 V2 V3 V1 V6 Gx Gp Gd); cbn [fst]; auto; try lra.
    - replace (double_val x) with ((double_val x - xi d i) + xi d i) by ring. eapply Rle_trans; [apply Rabs_triang|]. pose proof (Ab i Hi). lra.
    - apply Rabs_le_inv in Vd. assert (powerRZ 2 (-51) * h <= / 4 * h) by (apply Rmult_le_compat_r; lra). lra.
    - apply Rabs_le_inv in Xd. rewrite Xi in X0, Xd. cbn [INR] in X0. pose proof (pos_INR i) as I0'. assert (I3 : 0 <= INR i * h) by (apply Rmult_le_pos; lra).
      assert (B49h : powerRZ 2 (-49) * reach d <= h) by (rewrite E44 in Hx; assert (0 <= powerRZ 2 (-49) * reach d) by (pose proof (Rabs_pos (double_val a)); apply Rmult_le_pos; [|lra]; rewrite <- (bpow_powerRZ radix2); apply bpow_ge_0); lra).
      assert (INR i <= powerRZ 2 40) by (eapply Rle_trans; [|exact NH]; apply le_INR; lia).
      assert (I1 : INR i * h <= powerRZ 2 40 * h) by (apply Rmult_le_compat_r; lra). assert (I2 : 1 * h <= powerRZ 2 40 * h) by (apply Rmult_le_compat_r; lra). rewrite E42.
      apply Rabs_le. lra.
    - rewrite Lk. unfold flen. fold W. destruct (pd d); lia. }
  destruct (pd d) eqn:Epd.
  - assert (En : (n d - 1)%nat = N d) by lia. unfold h in *. rewrite En in *. clear h. set (h := (double_val b - double_val a) / INR (N d)) in *.
    assert (HK : uniform_knots Fops nd p true (N d + (if nd then 0 else 1)) a b = Ok (K d, dx)).
    { rewrite <- V8. f_equal. unfold grid_size in Nn. rewrite Epd in Nn. destruct nd; cbn [andb] in Nn; lia. }
    pose proof (upe_scale nd a b (N d) p (reach d) (K d) dx Ha Hb HA HB F4 P1 NB NH Hh Hx HK) as (_ & h0 & d0 & _ & _ & _ & Eh' & _ & h2). fold h in h0, d0, Eh', h2.
    pose proof (upe_knots nd a b (N d) p (reach d) (K d) dx Ha Hb HA HB F4 P1 NB NH Hh Hx HK) as (_ & Lk & Fn & Mo & _ & Gd & Vd). fold h in Vd.
    pose proof (upe_gap nd a b (N d) p (reach d) (K d) dx Ha Hb HA HB F4 P1 NB NH Hh Hx HK) as Gp. fold h in Gp.
    pose proof (upe_first nd a b (N d) p (reach d) (K d) dx Ha Hb HA HB F4 P1 NB NH Hh Hx HK) as Tp. fold h in Tp.
    pose proof (upe_near nd a b (N d) p (reach d) (K d) dx Ha Hb HA HB F4 P1 NB NH Hh Hx HK (N d + p)%nat ltac:(lia)) as Te. fold h in Te. rewrite (extra_half p), (plus_INR (N d) p) in Te.
    pose proof (upe_wide nd a b (N d) p (reach d) (K d) dx Ha Hb HA HB F4 P1 NB NH Hh Hx HK) as Wd.
    assert (Tp' : double_val a - h <= tk d p <= double_val a) by (destruct (Nat.eqb_spec (p mod 2) 1); lra).
    apply Rabs_le_inv in HA as HA'. apply Rabs_le_inv in HB as HB'.
    assert (Tb : Rabs (tk d p) <= 4 * reach d) by (apply Rabs_le; lra).
    assert (Te' : double_val b - h / 2 - powerRZ 2 (-48) * reach d <= tk d (N d + p)%nat <= double_val b + powerRZ 2 (-48) * reach d) by (destruct (Nat.eqb_spec (p mod 2) 1); lra).
    assert (Tb' : Rabs (tk d (N d + p)%nat) <= 4 * reach d) by (apply Rabs_le; lra).
    assert (Lk' : length (K d) = flen nd p per dims d) by (unfold flen; rewrite Epd; fold W; auto).
    assert (LpK : (p < length (K d))%nat) by (rewrite Lk; lia). assert (Hint' := Hint Gd Vd (Fn _ (nth_In _ 0%float LpK)) Lk' Tp' Tb).
    constructor; rewrite ?Epd; fold W; auto; unfold flen; rewrite ?Epd; fold W; auto.
    + rewrite V3, Lk. reflexivity.
    + intros i Hi. pose proof (Gp i ltac:(lia)). lra.
    + exists m. split; auto.
      pose proof (upe_xc nd a b (N d) p (reach d) (K d) dx Ha Hb HA HB F4 P1 NB NH Hh Hx HK) as (Gx & _ & Ox).
      pose proof (upe_seg nd a b (N d) p (reach d) (K d) dx Ha Hb HA HB F4 P1 NB NH Hh Hx HK) as Sg.
      destruct (up_coll Fops double_val double_finite Fu Feta Fbig F_rounding on s0 d p (N d) dx (K d) (nth d (tp_coords t) []) _ g0 Ho V2 V3 NB Fn Mo Wd G0 G1 G2 V1 Lk) with (sv := m0) as (b' & st' & Eb & E & I & R); auto.
      * pose proof (Gp p ltac:(lia)). lra.
      * rewrite Eb in Ec. injection Ec as <-. rewrite E in Est. injection Est as <-. rewrite Efst in *. split; auto. split; auto.
        intros i Hi. unfold rowof. replace (N d + 2 * p + 1 + (1 - p mod 2) - p - 2)%nat with (N d + p - 1 + (1 - p mod 2))%nat by lia. rewrite Xi.
        apply (upe_at nd a b (N d) p (reach d) (sp d) (K d) dx Ha Hb HA HB F4 P1 NB NH Hh Hx HK Hs m i Hi). apply (R i Hi).
    + split; [rewrite Xi; cbn [INR]; lra|]. intros i Hi. apply xi_chain; auto; lia.
    + intros i Hi. replace (N d + 2 * p + 1 + (1 - p mod 2) - p - (2 - p mod 2))%nat with (N d + p)%nat by lia.
      pose proof (xi_chain d i (N d - 1)%nat Hd ltac:(lia) ltac:(lia)) as Q. rewrite (Xi (N d - 1)%nat), minus_INR in Q by lia. change (INR 1) with 1 in Q. lra.
    + replace (N d + 2 * p + 1 + (1 - p mod 2) - p - (2 - p mod 2))%nat with (N d + p)%nat by lia. auto.
  - assert (En : n d = N d) by lia. unfold h in *. rewrite En in *. clear h. set (h := (double_val b - double_val a) / INR (N d - 1)) in *.
    assert (HK : uniform_knots Fops nd p false (N d) a b = Ok (K d, dx)).
    { rewrite <- V8. f_equal. unfold grid_size in En. rewrite Epd, andb_false_r in En. lia. }
    pose proof (uap_scale nd a b (N d) p (reach d) (K d) dx Ha Hb HA HB F4 P1 NB NH Hh Hx HK) as (_ & h0 & d0 & _). fold h in h0, d0.
    pose proof (uap_knots nd a b (N d) p (reach d) (K d) dx Ha Hb HA HB F4 P1 NB NH Hh Hx HK) as (_ & _ & _ & Lk & Fn & Mo & Lo & Hi' & _ & Gd & Vd). fold h in Vd.
    pose proof (uap_gap nd a b (N d) p (reach d) (K d) dx Ha Hb HA HB F4 P1 NB NH Hh Hx HK) as Gp. fold h in Gp.
    pose proof (uap_wide nd a b (N d) p (reach d) (K d) dx Ha Hb HA HB F4 P1 NB NH Hh Hx HK) as Wd.
    assert (Tp' : double_val a - h <= tk d p <= double_val a) by (rewrite Lo by lia; lra).
    assert (Tb : Rabs (tk d p) <= 4 * reach d) by (rewrite Lo by lia; lra).
    assert (Tb' : Rabs (tk d (N d)) <= 4 * reach d) by (rewrite Hi' by lia; lra).
    assert (Lk' : length (K d) = flen nd p per dims d) by (unfold flen; rewrite Epd; fold W; auto).
    assert (LpK : (p < length (K d))%nat) by (rewrite Lk; lia). assert (Hint' := Hint Gd Vd (Fn _ (nth_In _ 0%float LpK)) Lk' Tp' Tb).
    constructor; rewrite ?Epd; fold W; auto; unfold flen; rewrite ?Epd; fold W; auto.
    + rewrite V3, Lk. reflexivity.
    + intros i Hi. pose proof (Gp i ltac:(lia)). lra.
    + exists m. split; auto.
      destruct (u_coll Fops double_val double_finite Fu Feta Fbig F_rounding on s0 d p (N d) dx (K d) (nth d (tp_coords t) []) _ g0 Ho V2 V3 NB Fn Mo Wd G0 G1 G2 V1 Lk) with (sv := m0) (cache := cache) as (st' & E & I & R1 & R2); auto.
      * intros i Hi. pose proof (Gp i ltac:(lia)). lra.
      * intros i I1 I2. apply (uap_xf nd a b (N d) p (reach d) (K d) dx Ha Hb HA HB F4 P1 NB NH Hh Hx HK i ltac:(lia)).
      * intros i I1 I2. apply (uap_seg nd a b (N d) p (reach d) (K d) dx Ha Hb HA HB F4 P1 NB NH Hh Hx HK i I1 I2).
      * intros Hm i I1 I2. apply (uap_odd nd a b (N d) p (reach d) (K d) dx Ha Hb HA HB F4 P1 NB NH Hh Hx HK i Hm I1 I2).
      * rewrite E in Est. injection Est as <-. rewrite Efst in *. split; auto. split; auto.
        intros i Hi. unfold rowof. replace (N d + p + 1 - p - 2)%nat with (N d - 1)%nat by lia. rewrite Xi.
        destruct (Nat.eq_dec i 0) as [I1|I1]; [|destruct (Nat.eq_dec (i + 1) (N d)) as [I2|I2]].
        -- apply (uap_end nd a b (N d) p (reach d) (sp d) (K d) dx Ha Hb HA HB F4 P1 NB NH Hh Hx HK Hs); auto.
        -- apply (uap_end nd a b (N d) p (reach d) (sp d) (K d) dx Ha Hb HA HB F4 P1 NB NH Hh Hx HK Hs); auto.
        -- destruct (R1 i ltac:(lia) ltac:(lia)) as (k0 & x0 & Sr & Rr).
           apply (uap_inner nd a b (N d) p (reach d) (sp d) (K d) dx Ha Hb HA HB F4 P1 NB NH Hh Hx HK Hs m _ i k0 x0) with (5 := Rr) (4 := Sr); auto; lia.
    + split; [rewrite Xi; cbn [INR]; rewrite Lo by lia; lra|]. intros i Hi. apply xi_chain; auto; lia.
    + replace (N d + p + 1 - p - 2 + 1)%nat with (N d) by lia. split; [rewrite Xi, Eh, Hi' by lia; ring|]. intros i Hi. apply xi_chain; auto; lia.
    + split; auto. split; auto. apply (sorted_between d p _ (N d)); auto; lia.
Qed.

Lemma dim_fit d : (d < length per)%nat -> dimfit on nd p per dims t xi reach sp d.
Proof using All.
  intros Hd. destruct (range_at ranges d) as [a b|l] eqn:E; [apply (uniform_dim d a b)|apply (points_dim d l)]; auto.
Qed.
End Inst.
