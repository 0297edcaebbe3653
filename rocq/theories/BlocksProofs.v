(** The square root in doubles and the shares of the threads. *)
From Coq Require Import ZArith Reals Floats Lia Lra Psatz Bool List.
From Flocq Require Import Core BinarySingleNaN PrimFloat.
From Verif Require Import Base Num FloatM BlocksM ThreadsM SpecRound FloatProofs.
Import ListNotations.
Local Open Scope R_scope.
Local Notation Rsqrt := R_sqrt.sqrt.

Lemma Fsqrt_val a : double_finite a -> 0 <= double_val a ->
  double_finite (PrimFloat.sqrt a) /\ double_val (PrimFloat.sqrt a) = rnd (Rsqrt (double_val a)).
Proof.
  intros Ha H. apply finite_B in Ha. rewrite finite_B, !val_B2R, sqrt_equiv in *.
  pose proof (Bsqrt_correct prec emax eq_refl eq_refl mode_NE (Prim2B a)) as (C1 & C2 & _). cbn [round_mode] in C1. split; [|exact C1].
  refine (eq_trans C2 _). destruct (Prim2B a) as [s|s| |s m e Hm]; try discriminate; auto. destruct s; auto.
  exfalso. cbn [B2R] in H. assert (F2R (Float radix2 (cond_Zopp true (Zpos m)) e) < 0) by (apply F2R_lt_0; reflexivity). lra.
Qed.

Lemma Ftrunc_spec x : double_finite x -> 0 <= double_val x < IZR two64 -> Ftrunc x = Ok (Z.to_nat (Zfloor (double_val x))).
Proof.
  intros Hf H. unfold Ftrunc. unfold double_finite in Hf. unfold double_val in *. destruct (Prim2SF x) as [s|s| |s m e]; try contradiction.
  - change 0 with (IZR 0). rewrite Zfloor_IZR. reflexivity.
  - assert (Hs : s = false).
    { destruct s; auto. exfalso. assert (0 < IZR (Zpos m)) by (apply IZR_lt; lia). assert (0 < powerRZ 2 e) by (apply powerRZ_lt; lra). nra. }
    subst s. cbv zeta. rewrite Rmult_1_l in *.
    assert (E : (if (0 <=? e)%Z then Zpos m * 2 ^ e else Z.quot (Zpos m) (2 ^ - e))%Z = Zfloor (IZR (Zpos m) * powerRZ 2 e)).
    { replace (powerRZ 2 e) with (bpow radix2 e) by (rewrite bpow_powerRZ; reflexivity). destruct (Z.leb_spec 0 e).
      - replace (bpow radix2 e) with (IZR (2 ^ e)) by (apply (IZR_Zpower radix2); auto). rewrite <- mult_IZR, Zfloor_IZR. auto.
      - rewrite Z.quot_div_nonneg by (try lia; apply Z.pow_pos_nonneg; lia). rewrite <- Zfloor_div by (apply Z.pow_nonzero; lia).
        f_equal. replace (IZR (2 ^ - e)) with (bpow radix2 (- e)) by (symmetry; apply (IZR_Zpower radix2); lia). rewrite bpow_opp. field. apply Rgt_not_eq, bpow_gt_0. }
    rewrite E. set (z := Zfloor _) in *.
    assert (0 <= z)%Z by (unfold z; change 0%Z with (Zfloor (IZR 0)) || rewrite <- (Zfloor_IZR 0); apply Zfloor_le; lra).
    assert (z < two64)%Z. { apply lt_IZR. eapply Rle_lt_trans; [apply Zfloor_lb|]. lra. }
    destruct (Z.ltb_spec z 0); [lia|]. destruct (Z.leb_spec two64 z); [lia|]. reflexivity.
Qed.

Definition lines (h : nat) : R := double_val (Fnat h).
Lemma Fu_small : Fu = / 2 * / 4503599627370496.
Proof. unfold Fu. reflexivity. Qed.
Lemma Feta_small : 0 <= Feta <= / 1000000000000.
Proof.
  unfold Feta. pose proof (bpow_gt_0 radix2 (-1074)). split; [lra|]. apply Rle_trans with (/2 * bpow radix2 (-52)).
  - apply Rmult_le_compat_l; [lra|]. apply bpow_le. lia.
  - cbn. lra.
Qed.
Lemma two64_R : IZR two64 = 18446744073709551616.
Proof. reflexivity. Qed.
Lemma nat_format n : (Z.of_nat n <= 2 ^ 53)%Z -> generic_format radix2 fe (INR n).
Proof. intros H. rewrite INR_IZR_INZ. replace (IZR (Z.of_nat n)) with (IZR (Z.of_nat n) * bpow radix2 0) by (cbn; ring). apply small_format; lia. Qed.
Lemma lines_val h : (Z.of_nat h < two64)%Z -> double_finite (Fnat h) /\ lines h = rnd (INR h).
Proof.
  intros H. unfold lines, Fnat. rewrite INR_IZR_INZ. replace (IZR (Z.of_nat h)) with (IZR (Z.of_nat h) * bpow radix2 0) by (cbn; ring).
  apply Fround_val.
  assert (B : Rabs (IZR (Z.of_nat h) * bpow radix2 0) <= Fbig).
  { cbn [bpow]. rewrite Rmult_1_r, Rabs_pos_eq by (apply IZR_le; lia). apply IZR_lt in H. apply Rle_trans with (bpow radix2 64); [|apply bpow_le; lia].
    rewrite two64_R in H. cbn. lra. }
  pose proof (rnd_big _ B) as Q. destruct (Rlt_bool_spec (Rabs (rnd (IZR (Z.of_nat h) * bpow radix2 0))) (bpow radix2 emax)); auto. discriminate.
Qed.

Lemma root_val h : (Z.of_nat h < two64)%Z -> exists y, task_number h = Ok (Z.to_nat (Zfloor y)) /\ 0 <= y /\ y = rnd (Rsqrt (rnd (INR h))).
Proof.
  intros H. destruct (lines_val h H) as [F V]. unfold lines in V.
  assert (P : 0 <= rnd (INR h)). { apply round_ge_generic; [apply fexp_correct; reflexivity|apply valid_rnd_N|apply generic_format_0|apply pos_INR]. }
  destruct (Fsqrt_val (Fnat h) F ltac:(lra)) as [F2 V2]. rewrite V in V2. exists (rnd (Rsqrt (rnd (INR h)))).
  assert (P2 : 0 <= rnd (Rsqrt (rnd (INR h)))). { apply round_ge_generic; [apply fexp_correct; reflexivity|apply valid_rnd_N|apply generic_format_0|apply sqrt_pos]. }
  split; [|auto]. unfold task_number. rewrite <- V2. apply Ftrunc_spec; auto. rewrite V2. split; auto.
  apply Rle_lt_trans with (bpow radix2 40); [|rewrite two64_R; cbn; lra].
  apply round_le_generic; [apply fexp_correct; reflexivity|apply valid_rnd_N|apply generic_format_bpow; unfold SpecFloat.fexp; cbn; lia|].
  assert (L : rnd (INR h) <= bpow radix2 64).
  { apply round_le_generic; [apply fexp_correct; reflexivity|apply valid_rnd_N|apply generic_format_bpow; unfold SpecFloat.fexp; cbn; lia|].
    rewrite INR_IZR_INZ. apply IZR_lt in H. rewrite two64_R in H. cbn. lra. }
  rewrite <- (sqrt_square (bpow radix2 40)) by (apply bpow_ge_0). apply sqrt_le_1_alt. apply Rle_trans with (1 := L). cbn. lra.
Qed.

Lemma floor_nat y n : INR n <= y < INR n + 1 -> Z.to_nat (Zfloor y) = n.
Proof.
  intros H. replace (Zfloor y) with (Z.of_nat n); [apply Nat2Z.id|]. symmetry. apply Zfloor_imp. rewrite plus_IZR, <- INR_IZR_INZ. lra.
Qed.

Lemma task_number_exact h : (Z.of_nat h < 2 ^ 51)%Z -> task_number h = Ok (Nat.sqrt h).
Proof.
  intros H. destruct (root_val h) as (y & E & _ & Y); [unfold two64; lia|]. rewrite E. f_equal.
  assert (G : rnd (INR h) = INR h) by (apply round_generic; [apply valid_rnd_N|apply nat_format; lia]). rewrite G in Y.
  pose proof (Nat.sqrt_spec h (Nat.le_0_l h)) as [S1 S2]. set (s := Nat.sqrt h) in *.
  assert (Hs : (Z.of_nat s < 2 ^ 26)%Z) by nia.
  apply le_INR in S1. apply lt_INR in S2. rewrite mult_INR in S1, S2. rewrite S_INR in S2.
  pose proof (pos_INR s). pose proof (pos_INR h).
  assert (Hh : INR h <= 2251799813685248). { rewrite INR_IZR_INZ. apply IZR_le. lia. }
  assert (HI : INR h + 1 <= (INR s + 1) * (INR s + 1)).
  { rewrite <- S_INR. rewrite <- S_INR, <- mult_INR. apply le_INR. pose proof (Nat.sqrt_spec h (Nat.le_0_l h)). fold s in H2. lia. }
  assert (Q : Rsqrt (INR h) * Rsqrt (INR h) = INR h) by (apply sqrt_sqrt; auto). pose proof (sqrt_pos (INR h)).
  set (q := Rsqrt (INR h)) in *. assert (INR s <= q) by nra. assert (q < INR s + 1) by nra.
  apply floor_nat. rewrite Y. split.
  - apply round_ge_generic; [apply fexp_correct; reflexivity|apply valid_rnd_N|apply nat_format; lia|auto].
  - pose proof (rnd_error q) as R. rewrite (Rabs_pos_eq q) in R by auto. rewrite Fu_small in R. pose proof Feta_small as T. apply Rabs_le_inv in R.
    assert (Hs2 : INR s <= 67108863) by (rewrite INR_IZR_INZ; apply IZR_le; lia).
    assert (K : q <= 47453133).
    { destruct (Rle_or_lt q 47453133); auto. exfalso. nra. }
    assert (D : (INR s + 1 - q) * (INR s + 1 + q) >= 1) by nra.
    assert (B : INR s + 1 - q >= / 94906268).
    { destruct (Rge_or_gt (INR s + 1 - q) (/ 94906268)); auto. exfalso. assert (INR s + 1 + q <= 94906268) by lra. nra. }
    lra.
Qed.

Lemma task_number_large h : (Z.of_nat h < two64)%Z -> exists b, task_number h = Ok b /\ Rsqrt (INR h) - 2 < INR b < Rsqrt (INR h) + 1 /\ ((1 <= h)%nat -> (1 <= b <= h)%nat).
Proof.
  intros H. destruct (root_val h H) as (y & E & P & Y).
  destruct (Z_lt_le_dec (Z.of_nat h) (2 ^ 51)) as [L|L].
  - exists (Nat.sqrt h). split; [apply task_number_exact; auto|]. pose proof (Nat.sqrt_spec h (Nat.le_0_l h)) as [S1 S2]. split.
    + apply le_INR in S1. apply lt_INR in S2. rewrite mult_INR in S1, S2. rewrite S_INR in S2. pose proof (pos_INR (Nat.sqrt h)). pose proof (pos_INR h).
      assert (Q : Rsqrt (INR h) * Rsqrt (INR h) = INR h) by (apply sqrt_sqrt; auto). pose proof (sqrt_pos (INR h)). split; nra.
    + intros H1. split; [|apply Nat.sqrt_le_lin]. change 1%nat with (Nat.sqrt 1). apply Nat.sqrt_le_mono. auto.
  - exists (Z.to_nat (Zfloor y)). split; auto.
    assert (Hl : 2251799813685248 <= INR h) by (rewrite INR_IZR_INZ; apply IZR_le; lia).
    assert (Hu : INR h <= 18446744073709551616) by (rewrite INR_IZR_INZ; apply IZR_lt in H; rewrite two64_R in H; lra).
    pose proof Feta_small as T. pose proof (rnd_error (INR h)) as R1. rewrite (Rabs_pos_eq (INR h)) in R1 by lra. rewrite Fu_small in R1. apply Rabs_le_inv in R1.
    set (x := rnd (INR h)) in *. assert (Px : 0 <= x) by lra.
    assert (Qx : Rsqrt x * Rsqrt x = x) by (apply sqrt_sqrt; auto). assert (Qh : Rsqrt (INR h) * Rsqrt (INR h) = INR h) by (apply sqrt_sqrt; lra).
    pose proof (sqrt_pos x). pose proof (sqrt_pos (INR h)).
    pose proof (rnd_error (Rsqrt x)) as R2. rewrite <- Y in R2. rewrite (Rabs_pos_eq (Rsqrt x)) in R2 by auto. rewrite Fu_small in R2. apply Rabs_le_inv in R2.
    set (r := Rsqrt x) in *. set (q := Rsqrt (INR h)) in *.
    assert (q >= 40000000) by nra. assert (q <= 4294967296) by nra. assert (r <= 4294967300) by nra.
    assert (D : - / 10 <= r - q <= / 10). 
    { assert (- 2049 <= (r - q) * (r + q) <= 2049) by (replace ((r - q) * (r + q)) with (r * r - q * q) by ring; rewrite Qx, Qh; lra). split; nra. }
    assert (W : - / 5 <= y - q <= / 5) by lra.
    assert (Z0 : (0 <= Zfloor y)%Z) by (apply Zfloor_lub; lra).
    assert (F : INR (Z.to_nat (Zfloor y)) = IZR (Zfloor y)) by (rewrite INR_IZR_INZ, Z2Nat.id by auto; reflexivity).
    pose proof (Zfloor_lb y). pose proof (Zfloor_ub y). rewrite F. split; [split; lra|]. intros _. split.
    + apply INR_le. rewrite F. cbn. lra.
    + apply INR_le. rewrite F. nra.
Qed.

Lemma shares h b : (1 <= h)%nat -> (Z.of_nat h < 2 ^ 51)%Z -> task_number h = Ok b ->
  length (mt_blocks b h) = (b + 1)%nat /\
  forall i lo hi, nth_error (mt_blocks b h) i = Some (lo, hi) ->
    if (i <? b)%nat then (b <= hi - lo <= b + 2)%nat else (hi - lo < b)%nat.
Proof.
  intros H1 H E. rewrite task_number_exact in E by auto. injection E as <-. pose proof (Nat.sqrt_spec h (Nat.le_0_l h)) as [S1 S2].
  assert (B : (1 <= Nat.sqrt h)%nat) by (change 1%nat with (Nat.sqrt 1); apply Nat.sqrt_le_mono; auto).
  set (b := Nat.sqrt h) in *. unfold mt_blocks. replace (b =? 0)%nat with false by (symmetry; apply Nat.eqb_neq; lia).
  split; [rewrite app_length, map_length, seq_length; reflexivity|]. intros i lo hi N.
  pose proof (Nat.div_mod h b ltac:(lia)) as D. pose proof (Nat.mod_upper_bound h b ltac:(lia)) as M.
  assert (b <= h / b)%nat by (apply Nat.div_le_lower_bound; lia).
  assert (h / b < b + 3)%nat by (apply Nat.div_lt_upper_bound; nia).
  destruct (Nat.ltb_spec i b).
  - rewrite nth_error_app1 in N by (rewrite map_length, seq_length; auto).
    rewrite nth_error_map in N. rewrite (nth_error_nth' (seq 0 b) 0%nat) in N by (rewrite seq_length; auto). rewrite seq_nth in N by auto. cbn in N. injection N as <- <-. nia.
  - rewrite nth_error_app2 in N by (rewrite map_length, seq_length; auto). rewrite map_length, seq_length in N.
    destruct (i - b)%nat as [|k]; [|destruct k; discriminate]. cbn in N. injection N as <- <-. lia.
Qed.
