(** The doubles of FloatM.v are a rounded arithmetic. *)
From Coq Require Import ZArith Reals Floats Lia Lra Psatz Bool.
From Flocq Require Import Core BinarySingleNaN PrimFloat Relative Plus_error.
From Verif Require Import Base Num FloatM SpecRound.
Local Open Scope R_scope.

Notation fe := (SpecFloat.fexp prec emax).
Notation rnd := (round radix2 fe ZnearestE).

Lemma val_B2R x : double_val x = B2R (Prim2B x).
Proof.
  unfold double_val. rewrite <- B2SF_Prim2B. destruct (Prim2B x) as [s|s| |s m e H]; cbn [B2SF B2R]; try reflexivity.
  unfold F2R. cbn [Fnum Fexp]. rewrite bpow_powerRZ. destruct s; cbn [cond_Zopp]; [rewrite opp_IZR|]; cbn; lra.
Qed.
Lemma finite_B x : double_finite x <-> is_finite (Prim2B x) = true.
Proof. unfold double_finite. rewrite <- B2SF_Prim2B. destruct (Prim2B x); cbn; intuition; discriminate. Qed.

Lemma fe_FLT : forall e, fe e = FLT_exp (-1074) 53 e.
Proof. reflexivity. Qed.
Lemma val_format x : generic_format radix2 fe (double_val x).
Proof. rewrite val_B2R. apply generic_format_B2R. Qed.

Definition Fu : R := / 2 * bpow radix2 (-52).
Definition Feta : R := / 2 * bpow radix2 (-1074).
Definition Fbig : R := bpow radix2 1023.

#[local] Instance P53 : Prec_gt_0 53 := eq_refl.
Lemma rnd_error x : Rabs (rnd x - x) <= Fu * Rabs x + Feta.
Proof.
  destruct (error_N_FLT radix2 (-1074) 53 eq_refl (fun x => negb (Z.even x)) x) as (e & h & He & Hh & Hz & E).
  change (round radix2 (FLT_exp (-1074) 53) (Znearest (fun x => negb (Z.even x))) x) with (rnd x) in E.
  rewrite E. replace (x * (1 + e) + h - x) with (x * e + h) by ring.
  eapply Rle_trans; [apply Rabs_triang|]. apply Rplus_le_compat; auto.
  rewrite Rabs_mult, Rmult_comm. apply Rmult_le_compat_r; [apply Rabs_pos|]. exact He.
Qed.
Lemma rnd_plus a b : generic_format radix2 fe a -> generic_format radix2 fe b -> Rabs (rnd (a + b) - (a + b)) <= Fu * Rabs (a + b).
Proof.
  intros Ha Hb. destruct (Rle_or_lt (Rabs (a + b)) (bpow radix2 (53 + -1074))) as [H|H].
  - rewrite round_generic; [|apply valid_rnd_N|apply FLT_format_plus_small; auto; try apply P53]. 
    replace (a + b - (a + b)) with 0 by ring. rewrite Rabs_R0. apply Rmult_le_pos; [|apply Rabs_pos]. unfold Fu. pose proof (bpow_ge_0 radix2 (-52)). lra.
  - apply (relative_error_N_FLT radix2 (-1074) 53 eq_refl (fun x => negb (Z.even x))). left. eapply Rle_lt_trans; [|apply H]. apply bpow_le. lia.
Qed.
Lemma rnd_big x : Rabs x <= Fbig -> Rlt_bool (Rabs (rnd x)) (bpow radix2 emax) = true.
Proof.
  intros H. apply Rlt_bool_true. apply Rle_lt_trans with Fbig; [|apply bpow_lt; reflexivity].
  apply abs_round_le_generic; auto; [apply fexp_correct; reflexivity|apply valid_rnd_N|].
  apply generic_format_bpow. unfold SpecFloat.fexp. cbn. lia.
Qed.
Lemma Fadd_val a b : double_finite a -> double_finite b -> Rabs (double_val a + double_val b) <= Fbig ->
  double_finite (a + b) /\ double_val (a + b) = rnd (double_val a + double_val b).
Proof.
  intros Ha Hb H. apply finite_B in Ha. apply finite_B in Hb. rewrite finite_B, !val_B2R, add_equiv in *.
  pose proof (Bplus_correct prec emax eq_refl eq_refl mode_NE (Prim2B a) (Prim2B b) Ha Hb) as C. cbn [round_mode] in C.
  rewrite rnd_big in C by auto. tauto.
Qed.
Lemma Fsub_val a b : double_finite a -> double_finite b -> Rabs (double_val a - double_val b) <= Fbig ->
  double_finite (a - b) /\ double_val (a - b) = rnd (double_val a - double_val b).
Proof.
  intros Ha Hb H. apply finite_B in Ha. apply finite_B in Hb. rewrite finite_B, !val_B2R, sub_equiv in *.
  pose proof (Bminus_correct prec emax eq_refl eq_refl mode_NE (Prim2B a) (Prim2B b) Ha Hb) as C. cbn [round_mode] in C.
  rewrite rnd_big in C by auto. tauto.
Qed.
Lemma Fmul_val a b : double_finite a -> double_finite b -> Rabs (double_val a * double_val b) <= Fbig ->
  double_finite (a * b) /\ double_val (a * b) = rnd (double_val a * double_val b).
Proof.
  intros Ha Hb H. apply finite_B in Ha. apply finite_B in Hb. rewrite finite_B, !val_B2R, mul_equiv in *.
  pose proof (Bmult_correct prec emax eq_refl eq_refl mode_NE (Prim2B a) (Prim2B b)) as C. cbn [round_mode] in C.
  rewrite rnd_big in C by auto. rewrite Ha, Hb in C. tauto.
Qed.
Lemma Fdiv_val a b : double_finite a -> double_finite b -> double_val b <> 0 -> Rabs (double_val a / double_val b) <= Fbig ->
  double_finite (a / b) /\ double_val (a / b) = rnd (double_val a / double_val b).
Proof.
  intros Ha Hb Hn H. apply finite_B in Ha. apply finite_B in Hb. rewrite finite_B, !val_B2R, div_equiv in *.
  pose proof (Bdiv_correct prec emax eq_refl eq_refl mode_NE (Prim2B a) (Prim2B b) Hn) as C. cbn [round_mode] in C.
  rewrite rnd_big in C by auto. rewrite Ha in C. tauto.
Qed.
Lemma Fle_val a b : double_finite a -> double_finite b -> (PrimFloat.leb a b = true <-> double_val a <= double_val b).
Proof.
  intros Ha Hb. apply finite_B in Ha. apply finite_B in Hb. rewrite leb_equiv, !val_B2R, Bleb_correct by auto.
  destruct (Rle_bool_spec (B2R (Prim2B a)) (B2R (Prim2B b))); split; auto; try discriminate; lra.
Qed.
Lemma Flt_val a b : double_finite a -> double_finite b -> (PrimFloat.ltb a b = true <-> double_val a < double_val b).
Proof.
  intros Ha Hb. apply finite_B in Ha. apply finite_B in Hb. rewrite ltb_equiv, !val_B2R, Bltb_correct by auto.
  destruct (Rlt_bool_spec (B2R (Prim2B a)) (B2R (Prim2B b))); split; auto; try discriminate; lra.
Qed.
Lemma F_rounding : rounding Fops double_val double_finite Fu Feta Fbig.
Proof.
  split.
  - unfold Fu. split; [pose proof (bpow_ge_0 radix2 (-52)); lra|]. assert (bpow radix2 (-52) <= bpow radix2 (-3)) by (apply bpow_le; lia). cbn in *. lra.
  - unfold Feta. pose proof (bpow_ge_0 radix2 (-1074)). lra.
  - change 16 with (bpow radix2 4). apply bpow_le. lia.
  - split; [exact I|reflexivity].
  - split; [exact I|]. rewrite val_B2R. change (o1 Fops) with one. rewrite one_equiv, Prim2B_B2Prim. apply Bone_correct.
  - intros a b Ha Hb H. cbn [oadd Fops]. destruct (Fadd_val a b Ha Hb H) as [G ->]. split; auto. apply rnd_plus; apply val_format.
  - intros a b Ha Hb H. cbn [osub Fops]. destruct (Fsub_val a b Ha Hb H) as [G ->]. split; auto.
    exact (rnd_plus (double_val a) (- double_val b) (val_format a) (generic_format_opp _ _ _ (val_format b))).
  - intros a b Ha Hb H. cbn [omul Fops]. destruct (Fmul_val a b Ha Hb H) as [G ->]. split; auto. apply rnd_error.
  - intros a b Ha Hb Hn H. cbn [odiv Fops]. destruct (Fdiv_val a b Ha Hb Hn H) as [G E]. eexists. split; [reflexivity|]. split; auto. rewrite E. apply rnd_error.
  - exact Fle_val.
  - exact Flt_val.
Qed.

(** Conversions. *)
Lemma Fround_val m e b : Rabs (rnd (IZR m * bpow radix2 e)) < bpow radix2 emax ->
  double_finite (Fround m e b) /\ double_val (Fround m e b) = rnd (IZR m * bpow radix2 e).
Proof.
  intros H. unfold Fround. rewrite finite_B, val_B2R.
  change FloatOps.prec with prec. change FloatOps.emax with emax.
  rewrite binary_normalize_equiv.
  change (SF2Prim (B2SF ?z)) with (B2Prim z). rewrite Prim2B_B2Prim.
  pose proof (binary_normalize_correct prec emax eq_refl eq_refl mode_NE m e b) as C. cbv zeta in C. cbn [round_mode] in C.
  unfold F2R in C. cbn [Fnum Fexp] in C. rewrite Rlt_bool_true in C by auto. tauto.
Qed.
Lemma small_format m e : (Z.abs m <= 2 ^ 53)%Z -> (-1074 <= e)%Z -> generic_format radix2 fe (IZR m * bpow radix2 e).
Proof.
  intros Hm He. destruct (Z.eq_dec (Z.abs m) (2 ^ 53)) as [E|N].
  - assert (generic_format radix2 fe (bpow radix2 (53 + e))) as G by (apply generic_format_bpow; rewrite fe_FLT; unfold FLT_exp; lia).
    assert (IZR m * bpow radix2 e = bpow radix2 (53 + e) \/ IZR m * bpow radix2 e = - bpow radix2 (53 + e)) as [Q|Q].
    { rewrite bpow_plus. change (bpow radix2 53) with (IZR (2 ^ 53)). assert (m = 2 ^ 53 \/ m = - 2 ^ 53)%Z as [->| ->] by lia; [left|right; rewrite opp_IZR]; ring. }
    + rewrite Q; auto.
    + rewrite Q. apply generic_format_opp; auto.
  - apply (generic_format_FLT radix2 (-1074) 53). exists (Float radix2 m e); cbn [Fnum Fexp]; auto. change (radix2 ^ 53)%Z with (2 ^ 53)%Z. lia.
Qed.
Lemma Fround_exact m e b : (Z.abs m <= 2 ^ 53)%Z -> (-1074 <= e)%Z -> Rabs (IZR m * bpow radix2 e) < bpow radix2 emax ->
  double_finite (Fround m e b) /\ double_val (Fround m e b) = IZR m * bpow radix2 e.
Proof.
  intros Hm He Hb. assert (rnd (IZR m * bpow radix2 e) = IZR m * bpow radix2 e) as E by (apply round_generic; [apply valid_rnd_N|apply small_format; auto]).
  destruct (Fround_val m e b) as [G V]; [rewrite E; auto|]. rewrite E in V. auto.
Qed.
Lemma Fnat_exact n : (Z.of_nat n <= 2 ^ 53)%Z -> double_finite (Fnat n) /\ double_val (Fnat n) = INR n.
Proof.
  intros H. unfold Fnat. rewrite INR_IZR_INZ. replace (IZR (Z.of_nat n)) with (IZR (Z.of_nat n) * bpow radix2 0) by (cbn; ring).
  apply Fround_exact; try lia. rewrite Rabs_mult. cbn [bpow]. rewrite Rabs_R1, Rmult_1_r, <- abs_IZR, Z.abs_eq by lia.
  apply Rle_lt_trans with (IZR (2 ^ 53)); [apply IZR_le; auto|]. change (IZR (2 ^ 53)) with (bpow radix2 53). apply bpow_lt. reflexivity.
Qed.

Lemma F_finite_form x s m e : Prim2SF x = S754_finite s m e -> (Zpos m < 2 ^ 53)%Z /\ (-1074 <= e)%Z /\ IZR (Zpos m) * bpow radix2 e < bpow radix2 emax.
Proof.
  intros E. pose proof (Prim2SF_valid x) as V. rewrite E in V. cbn [valid_binary] in V.
  pose proof (bounded_lt_emax prec emax _ _ V) as L. unfold F2R in L. cbn [Fnum Fexp] in L.
  pose proof V as V'. unfold bounded in V. apply andb_prop in V as [C B]. unfold canonical_mantissa in C. apply Zeq_bool_eq in C.
  rewrite fe_FLT in C. unfold FLT_exp in C. rewrite Digits.Zpos_digits2_pos in C. split; [|split; [lia|exact L]].
  pose proof (Digits.Zdigits_correct radix2 (Zpos m)) as D. cbn [Z.abs] in D. destruct D as [_ D].
  eapply Z.lt_le_trans; [apply D|]. apply (Zpower_le radix2). lia.
Qed.
Lemma Ffmod_exact x y : double_finite x -> double_finite y -> double_val y <> 0 ->
  double_finite (Ffmod x y) /\ double_val (Ffmod x y) = double_val x - IZR (Ztrunc (double_val x / double_val y)) * double_val y.
Proof.
  intros Hx Hy Hn. unfold Ffmod. unfold double_finite in Hx, Hy.
  destruct (Prim2SF x) as [sx|sx| |sx mx ex] eqn:Ex; try contradiction.
  { assert (double_val x = 0) as Z by (unfold double_val; rewrite Ex; auto).
    destruct (Prim2SF y) as [sy|sy| |sy my ey] eqn:Ey; try contradiction; [exfalso; apply Hn; unfold double_val; rewrite Ey; auto|].
    split; [unfold double_finite; rewrite Ex; auto|]. rewrite Z. unfold Rdiv. rewrite Rmult_0_l. change 0 with (IZR 0) at 2. rewrite Ztrunc_IZR. ring. }
  destruct (Prim2SF y) as [sy|sy| |sy my ey] eqn:Ey; try contradiction; [exfalso; apply Hn; unfold double_val; rewrite Ey; auto|].
  destruct (F_finite_form x sx mx ex Ex) as (Mx & Lx & Bx). destruct (F_finite_form y sy my ey Ey) as (My & Ly & By_).
  cbv zeta. set (e := Z.min ex ey). set (X := (Zpos mx * 2 ^ (ex - e))%Z). set (Y := (Zpos my * 2 ^ (ey - e))%Z).
  assert (0 < X)%Z as HX by (unfold X; apply Z.mul_pos_pos; [lia|apply Z.pow_pos_nonneg; lia]).
  assert (0 < Y)%Z as HY by (unfold Y; apply Z.mul_pos_pos; [lia|apply Z.pow_pos_nonneg; lia]).
  pose proof (Z.mod_pos_bound X Y HY) as R.
  assert (X mod Y <= X)%Z as RX by (apply Z.mod_le; lia).
  assert (forall k m' z, (k - e >= 0)%Z -> z = (m' * 2 ^ (k - e))%Z -> IZR z * bpow radix2 e = IZR m' * bpow radix2 k) as P.
  { intros k m' z Hk ->. rewrite mult_IZR. replace (IZR (2 ^ (k - e))) with (bpow radix2 (k - e)) by (symmetry; apply (IZR_Zpower radix2); lia). 
    rewrite Rmult_assoc, <- bpow_plus. do 2 f_equal. lia. }
  pose proof (P ex (Zpos mx) X ltac:(lia) eq_refl) as PX. pose proof (P ey (Zpos my) Y ltac:(lia) eq_refl) as PY. clear P.
  assert (double_val x = (if sx then -1 else 1) * (IZR X * bpow radix2 e)) as VX by (unfold double_val; rewrite Ex, PX, bpow_powerRZ; cbn; ring).
  assert (double_val y = (if sy then -1 else 1) * (IZR Y * bpow radix2 e)) as VY by (unfold double_val; rewrite Ey, PY, bpow_powerRZ; cbn; ring).
  pose proof (bpow_gt_0 radix2 e) as Be.
  assert (X mod Y < 2 ^ 53)%Z as S.
  { destruct (Z.min_spec ex ey) as [[H E]|[H E]]; fold e in E; unfold X, Y in *; rewrite E in *.
    - rewrite Z.sub_diag, Z.mul_1_r in *. lia.
    - rewrite Z.sub_diag, Z.mul_1_r in *. lia. }
  destruct (Fround_exact (if sx then - (X mod Y) else X mod Y) e sx) as [G V].
  { destruct sx; lia. } { lia. }
  { rewrite Rabs_mult, (Rabs_pos_eq (bpow radix2 e)), <- abs_IZR by lra.
    apply Rle_lt_trans with (IZR X * bpow radix2 e); [|rewrite PX; auto].
    apply Rmult_le_compat_r; [lra|]. apply IZR_le. destruct sx; lia. }
  split; auto. rewrite V, VX, VY.
  assert (IZR Y <> 0) as NY by (apply IZR_neq; lia).
  assert (Ztrunc ((if sx then -1 else 1) * (IZR X * bpow radix2 e) / ((if sy then -1 else 1) * (IZR Y * bpow radix2 e)))
          = (if sx then -1 else 1) * (if sy then -1 else 1) * (X / Y))%Z as ->.
  { replace ((if sx then -1 else 1) * (IZR X * bpow radix2 e) / ((if sy then -1 else 1) * (IZR Y * bpow radix2 e)))
      with ((if sx then -1 else 1) * (if sy then -1 else 1) * (IZR X / IZR Y)) by (destruct sx, sy; field; repeat split; lra).
    assert (Ztrunc (IZR X / IZR Y) = X / Y)%Z as Q.
    { rewrite Ztrunc_floor. - apply Zfloor_div. lia. - apply Rmult_le_pos; [apply IZR_le; lia|]. apply Rlt_le, Rinv_0_lt_compat, IZR_lt. lia. }
    destruct sx, sy;
    [replace (-1 * -1 * (IZR X / IZR Y)) with (IZR X / IZR Y) by ring
    |replace (-1 * 1 * (IZR X / IZR Y)) with (- (IZR X / IZR Y)) by ring; rewrite Ztrunc_opp
    |replace (1 * -1 * (IZR X / IZR Y)) with (- (IZR X / IZR Y)) by ring; rewrite Ztrunc_opp
    |replace (1 * 1 * (IZR X / IZR Y)) with (IZR X / IZR Y) by ring]; rewrite Q; ring. }
  pose proof (Z.div_mod X Y ltac:(lia)) as D. assert (IZR X = IZR Y * IZR (X / Y) + IZR (X mod Y)) as DR by (rewrite <- mult_IZR, <- plus_IZR; f_equal; auto).
  rewrite !mult_IZR. destruct sx, sy; rewrite ?opp_IZR; cbn [Z.opp]; rewrite DR; ring.
Qed.
Lemma Fceil_spec x : Fceil x = if is_finite (Prim2B x) then
    let z := Zceil (double_val x) in if (z <? 0)%Z || (two64 <=? z)%Z then Fault BadCast else Ok (Z.to_nat z)
  else Fault BadCast.
Proof.
  unfold Fceil, double_val. rewrite <- B2SF_Prim2B. destruct (Prim2B x) as [s|s| |s m e H]; cbn [B2SF is_finite]; try reflexivity.
  - cbv zeta. change 0 with (IZR 0). rewrite Zceil_IZR. reflexivity.
  - cbv zeta. replace (Zceil ((if s then -1 else 1) * IZR (Zpos m) * powerRZ 2 e))
      with (if (0 <=? e)%Z then (if s then Zneg m else Zpos m) * 2 ^ e else - (- (if s then Zneg m else Zpos m) / 2 ^ - e))%Z; auto.
    set (v := if s then Zneg m else Zpos m).
    replace ((if s then -1 else 1) * IZR (Zpos m) * powerRZ 2 e) with (IZR v * bpow radix2 e)
      by (rewrite bpow_powerRZ; unfold v; destruct s; cbn [radix_val radix2]; [change (Zneg m) with (- Zpos m)%Z; rewrite opp_IZR|]; ring).
    destruct (Z.leb_spec 0 e).
    + replace (bpow radix2 e) with (IZR (2 ^ e)) by (apply (IZR_Zpower radix2); auto). rewrite <- mult_IZR, Zceil_IZR. auto.
    + unfold Zceil. f_equal. replace (- (IZR v * bpow radix2 e)) with (IZR (- v) / IZR (2 ^ - e)).
      * rewrite Zfloor_div; auto. apply Z.pow_nonzero; lia.
      * replace (IZR (2 ^ - e)) with (bpow radix2 (- e)) by (symmetry; apply (IZR_Zpower radix2); lia). rewrite bpow_opp, opp_IZR. field. apply Rgt_not_eq, bpow_gt_0.
Qed.
