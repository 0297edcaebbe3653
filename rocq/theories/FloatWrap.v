(** Periodic reduction of coordinates in doubles. *)
From Coq Require Import List Arith Lia Bool ZArith Reals Lra Psatz Floats.
From Flocq Require Import Core BinarySingleNaN PrimFloat.
From Verif Require Import Base Num FloatM MeshM SplineM SpecMesh SpecBand SpecSpline SpecSplineObj SpecRound RoundSpline FloatProofs.
Import ListNotations.
Local Open Scope R_scope.

Lemma trunc_pos y p : 0 < p -> 0 <= y -> 0 <= y - IZR (Ztrunc (y / p)) * p < p /\ 0 <= IZR (Ztrunc (y / p)) * p <= y.
Proof.
  intros Hp Hy. assert (0 <= y / p) by (apply Rmult_le_pos; [lra|apply Rlt_le, Rinv_0_lt_compat; lra]).
  rewrite Ztrunc_floor by auto. pose proof (Zfloor_lb (y / p)) as L. pose proof (Zfloor_ub (y / p)) as U.
  assert (E : y = y / p * p) by (field; lra). assert (0 <= IZR (Zfloor (y / p))). { apply IZR_le. apply Zfloor_lub. exact H. }
  set (f := IZR (Zfloor (y / p))) in *. set (r := y / p) in *. clearbody r. rewrite E. split; nra.
Qed.
Lemma trunc_neg y p : 0 < p -> y <= 0 -> - p < y - IZR (Ztrunc (y / p)) * p <= 0 /\ y <= IZR (Ztrunc (y / p)) * p <= 0.
Proof.
  intros Hp Hy. destruct (trunc_pos (- y) p Hp ltac:(lra)) as [A B].
  replace (- y / p) with (- (y / p)) in * by (unfold Rdiv; ring). rewrite Ztrunc_opp, opp_IZR in *. lra.
Qed.

Lemma wrap_double a b x :
  double_finite a -> double_finite b -> double_finite x -> double_val a < double_val b ->
  Rabs (double_val a) <= powerRZ 2 1000 -> Rabs (double_val b) <= powerRZ 2 1000 -> Rabs (double_val x) <= powerRZ 2 1000 ->
  exists x', wrap_coord Fops true (a, b) x = Ok x' /\ double_finite x' /\
    (exists m : Z, Rabs (double_val x' - (double_val x + IZR m * (double_val b - double_val a))) <=
       5 * powerRZ 2 (-53) * (Rabs (double_val x - double_val a) + Rabs (double_val a) + (double_val b - double_val a))) /\
    (double_val a <= double_val x -> double_val a <= double_val x' <= double_val b).
Proof.
  intros Fa Fb Fx Hab Ba Bb Bx. rewrite <- !(bpow_powerRZ radix2) in *.
  set (va := double_val a) in *. set (vb := double_val b) in *. set (vx := double_val x) in *.
  assert (UU : Fu = bpow radix2 (-53)). { unfold Fu. change (-52)%Z with (1 + -53)%Z. rewrite bpow_plus. change (bpow radix2 1) with 2. field. }
  rewrite <- UU. pose proof (rd_u _ _ _ _ _ _ F_rounding) as [u0 u1].
  assert (Hbig : 16 * bpow radix2 1000 <= Fbig). { unfold Fbig. change 16 with (bpow radix2 4). rewrite <- bpow_plus. apply bpow_le. lia. }
  apply Rabs_bounds in Ba as Ba'. apply Rabs_bounds in Bb as Bb'. apply Rabs_bounds in Bx as Bx'.
  destruct (Fsub_val b a Fb Fa) as [Gp Vp]. { apply bounds_Rabs. fold va vb. lra. }
  destruct (Fsub_val x a Fx Fa) as [Gd Vd]. { apply bounds_Rabs. fold va vx. lra. }
  destruct (rd_sub _ _ _ _ _ _ F_rounding b a Fb Fa) as [_ Ep]. { apply bounds_Rabs. fold va vb. lra. }
  destruct (rd_sub _ _ _ _ _ _ F_rounding x a Fx Fa) as [_ Ed]. { apply bounds_Rabs. fold va vx. lra. }
  cbn [osub Fops] in Ep, Ed. fold va vb vx in Ep, Ed, Vp, Vd.
  unfold wrap_coord. cbn [fst snd osub ofmod oadd olt o0 Fops bind].
  set (p := (b - a)%float) in *. set (dd := (x - a)%float) in *. set (P := vb - va) in *. assert (HP : 0 < P) by (unfold P; lra).
  rewrite (Rabs_pos_eq P) in Ep by lra. apply Rabs_bounds in Ep.
  assert (HuP : u0 = u0) by reflexivity. assert (0 <= Fu * P <= / 16 * P) by (split; [apply Rmult_le_pos; lra|apply Rmult_le_compat_r; lra]).
  assert (Hp0 : 0 < double_val p) by lra.
  destruct (Ffmod_exact dd p Gd Gp ltac:(lra)) as [Gf Vf].
  set (f := Ffmod dd p) in *. set (q := Ztrunc (double_val dd / double_val p)) in *.
  set (X := vx - va) in *. pose proof (Rabs_pos X) as AX. assert (0 <= Fu * Rabs X <= / 16 * Rabs X) by (split; [apply Rmult_le_pos; lra|apply Rmult_le_compat_r; lra]).
  set (vp := double_val p) in *. set (vd := double_val dd) in *.
  (* error of the remainder *)
  assert (Bd : Rabs vd <= 17 / 16 * Rabs X). { replace vd with ((vd - X) + X) by ring. eapply Rle_trans; [apply Rabs_triang|]. lra. }
  assert (Bq : Rabs (IZR q * vp) <= Rabs vd).
  { destruct (Rle_or_lt 0 vd) as [L|L].
    - destruct (trunc_pos vd vp Hp0 L) as [_ B]. fold q in B. rewrite !Rabs_pos_eq; lra.
    - destruct (trunc_neg vd vp Hp0 ltac:(lra)) as [_ B]. fold q in B. rewrite (Rabs_left vd) by lra. apply bounds_Rabs. lra. }
  assert (BqP : Rabs (IZR q * P) <= 6 / 5 * Rabs X).
  { rewrite Rabs_mult, (Rabs_pos_eq P) by lra. rewrite Rabs_mult, (Rabs_pos_eq vp) in Bq by lra. pose proof (Rabs_pos (IZR q)).
    assert (Rabs (IZR q) * (15 / 16 * P) <= Rabs (IZR q) * vp) by (apply Rmult_le_compat_l; lra). lra. }
  assert (Ef : Rabs (double_val f - (X - IZR q * P)) <= 11 / 5 * (Fu * Rabs X)).
  { rewrite Vf. replace (vd - IZR q * vp - (X - IZR q * P)) with ((vd - X) - IZR q * (vp - P)) by ring.
    unfold Rminus at 1. eapply Rle_trans; [apply Rabs_triang|]. rewrite Rabs_Ropp, Rabs_mult.
    rewrite Rabs_mult, (Rabs_pos_eq P) in BqP by lra. pose proof (Rabs_pos (IZR q)) as Aq.
    assert (Rabs (vp - P) <= Fu * P) by (apply bounds_Rabs; lra).
    assert (Rabs (IZR q) * Rabs (vp - P) <= Rabs (IZR q) * (Fu * P)) by (apply Rmult_le_compat_l; auto).
    assert (Fu * (Rabs (IZR q) * P) <= Fu * (6 / 5 * Rabs X)) by (apply Rmult_le_compat_l; lra). lra. }
  assert (Bf : Rabs (double_val f) < vp).
  { rewrite Vf. destruct (Rle_or_lt 0 vd) as [L|L].
    - destruct (trunc_pos vd vp Hp0 L) as [B _]. fold q in B. rewrite Rabs_pos_eq; lra.
    - destruct (trunc_neg vd vp Hp0 ltac:(lra)) as [B _]. fold q in B. apply Rabs_def1; lra. }
  assert (Bvp : vp <= 17 / 16 * P) by lra.
  apply Rabs_def2 in Bf as [Bf1 Bf2].
  destruct (Fadd_val a f Fa Gf) as [Gs Vs]. { apply bounds_Rabs. fold va. unfold P in *. lra. }
  destruct (rd_add _ _ _ _ _ _ F_rounding a f Fa Gf) as [_ Es]. { apply bounds_Rabs. fold va. unfold P in *. lra. }
  cbn [oadd Fops] in Es. fold va in Es, Vs. set (s := (a + f)%float) in *.
  pose proof (Rabs_pos va) as Aa.
  assert (Baf : Rabs (va + double_val f) <= Rabs va + 17 / 16 * P). { eapply Rle_trans; [apply Rabs_triang|]. apply Rplus_le_compat_l. apply bounds_Rabs; lra. }
  assert (Es' : Rabs (double_val s - (va + double_val f)) <= Fu * (Rabs va + 17 / 16 * P)) by (eapply Rle_trans; [apply Es|apply Rmult_le_compat_l; auto]).
  assert (0 <= Fu * Rabs va <= / 16 * Rabs va) by (split; [apply Rmult_le_pos; lra|apply Rmult_le_compat_r; lra]).
  apply Rabs_bounds in Es' as Es2. apply Rabs_bounds in Ef as Ef2. pose proof (bpow_gt_0 radix2 1000) as B1k.
  destruct (PrimFloat.ltb x a) eqn:Ex.
  - apply (Flt_val x a Fx Fa) in Ex. fold vx va in Ex.
    assert (Bs : Rabs (double_val s + vp) <= Rabs va + / 16 * Rabs va + 10 / 4 * P).
    { replace (double_val s + vp) with ((double_val s - (va + double_val f)) + (va + (double_val f + vp))) by ring. eapply Rle_trans; [apply Rabs_triang|].
      assert (Rabs (va + (double_val f + vp)) <= Rabs va + 17/16 * P). { eapply Rle_trans; [apply Rabs_triang|]. apply Rplus_le_compat_l. apply bounds_Rabs.
        assert (double_val f <= 0); [|lra]. rewrite Vf. assert (vd <= 0) by (rewrite (Rabs_left X) in H0, Ed by (unfold X; lra); apply Rabs_bounds in Ed; unfold X in *; lra). apply (trunc_neg vd vp); auto. }
      lra. }
    destruct (Fadd_val s p Gs Gp) as [Gx Vx']. { eapply Rle_trans; [apply Bs|]. unfold P in *. lra. }
    destruct (rd_add _ _ _ _ _ _ F_rounding s p Gs Gp) as [_ Ex']. { eapply Rle_trans; [apply Bs|]. unfold P in *. lra. }
    cbn [oadd Fops] in Ex'. exists (s + p)%float. split; [reflexivity|]. split; auto. split; [|intros; lra].
    exists (1 - q)%Z. rewrite minus_IZR.
    assert (Ex2 : Rabs (double_val (s + p) - (double_val s + vp)) <= Fu * (Rabs va + / 16 * Rabs va + 10 / 4 * P)) by (eapply Rle_trans; [apply Ex'|apply Rmult_le_compat_l; auto]).
    apply Rabs_bounds in Ex2. apply bounds_Rabs.
    replace (double_val (s + p) - (vx + (1 - IZR q) * P)) with ((double_val (s + p) - (double_val s + vp)) + (double_val s - (va + double_val f)) + (double_val f - (X - IZR q * P)) + (vp - P)) by (unfold X; ring).
    lra.
  - assert (Lx : va <= vx). { destruct (Rle_or_lt va vx); auto. assert (PrimFloat.ltb x a = true) by (apply (Flt_val x a Fx Fa); auto). congruence. }
    assert (Z0 : double_finite zero /\ double_val zero = 0) by (split; [exact I|reflexivity]). destruct Z0 as [Z0 Z1].
    destruct (Fadd_val s zero Gs Z0) as [Gx Vx']. { rewrite Z1, Rplus_0_r. apply bounds_Rabs. unfold P in *. lra. }
    assert (Vx2 : double_val (s + zero) = double_val s). { rewrite Vx', Z1, Rplus_0_r. apply round_generic; [apply valid_rnd_N|apply val_format]. }
    exists (s + zero)%float. split; [reflexivity|]. split; auto. rewrite Vx2. split.
    + exists (- q)%Z. rewrite opp_IZR. apply bounds_Rabs.
      replace (double_val s - (vx + - IZR q * P)) with ((double_val s - (va + double_val f)) + (double_val f - (X - IZR q * P))) by (unfold X; ring). lra.
    + intros _. assert (HX : 0 <= X) by (unfold X; lra).
      assert (Hd0 : 0 <= vd) by (rewrite (Rabs_pos_eq X) in H0, Ed by auto; apply Rabs_bounds in Ed; lra).
      assert (Hf : 0 <= double_val f < vp) by (rewrite Vf; apply (trunc_pos vd vp); auto).
      assert (HfP : double_val f <= P).
      { destruct (Rle_or_lt (double_val f) P) as [|L]; auto. exfalso. assert (vp <= double_val f); [|lra].
        rewrite Vp. apply round_le_generic; [apply fexp_correct; reflexivity|apply valid_rnd_N|apply val_format|lra]. }
      rewrite Vs. split.
      * apply round_ge_generic; [apply fexp_correct; reflexivity|apply valid_rnd_N|apply val_format|lra].
      * apply round_le_generic; [apply fexp_correct; reflexivity|apply valid_rnd_N|apply val_format|unfold P in *; fold vb; lra].
Qed.
