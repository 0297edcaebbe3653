(** Lemmas and examples for PropRound.v. *)
From Coq Require Import List Arith Lia Bool ZArith Reals Lra Psatz Floats.
From Flocq Require Import Core BinarySingleNaN PrimFloat.
From Verif Require Import Base Num FloatM MeshM SplineM SpecMesh SpecBand SpecSpline SpecSplineObj SpecRound SplineProofs EvalProofs EvalR SplineFinal SplineCons RoundSpline RoundEval FloatProofs FloatWrap RoundDouble.
Import ListNotations.
Local Open Scope R_scope.

(** Whole numbers as doubles. *)
Definition FZ (z : Z) : PrimFloat.float := Fround z 0 false.
Lemma FZ_val z : (Z.abs z <= 2 ^ 53)%Z -> double_finite (FZ z) /\ double_val (FZ z) = IZR z.
Proof.
  intros H. replace (IZR z) with (IZR z * bpow radix2 0) by (cbn; ring). apply Fround_exact; auto; try lia.
  rewrite Rabs_mult, <- abs_IZR, (Rabs_pos_eq (bpow radix2 0)) by apply bpow_ge_0. cbn [bpow]. rewrite Rmult_1_r.
  apply Rle_lt_trans with (IZR (2 ^ 53)); [apply IZR_le; auto|]. change (IZR (2 ^ 53)) with (bpow radix2 53). apply bpow_lt. reflexivity.
Qed.
Lemma ex_real : real_spline double_val (ex_spline FZ) = ex_spline IZR.
Proof.
  assert (V : forall z, (Z.abs z <= 9)%Z -> double_val (FZ z) = IZR z) by (intros; apply FZ_val; lia).
  unfold real_spline, ex_spline, ex_knots, ex_ctrl. cbn [sp_order sp_per sp_knots sp_ctrl sp_range m_dims m_data map fst snd].
  rewrite !V by lia. reflexivity.
Qed.
Lemma ex_number : number_spline double_val double_finite (powerRZ 2 1023) (powerRZ 2 (-800)) 9 (ex_spline FZ).
Proof.
  assert (V : forall z, (Z.abs z <= 9)%Z -> double_val (FZ z) = IZR z) by (intros; apply FZ_val; lia).
  assert (G : forall z, (Z.abs z <= 9)%Z -> double_finite (FZ z)) by (intros; apply FZ_val; lia).
  rewrite <- !(bpow_powerRZ radix2).
  assert (B1 : bpow radix2 (-800) <= 1) by (change 1 with (bpow radix2 0); apply bpow_le; lia).
  assert (B2 : 64 <= bpow radix2 1023) by (change 64 with (bpow radix2 6); apply bpow_le; lia).
  split.
  - rewrite ex_real. apply ex_good.
  - intros l a Hl Ha. cbn -[FZ] in Hl. destruct Hl as [<-|[<-|[]]]; cbn -[FZ] in Ha; repeat (destruct Ha as [<-|Ha]; [apply G; lia|]); destruct Ha.
  - intros a Ha. cbn -[FZ] in Ha. repeat (destruct Ha as [<-|Ha]; [rewrite V by lia; split; [apply G; lia|rewrite Rabs_pos_eq; lra]|]). destruct Ha.
  - intros l i Hl Hi Hk. cbn -[FZ] in Hl. destruct Hl as [<-|[<-|[]]]; cbn [length] in Hi; cbn [ex_spline sp_order] in Hi; unfold kn in *; cbn [map] in *;
      rewrite !V in * by lia; assert (i = 1 \/ i = 2)%nat as [->| ->] by lia; cbn [nth Nat.add] in *; lra.
  - intros l a b Hl Ha Hb. cbn -[FZ] in Hl. destruct Hl as [<-|[<-|[]]]; cbn -[FZ] in Ha, Hb;
      repeat (destruct Ha as [<-|Ha]; [repeat (destruct Hb as [<-|Hb]; [rewrite !V by lia; lra|]); destruct Hb|]); destruct Ha.
Qed.
Lemma ex_half : double_finite 0.5 /\ double_val 0.5 = / 2.
Proof.
  split; [exact I|]. unfold double_val. change (Prim2SF 0.5) with (S754_finite false 4503599627370496 (-53)).
  cbv beta iota. rewrite <- (bpow_powerRZ radix2). change (bpow radix2 (-53)) with (/ 9007199254740992). lra.
Qed.

Lemma ex_evaluation (d : nat) : (d < 2)%nat ->
  wrap_coord Fops (per_of (ex_spline FZ) d) (nth d (sp_range (ex_spline FZ)) (zero, zero)) (nth d [0.5; 2.5]%float zero) = Ok (nth d [0.5; 0.5]%float zero) /\
  double_finite (nth d [0.5; 0.5]%float zero) /\
  kn (map double_val (knot_of (ex_spline FZ) d)) 1 <= double_val (nth d [0.5; 0.5]%float zero) <= kn (map double_val (knot_of (ex_spline FZ) d)) (last_of (ex_spline FZ) d + 1) /\
  (per_of (ex_spline FZ) d = true -> fst (rng (real_spline double_val (ex_spline FZ)) d) <= double_val (nth d [0.5; 0.5]%float zero) < snd (rng (real_spline double_val (ex_spline FZ)) d)).
Proof.
  assert (V : forall z, (Z.abs z <= 9)%Z -> double_val (FZ z) = IZR z) by (intros; apply FZ_val; lia).
  intros Hd. split; [two d; vm_compute; reflexivity|]. replace (nth d [0.5; 0.5]%float zero) with 0.5%float by (two d; reflexivity). destruct ex_half as [G E]. split; auto. rewrite E, ex_real.
  two d; unfold kn, knot_of, last_of; cbn [ex_spline ex_knots sp_knots nth map length sp_order knot_of Nat.sub Nat.add sp_range]; rewrite !V by lia; (split; [lra|intros; cbn [fst snd]; lra]).
Qed.
Lemma ex_hintsF : hints_ok (ex_spline FZ) [1; 1]%nat.
Proof. split; auto. intros d Hd. two d; cbn; lia. Qed.
Lemma ex_value : spline_eval Fops (ex_spline FZ) (combine [0.5; 2.5]%float [1; 1]%nat) = Ok 2.5%float.
Proof. vm_compute. reflexivity. Qed.
Lemma ex_roundings : (Z.of_nat (roundings 1 2) <= 2 ^ 40)%Z /\ 0 <= 9 <= powerRZ 2 1000.
Proof. split; [vm_compute; discriminate|]. rewrite <- (bpow_powerRZ radix2). assert (bpow radix2 4 <= bpow radix2 1000) by (apply bpow_le; lia). cbn [bpow] in *. change (IZR (Z.pow_pos radix2 4)) with 16 in H. lra. Qed.

(** Conversions. *)
Lemma fmod_undefined x y : ~ double_finite x \/ double_finite y /\ double_val y = 0 ->
  exists r, ofmod Fops x y = Ok r /\ ~ double_finite r.
Proof.
  intros H. exists (Ffmod x y). split; [reflexivity|]. unfold Ffmod. unfold double_finite at 1, double_finite at 1, double_val in H.
  assert (N : ~ double_finite nan) by exact (fun K => K).
  destruct (Prim2SF x) as [b|b| |b m e]; destruct (Prim2SF y) as [b'|b'| |b' m' e']; auto.
  all: destruct H as [H|[H1 H2]]; try (exfalso; apply H; exact I); try (exfalso; exact H1).
  all: exfalso; pose proof (powerRZ_lt 2 e' ltac:(lra)) as P; pose proof (IZR_lt 0 (Z.pos m') eq_refl) as Q; destruct b'; nra.
Qed.
Lemma fmod_infinite x : double_finite x -> ofmod Fops x infinity = Ok x /\ ofmod Fops x neg_infinity = Ok x.
Proof.
  unfold double_finite. cbn [ofmod Fops]. unfold Ffmod. change (Prim2SF infinity) with (S754_infinity false). change (Prim2SF neg_infinity) with (S754_infinity true).
  destruct (Prim2SF x); intros H; try contradiction; split; reflexivity.
Qed.
Lemma conversions :
  (forall x y, double_finite x -> double_finite y -> double_val y <> 0 ->
     exists r, ofmod Fops x y = Ok r /\ double_finite r /\
       exists q : Z, double_val r = double_val x - IZR q * double_val y /\ Rabs (double_val r) < Rabs (double_val y) /\
         0 <= double_val r * double_val x) /\
  (forall x y, ~ double_finite x \/ double_finite y /\ double_val y = 0 ->
     exists r, ofmod Fops x y = Ok r /\ ~ double_finite r) /\
  (forall x, double_finite x -> ofmod Fops x infinity = Ok x /\ ofmod Fops x neg_infinity = Ok x) /\
  (forall n, (Z.of_nat n <= 2 ^ 53)%Z -> double_finite (onat Fops n) /\ double_val (onat Fops n) = INR n) /\
  (forall x n, double_finite x -> (oceil Fops x = Ok n <-> IZR (Z.of_nat n) - 1 < double_val x <= IZR (Z.of_nat n) /\ (Z.of_nat n < 2 ^ 64)%Z)) /\
  (forall x, double_finite x -> double_val x <= -1 \/ IZR (2 ^ 64) - 1 < double_val x -> oceil Fops x = Fault BadCast) /\
  (forall x, ~ double_finite x -> oceil Fops x = Fault BadCast).
Proof.
  split; [|split; [exact fmod_undefined|split; [exact fmod_infinite|split; [|split; [|split]]]]].
  - intros x y Fx Fy Hy. exists (Ffmod x y). split; [reflexivity|]. destruct (Ffmod_exact x y Fx Fy Hy) as [G E]. split; auto. eexists. split; [exact E|]. rewrite E. clear E.
    set (vx := double_val x). set (vy := double_val y) in *.
    assert (A : forall p, 0 < p -> Rabs (vx - IZR (Ztrunc (vx / p)) * p) < p /\ 0 <= (vx - IZR (Ztrunc (vx / p)) * p) * vx).
    { intros p Hp. destruct (Rle_or_lt 0 vx).
      - destruct (trunc_pos vx p Hp H) as [B _]. split; [rewrite Rabs_pos_eq; lra|apply Rmult_le_pos; lra].
      - destruct (trunc_neg vx p Hp ltac:(lra)) as [B _]. split; [apply Rabs_def1; lra|]. set (r := vx - IZR (Ztrunc (vx / p)) * p) in *. nra. }
    destruct (Rlt_or_le 0 vy) as [P|P].
    + rewrite (Rabs_pos_eq vy) by lra. apply A; auto.
    + rewrite (Rabs_left vy) by lra. destruct (A (- vy) ltac:(lra)) as [A1 A2].
      replace (vx / - vy) with (- (vx / vy)) in A1, A2 by (field; lra). rewrite Ztrunc_opp, opp_IZR in A1, A2.
      replace (- IZR (Ztrunc (vx / vy)) * - vy) with (IZR (Ztrunc (vx / vy)) * vy) in A1, A2 by ring. auto.
  - exact Fnat_exact.
  - intros x n Fx. cbn [oceil Fops]. rewrite Fceil_spec. replace (is_finite (Prim2B x)) with true by (symmetry; apply finite_B; auto). cbv zeta.
    pose proof (Zceil_ub (double_val x)) as Ub. assert (Lb : IZR (Zceil (double_val x)) - 1 < double_val x).
    { unfold Zceil. rewrite opp_IZR. pose proof (Zfloor_ub (- double_val x)). lra. }
    split.
    + destruct ((Zceil (double_val x) <? 0)%Z || (two64 <=? Zceil (double_val x))%Z) eqn:B; [discriminate|]. intros E. injection E as <-. apply orb_false_iff in B as [B1 B2]. apply Z.ltb_ge in B1. apply Z.leb_gt in B2. rewrite Z2Nat.id by auto. split; [lra|]. exact B2.
    + intros [[H1 H2] H3]. assert (Zceil (double_val x) = Z.of_nat n) as ->. { apply Zceil_imp. rewrite minus_IZR. lra. }
      destruct (Z.ltb_spec (Z.of_nat n) 0); [lia|]. destruct (Z.leb_spec two64 (Z.of_nat n)); [unfold two64 in *; lia|]. cbn [orb]. rewrite Nat2Z.id. reflexivity.
  - intros x Fx H. cbn [oceil Fops]. rewrite Fceil_spec. replace (is_finite (Prim2B x)) with true by (symmetry; apply finite_B; auto). cbv zeta.
    destruct H as [H|H].
    + assert ((Zceil (double_val x) <= -1)%Z) by (apply Zceil_glb; auto). destruct (Z.ltb_spec (Zceil (double_val x)) 0); [reflexivity|lia].
    + pose proof (Zceil_ub (double_val x)) as Ub. assert (IZR (2 ^ 64 - 1) < IZR (Zceil (double_val x))) as L by (rewrite minus_IZR; lra). apply lt_IZR in L.
      destruct (Z.leb_spec two64 (Zceil (double_val x))); [destruct (_ <? _)%Z; reflexivity|]. unfold two64 in *. lia.
  - intros x Fx. cbn [oceil Fops]. rewrite Fceil_spec. destruct (is_finite (Prim2B x)) eqn:E; auto. apply finite_B in E. contradiction.
Qed.
Lemma wrap_escapes : double_finite (-1) /\ double_finite 0x3p-54 /\ double_finite (-0x1.8000000000001p1) /\
  exists x', wrap_coord Fops true (-1, 0x3p-54)%float (-0x1.8000000000001p1)%float = Ok x' /\ double_finite x' /\
    double_val (-1) < double_val 0x3p-54 < double_val x'.
Proof.
  split; [exact I|]. split; [exact I|]. split; [exact I|]. exists 0x1p-52%float. split; [vm_compute; reflexivity|]. split; [exact I|].
  split; (apply Flt_val; [exact I|exact I|reflexivity]).
Qed.
Lemma wrap_beyond : exists a b x x',
  double_finite a /\ double_finite b /\ double_finite x /\
  wrap_coord Fops true (a, b) x = Ok x' /\ double_finite x' /\ double_val a < double_val b < double_val x'.
Proof. destruct wrap_escapes as (A & B & C & x' & D & E & F). exists (-1)%float, 0x3p-54%float, (-0x1.8000000000001p1)%float, x'. exact (conj A (conj B (conj C (conj D (conj E F))))). Qed.
Lemma lt_0_2 : double_val 0 < double_val 2.
Proof. apply Flt_val; [exact I|exact I|reflexivity]. Qed.
