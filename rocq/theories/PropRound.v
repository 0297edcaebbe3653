(** Property theorems: rounding errors of evaluation (C70), conversions (C71)
    and periodic reduction of coordinates (C72) in doubles. *)
From Coq Require Import List Arith Lia ZArith Reals Lra Floats.
From Verif Require Import Base Num FloatM MeshM SplineM SpecSpline SpecSplineObj SpecRound SplineFinal SplineCons FloatProofs FloatWrap RoundDouble PropRoundEx.
Import ListNotations.
Local Open Scope R_scope.

(** C70: the computed value is close to the value of the spline in exact
    arithmetic, and is a number; [xs'] are the coordinates after the periodic
    reduction. *)
Theorem C70_evaluation_error : forall (T : Type) (o : ops T) val good u eta big s g C xs xs' hints,
  rounding o val good u eta big -> number_spline val good big g C s -> 0 < g -> eta <= g -> 0 <= C ->
  basis_growth u eta g (sp_order s) <= 2 -> coef_growth u eta g (sp_order s) (sp_dim s) <= big ->
  value_bound u eta g (sp_order s) (sp_dim s) C <= big ->
  length xs = sp_dim s -> length xs' = sp_dim s -> hints_ok s hints ->
  (forall d, (d < sp_dim s)%nat ->
     wrap_coord o (per_of s d) (nth d (sp_range s) (o0 o, o0 o)) (nth d xs (o0 o)) = Ok (nth d xs' (o0 o)) /\
     good (nth d xs' (o0 o)) /\
     kn (map val (knot_of s d)) (sp_order s) <= val (nth d xs' (o0 o)) <= kn (map val (knot_of s d)) (last_of s d + 1) /\
     (per_of s d = true -> fst (rng (real_spline val s) d) <= val (nth d xs' (o0 o)) < snd (rng (real_spline val s) d))) ->
  exists v w, spline_eval o s (combine xs hints) = Ok v /\
    spline_eval Rops (real_spline val s) (combine (map val xs') hints) = Ok w /\ good v /\
    Rabs (val v - w) <= value_bound u eta g (sp_order s) (sp_dim s) C - C.
Proof. exact @evaluation_error. Qed.
Print Assumptions C70_evaluation_error.
Theorem C70_evaluation_error_double : forall s C xs xs' hints,
  number_spline double_val double_finite (powerRZ 2 1023) (powerRZ 2 (-800)) C s ->
  (1 <= sp_dim s)%nat -> (Z.of_nat (roundings (sp_order s) (sp_dim s)) <= 2 ^ 40)%Z -> 0 <= C <= powerRZ 2 1000 ->
  length xs = sp_dim s -> length xs' = sp_dim s -> hints_ok s hints ->
  (forall d, (d < sp_dim s)%nat ->
     wrap_coord Fops (per_of s d) (nth d (sp_range s) (zero, zero)) (nth d xs zero) = Ok (nth d xs' zero) /\
     double_finite (nth d xs' zero) /\
     kn (map double_val (knot_of s d)) (sp_order s) <= double_val (nth d xs' zero) <= kn (map double_val (knot_of s d)) (last_of s d + 1) /\
     (per_of s d = true -> fst (rng (real_spline double_val s) d) <= double_val (nth d xs' zero) < snd (rng (real_spline double_val s) d))) ->
  exists v w, spline_eval Fops s (combine xs hints) = Ok v /\
    spline_eval Rops (real_spline double_val s) (combine (map double_val xs') hints) = Ok w /\ double_finite v /\
    Rabs (double_val v - w) <=
      INR (roundings (sp_order s) (sp_dim s)) * powerRZ 2 (-52) * C + INR ((sp_order s + 1) ^ sp_dim s) * powerRZ 2 (-1074).
Proof. exact double_evaluation. Qed.
Print Assumptions C70_evaluation_error_double.
Example C70_example :
  rounding Fops double_val double_finite Fu Feta Fbig /\
  number_spline double_val double_finite (powerRZ 2 1023) (powerRZ 2 (-800)) 9 (ex_spline FZ) /\
  ((Z.of_nat (roundings 1 2) <= 2 ^ 40)%Z /\ 0 <= 9 <= powerRZ 2 1000) /\ hints_ok (ex_spline FZ) [1; 1]%nat /\
  (forall d, (d < 2)%nat ->
     wrap_coord Fops (per_of (ex_spline FZ) d) (nth d (sp_range (ex_spline FZ)) (zero, zero)) (nth d [0.5; 2.5]%float zero) = Ok (nth d [0.5; 0.5]%float zero) /\
     double_finite (nth d [0.5; 0.5]%float zero) /\
     kn (map double_val (knot_of (ex_spline FZ) d)) 1 <= double_val (nth d [0.5; 0.5]%float zero) <= kn (map double_val (knot_of (ex_spline FZ) d)) (last_of (ex_spline FZ) d + 1) /\
     (per_of (ex_spline FZ) d = true -> fst (rng (real_spline double_val (ex_spline FZ)) d) <= double_val (nth d [0.5; 0.5]%float zero) < snd (rng (real_spline double_val (ex_spline FZ)) d))) /\
  spline_eval Fops (ex_spline FZ) (combine [0.5; 2.5]%float [1; 1]%nat) = Ok 2.5%float.
Proof. exact (conj F_rounding (conj ex_number (conj ex_roundings (conj ex_hintsF (conj ex_evaluation ex_value))))). Qed.

(** C71: remainders and conversions in doubles are exact, or faults. *)
Theorem C71_conversions :
  (forall x y, double_finite x -> double_finite y -> double_val y <> 0 ->
     exists r, ofmod Fops x y = Ok r /\ double_finite r /\
       exists q : Z, double_val r = double_val x - IZR q * double_val y /\ Rabs (double_val r) < Rabs (double_val y) /\
         0 <= double_val r * double_val x) /\
  (forall x y, ~ double_finite x \/ double_finite y /\ double_val y = 0 ->
     exists r, ofmod Fops x y = Ok r /\ ~ double_finite r) /\
  (forall x, double_finite x -> ofmod Fops x infinity = Ok x /\ ofmod Fops x neg_infinity = Ok x) /\
  (forall n, (Z.of_nat n <= 2 ^ 53)%Z -> double_finite (onat Fops n) /\ double_val (onat Fops n) = INR n) /\
  (forall x n, double_finite x -> (oceil Fops x = Ok n <-> IZR (Z.of_nat n) - 1 < double_val x <= IZR (Z.of_nat n) /\ (Z.of_nat n < 2 ^ 64)%Z)) /\
  (forall x, double_finite x -> double_val x <= -1 \/ IZR (2 ^ 64) - 1 < double_val x -> oceil Fops x = Fault BadCast) /\
  (forall x, ~ double_finite x -> oceil Fops x = Fault BadCast).
Proof. exact conversions. Qed.
Print Assumptions C71_conversions.
Example C71_example :
  double_finite 7.5 /\ double_finite (-2) /\ ofmod Fops 7.5%float (-2)%float = Ok 1.5%float /\
  onat Fops 12 = 12%float /\ oceil Fops 7.5%float = Ok 8%nat /\ oceil Fops (-0.5)%float = Ok 0%nat /\ ~ double_finite nan.
Proof. split; [exact I|]. split; [exact I|]. split; [reflexivity|]. split; [reflexivity|]. split; [reflexivity|]. split; [reflexivity|]. exact (fun H => H). Qed.

(** C72: the periodic reduction moves a coordinate by whole periods up to
    rounding; coordinates at or above the left end land in the range. *)
Theorem C72_periodic_reduction_partial : forall a b x,
  double_finite a -> double_finite b -> double_finite x -> double_val a < double_val b ->
  Rabs (double_val a) <= powerRZ 2 1000 -> Rabs (double_val b) <= powerRZ 2 1000 -> Rabs (double_val x) <= powerRZ 2 1000 ->
  exists x', wrap_coord Fops true (a, b) x = Ok x' /\ double_finite x' /\
    (exists m : Z, Rabs (double_val x' - (double_val x + IZR m * (double_val b - double_val a))) <=
       5 * powerRZ 2 (-53) * (Rabs (double_val x - double_val a) + Rabs (double_val a) + (double_val b - double_val a))) /\
    (double_val a <= double_val x -> double_val a <= double_val x' <= double_val b).
Proof. exact wrap_double. Qed.
Print Assumptions C72_periodic_reduction_partial.
(** Coordinates below the left end can land beyond the right end. *)
Theorem C72_in_range_refuted : exists a b x x',
  double_finite a /\ double_finite b /\ double_finite x /\
  wrap_coord Fops true (a, b) x = Ok x' /\ double_finite x' /\ double_val a < double_val b < double_val x'.
Proof. exact wrap_beyond. Qed.
Print Assumptions C72_in_range_refuted.
Example C72_example : double_finite 0 /\ double_finite 2 /\ double_finite 7.5 /\ double_val 0 < double_val 2 /\
  wrap_coord Fops true (0, 2)%float 7.5%float = Ok 1.5%float /\ wrap_coord Fops true (0, 2)%float (-7.5)%float = Ok 0.5%float.
Proof. split; [exact I|]. split; [exact I|]. split; [exact I|]. split; [exact lt_0_2|]. split; reflexivity. Qed.
