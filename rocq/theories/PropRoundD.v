(** Property theorems: rounding errors of derivatives (C78). *)
From Coq Require Import List Arith Lia ZArith Reals Lra Floats.
From Verif Require Import Base Num FloatM MeshM SplineM SpecSpline SpecSplineObj SpecCalc SpecRound SpecRoundD SplineFinal SplineCons FloatProofs RoundDerivDouble PropRoundEx RoundDerivMixed.
Import ListNotations.
Local Open Scope R_scope.

(** C78: the computed derivative is close to the derivative of the spline in
    exact arithmetic, and is a number; [xs'] are the coordinates after the
    periodic reduction. *)
Theorem C78_derivative_error : forall (T : Type) (o : ops T) val good u eta big on s g C Lam gap ns xs xs' hints,
  rounding o val good u eta big -> number_spline val good big g C s -> small_exact o val good (sp_order s) ->
  0 < g -> eta <= g -> 0 <= C ->
  gaps val s gap -> 1 <= Lam -> (forall d, (d < sp_dim s)%nat -> 0 < gap d /\ 2 * INR (sp_order s) / gap d <= Lam) ->
  length ns = sp_dim s -> (forall d, (d < sp_dim s)%nat -> (nth d ns 0 <= sp_order s)%nat) ->
  basis_growth u eta g (sp_order s) <= 2 -> coef_growth u eta g (sp_order s) (sp_dim s) <= big ->
  INR (sp_order s + 1) * (4 * derived_bound u eta g Lam (order_sum ns) (C * Lam ^ order_sum ns)) <= big ->
  value_bound u eta g (sp_order s) (sp_dim s) (derived_bound u eta g Lam (order_sum ns) (C * Lam ^ order_sum ns)) <= big ->
  length xs = sp_dim s -> length xs' = sp_dim s -> hints_ok s hints ->
  (forall d, (d < sp_dim s)%nat ->
     wrap_coord o (per_of s d) (nth d (sp_range s) (o0 o, o0 o)) (nth d xs (o0 o)) = Ok (nth d xs' (o0 o)) /\
     good (nth d xs' (o0 o)) /\
     kn (map val (knot_of s d)) (sp_order s) <= val (nth d xs' (o0 o)) <= kn (map val (knot_of s d)) (last_of s d + 1) /\
     (per_of s d = true -> fst (rng (real_spline val s) d) <= val (nth d xs' (o0 o)) < snd (rng (real_spline val s) d))) ->
  exists v w, spline_derivative_at o on s (combine (combine xs hints) ns) = Ok v /\
    spline_derivative_at Rops on (real_spline val s) (combine (combine (map val xs') hints) ns) = Ok w /\ good v /\
    Rabs (val v - w) <=
      value_bound u eta g (sp_order s) (sp_dim s) (derived_bound u eta g Lam (order_sum ns) (C * slope (sp_order s) gap ns)) - C * slope (sp_order s) gap ns.
Proof. exact @derivative_error. Qed.
Print Assumptions C78_derivative_error.
Theorem C78_derivative_error_double : forall on s g C Lam gap ns xs xs' hints,
  number_spline double_val double_finite (powerRZ 2 1023) g C s -> powerRZ 2 (-800) <= g ->
  (1 <= sp_dim s)%nat -> (Z.of_nat (roundings (sp_order s) (sp_dim s)) <= 2 ^ 40)%Z ->
  gaps double_val s gap -> 1 <= Lam -> (forall d, (d < sp_dim s)%nat -> 0 < gap d /\ 2 * INR (sp_order s) / gap d <= Lam) ->
  length ns = sp_dim s -> (forall d, (d < sp_dim s)%nat -> (nth d ns 0 <= sp_order s)%nat) ->
  0 <= C -> C * Lam ^ order_sum ns <= powerRZ 2 900 -> Lam ^ order_sum ns <= powerRZ 2 900 ->
  length xs = sp_dim s -> length xs' = sp_dim s -> hints_ok s hints ->
  (forall d, (d < sp_dim s)%nat ->
     wrap_coord Fops (per_of s d) (nth d (sp_range s) (zero, zero)) (nth d xs zero) = Ok (nth d xs' zero) /\
     double_finite (nth d xs' zero) /\
     kn (map double_val (knot_of s d)) (sp_order s) <= double_val (nth d xs' zero) <= kn (map double_val (knot_of s d)) (last_of s d + 1) /\
     (per_of s d = true -> fst (rng (real_spline double_val s) d) <= double_val (nth d xs' zero) < snd (rng (real_spline double_val s) d))) ->
  exists v w, spline_derivative_at Fops on s (combine (combine xs hints) ns) = Ok v /\
    spline_derivative_at Rops on (real_spline double_val s) (combine (combine (map double_val xs') hints) ns) = Ok w /\ double_finite v /\
    Rabs (double_val v - w) <=
      INR (roundings (sp_order s) (sp_dim s) + 3 * order_sum ns) * powerRZ 2 (-52) * (C * slope (sp_order s) gap ns) +
      INR ((sp_order s + 1) ^ sp_dim s) * powerRZ 2 (-1074) +
      INR (order_sum ns) * powerRZ 2 (-1074) * (/ g + 1) * Lam ^ order_sum ns.
Proof. exact double_derivative. Qed.
Print Assumptions C78_derivative_error_double.
(** Away from the knots the computed value is close to the partial derivative
    of the function that the spline is in exact arithmetic. *)
Theorem C78_derivative_error_mixed : forall on s f g C Lam gap ns xs xs',
  number_spline double_val double_finite (powerRZ 2 1023) g C s -> powerRZ 2 (-800) <= g ->
  (1 <= sp_dim s)%nat -> (Z.of_nat (roundings (sp_order s) (sp_dim s)) <= 2 ^ 40)%Z ->
  gaps double_val s gap -> 1 <= Lam -> (forall d, (d < sp_dim s)%nat -> 0 < gap d /\ 2 * INR (sp_order s) / gap d <= Lam) ->
  length ns = sp_dim s -> (forall d, (d < sp_dim s)%nat -> (nth d ns 0 <= sp_order s)%nat) ->
  0 <= C -> C * Lam ^ order_sum ns <= powerRZ 2 900 -> Lam ^ order_sum ns <= powerRZ 2 900 ->
  length xs = sp_dim s -> length xs' = sp_dim s ->
  (forall ys, length ys = sp_dim s -> spline_eval_plain Rops (real_spline double_val s) ys = Ok (f ys)) ->
  (forall d, (d < sp_dim s)%nat ->
     wrap_coord Fops (per_of s d) (nth d (sp_range s) (zero, zero)) (nth d xs zero) = Ok (nth d xs' zero) /\
     double_finite (nth d xs' zero) /\ off_knots (real_spline double_val s) d (double_val (nth d xs' zero)) /\
     kn (map double_val (knot_of s d)) (sp_order s) <= double_val (nth d xs' zero) <= kn (map double_val (knot_of s d)) (last_of s d + 1) /\
     (per_of s d = true -> fst (rng (real_spline double_val s) d) <= double_val (nth d xs' zero) < snd (rng (real_spline double_val s) d))) ->
  exists v w, spline_derivative_plain Fops on s (combine xs ns) = Ok v /\ is_mixed ns f (map double_val xs') w /\ double_finite v /\
    Rabs (double_val v - w) <=
      INR (roundings (sp_order s) (sp_dim s) + 3 * order_sum ns) * powerRZ 2 (-52) * (C * slope (sp_order s) gap ns) +
      INR ((sp_order s + 1) ^ sp_dim s) * powerRZ 2 (-1074) +
      INR (order_sum ns) * powerRZ 2 (-1074) * (/ g + 1) * Lam ^ order_sum ns.
Proof. exact double_derivative_mixed. Qed.
Print Assumptions C78_derivative_error_mixed.
Example C78_example :
  small_exact Fops double_val double_finite 1 /\
  number_spline double_val double_finite (powerRZ 2 1023) 1 9 (ex_spline FZ) /\ gaps double_val (ex_spline FZ) (fun _ => 1) /\
  (Z.of_nat (roundings 1 2) <= 2 ^ 40)%Z /\ 2 * INR 1 / 1 <= 2 /\
  (powerRZ 2 (-800) <= 1 /\ 9 * 2 ^ order_sum [1; 1]%nat <= powerRZ 2 900 /\ 2 ^ order_sum [1; 1]%nat <= powerRZ 2 900) /\
  slope 1 (fun _ => 1) [1; 1]%nat = 4 /\ hints_ok (ex_spline FZ) [1; 1]%nat /\
  (forall d, (d < 2)%nat ->
     wrap_coord Fops (per_of (ex_spline FZ) d) (nth d (sp_range (ex_spline FZ)) (zero, zero)) (nth d [0.5; 2.5]%float zero) = Ok (nth d [0.5; 0.5]%float zero) /\
     double_finite (nth d [0.5; 0.5]%float zero) /\
     kn (map double_val (knot_of (ex_spline FZ) d)) 1 <= double_val (nth d [0.5; 0.5]%float zero) <= kn (map double_val (knot_of (ex_spline FZ) d)) (last_of (ex_spline FZ) d + 1) /\
     (per_of (ex_spline FZ) d = true -> fst (rng (real_spline double_val (ex_spline FZ)) d) <= double_val (nth d [0.5; 0.5]%float zero) < snd (rng (real_spline double_val (ex_spline FZ)) d))) /\
  (forall d, (d < 2)%nat -> off_knots (real_spline double_val (ex_spline FZ)) d (double_val (nth d [0.5; 0.5]%float zero))) /\
  (forall ys, length ys = 2%nat -> spline_eval_plain Rops (real_spline double_val (ex_spline FZ)) ys = Ok (BetaProofs.sval (ex_spline IZR) ys)) /\
  spline_derivative_plain Fops true (ex_spline FZ) (combine [0.5; 2.5]%float [1; 1]%nat) = Ok (-2)%float.
Proof.
  exact (conj (double_small 1 ex_one) (conj ex_number_1 (conj ex_gaps (conj (proj1 ex_roundings) (conj ex_two (conj ex_derived (conj ex_slope (conj ex_hintsF
    (conj ex_evaluation (conj ex_offF (conj ex_evaluatesF ex_derivative_value))))))))))).
Qed.
