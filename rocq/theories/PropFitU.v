(** The property theorems on interpolation in doubles with ranges of either
    kind (C77). *)
From Coq Require Import List Arith Bool ZArith Reals Floats.
From Verif Require Import Base Num FloatM MeshM SpecMesh MeshProofs SplineM InterpM SpecSpline SpecInterp SpecRound SpecRoundInterp SpecRoundFit RoundFitTop PropFitEx PropFitUEx.
Import ListNotations.
Local Open Scope R_scope.
Local Notation float := PrimFloat.float.

(** C77: the function that the constructors compute in doubles takes the data
    values near the data points, up to rounding, for uniform ranges, lists of
    points and any mixture of the two.  [C] bounds the computed control points,
    [G] the factors of the collocation matrices, [M] the number of unknowns of
    a dimension and [kappa] the quotient of the size of the coordinates and
    their distance.  First: the spline of the computed knots and control
    points, evaluated exactly. *)
Theorem C77_spline_through_data : forall on nd order per dims ranges t reach step kappa M G C f g idx ys,
  fit_ranges on nd order per dims ranges t reach step kappa M G -> m_dims f = dims -> wf_mesh f ->
  interpolate Fops on nd t f = Ok g \/ interp_make Fops on nd order per f ranges = Ok g ->
  0 <= C -> (forall a, In a (m_data (sp_ctrl (if_spline g))) -> double_finite a /\ Rabs (double_val a) <= C) ->
  near_data nd per dims ranges reach idx ys ->
  exists w, spline_eval_plain Rops (real_spline double_val (if_spline g)) ys = Ok w /\
    double_finite (nth (row_major dims idx) (m_data f) 0%float) /\
    Rabs (w - double_val (nth (row_major dims idx) (m_data f) 0%float)) <=
      INR (length per) * (INR order * (1 + 128 * kappa) + INR M * G) * powerRZ 2 (-49) * C + powerRZ 2 (-1031).
Proof. exact ranges_exact. Qed.
Print Assumptions C77_spline_through_data.

(** Second: the value that the function returns; nothing is assumed of the
    reduction of periodic coordinates and of the hints of uniform ranges. *)
Theorem C77_value_at_data : forall on nd order per dims ranges t reach step kappa M G C f g idx xs,
  fit_ranges on nd order per dims ranges t reach step kappa M G -> m_dims f = dims -> wf_mesh f ->
  interpolate Fops on nd t f = Ok g \/ interp_make Fops on nd order per f ranges = Ok g ->
  0 <= C <= powerRZ 2 1000 -> (forall a, In a (m_data (sp_ctrl (if_spline g))) -> double_finite a /\ Rabs (double_val a) <= C) ->
  near_data nd per dims ranges reach idx (map double_val xs) -> (forall a, In a xs -> double_finite a) ->
  exists v, interp_eval Fops g xs = Ok v /\ double_finite v /\
    Rabs (double_val v - double_val (nth (row_major dims idx) (m_data f) 0%float)) <=
      (INR (roundings order (length per)) * powerRZ 2 (-52) +
       INR (length per) * (INR order * (1 + 128 * kappa) + INR M * G) * powerRZ 2 (-49)) * C + powerRZ 2 (-1030).
Proof. exact ranges_computed. Qed.
Print Assumptions C77_value_at_data.

(** A uniform and a periodic dimension given by its points. *)
Example C77_mixed :
  fit_ranges true true 3 fm_per fm_dims fm_r fm_t fm_reach fm_step 32 6 234 /\ m_dims fe_f = fm_dims /\ wf_mesh fe_f /\
  interpolate Fops true true fm_t fe_f = Ok fm_g /\ interp_make Fops true true 3 fm_per fe_f fm_r = Ok fm_g /\
  0 <= powerRZ 2 7 <= powerRZ 2 1000 /\
  (forall a, In a (m_data (sp_ctrl (if_spline fm_g))) -> double_finite a /\ Rabs (double_val a) <= powerRZ 2 7) /\
  forall i j, (i < 6)%nat -> (j < 5)%nat ->
    near_data true fm_per fm_dims fm_r fm_reach [i; j] (map double_val (fm_x i j)) /\ forall a, In a (fm_x i j) -> double_finite a.
Proof.
  exact (conj fm_fit (conj eq_refl (conj eq_refl (conj (proj1 (proj2 fm_made)) (conj (proj2 (proj2 fm_made)) (conj fu_128 (conj fm_ctrl fm_near))))))).
Qed.
(** A uniform periodic dimension of even order. *)
Example C77_uniform :
  fit_ranges true false 2 [true] [9%nat] fu_r fu_t (fun _ => powerRZ 2 3) (fun _ => powerRZ 2 (-1)) 16 8 408 /\ m_dims fu_f = [9%nat] /\ wf_mesh fu_f /\
  interpolate Fops true false fu_t fu_f = Ok fu_g /\ interp_make Fops true false 2 [true] fu_f fu_r = Ok fu_g /\
  0 <= powerRZ 2 7 <= powerRZ 2 1000 /\
  (forall a, In a (m_data (sp_ctrl (if_spline fu_g))) -> double_finite a /\ Rabs (double_val a) <= powerRZ 2 7) /\
  forall i, (i < 8)%nat ->
    near_data false [true] [9%nat] fu_r (fun _ => powerRZ 2 3) [i] (map double_val (fu_x i)) /\ forall a, In a (fu_x i) -> double_finite a.
Proof.
  exact (conj fu_fit (conj eq_refl (conj eq_refl (conj (proj1 (proj2 fu_made)) (conj (proj2 (proj2 fu_made)) (conj fu_128 (conj fu_ctrl fu_near))))))).
Qed.
