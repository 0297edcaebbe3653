(** The property theorems on interpolation in doubles (C76). *)
From Coq Require Import List Arith Bool ZArith Reals Floats.
From Verif Require Import Base Num FloatM MeshM SpecMesh MeshProofs SplineM InterpM SpecSpline SpecInterp SpecRound SpecRoundInterp RoundInterp PropFitEx.
Import ListNotations.
Local Open Scope R_scope.
Local Notation float := PrimFloat.float.

(** C76: the function that the constructors compute in doubles from data on
    grids of points takes the data values at the data points, up to rounding.
    [C] bounds the computed control points, [G] the factors of the collocation
    matrices and [M] the number of unknowns of a dimension.  First: the spline
    of the computed knots and control points, evaluated exactly. *)
Theorem C76_spline_through_data : forall on nd order per dims ls t M G C f g idx,
  fit_template on nd order per dims ls t M G -> m_dims f = dims -> wf_mesh f ->
  interpolate Fops on nd t f = Ok g \/ interp_make Fops on nd order per f (map (@Points float) ls) = Ok g ->
  0 <= C -> (forall a, In a (m_data (sp_ctrl (if_spline g))) -> double_finite a /\ Rabs (double_val a) <= C) -> data_index per ls idx ->
  exists w, spline_eval_plain Rops (real_spline double_val (if_spline g)) (map double_val (data_point ls idx)) = Ok w /\
    double_finite (nth (row_major dims idx) (m_data f) 0%float) /\
    Rabs (w - double_val (nth (row_major dims idx) (m_data f) 0%float)) <=
      INR (length per) * (INR order + INR M * G) * powerRZ 2 (-49) * C + powerRZ 2 (-1031).
Proof. exact fit_exact. Qed.
Print Assumptions C76_spline_through_data.

(** Second: the value that the function returns, provided that the coordinates
    of the periodic dimensions survive the reduction into the range (BSpline.hpp:131-137;
    [xs'] are the coordinates after it). *)
Theorem C76_value_at_data : forall on nd order per dims ls t M G C f g idx xs',
  fit_template on nd order per dims ls t M G -> m_dims f = dims -> wf_mesh f ->
  interpolate Fops on nd t f = Ok g \/ interp_make Fops on nd order per f (map (@Points float) ls) = Ok g ->
  0 <= C <= powerRZ 2 1000 -> (forall a, In a (m_data (sp_ctrl (if_spline g))) -> double_finite a /\ Rabs (double_val a) <= C) -> data_index per ls idx ->
  length xs' = length per ->
  (forall d, (d < length per)%nat ->
     wrap_coord Fops (nth d per false) (nth d (sp_range (if_spline g)) (0%float, 0%float)) (nth d (data_point ls idx) 0%float) = Ok (nth d xs' 0%float) /\
     double_finite (nth d xs' 0%float) /\ double_val (nth d xs' 0%float) = double_val (nth d (data_point ls idx) 0%float)) ->
  exists v, interp_eval Fops g (data_point ls idx) = Ok v /\ double_finite v /\
    Rabs (double_val v - double_val (nth (row_major dims idx) (m_data f) 0%float)) <=
      (INR (roundings order (length per)) * powerRZ 2 (-52) + INR (length per) * (INR order + INR M * G) * powerRZ 2 (-49)) * C + powerRZ 2 (-1030).
Proof. exact fit_computed. Qed.
Print Assumptions C76_value_at_data.

Example C76_example : 
  fit_template true true 3 fe_per fe_dims [fe_x; fe_y] fe_t 6 234 /\ m_dims fe_f = fe_dims /\ wf_mesh fe_f /\
  interpolate Fops true true fe_t fe_f = Ok fe_g /\ interp_make Fops true true 3 fe_per fe_f [Points fe_x; Points fe_y] = Ok fe_g /\
  0 <= 128 <= powerRZ 2 1000 /\
  (forall a, In a (m_data (sp_ctrl (if_spline fe_g))) -> double_finite a /\ Rabs (double_val a) <= 128) /\
  forall i j, (i < 6)%nat -> (j < 5)%nat -> data_index fe_per [fe_x; fe_y] [i; j] /\
    forall d, (d < length fe_per)%nat ->
      wrap_coord Fops (nth d fe_per false) (nth d (sp_range (if_spline fe_g)) (0%float, 0%float)) (nth d (data_point [fe_x; fe_y] [i; j]) 0%float) =
        Ok (nth d (data_point [fe_x; fe_y] [i; j]) 0%float) /\
      double_finite (nth d (data_point [fe_x; fe_y] [i; j]) 0%float).
Proof.
  exact (conj fe_fit (conj eq_refl (conj eq_refl (conj (proj1 (proj2 fe_made)) (conj (proj2 (proj2 fe_made)) (conj fe_128 (conj fe_ctrl
    (fun i j Hi Hj => conj (fe_index i j Hi Hj) (fe_wrap i j Hi Hj))))))))).
Qed.
