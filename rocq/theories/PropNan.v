(** Properties: NaN in control points and coordinates. *)
From Coq Require Import List Arith Bool Floats ZArith.
From Verif Require Import Base Num FloatM MeshM SplineM CellM InterpM SpecMesh MeshProofs SpecSplineObj SpecInterp SplineCons SplineFinal PropRoundEx SafeTop NanProofs NanFun PropNanEx.
Import ListNotations.

(** C110: a NaN among the control points attached to the segments of the
    point makes the value NaN (by C46 the others have no influence). *)
Theorem C110_control s xs hints iters idx :
  wf_spline s -> length xs = sp_dim s -> hints_ok s hints ->
  get_knot_iters Fops s (combine xs hints) = Ok iters -> valid (m_dims (sp_ctrl s)) idx ->
  (forall d, d < sp_dim s -> attached s d (snd (nth d iters (zero, 0))) (nth d idx 0)) ->
  is_nan (ctrl_at Fops s idx) = true ->
  exists v, spline_eval Fops s (combine xs hints) = Ok v /\ is_nan v = true.
Proof. exact (fun W L H => nan_control s xs hints W L H iters idx). Qed.
Print Assumptions C110_control.
(** The control point (2, 1) is NaN: the value at (3/2, 0) is NaN, although the
    weight of the control point is zero there; at (1/2, 5/2) it is not. *)
Example C110_control_example :
  wf_spline nan_spline /\ hints_ok nan_spline [1; 1] /\
  get_knot_iters Fops nan_spline (combine [1.5; 0]%float [1; 1]) = Ok [(1.5%float, 2); (0%float, 1)] /\ valid (m_dims (sp_ctrl nan_spline)) [2; 1] /\
  (forall d, d < sp_dim nan_spline -> attached nan_spline d (nth d [2; 1] 0) (nth d [2; 1] 0)) /\
  is_nan (ctrl_at Fops nan_spline [2; 1]) = true /\
  spline_eval Fops nan_spline (combine [0.5; 2.5]%float [1; 1]) = Ok 2.5%float.
Proof. exact ex_nan. Qed.

(** A coordinate that is NaN, or infinite in a periodic dimension, makes the
    value NaN. *)
Theorem C110_coordinate s xs hints d :
  wf_spline s -> length xs = sp_dim s -> hints_ok s hints -> 1 <= sp_order s -> d < sp_dim s ->
  is_nan (nth d xs zero) = true \/ per_of s d = true /\ is_infinity (nth d xs zero) = true ->
  exists v, spline_eval Fops s (combine xs hints) = Ok v /\ is_nan v = true.
Proof. exact (fun W L H => nan_coordinate s xs hints W L H d). Qed.
Print Assumptions C110_coordinate.
Example C110_coordinate_example :
  1 <= sp_order (ex_spline FZ) /\ per_of (ex_spline FZ) 1 = true /\ is_infinity (nth 1 [0.5; infinity]%float zero) = true /\
  exists v, spline_eval Fops (ex_spline FZ) (combine [0.5; infinity]%float [1; 1]) = Ok v /\ is_nan v = true.
Proof. split; [exact (le_n 1)|]. split; [reflexivity|]. split; [reflexivity|]. eexists. split; vm_compute; reflexivity. Qed.
(** In an order 0 spline a NaN coordinate is not noticed. *)
Example C110_order_zero_example : exists v, spline_eval Fops (mkSpline 0 [false] [[0; 1; 2]]%float (mkMesh [2] [5; 7]%float) [(0, 2)]%float) [(nan, 0)] = Ok v /\ is_nan v = false.
Proof. eexists. split; vm_compute; reflexivity. Qed.

(** The same with the cell layout (INTP_CELL_LAYOUT); in periodic dimensions
    with the number of knots of an odd order, as in C35_any_arithmetic. *)
Theorem C110_cells on s xs hints iters :
  wf_spline s -> length xs = sp_dim s -> hints_ok s hints -> 1 <= sp_dim s ->
  (forall d, d < sp_dim s -> per_of s d = true -> length (knot_of s d) = num_of s d + 2 * sp_order s + 1) ->
  get_knot_iters Fops s (combine xs hints) = Ok iters ->
  (exists idx, valid (m_dims (sp_ctrl s)) idx /\
     (forall d, d < sp_dim s -> attached s d (snd (nth d iters (zero, 0))) (nth d idx 0)) /\ is_nan (ctrl_at Fops s idx) = true) \/
  (exists d, 1 <= sp_order s /\ d < sp_dim s /\
     (is_nan (nth d xs zero) = true \/ per_of s d = true /\ is_infinity (nth d xs zero) = true)) ->
  exists s' v, load_cells Fops on s (sp_ctrl s) = Ok s' /\ cell_eval Fops on s' (combine xs hints) = Ok v /\ is_nan v = true.
Proof. exact (cell_nan on s xs hints iters). Qed.
Print Assumptions C110_cells.
Example C110_cells_example :
  (forall d, d < sp_dim nan_spline -> per_of nan_spline d = true -> length (knot_of nan_spline d) = num_of nan_spline d + 2 * sp_order nan_spline + 1) /\
  exists v, bind (load_cells Fops true nan_spline (sp_ctrl nan_spline)) (fun s' => cell_eval Fops true s' (combine [1.5; 0]%float [1; 1])) = Ok v /\ is_nan v = true.
Proof. split; [exact nan_counts|]. eexists. split; vm_compute; reflexivity. Qed.

(** Interpolation functions: construction as in C63_evaluation_double. *)
Theorem C110_function on nd p per dims ranges f g xs d :
  sized_input nd p per dims ranges -> m_dims f = dims -> wf_mesh f ->
  (on = false -> forall d, by_points ranges d -> nth d per false = true) ->
  interp_make Fops on nd p per f ranges = Ok g ->
  length xs = length per -> below_two64 g xs -> 1 <= p -> d < length per ->
  is_nan (nth d xs zero) = true \/ nth d per false = true /\ is_infinity (nth d xs zero) = true ->
  exists v, interp_eval Fops g xs = Ok v /\ is_nan v = true.
Proof. exact (nan_function on nd p per dims ranges f g xs d). Qed.
Print Assumptions C110_function.
(** The bounds check of at() does not refuse NaN. *)
Example C110_function_example : exists g v,
  interp_make Fops true false 3 [false] (mkMesh [5] [1; 2; 4; 8; 16]%float) SafeTop.unit_grid = Ok g /\
  below_two64 g [nan] /\ interp_at Fops g [nan] = Ok v /\ is_nan v = true.
Proof.
  eexists. eexists. split; [vm_compute; reflexivity|].
  split; [intros [|d] Hd; try (exfalso; exact (Nat.nlt_0_r _ (proj2 (Nat.succ_lt_mono _ _) Hd))); intros _; vm_compute; reflexivity|].
  split; vm_compute; reflexivity.
Qed.
