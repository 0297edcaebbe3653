(** Properties: the position hint in doubles. *)
From Coq Require Import List Arith Bool Floats ZArith.
From Verif Require Import Base Num FloatM MeshM SplineM InterpM SpecMesh MeshProofs SpecSpline SpecSplineObj SpecInterp SpecRound SplineCons SplineFinal PropRoundEx SafeTop SpecHint HintDouble PropHintEx.
Import ListNotations.

(** C111: values and derivatives computed in doubles are the same, to the last
    bit, for all hints and all coordinates (NaN and infinities included). *)
Theorem C111_hint on s xs h1 h2 orders :
  wf_spline s -> sorted_finite s -> length xs = sp_dim s -> length orders = sp_dim s -> hints_ok s h1 -> hints_ok s h2 ->
  spline_eval Fops s (combine xs h1) = spline_eval Fops s (combine xs h2) /\
  spline_derivative_at Fops on s (combine (combine xs h1) orders) = spline_derivative_at Fops on s (combine (combine xs h2) orders).
Proof. exact (hint_double on s xs h1 h2 orders). Qed.
Print Assumptions C111_hint.
Example C111_hint_example :
  wf_spline (ex_spline FZ) /\ sorted_finite (ex_spline FZ) /\ hints_ok (ex_spline FZ) [1; 1] /\ hints_ok (ex_spline FZ) [2; 2] /\
  spline_eval Fops (ex_spline FZ) (combine [0.5; 2.5]%float [1; 1]) = Ok 2.5%float /\
  spline_eval Fops (ex_spline FZ) (combine [0.5; 2.5]%float [2; 2]) = Ok 2.5%float.
Proof. exact ex_hint_double. Qed.
(** The order of the knots is needed: here, with knots 0 0 2 1 3 3, two valid
    hints give different values. *)
Example C111_unsorted_example :
  wf_spline unsorted_spline /\ hints_ok unsorted_spline [1] /\ hints_ok unsorted_spline [3] /\
  spline_eval Fops unsorted_spline (combine [1.5]%float [1]) = Ok 1.75%float /\
  spline_eval Fops unsorted_spline (combine [1.5]%float [3]) = Ok 5%float.
Proof. exact ex_hint_unsorted. Qed.

(** The hint an interpolation function computes from its uniform grids does
    not matter either: the value is that of the spline without hints. *)
Theorem C111_function on nd p per dims ranges f g xs :
  sized_input nd p per dims ranges -> m_dims f = dims -> wf_mesh f ->
  (on = false -> forall d, by_points ranges d -> nth d per false = true) ->
  interp_make Fops on nd p per f ranges = Ok g -> sorted_finite (if_spline g) ->
  length xs = length per -> below_two64 g xs ->
  interp_eval Fops g xs = spline_eval_plain Fops (if_spline g) xs.
Proof. exact (hint_function on nd p per dims ranges f g xs). Qed.
Print Assumptions C111_function.
Example C111_function_example : exists g v,
  sized_input false 3 [false] [5] SafeTop.unit_grid /\
  interp_make Fops true false 3 [false] (mkMesh [5] [1; 2; 4; 8; 16]%float) SafeTop.unit_grid = Ok g /\ sorted_finite (if_spline g) /\
  below_two64 g [0.8%float] /\
  interp_eval Fops g [0.8%float] = Ok v /\ spline_eval_plain Fops (if_spline g) [0.8%float] = Ok v.
Proof. exact ex_hint_function. Qed.
