(** Property theorems about the cell layout (INTP_CELL_LAYOUT) and evaluation
    proxies. *)
From Coq Require Import List Arith Bool ZArith QArith Reals.
From Verif Require Import SplineCons PropSplineEx.
From Verif Require Import Base Num MeshM SplineM InterpM CellM SpecMesh SpecBand SpecSpline SpecSplineObj SpecInterp
  MeshProofs SplineProofs SafeProofs SplineFinal CellFinal PropInterpEx PropCellEx.
Import ListNotations.
Local Open Scope R_scope.

(** C35: functions built with the cell layout exist and have the same values
    and derivatives; for even orders the theorem leaves out coordinates of
    periodic dimensions that are below the range by a whole number of
    periods. *)
Theorem C35_same_function_partial : forall on nd p per dims ranges f g,
  good_input nd p per dims ranges -> m_dims f = dims -> wf_mesh f -> interp_make Rops on nd p per f ranges = Ok g ->
  exists gc, cell_interp_make Rops on nd p per f ranges = Ok gc /\
    forall xs orders, length xs = length per -> length orders = length per -> countable_point nd per dims ranges xs ->
      Nat.odd p = true \/ off_period per (sp_range (if_spline g)) xs ->
      cell_interp_eval Rops on gc xs = interp_eval Rops g xs /\
      cell_interp_derivative Rops on gc xs orders = interp_derivative Rops on g xs orders.
Proof. exact cell_same. Qed.
Print Assumptions C35_same_function_partial.
(** There evaluation leaves the cell storage. *)
Theorem C35_even_order_refuted : exists g gc,
  interp_make Qops true false 2 [true] (cells1 inject_Z) [Uniform 0 5]%Q = Ok g /\
  cell_interp_make Qops true false 2 [true] (cells1 inject_Z) [Uniform 0 5]%Q = Ok gc /\
  (exists v, interp_eval Qops g [-11 # 2]%Q = Ok v) /\ cell_interp_eval Qops true gc [-11 # 2]%Q = Fault OutOfBounds.
Proof. exact cell_witness. Qed.
Print Assumptions C35_even_order_refuted.
(** Splines in any arithmetic (NaN and rounding included) with the number of
    knots of an odd order in periodic dimensions: evaluation stays inside the
    cell storage and derivatives are the same, to the last bit. *)
Theorem C35_any_arithmetic : forall (T : Type) (o : ops T) on s xs hints orders,
  divides o -> wf_spline s -> (1 <= sp_dim s)%nat -> length xs = sp_dim s -> hints_ok s hints -> length orders = sp_dim s ->
  (forall d, (d < sp_dim s)%nat -> per_of s d = true -> length (knot_of s d) = (num_of s d + 2 * sp_order s + 1)%nat) ->
  exists s', load_cells o on s (sp_ctrl s) = Ok s' /\
    ((exists v, cell_eval o on s' (combine xs hints) = Ok v) \/ cell_eval o on s' (combine xs hints) = Fault DivByZero) /\
    cell_derivative_at o on s' (combine (combine xs hints) orders) =
      spline_derivative_at o on s (combine (combine xs hints) orders).
Proof. exact @cell_any. Qed.
Print Assumptions C35_any_arithmetic.
Example C35_example :
  good_input false 3 [false; true] gdims (gx IZR) /\ Nat.odd 3 = true /\ wf_mesh (gdata IZR) /\
  (exists t g, templ_make Rops true false 3 [false; true] gdims (gx IZR) = Ok t /\
     interpolate Rops true false t (gdata IZR) = Ok g).
Proof. exact (conj (good_gx 3 true (conj (le_S _ _ (le_S _ _ (le_n 1))) (le_n 3))) (conj eq_refl (conj eq_refl ex_cell))). Qed.
Example C35_example_even : off_period [false; true] [(0, 4); (- (1 / 2), 7 / 2)] [3; -2].
Proof. exact ex_off. Qed.
Example C35_example_any :
  divides Rops /\ wf_spline (ex_spline IZR) /\ hints_ok (ex_spline IZR) [1; 1]%nat /\
  per_of (ex_spline IZR) 1 = true /\
  length (knot_of (ex_spline IZR) 1) = (num_of (ex_spline IZR) 1 + 2 * sp_order (ex_spline IZR) + 1)%nat.
Proof. exact (conj R_divides (conj (ex_wf IZR) (conj (ex_hints 1 (or_introl eq_refl)) (conj eq_refl eq_refl)))). Qed.
Example C35_example_run : (* the points of C24_example_run and one more *)
  cell_evals (cell_interp_make Qops true false 3 [false; true] (gdata inject_Z) (gx inject_Z))
    [[3; 2]; [4; 4]; [4; 0]; [0; 7]; [2; 1#2]]%Q =
  evals (interp_make Qops true false 3 [false; true] (gdata inject_Z) (gx inject_Z))
    [[3; 2]; [4; 4]; [4; 0]; [0; 7]; [2; 1#2]]%Q.
Proof. vm_compute. reflexivity. Qed.

(** C36: a proxy made by a template or by a function and applied to a
    function made by the template; odd orders, or no periodic dimension but
    the first. *)
Theorem C36_proxy_partial : forall on nd p per dims ranges f t g,
  good_input nd p per dims ranges -> m_dims f = dims -> wf_mesh f -> templ_make Rops on nd p per dims ranges = Ok t ->
  interpolate Rops on nd t f = Ok g ->
  exists gc, cell_interpolate Rops on nd t f = Ok gc /\
    forall xs, length xs = length per -> countable_point nd per dims ranges xs ->
      Nat.odd p = true \/
      ((forall d, (1 <= d < length per)%nat -> nth d per false = false) /\ off_period per (sp_range (if_spline g)) xs) ->
      (pr <- templ_eval_proxy Rops t xs ;; use_proxy Rops pr gc) = interp_eval Rops g xs /\
      (pr <- eval_proxy Rops gc xs ;; use_proxy Rops pr gc) = interp_eval Rops g xs.
Proof. exact proxy_same. Qed.
Print Assumptions C36_proxy_partial.
(** Even order and two periodic dimensions: the proxy misses the data value
    6, and elsewhere reads outside the control points. *)
Theorem C36_even_order_refuted : exists t g gc,
  templ_make Qops true false 2 [true; true] (m_dims (cells2 inject_Z)) [Uniform 0 4; Uniform 0 5]%Q = Ok t /\
  interpolate Qops true false t (cells2 inject_Z) = Ok g /\
  cell_interpolate Qops true false t (cells2 inject_Z) = Ok gc /\
  (v <- interp_eval Qops g [1; 1]%Q ;; Ok (Qred v)) = Ok 6%Q /\
  (pr <- templ_eval_proxy Qops t [1; 1]%Q ;; v <- use_proxy Qops pr gc ;; Ok (Qred v)) = Ok 5%Q /\
  (pr <- templ_eval_proxy Qops t [5#2; 7#3]%Q ;; use_proxy Qops pr gc) = Fault OutOfBounds.
Proof. exact proxy_witness. Qed.
Print Assumptions C36_even_order_refuted.
Example C36_example :
  good_input false 3 [false; true] gdims (gx IZR) /\ Nat.odd 3 = true /\ countable_point false [false; true] gdims (gx IZR) [7; -1] /\
  exists t g, templ_make Rops true false 3 [false; true] gdims (gx IZR) = Ok t /\
     interpolate Rops true false t (gdata IZR) = Ok g.
Proof. exact (conj (good_gx 3 true (conj (le_S _ _ (le_S _ _ (le_n 1))) (le_n 3))) (conj eq_refl (conj ex_countable ex_cell))). Qed.
Example C36_example_run :
  (t <- templ_make Qops true false 3 [false; true] gdims (gx inject_Z) ;;
   g <- cell_interpolate Qops true false t (gdata inject_Z) ;;
   mapM (fun x => pr <- templ_eval_proxy Qops t x ;; v <- use_proxy Qops pr g ;; Ok (Qred v)) [[3; 2]; [4; 4]; [0; 7]; [2; 1#2]]%Q) =
  evals (interp_make Qops true false 3 [false; true] (gdata inject_Z) (gx inject_Z)) [[3; 2]; [4; 4]; [0; 7]; [2; 1#2]]%Q.
Proof. vm_compute. reflexivity. Qed.
