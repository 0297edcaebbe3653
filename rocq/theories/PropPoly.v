(** C81, C82: polynomials and splines over the same knots are reproduced.
    Properties only; the proofs are in PolyProofs. *)
From Coq Require Import List Arith Bool ZArith QArith Reals.
From Verif Require Import Base Num MeshM SplineM InterpM SpecMesh SpecInterp SpecSplineObj SpecPoly MeshProofs PolyProofs PropInterpEx PropPolyEx.
Import ListNotations.
Open Scope R_scope.

(** C81: data of a polynomial of degree at most the order in each non-periodic
    coordinate give the polynomial and its derivatives, everywhere. *)
Theorem C81_polynomial_data : forall on nd p per dims ranges f g l,
  good_input nd p per dims ranges -> m_dims f = dims -> wf_mesh f -> of_degree p per l ->
  (forall idx, valid dims idx -> val_at f idx = polynomial l (grid_point nd per dims ranges idx)) ->
  interp_make Rops on nd p per f ranges = Ok g ->
  forall xs orders, length xs = length per -> length orders = length per -> countable_point nd per dims ranges xs ->
    interp_eval Rops g xs = Ok (polynomial l xs) /\
    interp_derivative Rops on g xs orders = Ok (polynomial_derivative orders l xs).
Proof. exact polynomial_data. Qed.
Print Assumptions C81_polynomial_data.
Example C81_example : (* x^3 y^2 - 2 x y + 5, order 3 *)
  good_input false 3 [false; false] gdims (gx IZR) /\ of_degree 3 [false; false] poly2 /\
  (forall idx, valid gdims idx -> val_at (gpoly IZR) idx = polynomial poly2 (grid_point false [false; false] gdims (gx IZR) idx)) /\
  (exists g, interp_make Rops true false 3 [false; false] (gpoly IZR) (gx IZR) = Ok g) /\
  countable_point false [false; false] gdims (gx IZR) [7; -1].
Proof. exact ex_poly. Qed.
Example C81_example_periodic : (* x^3 - 2 x, second dimension periodic *)
  good_input false 3 [false; true] gdims (gx IZR) /\ of_degree 3 [false; true] poly1 /\
  (forall idx, valid gdims idx -> val_at (gpoly1 IZR) idx = polynomial poly1 (grid_point false [false; true] gdims (gx IZR) idx)) /\
  (exists g, interp_make Rops true false 3 [false; true] (gpoly1 IZR) (gx IZR) = Ok g).
Proof. exact ex_poly1. Qed.
Example C81_example_run : (* 343 + 14 + 5 outside the grid, 8 * 1/4 - 2 + 5 inside *)
  evals (interp_make Qops true false 3 [false; false] (gpoly inject_Z) (gx inject_Z)) [[7; -1]; [2; 1#2]]%Q = Ok [362; 5]%Q.
Proof. vm_compute. reflexivity. Qed.

(** C82: values of a spline over the knots of the interpolation give back that
    spline, control points included. *)
Theorem C82_spline_samples : forall on nd p per dims ranges f g s0,
  good_input nd p per dims ranges -> m_dims f = dims -> wf_mesh f ->
  interp_make Rops on nd p per f ranges = Ok g ->
  sp_order s0 = sp_order (if_spline g) -> sp_per s0 = sp_per (if_spline g) -> sp_knots s0 = sp_knots (if_spline g) ->
  sp_range s0 = sp_range (if_spline g) -> m_dims (sp_ctrl s0) = m_dims (sp_ctrl (if_spline g)) -> wf_mesh (sp_ctrl s0) ->
  (forall idx, valid dims idx -> spline_eval_plain Rops s0 (grid_point nd per dims ranges idx) = Ok (val_at f idx)) ->
  if_spline g = s0.
Proof. exact spline_samples. Qed.
Print Assumptions C82_spline_samples.
Example C82_example : exists g,
  interp_make Rops true false 3 [false; false] (gdata IZR) (gx IZR) = Ok g /\
  wf_mesh (sp_ctrl (if_spline g)) /\
  forall idx, valid gdims idx ->
    spline_eval_plain Rops (if_spline g) (grid_point false [false; false] gdims (gx IZR) idx) = Ok (val_at (gdata IZR) idx).
Proof. exact ex_samples. Qed.
Example C82_example_run : (* values of the cubic at 0, 1, 3, 4 *)
  mapM (fun x => spline_eval_plain Qops qcubic [x]) [0; 1; 3; 4]%Q = Ok [1; 43#32; 77#32; 5]%Q /\
  match interp_make Qops true false 3 [false] (mesh_of_list [1; 43#32; 77#32; 5]%Q) [Points [0; 1; 3; 4]%Q] with
  | Ok g => if_spline g = qcubic
  | _ => False
  end.
Proof. split; vm_compute; reflexivity. Qed.
