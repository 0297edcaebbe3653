(** Properties: signs of values computed in doubles. *)
From Coq Require Import Reals List Bool Floats ZArith.
From Verif Require Import Base Num FloatM MeshM SplineM CellM MeshProofs SpecSpline SpecSplineObj SpecRound SplineCons SplineFinal PropRoundEx SpecPositive PositiveProofs PositiveCell PropPositiveEx.
Import ListNotations.
Open Scope R_scope.

(** C109: with control points that are not negative, the value computed in
    doubles at a point of the domain is not negative either: rounding,
    underflow and overflow do not produce a wrong sign. *)
Theorem C109_not_negative s xs xs' hints :
  wf_spline s -> sorted_doubles s -> in_domain s xs xs' -> hints_ok s hints ->
  (forall c, In c (m_data (sp_ctrl s)) -> not_negative c) ->
  exists v, spline_eval Fops s (combine xs hints) = Ok v /\ not_negative v.
Proof. exact (sign_positive s xs xs' hints). Qed.
Print Assumptions C109_not_negative.
Example C109_not_negative_example :
  wf_spline pe_spline /\ sorted_doubles pe_spline /\ in_domain pe_spline [0.5; 2.5]%float [0.5; 0.5]%float /\ hints_ok pe_spline [1; 1]%nat /\
  (forall c, In c (m_data (sp_ctrl pe_spline)) -> not_negative c) /\
  spline_eval Fops pe_spline (combine [0.5; 2.5]%float [1; 1]%nat) = Ok 0x1p1021%float.
Proof.
  exact (conj (pe_wf pe_ctrl eq_refl eq_refl) (conj (pe_sorted pe_ctrl) (conj (pe_domain pe_ctrl) (conj (pe_hints pe_ctrl) (conj pe_nonneg eq_refl))))).
Qed.
(** Outside the domain the extrapolated value can be negative. *)
Example C109_outside_example : exists v, spline_eval Fops (ex_spline FZ) (combine [-1; 0.5]%float [1; 1]%nat) = Ok v /\ PrimFloat.ltb v zero = true.
Proof. eexists. split; vm_compute; reflexivity. Qed.

(** The same with the signs exchanged. *)
Theorem C109_not_positive s xs xs' hints :
  wf_spline s -> sorted_doubles s -> in_domain s xs xs' -> hints_ok s hints ->
  (forall c, In c (m_data (sp_ctrl s)) -> not_positive c) ->
  exists v, spline_eval Fops s (combine xs hints) = Ok v /\ not_positive v.
Proof. exact (sign_negative s xs xs' hints). Qed.
Print Assumptions C109_not_positive.
Example C109_not_positive_example :
  wf_spline pe_minus /\ sorted_doubles pe_minus /\ in_domain pe_minus [0.5; 2.5]%float [0.5; 0.5]%float /\ hints_ok pe_minus [1; 1]%nat /\
  (forall c, In c (m_data (sp_ctrl pe_minus)) -> not_positive c) /\
  spline_eval Fops pe_minus (combine [0.5; 2.5]%float [1; 1]%nat) = Ok (-1.25)%float.
Proof.
  exact (conj (pe_wf pe_ctrl_minus eq_refl eq_refl) (conj (pe_sorted pe_ctrl_minus) (conj (pe_domain pe_ctrl_minus) (conj (pe_hints pe_ctrl_minus) (conj pe_nonpos eq_refl))))).
Qed.

(** The same for the values computed from the cell layout (INTP_CELL_LAYOUT),
    which multiplies in another order; in periodic dimensions with the number
    of knots of an odd order, as in C35_any_arithmetic. *)
Theorem C109_cells on s xs xs' hints :
  wf_spline s -> (1 <= sp_dim s)%nat -> sorted_doubles s -> in_domain s xs xs' -> hints_ok s hints ->
  (forall d, (d < sp_dim s)%nat -> per_of s d = true -> length (knot_of s d) = (num_of s d + 2 * sp_order s + 1)%nat) ->
  exists s', load_cells Fops on s (sp_ctrl s) = Ok s' /\
    ((forall c, In c (m_data (sp_ctrl s)) -> not_negative c) -> exists v, cell_eval Fops on s' (combine xs hints) = Ok v /\ not_negative v) /\
    ((forall c, In c (m_data (sp_ctrl s)) -> not_positive c) -> exists v, cell_eval Fops on s' (combine xs hints) = Ok v /\ not_positive v).
Proof. exact (cell_signs on s xs xs' hints). Qed.
Print Assumptions C109_cells.
Example C109_cells_example :
  (forall d, (d < sp_dim pe_minus)%nat -> per_of pe_minus d = true -> length (knot_of pe_minus d) = (num_of pe_minus d + 2 * sp_order pe_minus + 1)%nat) /\
  bind (load_cells Fops true pe_minus (sp_ctrl pe_minus)) (fun s' => cell_eval Fops true s' (combine [0.5; 2.5]%float [1; 1]%nat)) = Ok (-1.25)%float.
Proof. exact (conj pe_counts eq_refl). Qed.
