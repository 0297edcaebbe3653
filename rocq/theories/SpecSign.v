(** Negated data and data that compare equal, in doubles. *)
From Coq Require Import List Bool Floats.
From Verif Require Import Base Num FloatM MeshM InterpM.
Import ListNotations.

(** Two computations end in the same way, with results related by [P]. *)
Definition same_outcome {A B : Type} (P : A -> B -> Prop) (r : res A) (r' : res B) : Prop :=
  match r, r' with
  | Ok a, Ok b => P a b
  | Throw e, Throw e' => e = e'
  | Fault u, Fault u' => u = u'
  | _, _ => False
  end.

(** [b == -a], or both are NaN. *)
Definition opposite (a b : float) : Prop := PrimFloat.eqb b (PrimFloat.opp a) = true \/ is_nan a = true /\ is_nan b = true.
(** [b == a], or both are NaN; the zeros of both signs are equal. *)
Definition alike (a b : float) : Prop := PrimFloat.eqb b a = true \/ is_nan a = true /\ is_nan b = true.

(** Data of the same shape with values related by [P]. *)
Definition related_data (P : float -> float -> Prop) (f f' : mesh float) : Prop :=
  m_dims f = m_dims f' /\ Forall2 P (m_data f) (m_data f').

(** All values and derivatives, with and without boundary check, are related
    by [P]; if one of them throws, the other one does. *)
Definition related_functions (P : float -> float -> Prop) (on : bool) (g g' : interp float) : Prop :=
  forall xs,
    same_outcome P (interp_eval Fops g xs) (interp_eval Fops g' xs) /\
    same_outcome P (interp_at Fops g xs) (interp_at Fops g' xs) /\
    forall orders,
      same_outcome P (interp_derivative Fops on g xs orders) (interp_derivative Fops on g' xs orders) /\
      same_outcome P (interp_derivative_at Fops on g xs orders) (interp_derivative_at Fops on g' xs orders).
