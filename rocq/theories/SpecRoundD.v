(** Vocabulary for statements about rounding errors of derivatives. *)
From Coq Require Import Reals List.
From Verif Require Import Base Num MeshM SplineM SpecSpline SpecSplineObj SpecRound.
Local Open Scope R_scope.

(** [ns] are the orders of the derivative, one for each dimension. *)
Definition order_sum (ns : list nat) : nat := fold_right Nat.add 0%nat ns.

(** The shortest segments: every non-empty segment of dimension [d] inside the
    range has at least the length [gap d]. *)
Definition gaps {T : Type} (val : T -> R) (s : spline T) (gap : nat -> R) : Prop :=
  forall d i, (d < sp_dim s)%nat -> (sp_order s <= i <= last_of s d)%nat ->
    let t := kn (map val (knot_of s d)) in t i < t (i + 1)%nat -> gap d <= t (i + 1)%nat - t i.

(** One differentiation multiplies control points by at most
    [2 * order / gap]; this is the factor for all of them. *)
Definition slope (order : nat) (gap : nat -> R) (ns : list nat) : R :=
  fold_right Rmult 1 (map (fun d => (2 * INR order / gap d) ^ nth d ns 0%nat) (seq 0 (length ns))).

(** Largest control point computed for a derivative of total order [m], [b]
    being the largest in exact arithmetic and [Lam] the largest factor. *)
Definition derived_bound (u eta g Lam : R) (m : nat) (b : R) : R :=
  (1 + 5 * u) ^ m * b + INR m * (eta * (17/15) / g + eta) * ((1 + 5 * u) * Lam) ^ m.

(** Derivatives of small integers are computed with exact factors, and
    products with zero are zero. *)
Record small_exact {T : Type} (o : ops T) (val : T -> R) (good : T -> Prop) (n : nat) : Prop := {
  se_nat : forall k, (k <= n)%nat -> good (onat o k) /\ val (onat o k) = INR k;
  se_zero : forall a b, good a -> good b -> val a = 0 \/ val b = 0 -> good (omul o a b) /\ val (omul o a b) = 0;
}.
