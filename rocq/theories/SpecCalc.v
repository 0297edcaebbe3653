(** Calculus of functions of several variables, independent of the model. *)
From Coq Require Import List Arith Reals.
From Coquelicot Require Import Coquelicot.
Import ListNotations.
Open Scope R_scope.

(** [v] is the mixed partial derivative of [f] at [xs], of order [nth d as 0]
    in variable [d]; all the intermediate derivatives exist. *)
Fixpoint is_mixed (orders : list nat) (f : list R -> R) (xs : list R) (v : R) : Prop :=
  match orders, xs with
  | a :: orders, x :: xs =>
      exists g : R -> R,
        locally x (fun y => is_mixed orders (fun l => f (y :: l)) xs (g y)) /\
        is_derive_n g a x v
  | _, _ => f [] = v
  end.

(** Joint continuity at [xs]. *)
Definition continuous_at (f : list R -> R) (xs : list R) : Prop :=
  forall eps, 0 < eps -> exists delta, 0 < delta /\
    forall ys, length ys = length xs ->
      (forall d, (d < length xs)%nat -> Rabs (nth d ys 0 - nth d xs 0) < delta) ->
      Rabs (f ys - f xs) < eps.
