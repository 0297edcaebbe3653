(** Polynomials in several variables, independent of the model. *)
From Coq Require Import List Arith Bool Reals.
Import ListNotations.
Open Scope R_scope.

(** e (e-1) ... (e-k+1): factor of the k-th derivative of x^e; 0 for k > e. *)
Fixpoint falling (e k : nat) : R := match k with O => 1 | S k => falling e k * INR (e - k) end.

(** The mixed derivative of orders k(0), k(1), ... of x(0)^e(0) x(1)^e(1) ... *)
Fixpoint monomial_derivative (k e : list nat) (x : list R) : R :=
  match k, e, x with
  | k0 :: k, e0 :: e, x0 :: x => falling e0 k0 * x0 ^ (e0 - k0) * monomial_derivative k e x
  | _, _, _ => 1
  end.

(** The mixed derivative of the sum of a * x^e over the pairs (a, e) of [l]. *)
Definition polynomial_derivative (k : list nat) (l : list (R * list nat)) (x : list R) : R :=
  fold_right (fun m s => fst m * monomial_derivative k (snd m) x + s) 0 l.

(** x(0)^e(0) x(1)^e(1) ... and the sum of a * x^e. *)
Fixpoint monomial (e : list nat) (x : list R) : R :=
  match e, x with e0 :: e, x0 :: x => x0 ^ e0 * monomial e x | _, _ => 1 end.
Definition polynomial (l : list (R * list nat)) (x : list R) : R :=
  fold_right (fun m s => fst m * monomial (snd m) x + s) 0 l.

(** Degree at most [p] in every non-periodic variable, and not depending on the
    periodic ones. *)
Definition of_degree (p : nat) (per : list bool) (l : list (R * list nat)) : Prop :=
  Forall (fun m => length (snd m) = length per /\
    forall d, (d < length per)%nat -> (nth d (snd m) 0 <= if nth d per false then 0 else p)%nat) l.
