(** Specification of B-splines, independent of the model. *)
From Coq Require Import List Arith Reals.
From Verif Require Import SpecMesh SpecBand.
Import ListNotations.
Open Scope R_scope.

(** Quotient with the convention of the Cox-de Boor formula: 0 for a zero
    denominator. *)
Definition frac (a b : R) : R := if Req_EM_T b 0 then 0 else a / b.

(** Cox-de Boor recursion over the knots [t 0 <= t 1 <= ...]; [base] gives the
    functions of degree 0. *)
Fixpoint cox (base : nat -> R) (t : nat -> R) (p i : nat) (x : R) : R :=
  match p with
  | O => base i
  | S q => frac (x - t i) (t (i + p)%nat - t i) * cox base t q i x
           + frac (t (i + p + 1)%nat - x) (t (i + p + 1)%nat - t (i + 1)%nat) * cox base t q (i + 1) x
  end.

(** The B-spline basis function of degree [p]: degree 0 is the indicator of
    [t i <= x < t (i+1)]. *)
Definition bspline (t : nat -> R) (p i : nat) (x : R) : R :=
  cox (fun i => if Rle_dec (t i) x then if Rlt_dec x (t (i + 1)%nat) then 1 else 0 else 0) t p i x.

(** The polynomial that the basis function coincides with on the segment
    [t k, t (k+1)). *)
Definition piece (t : nat -> R) (k p i : nat) (x : R) : R :=
  cox (fun i => if Nat.eqb i k then 1 else 0) t p i x.

(** Knot vectors as functions. *)
Definition kn (l : list R) (i : nat) : R := nth i l 0.

Definition nondecreasing (l : list R) : Prop :=
  forall i j, (i <= j < length l)%nat -> kn l i <= kn l j.

(** [k] is the segment responsible for [x]: the one containing it, the first
    one ([lo]) for x on the left of the range and the last one ([hi]) on the right. *)
Definition segment (t : nat -> R) (lo hi : nat) (x : R) (k : nat) : Prop :=
  (lo <= k <= hi)%nat /\ t k < t (k + 1)%nat /\
  (k = lo \/ t k <= x) /\ (k = hi \/ x < t (k + 1)%nat).

(** Tensor-product combination: one (number of functions, value of the i-th
    function) pair per dimension; [c] are the coefficients. *)
Fixpoint tensor (bs : list (nat * (nat -> R))) (c : list nat -> R) : R :=
  match bs with
  | [] => c []
  | (m, b) :: bs => Rsum m (fun i => b i * tensor bs (fun idx => c (i :: idx)))
  end.
