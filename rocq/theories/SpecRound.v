(** Rounded arithmetic: what is assumed of the numbers in statements about
    rounding errors.  [val x] is the real number that [x] stands for, [good x]
    says that [x] is a number (neither infinite nor NaN).  Every operation
    gives the exact result up to a relative error [u]; products and quotients
    also have an absolute error [eta] (underflow); nothing is said of results
    beyond [big] (overflow). *)
From Coq Require Import Reals List Floats ZArith.
From Verif Require Import Base Num MeshM SplineM SpecMesh SpecBand SpecSpline SpecSplineObj.
Local Open Scope R_scope.

Record rounding {T : Type} (o : ops T) (val : T -> R) (good : T -> Prop) (u eta big : R) : Prop := {
  rd_u : 0 <= u <= / 16;
  rd_eta : 0 <= eta;
  rd_big : 16 <= big;
  rd_0 : good (o0 o) /\ val (o0 o) = 0;
  rd_1 : good (o1 o) /\ val (o1 o) = 1;
  rd_add : forall a b, good a -> good b -> Rabs (val a + val b) <= big ->
    good (oadd o a b) /\ Rabs (val (oadd o a b) - (val a + val b)) <= u * Rabs (val a + val b);
  rd_sub : forall a b, good a -> good b -> Rabs (val a - val b) <= big ->
    good (osub o a b) /\ Rabs (val (osub o a b) - (val a - val b)) <= u * Rabs (val a - val b);
  rd_mul : forall a b, good a -> good b -> Rabs (val a * val b) <= big ->
    good (omul o a b) /\ Rabs (val (omul o a b) - val a * val b) <= u * Rabs (val a * val b) + eta;
  rd_div : forall a b, good a -> good b -> val b <> 0 -> Rabs (val a / val b) <= big ->
    exists c, odiv o a b = Ok c /\ good c /\ Rabs (val c - val a / val b) <= u * Rabs (val a / val b) + eta;
  rd_le : forall a b, good a -> good b -> (ole o a b = true <-> val a <= val b);
  rd_lt : forall a b, good a -> good b -> (olt o a b = true <-> val a < val b);
}.

(** Doubles. *)
Definition double_val (x : float) : R :=
  match Prim2SF x with
  | S754_finite s m e => (if s then - 1 else 1) * IZR (Zpos m) * powerRZ 2 e
  | _ => 0
  end.
Definition double_finite (x : float) : Prop :=
  match Prim2SF x with S754_finite _ _ _ | S754_zero _ => True | _ => False end.

(** The bounds.  [order] is the order of the spline, [D] its dimension, [g]
    the length of its shortest segment, [C] the largest control point. *)
Definition basis_growth (u eta g : R) (order : nat) : R :=
  (1 + 7 * u) ^ order * (1 + INR order * (INR (order + 1) * (2 * (1 + u) * (eta * (17/15) / g + eta)))).
Definition coef_growth (u eta g : R) (order D : nat) : R :=
  ((1 + u) * basis_growth u eta g order) ^ D * (1 + INR ((order + 1) ^ D) * (INR D * eta)).
Definition value_bound (u eta g : R) (order D : nat) (C : R) : R :=
  (1 + u) ^ ((order + 1) ^ D) * ((1 + u) * (C * coef_growth u eta g order D) + INR ((order + 1) ^ D) * eta).

(** Number of roundings that reach the value of a spline of dimension [D]. *)
Definition roundings (order D : nat) : nat := ((order + 1) ^ D + 1 + D + 7 * order * D)%nat.

(** The spline with the numbers read as reals. *)
Definition real_spline {T : Type} (val : T -> R) (s : spline T) : spline R :=
  mkSpline (sp_order s) (sp_per s) (map (map val) (sp_knots s))
    (mkMesh (m_dims (sp_ctrl s)) (map val (m_data (sp_ctrl s))))
    (map (fun r => (val (fst r), val (snd r))) (sp_range s)).

(** A spline made of numbers: every knot and control point is a number, the
    control points are at most [C], every non-empty segment has at least the
    length [g], the knots do not spread over more than a quarter of [big]. *)
Record number_spline {T : Type} (val : T -> R) (good : T -> Prop) (big g C : R) (s : spline T) : Prop := {
  ns_real : good_spline (real_spline val s);
  ns_knots : forall l a, In l (sp_knots s) -> In a l -> good a;
  ns_ctrl : forall a, In a (m_data (sp_ctrl s)) -> good a /\ Rabs (val a) <= C;
  ns_gap : forall l i, In l (sp_knots s) -> (sp_order s <= i <= length l - sp_order s - 2)%nat ->
    kn (map val l) i < kn (map val l) (i + 1) -> g <= kn (map val l) (i + 1) - kn (map val l) i;
  ns_wide : forall l a b, In l (sp_knots s) -> In a l -> In b l -> val b - val a <= big / 4;
}.

(** Rounded arithmetic in which a result that is a number comes from operands
    that are numbers (an infinity or a NaN does not disappear again, except
    as a divisor) and overflow therefore shows in the result. *)
Record strict_rounding {T : Type} (o : ops T) (val : T -> R) (good : T -> Prop) (u eta : R) : Prop := {
  sr_u : 0 <= u <= / 16;
  sr_eta : 0 <= eta;
  sr_0 : good (o0 o) /\ val (o0 o) = 0;
  sr_sub : forall a b, good (osub o a b) -> good a /\ good b /\
    Rabs (val (osub o a b) - (val a - val b)) <= u * Rabs (val a - val b);
  sr_mul : forall a b, good (omul o a b) -> good a /\ good b /\
    Rabs (val (omul o a b) - val a * val b) <= u * Rabs (val a * val b) + eta;
  sr_div : forall a b, exists c, odiv o a b = Ok c /\
    (good b -> good c -> good a /\ val b <> 0 /\
       Rabs (val c - val a / val b) <= u * Rabs (val a / val b) + eta);
}.

(** The factors stored in one matrix: unit lower triangular and upper
    triangular. *)
Definition lower (F : nat -> nat -> R) (i j : nat) : R :=
  if Nat.ltb j i then F i j else if Nat.eqb j i then 1 else 0.
Definition upper (F : nat -> nat -> R) (i j : nat) : R := if Nat.leb i j then F i j else 0.

(** Growth of the relative error over [n] operations. *)
Definition solve_growth (u : R) (n : nat) : R := (1 + u / (1 - u)) ^ n - 1.

(** Bound of the residual in row [i] of a system of [n] equations solved with the
    factors [F], the result being [x]; the second part is underflow. *)
Definition residual_bound (u eta : R) (n : nat) (F : nat -> nat -> R) (x : nat -> R) (i : nat) : R :=
  let g := solve_growth u n in
  (3 * g + g * g) * Rsum n (fun k => Rabs (lower F i k) * Rsum n (fun j => Rabs (upper F k j) * Rabs (x j))) +
  INR n * (1 + g) * eta *
    (1 + (1 + g) * Rsum n (fun k => Rabs (lower F i k) * (1 + Rabs (F k k))) + Rsum n (fun j => Rabs (x j) * (1 + Rabs (F j j)))).

(** The same in doubles, for up to 2^40 equations. *)
Definition double_residual (n : nat) (F : nat -> nat -> R) (x : nat -> R) (i : nat) : R :=
  INR n * powerRZ 2 (-51) * Rsum n (fun k => Rabs (lower F i k) * Rsum n (fun j => Rabs (upper F k j) * Rabs (x j))) +
  INR n * powerRZ 2 (-1074) *
    (1 + 2 * Rsum n (fun k => Rabs (lower F i k) * (1 + Rabs (F k k))) + Rsum n (fun j => Rabs (x j) * (1 + Rabs (F j j)))).

(** A list of [len] doubles that are numbers, the [k]-th within [e] of [K k]. *)
Definition knots_near (t : list float) (len : nat) (K : nat -> R) (e : R) : Prop :=
  length t = len /\
  forall k, (k < len)%nat -> double_finite (nth k t 0%float) /\ Rabs (double_val (nth k t 0%float) - K k) <= e.
