(** Specification of grids and knot vectors of interpolation functions,
    independent of the model. *)
From Coq Require Import List Arith Bool ZArith Reals.
From Verif Require Import Num MeshM SpecMesh SpecBand InterpM.
Import ListNotations.
Open Scope R_scope.

(** Mean of g(0), ..., g(p-1). *)
Definition mean (p : nat) (g : nat -> R) : R := Rsum p g / INR p.

(** Knots of a non-periodic dimension with data at x(0) < ... < x(n-1):
    order+1 copies of the end points and means of [order] consecutive
    coordinates (midpoints for order 0). *)
Definition ap_knot (order n : nat) (x : nat -> R) (i : nat) : R :=
  if (i <=? order)%nat then x 0%nat
  else if (i <? n)%nat then
    if (order =? 0)%nat then (x (i - 1)%nat + x i) / 2
    else mean order (fun j => x (i - order + j)%nat)
  else x (n - 1)%nat.

(** Continuation of x(0), ..., x(n-1) with period P: x(i + n) = x(i) + P. *)
Definition pext (n : nat) (P : R) (x : nat -> R) (i : nat) : R :=
  x (i mod n)%nat + INR (i / n) * P.

(** Knots of a periodic dimension with n data points per period P
    (order < n): the data points for odd order, midpoints for even order,
    starting [order] points before x(0). *)
Definition per_knot (order n : nat) (P : R) (x : nat -> R) (i : nat) : R :=
  if Nat.even order
  then (pext n P x (i + n - order - 1) + pext n P x (i + n - order)) / 2 - P
  else pext n P x (i + n - order) - P.

(** The data coordinates described by a range argument, for [m] points (with
    the repeated end point of a periodic dimension). *)
Definition grid_of (r : xrange R) (m i : nat) : R :=
  match r with
  | Uniform a b => a + INR i * ((b - a) / INR (m - 1))
  | Points l => nth i l 0
  end.

(** Strictly increasing coordinates. *)
Definition increasing (m : nat) (x : nat -> R) : Prop :=
  forall i j, (i < j < m)%nat -> x i < x j.

(** Number of different data points of a dimension with [n] values: the last
    value of a periodic dimension repeats the first one, unless
    INTP_PERIODIC_NO_DUMMY_POINT ([nd]) is defined. *)
Definition distinct (nd per : bool) (n : nat) : nat := if per && negb nd then (n - 1)%nat else n.

(** Number of coordinates: a periodic dimension has one more, the first
    point of the next period. *)
Definition coords_num (nd per : bool) (n : nat) : nat :=
  if per then (distinct nd per n + 1)%nat else n.

(** Preconditions on one dimension: enough points for the order, coordinates
    strictly increasing, as many coordinates as values (order 0 is not
    supported for non-periodic lists of points). *)
Definition good_dim (nd : bool) (p : nat) (per : bool) (n : nat) (r : xrange R) : Prop :=
  (p + 1 <= distinct nd per n)%nat /\ (2 <= coords_num nd per n)%nat /\
  match r with
  | Uniform a b => a < b
  | Points l => length l = coords_num nd per n /\ increasing (length l) (fun i => nth i l 0) /\
                (per = false -> (1 <= p)%nat)
  end.

(** The sizes only, for coordinates of any type. *)
Definition sized_dim {T} (nd : bool) (p : nat) (per : bool) (n : nat) (r : xrange T) : Prop :=
  (p + 1 <= distinct nd per n)%nat /\
  match r with
  | Uniform _ _ => True
  | Points l => length l = coords_num nd per n /\ (per = false -> (1 <= p)%nat)
  end.
Definition sized_input {T} (nd : bool) (p : nat) (per : list bool) (dims : list nat) (ranges : list (xrange T)) : Prop :=
  per <> [] /\ length dims = length per /\ length ranges = length per /\
  forall d, (d < length per)%nat ->
    sized_dim nd p (nth d per false) (nth d dims 0%nat) (nth d ranges (Points [])).

(** Dimension [d] is given by a list of points. *)
Definition by_points {T} (ranges : list (xrange T)) (d : nat) : Prop :=
  exists l, nth_error ranges d = Some (Points l).

(** Preconditions on the constructor arguments: periodicity flags, numbers of
    values and ranges for the same, positive number of dimensions. *)
Definition good_input (nd : bool) (p : nat) (per : list bool) (dims : list nat) (ranges : list (xrange R)) : Prop :=
  per <> [] /\ length dims = length per /\ length ranges = length per /\
  forall d, (d < length per)%nat ->
    good_dim nd p (nth d per false) (nth d dims 0%nat) (nth d ranges (Points [])).

(** Coordinate [i] of dimension [d]. *)
Definition coordinate (nd : bool) (per : list bool) (dims : list nat) (ranges : list (xrange R)) (d i : nat) : R :=
  grid_of (nth d ranges (Points [])) (coords_num nd (nth d per false) (nth d dims 0%nat)) i.

(** The grid point with multi-index [idx]. *)
Definition grid_point (nd : bool) (per : list bool) (dims : list nat) (ranges : list (xrange R)) (idx : list nat) : list R :=
  map (fun d => coordinate nd per dims ranges d (nth d idx 0%nat)) (seq 0 (length per)).

(** The grid point's representative in the first period (the repeated end
    point of a periodic dimension stands for the first one). *)
Definition representative (nd : bool) (per : list bool) (dims : list nat) (idx : list nat) : list nat :=
  map (fun d => if nth d per false then (nth d idx 0 mod distinct nd true (nth d dims 0))%nat else nth d idx 0%nat)
      (seq 0 (length per)).

(** Coordinates for which the number of grid steps fits [std::size_t]; the
    hint computation casts it. *)
Definition countable (r : xrange R) (m : nat) (x : R) : Prop :=
  match r with
  | Uniform a b => x < a + IZR (two64 - 1) * ((b - a) / INR (m - 1))
  | Points _ => True
  end.
Definition countable_point (nd : bool) (per : list bool) (dims : list nat) (ranges : list (xrange R)) (xs : list R) : Prop :=
  forall d, (d < length per)%nat ->
    countable (nth d ranges (Points [])) (coords_num nd (nth d per false) (nth d dims 0%nat)) (nth d xs 0).

(** Value of a mesh at a multi-index. *)
Definition val_at (f : mesh R) (idx : list nat) : R := nth (row_major (m_dims f) idx) (m_data f) 0.

(** Dimensions for which the linear system is known to be solvable without
    pivoting: non-periodic ones, periodic ones on equally spaced points, or of
    order up to 3. *)
Definition solvable (p : nat) (per : list bool) (ranges : list (xrange R)) : Prop :=
  forall d, (d < length per)%nat ->
    nth d per false = false \/ (p <= 3)%nat \/
    (exists a b, nth d ranges (Points []) = Uniform a b).

(** Two range arguments describe the same coordinates. *)
Definition same_grid (nd : bool) (per : list bool) (dims : list nat) (ranges ranges' : list (xrange R)) : Prop :=
  forall d i, (d < length per)%nat -> (i < coords_num nd (nth d per false) (nth d dims 0%nat))%nat ->
    coordinate nd per dims ranges d i = coordinate nd per dims ranges' d i.

(** Numbers of values that fit [std::size_t]. *)
Definition small_dims (dims : list nat) : Prop := forall n, In n dims -> (Z.of_nat n < two64)%Z.

(** b(0) * x(0) + b(1) * x(1) + ... *)
Fixpoint dot (b x : list R) : R :=
  match b, x with b0 :: b, x0 :: x => b0 * x0 + dot b x | _, _ => 0 end.

(** In dimension [d] the range of the function is (lo, hi) and the coordinate
    is outside; only non-periodic dimensions have an outside. *)
Definition outside {T} (o : ops T) (per : list bool) (ranges : list (T * T)) (xs : list T) (d : nat) : bool :=
  negb (nth d per false) &&
  (olt o (nth d xs (o0 o)) (fst (nth d ranges (o0 o, o0 o))) ||
   olt o (snd (nth d ranges (o0 o, o0 o))) (nth d xs (o0 o))).

(** The data set of each function in the list after a history of
    interpolations through one template. *)
Fixpoint data_after {T} (fs : list (mesh T)) (l : list (templ_op (T := T))) : list (mesh T) :=
  match l with
  | [] => fs
  | OpNew f :: l => data_after (fs ++ [f]) l
  | OpInto i f :: l => data_after (firstn i fs ++ f :: skipn (i + 1) fs) l
  end.
Definition op_data {T} (p : templ_op (T := T)) : mesh T := match p with OpNew f => f | OpInto _ f => f end.

(** Preconditions on a dimension that say nothing about a list of
    coordinates, and the lists of coordinates to be rejected. *)
Definition enough_points (nd : bool) (p : nat) (per : bool) (n : nat) (r : xrange R) : Prop :=
  (p + 1 <= distinct nd per n)%nat /\ (2 <= coords_num nd per n)%nat /\
  match r with Uniform a b => a < b | Points _ => per = false -> (1 <= p)%nat end.
Definition bad_points (nd per : bool) (n : nat) (r : xrange R) : Prop :=
  match r with
  | Uniform _ _ => False
  | Points l => length l <> coords_num nd per n \/ ~ increasing (length l) (fun i => nth i l 0)
  end.

(** The coordinate is in or above the range, or is not a whole number of
    periods away from its lower end, in every periodic dimension. *)
Definition off_period (per : list bool) (ranges : list (R * R)) (xs : list R) : Prop :=
  forall d, (d < length per)%nat -> nth d per false = true ->
    let r := nth d ranges (0, 0) in
    fst r <= nth d xs 0 \/ forall m : Z, nth d xs 0 <> fst r + IZR m * (snd r - fst r).
