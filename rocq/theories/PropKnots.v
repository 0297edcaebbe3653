(** The property theorems on knots in doubles (C74, C75). *)
From Coq Require Import List Arith Bool ZArith Reals Floats.
From Verif Require Import Base Num FloatM MeshM SplineM InterpM SpecSpline SpecInterp SpecRound RoundKnotsTop PropKnotsEx.
Import ListNotations.
Local Open Scope R_scope.

(** C74: the knots of coordinates given by iterators, in doubles.  Aperiodic:
    the end knots are the end coordinates, an inner knot is the mean of
    [order] consecutive coordinates up to n 2^-51 of the largest coordinate
    (rounding errors accumulate along the grid), and consecutive knots are
    apart by the smallest distance of the coordinates less twice that error. *)
Theorem C74_aperiodic_knots_double : forall on nd order per f ranges g d l X,
  interp_make Fops on nd order per f ranges = Ok g ->
  nth_error ranges d = Some (Points l) -> nth_error per d = Some false ->
  (1 <= order)%nat -> (order + 1 <= length l)%nat -> INR (length l) <= powerRZ 2 40 ->
  (forall a, In a l -> double_finite a /\ Rabs (double_val a) <= X) -> X <= powerRZ 2 900 ->
  let t := nth d (sp_knots (if_spline g)) [] in
  let x := fun i => double_val (nth i l 0%float) in
  let e := INR (length l) * powerRZ 2 (-51) * X + powerRZ 2 (-1074) in
  knots_near t (length l + order + 1) (ap_knot order (length l) x) e /\
  (forall k, (k <= order)%nat -> nth k t 0%float = nth 0 l 0%float) /\
  (forall k, (length l <= k < length l + order + 1)%nat -> nth k t 0%float = nth (length l - 1) l 0%float) /\
  forall gap, 0 <= gap -> (forall i, (i + 1 < length l)%nat -> gap <= x (i + 1)%nat - x i) ->
    forall k, (order <= k < length l)%nat -> gap - 2 * e <= double_val (nth (k + 1) t 0%float) - double_val (nth k t 0%float).
Proof. exact points_ap_make. Qed.
Print Assumptions C74_aperiodic_knots_double.

(** Periodic: every knot is exact up to 2^-49 of the largest coordinate. *)
Theorem C74_periodic_knots_double : forall on nd order per f ranges g d l X,
  interp_make Fops on nd order per f ranges = Ok g ->
  nth_error ranges d = Some (Points l) -> nth_error per d = Some true ->
  (order + 2 <= length l)%nat -> INR (length l) <= powerRZ 2 40 ->
  (forall a, In a l -> double_finite a /\ Rabs (double_val a) <= X) -> X <= powerRZ 2 900 ->
  let t := nth d (sp_knots (if_spline g)) [] in
  let x := fun i => double_val (nth i l 0%float) in
  let m := (length l - 1)%nat in
  let len := (length l + 2 * order + (1 - order mod 2))%nat in
  let e := powerRZ 2 (-49) * X + powerRZ 2 (-1073) in
  knots_near t len (per_knot order m (x m - x 0%nat) x) e /\
  forall gap, (forall i, (i + 1 < length l)%nat -> gap <= x (i + 1)%nat - x i) ->
    forall k, (k + 1 < len)%nat -> gap - 2 * e <= double_val (nth (k + 1) t 0%float) - double_val (nth k t 0%float).
Proof. exact points_per_make. Qed.
Print Assumptions C74_periodic_knots_double.

(** Increasing coordinates do not give sorted knots: the sums that the means
    are taken of are carried along by adding and subtracting, and what the
    large coordinates round away is missing from all later knots.  With
    assertions the constructor throws, without them the function is NaN at
    every data point. *)
Theorem C74_rolling_sum_refuted : exists l f g,
  (forall a, In a l -> double_finite a) /\ (forall i, (i + 1 < length l)%nat -> double_val (nth i l zero) < double_val (nth (i + 1) l zero)) /\
  m_dims f = [length l] /\
  interp_make Fops true true 3 [false] f [Points l] = Throw AssertFailed /\
  interp_make Fops false true 3 [false] f [Points l] = Ok g /\
  (exists k, (3 <= k < length l)%nat /\
     double_val (nth (k + 1) (nth 0 (sp_knots (if_spline g)) []) zero) < double_val (nth k (nth 0 (sp_knots (if_spline g)) []) zero)) /\
  (forall x, In x l -> exists v, interp_eval Fops g [x] = Ok v /\ ~ double_finite v).
Proof. exact rolling_sum. Qed.
Print Assumptions C74_rolling_sum_refuted.

(** Nor in a periodic dimension, if the period rounds; there no assertion
    notices. *)
Theorem C74_rounded_period_refuted : exists l f g,
  (forall a, In a l -> double_finite a) /\ (forall i, (i + 1 < length l)%nat -> double_val (nth i l zero) < double_val (nth (i + 1) l zero)) /\
  m_dims f = [(length l - 1)%nat] /\
  interp_make Fops true true 3 [true] f [Points l] = Ok g /\
  (exists k, (3 <= k < length l + 2)%nat /\
     double_val (nth (k + 1) (nth 0 (sp_knots (if_spline g)) []) zero) < double_val (nth k (nth 0 (sp_knots (if_spline g)) []) zero)) /\
  (forall x, In x l -> exists v, interp_eval Fops g [x] = Ok v /\ ~ double_finite v).
Proof. exact rounded_period. Qed.
Print Assumptions C74_rounded_period_refuted.

(** C75: the knots of uniform ranges, in doubles: numbers, sorted, within
    2^-48 of the larger end, and in an aperiodic dimension between the ends. *)
Theorem C75_uniform_aperiodic_double : forall on nd order per f ranges g d n a b X,
  interp_make Fops on nd order per f ranges = Ok g ->
  nth_error ranges d = Some (Uniform a b) -> nth_error per d = Some false -> nth_error (m_dims f) d = Some n ->
  (2 <= n)%nat -> (order + 1 <= n)%nat -> INR n <= powerRZ 2 40 ->
  double_finite a -> double_finite b -> Rabs (double_val a) <= X -> Rabs (double_val b) <= X -> X <= powerRZ 2 1000 ->
  powerRZ 2 (-900) <= double_val b - double_val a ->
  let t := nth d (sp_knots (if_spline g)) [] in
  knots_near t (n + order + 1) (ap_knot order n (grid_of (Uniform (double_val a) (double_val b)) n)) (powerRZ 2 (-48) * X) /\
  (forall k, (k <= order)%nat -> nth k t 0%float = a) /\ (forall k, (n <= k < n + order + 1)%nat -> nth k t 0%float = b) /\
  forall j k, (j <= k < n + order + 1)%nat -> double_val (nth j t 0%float) <= double_val (nth k t 0%float).
Proof. exact uniform_ap_make. Qed.
Print Assumptions C75_uniform_aperiodic_double.

Theorem C75_uniform_periodic_double : forall on (nd : bool) order per f ranges g d m a b X,
  interp_make Fops on nd order per f ranges = Ok g ->
  nth_error ranges d = Some (Uniform a b) -> nth_error per d = Some true -> nth_error (m_dims f) d = Some (m + (if nd then 0 else 1))%nat ->
  (order + 1 <= m)%nat -> INR m <= powerRZ 2 40 ->
  double_finite a -> double_finite b -> Rabs (double_val a) <= X -> Rabs (double_val b) <= X -> X <= powerRZ 2 1000 ->
  powerRZ 2 (-900) <= double_val b - double_val a ->
  let t := nth d (sp_knots (if_spline g)) [] in
  let len := (m + 2 * order + 1 + (1 - order mod 2))%nat in
  knots_near t len (per_knot order m (double_val b - double_val a) (grid_of (Uniform (double_val a) (double_val b)) (m + 1))) (powerRZ 2 (-48) * X) /\
  forall j k, (j <= k < len)%nat -> double_val (nth j t 0%float) <= double_val (nth k t 0%float).
Proof. exact uniform_per_make. Qed.
Print Assumptions C75_uniform_periodic_double.

(** Without the bounds on the range the knots can be infinite (its length
    overflows) or unsorted (its step is subnormal); and sorted finite knots
    do not make a function with finite values (a grid finer than the
    doubles).  No assertion notices. *)
Theorem C75_overflow_refuted : exists a b f g, double_finite a /\ double_finite b /\ double_val a < double_val b /\
  interp_make Fops true true 3 [false] f [Uniform a b] = Ok g /\
  (exists k, (k < length (nth 0 (sp_knots (if_spline g)) []))%nat /\ ~ double_finite (nth k (nth 0 (sp_knots (if_spline g)) []) zero)) /\
  (forall x, In x [a; zero; b] -> exists v, interp_at Fops g [x] = Ok v /\ ~ double_finite v).
Proof. exact overflow. Qed.
Print Assumptions C75_overflow_refuted.

Theorem C75_underflow_refuted : exists a b f g, double_finite a /\ double_finite b /\ double_val a < double_val b /\
  interp_make Fops true true 3 [false] f [Uniform a b] = Ok g /\
  (exists k, (k + 1 < length (nth 0 (sp_knots (if_spline g)) []))%nat /\
     double_val (nth (k + 1) (nth 0 (sp_knots (if_spline g)) []) zero) < double_val (nth k (nth 0 (sp_knots (if_spline g)) []) zero)) /\
  (forall x, In x [a; b] -> exists v, interp_at Fops g [x] = Ok v /\ ~ double_finite v).
Proof. exact underflow. Qed.
Print Assumptions C75_underflow_refuted.

Theorem C75_resolution_refuted : exists a b f g, double_finite a /\ double_finite b /\ double_val a < double_val b /\
  interp_make Fops true true 3 [false] f [Uniform a b] = Ok g /\
  (forall t, In t (nth 0 (sp_knots (if_spline g)) []) -> double_finite t) /\
  (forall x, In x [a; b] -> exists v, interp_at Fops g [x] = Ok v /\ ~ double_finite v).
Proof. exact resolution. Qed.
Print Assumptions C75_resolution_refuted.

(** Functions that meet the hypotheses: six points, all four kinds of grid. *)
Example C74_points : exists g1 g2, 
  interp_make Fops true true 3 [false] ke_f [Points ke_l] = Ok g1 /\ interp_make Fops true true 3 [true] ke_f5 [Points ke_l] = Ok g2 /\
  (forall a, In a ke_l -> double_finite a /\ Rabs (double_val a) <= 4) /\ INR (length ke_l) <= powerRZ 2 40 /\ 4 <= powerRZ 2 900 /\
  (3 + 2 <= length ke_l)%nat.
Proof.
  destruct ke_made as (g1 & g2 & _ & _ & E1 & E2 & _). destruct ke_hyps as (H1 & H2 & H3 & _). exists g1, g2.
  split; [exact E1|]. split; [exact E2|]. split; [exact H1|]. split; [exact H2|]. split; [exact H3|]. repeat constructor.
Qed.
Example C75_ranges : exists g1 g2, 
  interp_make Fops true true 3 [false] ke_f [Uniform (-1)%float 0.7%float] = Ok g1 /\ interp_make Fops true true 3 [true] ke_f [Uniform (-1)%float 0.7%float] = Ok g2 /\
  m_dims ke_f = [6%nat] /\ double_finite (-1)%float /\ double_finite 0.7%float /\ Rabs (double_val (-1)%float) <= 4 /\ Rabs (double_val 0.7%float) <= 4 /\ 4 <= powerRZ 2 1000 /\
  powerRZ 2 (-900) <= double_val 0.7%float - double_val (-1)%float.
Proof.
  destruct ke_made as (_ & _ & g1 & g2 & _ & _ & E1 & E2). destruct ke_hyps as (_ & _ & _ & H4). destruct ke_uniform as (U1 & U2 & U3 & U4 & U5). exists g1, g2.
  do 8 (split; [assumption || reflexivity|]). assumption.
Qed.
