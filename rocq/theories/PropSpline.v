(** Property theorems about BSpline.hpp. *)
From Coq Require Import List Arith ZArith QArith Reals.
From Coquelicot Require Import Coquelicot.
From Verif Require Import Base Num MeshM SplineM SpecMesh SpecSpline SpecCalc SpecSplineObj
  MeshProofs SplineProofs SafeProofs SplineFinal SplineCalc SplineCons PropSplineEx.
Import ListNotations.
Local Open Scope R_scope.

(** C13: the values computed for a segment are the B-spline basis functions. *)
Theorem C13_basis_values : forall order knots k x so,
  nondecreasing knots -> (order <= k)%nat -> (k + order + 1 < length knots)%nat ->
  kn knots k <= x < kn knots (k + 1) -> (so <= order)%nat ->
  exists b, base_spline_value Rops order knots k x so = Ok b /\ length b = (order + 1)%nat /\
    (forall j, (j < order - so)%nat -> nth j b 0 = 0) /\
    (forall j, (j <= so)%nat -> nth (order - so + j) b 0 = bspline (kn knots) so (k - so + j) x) /\
    (forall i, (i + so + 1 < length knots)%nat -> (i + so < k \/ k < i)%nat -> bspline (kn knots) so i x = 0).
Proof. exact base_values_are_bsplines. Qed.
Print Assumptions C13_basis_values.
Example C13_example :
  nondecreasing (map IZR knots8) /\ (2 <= 3)%nat /\ (3 + 2 + 1 < length (map IZR knots8))%nat /\
  kn (map IZR knots8) 3 <= 2 < kn (map IZR knots8) (3 + 1).
Proof. exact knots8_ok. Qed.
Example C13_example_run :
  base_spline_value Qops 2 (map inject_Z knots8) 3 2%Q 2 = Ok [1#6; 2#3; 1#6]%Q /\
  base_spline_value Qops 2 (map inject_Z knots8) 3 2%Q 1 = Ok [0; 1#2; 1#2]%Q.
Proof. split; reflexivity. Qed.

(** C14: partition of unity (every x), non-negativity (in the segment). *)
Theorem C14_partition_of_unity : forall order knots k x,
  nondecreasing knots -> (order <= k)%nat -> (k + order + 1 < length knots)%nat ->
  kn knots k < kn knots (k + 1) ->
  exists b, base_spline_value Rops order knots k x order = Ok b /\ length b = (order + 1)%nat /\
    fold_right Rplus 0 b = 1 /\
    (kn knots k <= x <= kn knots (k + 1) -> List.Forall (fun v => 0 <= v) b).
Proof. exact base_values_unity. Qed.
Print Assumptions C14_partition_of_unity.
Example C14_example :
  nondecreasing (map IZR knots8) /\ (2 <= 3)%nat /\ (3 + 2 + 1 < length (map IZR knots8))%nat /\
  kn (map IZR knots8) 3 <= 2 < kn (map IZR knots8) (3 + 1).
Proof. exact knots8_ok. Qed.
Example C14_example_run : (* extrapolation: x = 5 outside [1, 3) *)
  base_spline_value Qops 2 (map inject_Z knots8) 3 5%Q 2 = Ok [2#3; -7#3; 8#3]%Q.
Proof. reflexivity. Qed.

(** C15: knot lookup, in any totally ordered arithmetic. *)
Theorem C15_knot_lookup : forall (T : Type) (o : ops T) order periodic knots range x x' hint dflt,
  total_order o ->
  (forall i j, (order <= i <= j)%nat -> (j <= length knots - order - 2)%nat ->
     ole o (nth i knots dflt) (nth j knots dflt) = true) ->
  (order <= hint)%nat -> (hint + order + 2 <= length knots)%nat ->
  wrap_coord o periodic range x = Ok x' ->
  exists k, get_knot_iter o order periodic knots range x hint = Ok (x', k) /\
    (order <= k <= length knots - order - 2)%nat /\
    (k = order \/ ole o (nth k knots dflt) x' = true) /\
    (k = (length knots - order - 2)%nat \/ olt o x' (nth (k + 1) knots dflt) = true).
Proof. exact @knot_lookup. Qed.
Print Assumptions C15_knot_lookup.

(** Over the reals, with the coordinate wrapped into the range. *)
Theorem C15_knot_lookup_real : forall order periodic knots range x hint,
  nondecreasing knots -> (order <= hint)%nat -> (hint + order + 2 <= length knots)%nat ->
  kn knots order < kn knots (order + 1) ->
  kn knots (length knots - order - 2) < kn knots (length knots - order - 1) ->
  (periodic = true -> fst range < snd range) ->
  exists x' k, get_knot_iter Rops order periodic knots range x hint = Ok (x', k) /\
    wrapped periodic range x x' /\
    segment (kn knots) order (length knots - order - 2) x' k.
Proof. exact knot_lookup_real. Qed.
Print Assumptions C15_knot_lookup_real.
Example C15_example :
  nondecreasing (map IZR knots8) /\ (2 <= 3)%nat /\ (3 + 2 + 2 <= length (map IZR knots8))%nat /\
  kn (map IZR knots8) 2 < kn (map IZR knots8) (2 + 1) /\
  kn (map IZR knots8) (length (map IZR knots8) - 2 - 2) < kn (map IZR knots8) (length (map IZR knots8) - 2 - 1).
Proof. exact knots8_ends. Qed.
Example C15_example_run :
  map (fun x => get_knot_iter Qops 2 false (map inject_Z knots8) (0, 4)%Q x 3) [-1; 0; 1; 7#2; 4; 9]%Q
  = [Ok (-1, 2%nat); Ok (0, 2%nat); Ok (1, 3%nat); Ok (7#2, 4%nat); Ok (4, 4%nat); Ok (9, 4%nat)]%Q /\
  get_knot_iter Qops 1 true [-1; 0; 1; 2; 3]%Q (0, 2)%Q (-(7#2))%Q 2 = Ok (1#2, 1%nat)%Q.
Proof. split; reflexivity. Qed.

(** C16: the hint changes neither the segment nor values nor derivatives. *)
Theorem C16_hint_lookup : forall (T : Type) (o : ops T) order periodic knots range x h1 h2 dflt,
  total_order o ->
  (forall i j, (order <= i <= j)%nat -> (j <= length knots - order - 2)%nat ->
     ole o (nth i knots dflt) (nth j knots dflt) = true) ->
  (order <= h1)%nat -> (h1 + order + 2 <= length knots)%nat ->
  (order <= h2)%nat -> (h2 + order + 2 <= length knots)%nat ->
  get_knot_iter o order periodic knots range x h1 = get_knot_iter o order periodic knots range x h2.
Proof. exact @hint_irrelevant. Qed.
Print Assumptions C16_hint_lookup.
Theorem C16_hint_value : forall (T : Type) (o : ops T) s xs h1 h2,
  total_order o -> wf_spline s -> sorted_knots o s -> length xs = sp_dim s -> hints_ok s h1 -> hints_ok s h2 ->
  spline_eval o s (combine xs h1) = spline_eval o s (combine xs h2).
Proof. exact @eval_hint. Qed.
Print Assumptions C16_hint_value.
Theorem C16_hint_derivative : forall (T : Type) (o : ops T) on s xs h1 h2 orders,
  total_order o -> wf_spline s -> sorted_knots o s -> length xs = sp_dim s -> length orders = sp_dim s ->
  hints_ok s h1 -> hints_ok s h2 ->
  spline_derivative_at o on s (combine (combine xs h1) orders) =
  spline_derivative_at o on s (combine (combine xs h2) orders).
Proof. exact @derivative_hint. Qed.
Print Assumptions C16_hint_derivative.
Example C16_example :
  total_order Rops /\ wf_spline (ex_spline IZR) /\ sorted_knots Rops (ex_spline IZR) /\
  hints_ok (ex_spline IZR) [1; 1]%nat /\ hints_ok (ex_spline IZR) [2; 2]%nat.
Proof. exact (conj Rops_total (conj (ex_wf IZR) (conj ex_sorted (conj (ex_hints 1 (or_introl eq_refl)) (ex_hints 2 (or_intror eq_refl)))))). Qed.

(** C17: evaluation is the tensor product spline (extrapolation by the
    polynomial of the end segment). *)
Theorem C17_tensor_product : forall s xs hints,
  good_spline s -> length xs = sp_dim s -> hints_ok s hints ->
  exists xs' ks, length xs' = sp_dim s /\ length ks = sp_dim s /\
    (forall d, (d < sp_dim s)%nat ->
       wrapped (per_of s d) (rng s d) (nth d xs 0) (nth d xs' 0) /\
       segment (kn (knot_of s d)) (sp_order s) (last_of s d) (nth d xs' 0) (nth d ks 0%nat)) /\
    spline_eval Rops s (combine xs hints) = Ok (
      tensor (map (fun d => (nbasis s d, fun i => piece (kn (knot_of s d)) (nth d ks 0%nat) (sp_order s) i (nth d xs' 0)))
                  (seq 0 (sp_dim s)))
             (fun idx => ctrl_at Rops s (wrap_idx s idx))).
Proof. exact eval_is_tensor. Qed.
Print Assumptions C17_tensor_product.
(** Inside the range, with the B-spline basis functions. *)
Theorem C17_tensor_product_in_range : forall s xs hints xs',
  good_spline s -> length xs = sp_dim s -> hints_ok s hints ->
  (forall d, (d < sp_dim s)%nat ->
     wrapped (per_of s d) (rng s d) (nth d xs 0) (nth d xs' 0) /\
     kn (knot_of s d) (sp_order s) <= nth d xs' 0 < kn (knot_of s d) (last_of s d + 1)) ->
  spline_eval Rops s (combine xs hints) = Ok (
    tensor (map (fun d => (nbasis s d, fun i => bspline (kn (knot_of s d)) (sp_order s) i (nth d xs' 0)))
                (seq 0 (sp_dim s)))
           (fun idx => ctrl_at Rops s (wrap_idx s idx))).
Proof. exact eval_is_bspline_sum. Qed.
Print Assumptions C17_tensor_product_in_range.
Example C17_example :
  good_spline (ex_spline IZR) /\ hints_ok (ex_spline IZR) [1; 1]%nat /\
  (forall d, (d < 2)%nat ->
     wrapped (per_of (ex_spline IZR) d) (rng (ex_spline IZR) d) (nth d [1/2; 5/2] 0) (nth d [1/2; 1/2] 0) /\
     kn (knot_of (ex_spline IZR) d) 1 <= nth d [1/2; 1/2] 0 < kn (knot_of (ex_spline IZR) d) (last_of (ex_spline IZR) d + 1)).
Proof. exact (conj ex_good (conj (ex_hints 1 (or_introl eq_refl)) ex_in_range)). Qed.
Example C17_example_run :
  spline_eval_plain Qops (ex_spline inject_Z) [1#2; 5#2]%Q = Ok (5#2)%Q /\
  spline_eval_plain Qops (ex_spline inject_Z) [3; -1#4]%Q = Ok (33#4)%Q.
Proof. split; reflexivity. Qed.

(** C18: convex hull. *)
Theorem C18_convex_hull : forall s xs lo hi,
  good_spline s -> length xs = sp_dim s ->
  (forall d, (d < sp_dim s)%nat -> in_range s d (nth d xs 0)) ->
  (forall c, In c (m_data (sp_ctrl s)) -> lo <= c <= hi) ->
  exists v, spline_eval_plain Rops s xs = Ok v /\ lo <= v <= hi.
Proof. exact eval_hull. Qed.
Print Assumptions C18_convex_hull.
Example C18_example :
  good_spline (ex_spline IZR) /\
  (forall d, (d < 2)%nat -> in_range (ex_spline IZR) d (nth d [2; -7] 0)) /\
  (forall c, In c (m_data (sp_ctrl (ex_spline IZR))) -> 1 <= c <= 9).
Proof. exact (conj ex_good ex_hull). Qed.

(** C19: evaluation stays inside its arrays, in any arithmetic; the only fault
    possible is a division by zero reported by the numeric type. *)
Theorem C19_memory_safe : forall (T : Type) (o : ops T) on s xs hints orders,
  divides o -> wf_spline s -> length xs = sp_dim s -> hints_ok s hints -> length orders = sp_dim s ->
  ((exists v, spline_eval o s (combine xs hints) = Ok v) \/ spline_eval o s (combine xs hints) = Fault DivByZero) /\
  ((exists v, spline_derivative_at o on s (combine (combine xs hints) orders) = Ok v) \/
    spline_derivative_at o on s (combine (combine xs hints) orders) = Fault DivByZero).
Proof. exact @eval_safe. Qed.
Print Assumptions C19_memory_safe.
(** With a division that always yields something (IEEE), nothing fails, for
    unsorted knots and NaN too. *)
Theorem C19_memory_safe_total : forall (T : Type) (o : ops T) on s xs hints orders,
  total_ops o -> wf_spline s -> length xs = sp_dim s -> hints_ok s hints -> length orders = sp_dim s ->
  (exists v, spline_eval o s (combine xs hints) = Ok v) /\
  (exists v, spline_derivative_at o on s (combine (combine xs hints) orders) = Ok v).
Proof. exact @eval_total. Qed.
Print Assumptions C19_memory_safe_total.
(** Over the reals there is no division by zero either. *)
Theorem C19_no_fault_real : forall on s xs hints orders,
  good_spline s -> length xs = sp_dim s -> hints_ok s hints -> length orders = sp_dim s ->
  (exists v, spline_eval Rops s (combine xs hints) = Ok v) /\
  (exists v, spline_derivative_at Rops on s (combine (combine xs hints) orders) = Ok v).
Proof. exact eval_ok_real. Qed.
Print Assumptions C19_no_fault_real.
Example C19_example :
  divides Rops /\ total_ops Zops /\ wf_spline (ex_spline (fun z => z)) /\
  good_spline (ex_spline IZR) /\ hints_ok (ex_spline IZR) [1; 1]%nat.
Proof. exact (conj R_divides (conj Z_total (conj (ex_wf _) (conj ex_good (ex_hints 1 (or_introl eq_refl)))))). Qed.

(** C20: periodicity. *)
Theorem C20_periodic : forall s xs ys d (m : Z),
  good_spline s -> length xs = sp_dim s -> length ys = sp_dim s -> (d < sp_dim s)%nat ->
  periodic_knots s d ->
  ((1 <= sp_order s)%nat \/ length (knot_of s d) = (num_of s d + 2 * sp_order s + 2)%nat) ->
  (forall e, (e < sp_dim s)%nat -> e <> d -> nth e ys 0 = nth e xs 0) ->
  nth d ys 0 = nth d xs 0 + IZR m * (snd (rng s d) - fst (rng s d)) ->
  spline_eval_plain Rops s ys = spline_eval_plain Rops s xs.
Proof. exact eval_periodic. Qed.
Print Assumptions C20_periodic.
Example C20_example :
  good_spline (ex_spline IZR) /\ periodic_knots (ex_spline IZR) 1 /\ (1 <= sp_order (ex_spline IZR))%nat.
Proof. exact (conj ex_good (conj ex_periodic (le_n 1))). Qed.
Example C20_example_run :
  spline_eval_plain Qops (ex_spline inject_Z) [1#2; 1#2]%Q = spline_eval_plain Qops (ex_spline inject_Z) [1#2; -11#2]%Q.
Proof. reflexivity. Qed.
(** Not for order 0 with knots as the constructor wants them. *)
Theorem C20_order_zero_refuted :
  exists s x y (m : Z), good_spline s /\ sp_dim s = 1%nat /\ periodic_knots s 0 /\
    y = x + IZR m * (snd (rng s 0) - fst (rng s 0)) /\
    spline_eval_plain Rops s [x] = Ok 5 /\ spline_eval_plain Rops s [y] = Ok 7.
Proof. exact step_not_periodic. Qed.
Print Assumptions C20_order_zero_refuted.

(** C21: derivatives are the (mixed) derivatives of the function computed by
    operator(), off the knots; every derivative order. *)
Theorem C21_derivative : forall on s f xs orders,
  good_spline s -> (forall ys, length ys = sp_dim s -> spline_eval_plain Rops s ys = Ok (f ys)) ->
  length xs = sp_dim s -> length orders = sp_dim s ->
  (forall d, (d < sp_dim s)%nat -> off_knots s d (nth d xs 0)) ->
  exists v, spline_derivative_plain Rops on s (combine xs orders) = Ok v /\ is_mixed orders f xs v.
Proof. exact derivative_is_mixed. Qed.
Print Assumptions C21_derivative.
(** At every point, knots included: the derivatives of the polynomial of the
    segment. *)
Theorem C21_derivative_everywhere : forall on s xs hints orders,
  good_spline s -> length xs = sp_dim s -> hints_ok s hints -> length orders = sp_dim s ->
  (forall d, (d < sp_dim s)%nat -> (nth d orders 0 <= sp_order s)%nat) ->
  exists xs' ks, length xs' = sp_dim s /\ length ks = sp_dim s /\
    (forall d, (d < sp_dim s)%nat ->
       wrapped (per_of s d) (rng s d) (nth d xs 0) (nth d xs' 0) /\
       segment (kn (knot_of s d)) (sp_order s) (last_of s d) (nth d xs' 0) (nth d ks 0%nat)) /\
    spline_derivative_at Rops on s (combine (combine xs hints) orders) = Ok (
      tensor (map (fun d => (nbasis s d, fun i =>
                     Derive_n (piece (kn (knot_of s d)) (nth d ks 0%nat) (sp_order s) i) (nth d orders 0%nat) (nth d xs' 0)))
                  (seq 0 (sp_dim s)))
             (fun idx => ctrl_at Rops s (wrap_idx s idx))).
Proof. exact derivative_value. Qed.
Print Assumptions C21_derivative_everywhere.
Example C21_example :
  good_spline (ex_spline IZR) /\
  (forall ys, length ys = 2%nat -> spline_eval_plain Rops (ex_spline IZR) ys = Ok (BetaProofs.sval (ex_spline IZR) ys)) /\
  (forall d, (d < 2)%nat -> off_knots (ex_spline IZR) d (nth d [1/2; 5/2] 0)).
Proof. exact (conj ex_good (conj ex_evaluates ex_off_all)). Qed.
Example C21_example_run :
  spline_derivative_plain Qops true (ex_spline inject_Z) [(1#2, 1%nat); (5#2, 1%nat)]%Q = Ok (-2)%Q /\
  spline_derivative_plain Qops true (ex_spline inject_Z) [(1#2, 1%nat); (5#2, 0%nat)]%Q = Ok 2%Q.
Proof. split; reflexivity. Qed.

(** C22: order 0 is the value, bit for bit, failing cases included; an order
    above the spline order gives zero. *)
Theorem C22_order_zero : forall (T : Type) (o : ops T) on s xs hints,
  divides o -> wf_spline s -> length xs = sp_dim s -> hints_ok s hints ->
  spline_derivative_at o on s (combine (combine xs hints) (repeat 0%nat (sp_dim s))) =
  spline_eval o s (combine xs hints).
Proof. exact @derivative_order_zero. Qed.
Print Assumptions C22_order_zero.
Theorem C22_order_high : forall (T : Type) (o : ops T) on (s : spline T) coords d,
  (d < length coords)%nat -> (sp_order s < snd (nth d coords (o0 o, 0, 0)))%nat ->
  spline_derivative_at o on s coords = Ok (o0 o).
Proof. exact @derivative_order_high. Qed.
Print Assumptions C22_order_high.
Example C22_example :
  divides Rops /\ wf_spline (ex_spline IZR) /\ hints_ok (ex_spline IZR) [1; 1]%nat /\
  (sp_order (ex_spline IZR) < snd (nth 1 [(0%R, 1, 0); (0%R, 1, 2)] (0%R, 0, 0)))%nat.
Proof. exact (conj R_divides (conj (ex_wf IZR) (conj (ex_hints 1 (or_introl eq_refl)) (le_n 2)))). Qed.

(** C46: only the control points attached to the segments matter, in any
    arithmetic. *)
Theorem C46_local_influence : forall (T : Type) (o : ops T) s s' xs hints iters,
  divides o -> wf_spline s -> wf_spline s' ->
  sp_order s' = sp_order s -> sp_per s' = sp_per s -> sp_knots s' = sp_knots s -> sp_range s' = sp_range s ->
  m_dims (sp_ctrl s') = m_dims (sp_ctrl s) ->
  length xs = sp_dim s -> hints_ok s hints ->
  get_knot_iters o s (combine xs hints) = Ok iters ->
  (forall idx, valid (m_dims (sp_ctrl s)) idx ->
     (forall d, (d < sp_dim s)%nat -> attached s d (snd (nth d iters (o0 o, 0%nat))) (nth d idx 0%nat)) ->
     ctrl_at o s' idx = ctrl_at o s idx) ->
  spline_eval o s' (combine xs hints) = spline_eval o s (combine xs hints).
Proof. exact @influence. Qed.
Print Assumptions C46_local_influence.
Example C46_example : (* changing the point (2, 1) does not matter at (1/2, 5/2) *)
  get_knot_iters Qops (ex_spline inject_Z) [(1#2, 1%nat); (5#2, 1%nat)]%Q = Ok [(1#2, 1%nat); (1#2, 1%nat)]%Q /\
  ~ attached (ex_spline inject_Z) 0 1 2 /\
  spline_eval_plain Qops (ex_spline' inject_Z) [1#2; 5#2]%Q = spline_eval_plain Qops (ex_spline inject_Z) [1#2; 5#2]%Q /\
  ctrl_at Qops (ex_spline' inject_Z) [2; 1]%nat <> ctrl_at Qops (ex_spline inject_Z) [2; 1]%nat.
Proof. exact ex_influence. Qed.

(** C47: continuity in all variables jointly. *)
Theorem C47_continuous : forall s f xs,
  good_spline s -> (forall ys, length ys = sp_dim s -> spline_eval_plain Rops s ys = Ok (f ys)) ->
  (1 <= sp_order s)%nat -> length xs = sp_dim s ->
  (forall d, (d < sp_dim s)%nat -> strict_knots s d /\ (per_of s d = true -> periodic_knots s d)) ->
  continuous_at f xs.
Proof. exact eval_continuous. Qed.
Print Assumptions C47_continuous.
Example C47_example :
  good_spline (ex_spline IZR) /\
  (forall ys, length ys = 2%nat -> spline_eval_plain Rops (ex_spline IZR) ys = Ok (BetaProofs.sval (ex_spline IZR) ys)) /\
  (forall d, (d < 2)%nat -> strict_knots (ex_spline IZR) d /\ (per_of (ex_spline IZR) d = true -> periodic_knots (ex_spline IZR) d)).
Proof. exact (conj ex_good (conj ex_evaluates ex_strict_periodic)). Qed.

(** C53: the constructor and the loaders produce splines as presupposed by the
    theorems above; a wrong number of knots is refused. *)
Theorem C53_constructor : forall on order per ctrl knots,
  good_input order per ctrl knots (fun p => if p then 2 * order + 1 else order + 1)%nat ->
  exists s, spline_make on order per ctrl knots = Ok s /\ good_spline s /\
    sp_order s = order /\ sp_per s = per /\ sp_knots s = knots /\ sp_ctrl s = ctrl /\
    forall d, (d < length per)%nat -> snd (rng s d) = kn (nth d knots []) (length (nth d knots []) - order - 1).
Proof. exact make_good. Qed.
Print Assumptions C53_constructor.
Theorem C53_loaders : forall order per ctrl knots,
  good_input order per ctrl knots (fun p => if p then 2 * order + (2 - order mod 2) else order + 1)%nat ->
  exists s, load_all Rops order per knots ctrl = Ok s /\ good_spline s /\
    sp_order s = order /\ sp_per s = per /\ sp_knots s = knots /\ sp_ctrl s = ctrl /\
    forall d, (d < length per)%nat ->
      snd (rng s d) = kn (nth d knots []) (length (nth d knots []) - order - (2 - order mod 2)).
Proof. exact load_good. Qed.
Print Assumptions C53_loaders.
Theorem C53_constructor_refuses : forall (T : Type) order per (ctrl : mesh T) knots d,
  (d < length per)%nat -> length knots = length per -> length (m_dims ctrl) = length per ->
  (forall e, (e < length per)%nat -> (order < length (nth e knots []))%nat) ->
  length (nth d knots []) <> (nth d (m_dims ctrl) 0 + (if nth d per false then 2 * order + 1 else order + 1))%nat ->
  spline_make true order per ctrl knots = Throw AssertFailed.
Proof. exact @make_refuses. Qed.
Print Assumptions C53_constructor_refuses.
Example C53_example :
  good_input 1 [false; true] (ex_ctrl IZR) (ex_knots IZR) (fun p => if p then 2 * 1 + 1 else 1 + 1)%nat /\
  spline_make true 1 [false; true] (ex_ctrl IZR) (ex_knots IZR) = Ok (ex_spline IZR) /\
  spline_make true 1 [true; true] (ex_ctrl IZR) (ex_knots IZR) = Throw AssertFailed.
Proof. exact (conj ex_input (conj (ex_make true) eq_refl)). Qed.
