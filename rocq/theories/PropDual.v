(** C100: order of approximation without a period. Properties only; the proofs are in DualTop. *)
From Coq Require Import List Arith Bool ZArith QArith Reals.
From Verif Require Import Base Num MeshM SplineM InterpM SpecMesh SpecSpline SpecInterp SpecCurve SpecStab SpecApprox SpecSmooth SpecTame SpecRate SumR
  MeshProofs DualTop PropInterpEx PropApproxEx PropTameEx PropDualEx SpecInterp.
Import ListNotations.
Open Scope R_scope.

(** C100: on grids whose periodic dimensions are nearly uniform and whose
    other dimensions are equally spaced, splines of order p = 2 or 3 through
    the values of a function with bounded derivatives up to order p+1 differ
    from the function by at most a constant times the (p+1)-th power of the
    distance of the points. The constant depends only on p, the number of
    dimensions and the bound of the derivatives. *)
Theorem C100_values : forall p n M, (p = 2 \/ p = 3)%nat -> exists C, 0 < C /\
  forall on nd per dims ranges F f g h, length per = n ->
  good_input nd p per dims ranges -> tame nd p per dims ranges ->
  m_dims f = dims -> wf_mesh f -> interp_make Rops on nd p per f ranges = Ok g ->
  sampled nd per dims ranges (F (repeat 0%nat n)) f -> periodic_function nd per dims ranges (F (repeat 0%nat n)) ->
  mesh_width nd per dims ranges h -> h <= 1 ->
  derivative_family n (p + 1) F ->
  (forall o xs, length o = n -> length xs = n -> (forall d, (d < n)%nat -> (nth d o 0 <= p + 1)%nat) ->
    in_grid nd per dims ranges xs -> Rabs (F o xs) <= M) ->
  forall xs, length xs = n -> countable_point nd per dims ranges xs -> in_grid nd per dims ranges xs ->
  exists v, interp_eval Rops g xs = Ok v /\ Rabs (v - F (repeat 0%nat n) xs) <= C * h ^ (p + 1).
Proof. exact tame_values. Qed.
Print Assumptions C100_values.
Example C100_values_example :
  good_input true 3 [false] [7%nat] [Uniform 0 6] /\ tame true 3 [false] [7%nat] [Uniform 0 6] /\ wf_mesh (qdata IZR) /\
  (exists g, interp_make Rops true true 3 [false] (qdata IZR) [Uniform 0 6] = Ok g) /\
  sampled true [false] [7%nat] [Uniform 0 6] (quads [0%nat]) (qdata IZR) /\ periodic_function true [false] [7%nat] [Uniform 0 6] (quads [0%nat]) /\
  mesh_width true [false] [7%nat] [Uniform 0 6] 1 /\ derivative_family 1 (3 + 1) quads /\
  (forall o xs, length o = 1%nat -> length xs = 1%nat -> (forall d, (d < 1)%nat -> (nth d o 0 <= 3 + 1)%nat) -> in_grid true [false] [7%nat] [Uniform 0 6] xs -> Rabs (quads o xs) <= 36) /\
  countable_point true [false] [7%nat] [Uniform 0 6] [5 / 2] /\ in_grid true [false] [7%nat] [Uniform 0 6] [5 / 2].
Proof. exact ex_values. Qed.

(** C100: the same for derivatives, with explicit bounds; each
    differentiation costs one power of the smallest distance of the points. *)
Theorem C100_derivatives : forall on nd p per dims ranges F f g h h0 M orders,
  good_input nd p per dims ranges -> (p = 2 \/ p = 3)%nat -> tame nd p per dims ranges ->
  m_dims f = dims -> wf_mesh f -> interp_make Rops on nd p per f ranges = Ok g ->
  sampled nd per dims ranges (F (repeat 0%nat (length per))) f -> periodic_function nd per dims ranges (F (repeat 0%nat (length per))) ->
  mesh_width nd per dims ranges h -> 0 < h0 -> mesh_gap nd per dims ranges h0 ->
  derivative_family (length per) (p + 1) F ->
  (forall o xs, length o = length per -> length xs = length per -> (forall d, (d < length per)%nat -> (nth d o 0 <= p + 1)%nat) ->
    in_grid nd per dims ranges xs -> Rabs (F o xs) <= M) ->
  length orders = length per -> (forall d, (d < length per)%nat -> (nth d orders 0 <= p)%nat) ->
  forall xs, length xs = length per -> countable_point nd per dims ranges xs -> in_grid nd per dims ranges xs ->
  exists v, interp_derivative Rops on g xs orders = Ok v /\
    Rabs (v - F orders xs) <= (1 + tame_factor p ^ length per) *
      ((1 + 2 * INR p / h0) ^ fold_right Nat.add 0%nat orders *
        (sum (p + 1) (fun i => (2 * INR p * h) ^ i / INR (fact i)) ^ length per *
          (INR (length per) * (M / INR (fact p) * (2 * INR p * h) ^ (p + 1))))).
Proof. exact tame_rate. Qed.
Print Assumptions C100_derivatives.
Example C100_derivatives_example :
  good_input true 3 hper hdims (hx IZR) /\ tame true 3 hper hdims (hx IZR) /\ wf_mesh (hdata IZR) /\
  (exists g, interp_make Rops true true 3 hper (hdata IZR) (hx IZR) = Ok g) /\
  sampled true hper hdims (hx IZR) (hills [0; 0]%nat) (hdata IZR) /\ periodic_function true hper hdims (hx IZR) (hills [0; 0]%nat) /\
  mesh_width true hper hdims (hx IZR) 2 /\ mesh_gap true hper hdims (hx IZR) 1 /\ derivative_family 2 (3 + 1) hills /\
  (forall o xs, length o = 2%nat -> length xs = 2%nat -> (forall d, (d < 2)%nat -> (nth d o 0 <= 3 + 1)%nat) -> in_grid true hper hdims (hx IZR) xs -> Rabs (hills o xs) <= 44) /\
  countable_point true hper hdims (hx IZR) [2; 5 / 2] /\ in_grid true hper hdims (hx IZR) [2; 5 / 2].
Proof. exact ex_dual. Qed.
