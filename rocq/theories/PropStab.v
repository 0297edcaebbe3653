(** C92: errors of the data. Properties only; the proofs are in StabTop. *)
From Coq Require Import List Arith Bool ZArith QArith Reals.
From Verif Require Import Base Num MeshM SplineM InterpM SpecMesh SpecSpline SpecInterp SpecStab MeshProofs StabTop PropInterpEx PropStabEx SpecInterp.
Import ListNotations.
Open Scope R_scope.

(** C92: on equally spaced points with a period in every dimension, data that
    differ by at most eps give functions that differ by at most a fixed
    multiple of eps, everywhere; the multiple depends on the order and the
    number of dimensions only. *)
Theorem C92_noise : forall on nd p per dims ranges f1 f2 g1 g2 eps,
  good_input nd p per dims ranges -> (p <= 6)%nat -> uniform_periodic per ranges ->
  m_dims f1 = dims -> wf_mesh f1 -> m_dims f2 = dims -> wf_mesh f2 ->
  interp_make Rops on nd p per f1 ranges = Ok g1 -> interp_make Rops on nd p per f2 ranges = Ok g2 ->
  (forall idx, valid dims idx -> Rabs (val_at f1 idx - val_at f2 idx) <= eps) ->
  forall xs, length xs = length per -> countable_point nd per dims ranges xs ->
  exists u v, interp_eval Rops g1 xs = Ok u /\ interp_eval Rops g2 xs = Ok v /\ Rabs (u - v) <= amplification p ^ length per * eps.
Proof. exact uniform_noise. Qed.
Print Assumptions C92_noise.
Example C92_example :
  good_input true 3 [true; true] gdims (gu IZR) /\ uniform_periodic [true; true] (gu IZR) /\
  (exists g1 g2, interp_make Rops true true 3 [true; true] (gdata IZR) (gu IZR) = Ok g1 /\
     interp_make Rops true true 3 [true; true] (gnoisy IZR) (gu IZR) = Ok g2) /\
  (forall idx, valid gdims idx -> Rabs (val_at (gdata IZR) idx - val_at (gnoisy IZR) idx) <= 1) /\
  countable_point true [true; true] gdims (gu IZR) [1/4; -4].
Proof. exact ex_noise. Qed.
Example C92_example_run :
  match evals (interp_make Qops true true 3 [true; true] (gdata inject_Z) (gu inject_Z)) [[1#4; -4]]%Q,
        evals (interp_make Qops true true 3 [true; true] (gnoisy inject_Z) (gu inject_Z)) [[1#4; -4]]%Q with
  | Ok [u], Ok [v] => (Qred u, Qred v)
  | _, _ => (0, 0)%Q
  end = (285#64, 241#64)%Q.
Proof. vm_compute. reflexivity. Qed.

(** C92: the same bound for the values themselves. *)
Theorem C92_bound : forall on nd p per dims ranges f g B,
  good_input nd p per dims ranges -> (p <= 6)%nat -> uniform_periodic per ranges ->
  m_dims f = dims -> wf_mesh f -> interp_make Rops on nd p per f ranges = Ok g ->
  (forall idx, valid dims idx -> Rabs (val_at f idx) <= B) ->
  forall xs, length xs = length per -> countable_point nd per dims ranges xs ->
  exists u, interp_eval Rops g xs = Ok u /\ Rabs u <= amplification p ^ length per * B.
Proof. exact uniform_bound. Qed.
Print Assumptions C92_bound.
Example C92_bound_example :
  good_input true 3 [true; true] gdims (gu IZR) /\ uniform_periodic [true; true] (gu IZR) /\
  (exists g, interp_make Rops true true 3 [true; true] (gdata IZR) (gu IZR) = Ok g) /\
  (forall idx, valid gdims idx -> Rabs (val_at (gdata IZR) idx) <= 9) /\
  countable_point true [true; true] gdims (gu IZR) [1/4; -4].
Proof. exact ex_bound. Qed.
