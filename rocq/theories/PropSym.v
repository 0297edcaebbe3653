(** C83: moved grids. Properties only; the proofs are in SymProofs. *)
From Coq Require Import List Arith Bool ZArith QArith Reals.
From Verif Require Import Base Num MeshM SplineM InterpM SpecMesh SpecInterp SpecSym MeshProofs SymProofs PropInterpEx PropSymEx.
Import ListNotations.
Open Scope R_scope.

(** C83: scaling, translating or mirroring coordinate axes and starting periods
    at another point, of the grid and of the data, does the same to the function. *)
Theorem C83_moved_grid : forall on nd p per dims ms ranges ranges' f f' g g',
  (1 <= p)%nat -> good_input nd p per dims ranges -> good_input nd p per dims ranges' ->
  m_dims f = dims -> wf_mesh f -> m_dims f' = dims -> wf_mesh f' ->
  (forall d, (d < length per)%nat -> fst (fst (move_at ms d)) <> 0) ->
  moved_grid nd per dims ms ranges ranges' -> moved_data nd per dims ms f f' ->
  interp_make Rops on nd p per f ranges = Ok g -> interp_make Rops on nd p per f' ranges' = Ok g' ->
  forall xs, length xs = length per -> countable_point nd per dims ranges xs -> countable_point nd per dims ranges' (moved_point per ms xs) ->
    interp_eval Rops g' (moved_point per ms xs) = interp_eval Rops g xs.
Proof. exact moved_interpolation. Qed.
Print Assumptions C83_moved_grid.
Example C83_example :
  good_input false 3 [false; true] gdims (gx IZR) /\ good_input false 3 [false; true] gdims (mx IZR) /\
  (forall d, (d < 2)%nat -> fst (fst (move_at msx d)) <> 0) /\
  moved_grid false [false; true] gdims msx (gx IZR) (mx IZR) /\
  moved_data false [false; true] gdims msx (gdata IZR) (mdata IZR) /\
  (exists g, interp_make Rops true false 3 [false; true] (gdata IZR) (gx IZR) = Ok g) /\
  (exists g, interp_make Rops true false 3 [false; true] (mdata IZR) (mx IZR) = Ok g).
Proof. exact ex_moved. Qed.
Example C83_example_run : (* (1/2, 1/3) and (7, -1) become (0, -1/3) and (-13, 1) *)
  evals (interp_make Qops true false 3 [false; true] (mdata inject_Z) (mx inject_Z)) [[0; -1#3]; [-13; 1]]%Q =
  evals (interp_make Qops true false 3 [false; true] (gdata inject_Z) (gx inject_Z)) [[1#2; 1#3]; [7; -1]]%Q.
Proof. vm_compute. reflexivity. Qed.
