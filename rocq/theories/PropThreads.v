(** Property theorems: multithreaded mode. *)
From Coq Require Import List Arith Bool ZArith QArith.
From Verif Require Import Base Num MeshM ProgM SplineM InterpM CellM ThreadsM SpecSpline SpecSplineObj SplineProofs SplineCons PropSplineEx PropThreadsEx.
From Verif Require Import ThreadsTop.
Import ListNotations.
Open Scope nat_scope.

(** C33: whatever the schedule and the number of blocks, the threads together
    produce exactly the control points of the single-threaded code; and if
    that code succeeds there is such an execution. *)
Theorem C33_deterministic : forall (T : Type) (o : ops T) on nd blocks order per dims ranges t f c,
  length dims = length per -> templ_make o on nd order per dims ranges = Ok t -> (forall n, In n (tp_dims t) -> 0 < n) ->
  mt_solve o on nd blocks t f c <-> solve_ctrl o on nd t f = Ok c.
Proof. exact @mt_solve_eq. Qed.
Print Assumptions C33_deterministic.

(** No two threads of a round access the same memory cell, whatever the
    content of the memory. *)
Theorem C33_no_race : forall (T : Type) (o : ops T) on nd blocks order per dims ranges t d ps m tr qs m',
  length dims = length per -> templ_make o on nd order per dims ranges = Ok t -> (forall n, In n (tp_dims t) -> 0 < n) ->
  d < length (tp_dims t) -> mt_round o on blocks (tp_solvers t) (tp_dims t) d = Ok ps ->
  texec (ps, m) tr (qs, m') ->
  forall i j l, In (i, l) tr -> In (j, l) tr -> i = j.
Proof. exact @mt_round_safe. Qed.
Print Assumptions C33_no_race.

(** If the single-threaded code succeeds, no schedule can lead to a thread
    that is stuck or faults, and every schedule of a round ends. *)
Theorem C33_progress : forall (T : Type) (o : ops T) on nd blocks order per dims ranges t f c w,
  length dims = length per -> templ_make o on nd order per dims ranges = Ok t -> (forall n, In n (tp_dims t) -> 0 < n) ->
  init_weights o nd (sp_order (if_spline (tp_base t))) (sp_per (if_spline (tp_base t))) (tp_dims t) f = Ok w ->
  solve_ctrl o on nd t f = Ok c ->
  forall d m, d < length (tp_dims t) ->
  mt_run (map (mt_round o on blocks (tp_solvers t) (tp_dims t)) (seq 0 d)) (initial_mem o (tp_dims t) w) m ->
  exists ps, mt_round o on blocks (tp_solvers t) (tp_dims t) d = Ok ps /\
  exists bound, forall tr qs m', texec (ps, m) tr (qs, m') ->
    length tr <= bound /\
    forall i p, nth_error qs i = Some p -> p = Ret tt \/ exists l c, tstep (qs, m') (i, l) c.
Proof. exact @mt_progress. Qed.
Print Assumptions C33_progress.

(** The same for the generation of the cell layout. *)
Theorem C33_cells : forall (T : Type) (o : ops T) on blocks (s : spline T),
  wf_spline s -> 1 <= sp_dim s ->
  forall c, mt_cells o on blocks s (sp_ctrl s) c <-> generate_cells o on s (sp_ctrl s) = Ok c.
Proof. exact @mt_cells_serial. Qed.
Print Assumptions C33_cells.
Theorem C33_cells_no_race : forall (T : Type) (o : ops T) on blocks (s : spline T) cdims h m tr qs m',
  wf_spline s -> 1 <= sp_dim s -> cell_dims s (sp_ctrl s) = Ok cdims -> cell_hyper s cdims = Ok h ->
  texec (mt_fill on blocks s (sp_ctrl s) cdims h, m) tr (qs, m') ->
  forall i j l, In (i, l) tr -> In (j, l) tr -> i = j.
Proof. exact @mt_fill_safe. Qed.
Print Assumptions C33_cells_no_race.
Example C33_example : exists t c,
  templ_make Qops true false 2 [false; true; false] tdims [Uniform 0 4; Uniform 0 3; Uniform 0 1]%Q = Ok t /\
  tp_dims t = [5; 3; 3] /\ (forall n, In n (tp_dims t) -> 0 < n) /\
  solve_ctrl Qops true false t tdata = Ok c /\
  mt_solve Qops true false Nat.sqrt t tdata c.
Proof. exact ex_mt. Qed.
Example C33_example_cells : wf_spline (ex_spline inject_Z) /\ 1 <= sp_dim (ex_spline inject_Z).
Proof. exact (conj (ex_wf inject_Z) (le_S _ _ (le_n 1))). Qed.

(** C34: for any number of blocks, the blocks are intervals of line numbers
    and together enumerate 0, ..., h - 1 once each, in order. *)
Theorem C34_division : forall b h,
  (forall lo hi, In (lo, hi) (mt_blocks b h) -> lo <= hi <= h) /\
  concat (map (fun l => seq (fst l) (snd l - fst l)) (mt_blocks b h)) = seq 0 h.
Proof. exact blocks_ok. Qed.
Print Assumptions C34_division.
Example C34_example : mt_blocks (Nat.sqrt 11) 11 = [(0, 3); (3, 6); (6, 9); (9, 11)] /\ mt_blocks (Nat.sqrt 0) 0 = [(0, 0)].
Proof. exact (conj eq_refl eq_refl). Qed.
