(** C66: the code before C++17 with threads and with cells. Properties only;
    the proofs are in Mode14Proofs. *)
From Coq Require Import List Arith QArith.
From Verif Require Import Base Num MeshM ProgM SplineM InterpM CellM ThreadsM Templ14M Mode14M SpecInterp Templ14Proofs Mode14Proofs.
Import ListNotations.
Local Open Scope nat_scope.

(** Every interleaving of the threads ends with the control points of the
    single-threaded code (for which see C66_templates_same). *)
Theorem C66_threads : forall (T : Type) (o : ops T) on nd blocks p per dims ranges t f c,
  never_throws o -> sized_input nd p per dims ranges -> ends_last o per ranges ->
  templ14_make o on nd p per dims ranges = Ok t -> (forall n, In n (t14_dims t) -> 0 < n) ->
  mt_solve14 o on nd blocks t f c <-> solve_ctrl14 o on nd t f = Ok c.
Proof. exact threads14. Qed.
Print Assumptions C66_threads.
Theorem C66_threads_no_race : forall (T : Type) (o : ops T) on nd blocks p per dims ranges t d ps m tr qs m',
  never_throws o -> sized_input nd p per dims ranges -> ends_last o per ranges ->
  templ14_make o on nd p per dims ranges = Ok t -> (forall n, In n (t14_dims t) -> 0 < n) ->
  d < length (t14_dims t) -> mt_round14 o on blocks (sp_per (if_spline (t14_base t))) (t14_solvers t) (t14_dims t) d = Ok ps ->
  texec (ps, m) tr (qs, m') ->
  forall i j l, In (i, l) tr -> In (j, l) tr -> i = j.
Proof. exact races14. Qed.
Print Assumptions C66_threads_no_race.
Example C66_threads_example : exists t c, templ14_make Qops true false 3 [true; false] [6; 5] mixed_ranges = Ok t /\
  t14_dims t = [5; 5] /\ (forall n, In n (t14_dims t) -> 0 < n) /\ solve_ctrl14 Qops true false t mixed_data = Ok c /\
  mt_solve14 Qops true false Nat.sqrt t mixed_data c.
Proof. exact ex_threads14. Qed.

(** With the cell layout the same functions are built as since C++17. *)
Theorem C66_cells : forall (T : Type) (o : ops T) on nd p per ranges f,
  never_throws o -> sized_input nd p per (m_dims f) ranges -> ends_last o per ranges ->
  cell_interp14_make o on nd p per f ranges = cell_interp_make o on nd p per f ranges.
Proof. exact cells14. Qed.
Print Assumptions C66_cells.
Example C66_cells_example : sized_input false 3 [true; false] (m_dims mixed_data) mixed_ranges /\ ends_last Qops [true; false] mixed_ranges /\
  (g <- cell_interp14_make Qops true false 3 [true; false] mixed_data mixed_ranges ;; cell_interp_eval Qops true g [2; 3]%Q) = Ok 4%Q.
Proof. split; [apply mixed_sized|]. split; [apply mixed_sized|]. vm_compute. reflexivity. Qed.
