(** The code before C++17 together with multithreading (INTP_MULTITHREAD) and
    with the cell layout (INTP_CELL_LAYOUT). *)
From Coq Require Import List Arith Bool.
From Verif Require Import Base Num MeshM ProgM LUM SplineM InterpM CellM ThreadsM Templ14M.
Import ListNotations.

Section Mode14.
Context {T : Type} (o : ops T) (on nd : bool).
Context (blocks : nat -> nat).

(** The threads of one round (InterpolationTemplate.hpp:502-570), see
    [mt_round]. *)
Definition mt_round14 (per : list bool) (solvers : list (either T)) (dims : list nat) (d : nat) : res (list (prog T unit)) :=
  odims <- round_dims dims d ;;
  ndims <- right_shift odims ;;
  psv <- (k <- usub (length dims) 1 ;; k <- usub k d ;; sv <- vget solvers k ;; p <- vget per k ;; Ok (p, sv)) ;;
  h <- hyperplane_size odims ;;
  Ok (map (fun b => solve_block14 o on (fst psv) (snd psv) d odims (if 1 <? length dims then ndims else [1]) (fst b) (snd b))
          (mt_blocks (blocks h) h)).

(** [solve_for_control_points_] may end with the control points [c]
    (InterpolationTemplate.hpp:448-580). *)
Definition mt_solve14 (t : templ14 T) (f c : mesh T) : Prop :=
  let s := if_spline (t14_base t) in
  let dims := t14_dims t in
  exists w m,
    init_weights o nd (sp_order s) (sp_per s) dims f = Ok w /\
    mt_run (map (mt_round14 (sp_per s) (t14_solvers t) dims) (seq 0 (length dims))) (initial_mem o dims w) m /\
    final_mesh dims m = Ok c.

(** [interpolate] const& and the constructor from data with cells
    (InterpolationTemplate.hpp:118-125, BSpline.hpp:229-232,
    Interpolation.hpp:92-107). *)
Definition cell_interpolate14 (t : templ14 T) (f : mesh T) : res (interp T) :=
  c <- solve_ctrl14 o on nd t f ;; set_cells o on (t14_base t) c.
Definition cell_interp14_make (order : nat) (per : list bool) (f : mesh T) (ranges : list (xrange T)) : res (interp T) :=
  t <- templ14_make o on nd order per (m_dims f) ranges ;; cell_interpolate14 t f.

End Mode14.
