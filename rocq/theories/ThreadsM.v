(** Model of the multithreaded mode (INTP_MULTITHREAD): interleaved execution
    of programs over shared memory and the division of work into blocks. *)
From Coq Require Import List Arith Lia Bool ZArith.
From Verif Require Import Base Num MeshM ProgM LUM SplineM InterpM CellM.
Import ListNotations.

(** ** Interleaving.  One step is one read or one write of a memory cell by
    one thread.  This is modelling vocabulary for the C++ execution of
    threads without data races; [C33_no_race] shows the absence of races. *)
Definition config (T : Type) : Type := (list (prog T unit) * mem T)%type.

Inductive tstep {T} : config T -> nat * loc -> config T -> Prop :=
| step_rd ps m i l k v : nth_error ps i = Some (Rd l k) -> mem_get m l = Ok v ->
    tstep (ps, m) (i, l) (upd ps i (k v), m)
| step_wr ps m i l v k m' : nth_error ps i = Some (Wr l v k) -> mem_set m l v = Ok m' ->
    tstep (ps, m) (i, l) (upd ps i k, m').

(** An execution with the list of accesses (thread, cell). *)
Inductive texec {T} : config T -> list (nat * loc) -> config T -> Prop :=
| exec_nil c : texec c [] c
| exec_cons c1 a c2 tr c3 : tstep c1 a c2 -> texec c2 tr c3 -> texec c1 (a :: tr) c3.

Definition finished {T} (ps : list (prog T unit)) : Prop := forall p, In p ps -> p = Ret tt.

(** ** Division of [h] lines into [b] blocks for the pool and a rest for the
    calling thread (InterpolationTemplate.hpp:547-569, BSpline.hpp:735-756).
    The source takes b = floor(sqrt(h)) in double arithmetic; here b is
    arbitrary. *)
Definition mt_blocks (b h : nat) : list (nat * nat) :=
  let per_block := if b =? 0 then h else h / b in
  map (fun i => (i * per_block, (i + 1) * per_block)) (seq 0 b) ++ [(b * per_block, h)].

Section MT.
Context {T : Type} (o : ops T) (on nd : bool).
(** The number of blocks chosen for a number of lines. *)
Context (blocks : nat -> nat).

(** The threads of one round of [solve_for_control_points_]
    (InterpolationTemplate.hpp:502-570): one per queued task and the calling
    thread.  They may be interleaved from the start; a task that the pool has
    not started yet is one that takes no step.  Waiting for the futures ends
    the round. *)
Definition mt_round (solvers : list (solver T)) (dims : list nat) (d : nat) : res (list (prog T unit)) :=
  odims <- round_dims dims d ;;
  ndims <- right_shift odims ;;
  sv <- (k <- usub (length dims) 1 ;; k <- usub k d ;; vget solvers k) ;;
  h <- hyperplane_size odims ;;
  Ok (map (fun b => solve_block o on sv d odims (if 1 <? length dims then ndims else [1]) (fst b) (snd b))
          (mt_blocks (blocks h) h)).

(** Rounds one after the other. *)
Inductive mt_run : list (res (list (prog T unit))) -> mem T -> mem T -> Prop :=
| mt_nil m : mt_run [] m m
| mt_cons ps rs m tr qs m1 m2 :
    texec (ps, m) tr (qs, m1) -> finished qs -> mt_run rs m1 m2 -> mt_run (Ok ps :: rs) m m2.

(** [solve_for_control_points_] may end with the control points [c]. *)
Definition mt_solve (t : templ T) (f c : mesh T) : Prop :=
  let s := if_spline (tp_base t) in
  let dims := tp_dims t in
  exists w m,
    init_weights o nd (sp_order s) (sp_per s) dims f = Ok w /\
    mt_run (map (mt_round (tp_solvers t) dims) (seq 0 (length dims))) (initial_mem o dims w) m /\
    final_mesh dims m = Ok c.

(** The threads of [generate_cell_layout] (BSpline.hpp:735-756), and its
    possible results. *)
Definition mt_fill (s : spline T) (ctrl : mesh T) (cdims : list nat) (h : nat) : list (prog T unit) :=
  map (fun b => fill_cell on s ctrl cdims (fst b) (snd b)) (mt_blocks (blocks h) h).
Definition mt_cells (s : spline T) (ctrl : mesh T) (c : mesh T) : Prop :=
  exists cdims h tr qs data rest,
    cell_dims s ctrl = Ok cdims /\ cell_hyper s cdims = Ok h /\
    texec (mt_fill s ctrl cdims h, [repeat (o0 o) (md_size cdims)]) tr (qs, data :: rest) /\ finished qs /\
    c = mkMesh cdims data.
End MT.
