(** Model of InterpolationTemplate.hpp as compiled before C++17 (CMakeLists.txt:46
    of the library asks for C++11): the class [EitherSolver] around a union
    instead of [std::variant].  Everything not redefined here is the same text
    in both branches (InterpM.v).  The other uses of [__cplusplus] only select
    between a fold expression and its polyfill (Interpolation.hpp:472-480),
    [auto] and [std::function], [if constexpr] and [if]. *)
From Coq Require Import List Arith Lia Bool ZArith.
From Verif Require Import Base Num MeshM ProgM BandM LUM SplineM InterpM.
Import ListNotations.

(** [EitherSolver] (InterpolationTemplate.hpp:194-248): [Idle] while
    [is_active_] is false; [Held sv]: the tag is [is_periodic_], the member of
    that kind is alive. *)
Inductive either (T : Type) : Type := Idle | Held (sv : solver T).
Arguments Idle {T}.
Arguments Held {T}.

(** The members of the template (InterpolationTemplate.hpp:178-188, 252). *)
Record templ14 (T : Type) : Type := mkTempl14 {
  t14_base : interp T;
  t14_dims : list nat;
  t14_coords : list (list T);
  t14_solvers : list (either T);
}.
Arguments mkTempl14 {T}.
Arguments t14_base {T}.
Arguments t14_dims {T}.
Arguments t14_coords {T}.
Arguments t14_solvers {T}.

(** The implicit copy constructor of the template, in C++17: member-wise; a
    [std::variant] copies its content (InterpolationTemplate.hpp:190-191). *)
Definition templ_copy {T} (t : templ T) : templ T :=
  mkTempl (tp_base t) (tp_dims t) (tp_coords t) (tp_solvers t).

(** The same before C++17: the copy constructor of [EitherSolver] does nothing
    (InterpolationTemplate.hpp:224-227), so every solver of the copy is idle.
    [EitherSolver] has no move constructor, so moving does the same. *)
Definition templ14_copy {T} (t : templ14 T) : templ14 T :=
  mkTempl14 (t14_base t) (t14_dims t) (t14_coords t) (map (fun _ => Idle) (t14_solvers t)).

Section Templ14.
Context {T : Type} (o : ops T).
Context (on : bool).        (* INTP_ENABLE_ASSERTION *)
Context (no_dummy : bool).  (* INTP_PERIODIC_NO_DUMMY_POINT *)

(** [solvers_[d] = periodic] (InterpolationTemplate.hpp:207-221): refuses to
    switch an active solver. The exception is a [std::runtime_error], like that
    of an assertion. *)
Definition either_assign (e : either T) : res unit :=
  match e with Idle => Ok tt | Held _ => Throw AssertFailed end.

(** The union member of the given kind (InterpolationTemplate.hpp:436-444,
    531-535). *)
Definition either_get (periodic : bool) (e : either T) : res (solver T) :=
  match e with
  | Held (Aperiodic b) => if periodic then Fault Inactive else Ok (Aperiodic b)
  | Held (Periodic e) => if periodic then Ok (Periodic e) else Fault Inactive
  | Idle => Fault Inactive
  end.

(** The coefficient matrix before it is filled, of extended kind in any case
    (InterpolationTemplate.hpp:291, 307-308). *)
Definition coef14_make (order : nat) (periodic : bool) (n : nat) : res (eband T) :=
  let bw := if periodic then order / 2 else if order =? 0 then 0 else order - 1 in
  eband_make o n bw bw.

(** One row (InterpolationTemplate.hpp:316-420), see [coef_row]. *)
Definition coef14_row (s : spline T) (d : nat) (uniform : bool) (dx : T) (coords : list T)
  (n i : nat) (st : eband T * list T) : res (eband T * list T) :=
  let '(m, vals) := st in
  let order := sp_order s in
  periodic <- vget (sp_per s) d ;;
  knots <- vget (sp_knots s) d ;;
  range <- vget (sp_range s) d ;;
  n1 <- usub n 1 ;;
  if negb periodic && ((i =? 0) || (i =? n1)) then
    m <- eb_main_set on m i i (o1 o) ;; Ok (m, vals)
  else
  let knot_num := length knots in
  is_internal <- (if order / 2 <? i then
                    a <- usub n (order / 2) ;; a <- usub a 1 ;; Ok (i <? a)
                  else Ok false) ;;
  ' (knot_ind, vals) <-
    (if (uniform : bool) then
       if (periodic : bool) then Ok (i + order, vals)
       else
         a <- usub knot_num order ;; a <- usub a 2 ;;
         let knot_ind := Nat.min a (if order / 2 <? i then i + (order + 1) / 2 else order) in
         outside <- (if knot_ind <=? 2 * order + 1 then Ok true
                     else b <- usub knot_num (2 * order) ;; b <- usub b 2 ;; Ok (b <=? knot_ind)) ;;
         if (outside : bool) then
           vals <- base_spline_value o order knots knot_ind
                     (oadd o (fst range) (omul o (onat o i) dx)) order ;;
           Ok (knot_ind, vals)
         else Ok (knot_ind, vals)
     else
       x <- vget coords i ;;
       knot_ind <-
         (if (periodic : bool) then Ok (i + order)
          else if i =? 0 then Ok order
          else
            e <- usub (length coords) 1 ;;
            if i =? e then usub knot_num (order + 2)
            else
              a <- usub knot_num order ;; a <- usub a 1 ;;
              r <- get_knot_iter_last o order periodic knots range x (i + 1) (Nat.min a (i + order)) ;;
              Ok (snd r)) ;;
       vals <- base_spline_value o order knots knot_ind x order ;;
       Ok (knot_ind, vals)) ;;
  let s_num := if (periodic : bool) then order + (1 - order mod 2)
               else if order =? 1 then 1
               else if uniform && is_internal then order + (1 - order mod 2)
               else order + 1 in
  let bw := order / 2 in
  m <- for_ 0 s_num m (fun m j =>
    if (periodic : bool) then
      row <- umod (i + bw) n ;;
      c <- usub knot_ind order ;;
      col <- umod (c + j) n ;;
      v <- vget vals j ;;
      eb_set on m row col v
    else
      c <- usub knot_ind order ;;
      v <- vget vals j ;;
      eb_main_set on m i (c + j) v) ;;
  Ok (m, vals).

(** The filled matrix (InterpolationTemplate.hpp:286-420). *)
Definition coef14_matrix (f : interp T) (coords : list (list T)) (dims : list nat) (d : nat)
  : res (eband T) :=
  let s := if_spline f in
  periodic <- vget (sp_per s) d ;;
  uniform <- vget (if_uniform f) d ;;
  dx <- vget (if_dx f) d ;;
  c <- vget coords d ;;
  n <- vget dims d ;;
  cache <- coef_cache o s d uniform dx ;;
  m <- coef14_make (sp_order s) periodic n ;;
  ' (m, _) <- for_ 0 n (m, cache) (fun st i => coef14_row s d uniform dx c n i st) ;;
  Ok m.

(** [compute] on the member that was just activated
    (InterpolationTemplate.hpp:437-443); the cast to [matrix_type&&] of the base
    solver takes the main bands only. *)
Definition coef14_factor (periodic : bool) (m : eband T) : res (solver T) :=
  if periodic then e <- eband_lu o on m ;; Ok (Periodic e)
  else b <- band_lu o on (e_base m) ;; Ok (Aperiodic b).

(** Constructor and [build_solver_] (InterpolationTemplate.hpp:60-79, 254-446);
    all solvers are idle at first. *)
Definition templ14_make (order : nat) (per : list bool) (dims : list nat) (ranges : list (xrange T))
  : res (templ14 T) :=
  ' (f, coords) <- interp_base o on no_dummy order per dims ranges ;;
  dims' <- reduced_dims no_dummy per dims ;;
  solvers <- for_ 0 (length per) (repeat Idle (length per)) (fun svs d =>
    m <- coef14_matrix f coords dims' d ;;
    old <- vget svs d ;;
    _ <- either_assign old ;;
    periodic <- vget per d ;;
    sv <- coef14_factor periodic m ;;
    vset svs d (Held sv)) ;;
  Ok (mkTempl14 f dims' coords solvers).

(** [solve_and_rearrange_block] (InterpolationTemplate.hpp:516-545), see
    [solve_block]; [periodic] is [base_.periodicity(dim - 1 - d)]. *)
Definition solve_block14 (periodic : bool) (sv : either T) (d : nat) (odims ndims : list nat) (lo hi : nat)
  : prog T unit :=
  let dim := length odims in
  let old := d mod 2 in
  let new := 1 - d mod 2 in
  let om := mkMesh odims (@nil T) in
  let nm := mkMesh ndims (@nil T) in
  pbind (plift (usub dim 1)) (fun last =>
  pbind (plift (vget odims last)) (fun line_size =>
  pfor lo hi (fun j =>
    pbind (plift (md_dimwise_indices odims (j * line_size))) (fun ind =>
    pbind (plift (mesh_begin on om last ind)) (fun old_begin =>
    pbind (plift (mesh_end om last ind)) (fun old_end =>
    pbind (plift (ind' <- right_shift ind ;; mesh_begin on nm 0 ind')) (fun new_begin =>
    pbind (plift (either_get periodic sv)) (fun solver =>
    pbind (solver_solve o on solver (line_cell old old_begin)) (fun _ =>
    if 1 <? dim then
      pbind (plift (sk_diff old_end old_begin)) (fun len =>
      pfor 0 (Z.to_nat len) (fun k =>
        pbind (pread (line_cell old old_begin k)) (fun v =>
        pwrite (line_cell new new_begin k) v)))
    else Ret tt))))))))).

(** Round [d], single-threaded (InterpolationTemplate.hpp:503-572). *)
Definition solve_round14 (per : list bool) (solvers : list (either T)) (dims : list nat) (d : nat) : prog T unit :=
  pbind (plift (round_dims dims d)) (fun odims =>
  pbind (plift (right_shift odims)) (fun ndims =>
  pbind (plift (k <- usub (length dims) 1 ;; k <- usub k d ;; sv <- vget solvers k ;; p <- vget per k ;; Ok (p, sv))) (fun psv =>
  pbind (plift (hyperplane_size odims)) (fun h =>
  solve_block14 (fst psv) (snd psv) d odims (if 1 <? length dims then ndims else [1]) 0 h)))).

(** [solve_for_control_points_] (InterpolationTemplate.hpp:448-580). *)
Definition solve_ctrl14 (t : templ14 T) (f : mesh T) : res (mesh T) :=
  let s := if_spline (t14_base t) in
  let dims := t14_dims t in
  w <- init_weights o no_dummy (sp_order s) (sp_per s) dims f ;;
  r <- run (pfor 0 (length dims) (solve_round14 (sp_per s) (t14_solvers t) dims)) (initial_mem o dims w) ;;
  final_mesh dims (snd r).

(** [interpolate] const& (InterpolationTemplate.hpp:118-125). *)
Definition interpolate14 (t : templ14 T) (f : mesh T) : res (interp T) :=
  c <- solve_ctrl14 t f ;; Ok (set_ctrl (t14_base t) c).

(** Constructor of the interpolation function from data
    (Interpolation.hpp:92-107); [interpolate] && (InterpolationTemplate.hpp:127-133)
    returns the same function as [interpolate] const&. *)
Definition interp14_make (order : nat) (per : list bool) (f : mesh T) (ranges : list (xrange T))
  : res (interp T) :=
  t <- templ14_make order per (m_dims f) ranges ;; interpolate14 t f.

End Templ14.
