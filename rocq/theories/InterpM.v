(** Model of Interpolation.hpp and InterpolationTemplate.hpp (C++17 code
    path, plain control point layout; single-threaded solving, see ThreadsM.v
    for INTP_MULTITHREAD). *)
From Coq Require Import List Arith Lia Bool ZArith.
From Verif Require Import Base Num MeshM ProgM BandM LUM SplineM.
Import ListNotations.

(** A constructor argument [x_ranges]: a pair (x_min, x_max) of numbers or an
    iterator pair, given by the sequence of values it runs through
    (Interpolation.hpp:322-327 and 365-373). *)
Inductive xrange (T : Type) : Type :=
| Uniform (a b : T)
| Points (l : list T).
Arguments Uniform {T}.
Arguments Points {T}.

(** InterpolationFunction: [spline_, dx_, uniform_]
    (Interpolation.hpp:269-273). *)
Record interp (T : Type) : Type := mkInterp {
  if_spline : spline T;
  if_dx : list T;
  if_uniform : list bool;
}.
Arguments mkInterp {T}.
Arguments if_spline {T}.
Arguments if_dx {T}.
Arguments if_uniform {T}.

(** [EitherSolver] (InterpolationTemplate.hpp:188-248): the factorised matrix
    of one dimension; also used for the coefficient matrix under
    construction ([coef_mat], 293-309). *)
Inductive solver (T : Type) : Type :=
| Aperiodic (m : band T)
| Periodic (m : eband T).
Arguments Aperiodic {T}.
Arguments Periodic {T}.

(** InterpolationFunctionTemplate: members [base_, mesh_dimension_,
    input_coords_, solvers_] (InterpolationTemplate.hpp:178-252). *)
Record templ (T : Type) : Type := mkTempl {
  tp_base : interp T;
  tp_dims : list nat;
  tp_coords : list (list T);
  tp_solvers : list (solver T);
}.
Arguments mkTempl {T}.
Arguments tp_base {T}.
Arguments tp_dims {T}.
Arguments tp_coords {T}.
Arguments tp_solvers {T}.

Section Interp.
Context {T : Type} (o : ops T).
Context (on : bool).        (* INTP_ENABLE_ASSERTION *)
Context (no_dummy : bool).  (* INTP_PERIODIC_NO_DUMMY_POINT *)

(** ** Knot vectors *)

(** [create_knot_vector_] for a pair of numbers (Interpolation.hpp:322-362);
    returns the knot vector and [dx_[dim_ind]]. *)
Definition uniform_knots (order : nat) (periodic : bool) (size : nat) (a b : T) : res (list T * T) :=
  let n := size + (if no_dummy && periodic then 1 else 0) in
  n1 <- usub n 1 ;;
  dx <- odiv o (osub o b a) (onat o n1) ;;
  let extra := if periodic then 2 * order + (1 - order mod 2) else order + 1 in
  let xs := repeat a (n + extra) in
  let knot i := oadd o a (omul o (osub o (onat o i) (omul o (ohalf o) (onat o extra))) dx) in
  xs <- (if periodic then for_ 0 (length xs) xs (fun xs i => vset xs i (knot i))
         else
           e <- usub (length xs) order ;; e <- usub e 1 ;;
           xs <- for_ (order + 1) e xs (fun xs i => vset xs i (knot i)) ;;
           for_ e (length xs) xs (fun xs i => vset xs i b)) ;;
  Ok (xs, dx).

(** Body of the periodic branch of [create_knot_vector_] for an iterator pair
    (Interpolation.hpp:401-417).  [l] are the values of the iterators; reading
    the [k]-th value is [vget l k]. Returns the knots and [input_coord]. *)
Definition periodic_points (order : nat) (l : list T) : res (list T * list T) :=
  let n := length l in
  let xs := repeat (o0 o) (n + 2 * order + (1 - order mod 2)) in
  c0 <- vget l 0 ;;
  ' (xs, coord) <- for_ (order + 1) (order + n) (xs, [c0]) (fun st i =>
      let '(xs, coord) := st in
      present <- vget l (i - order) ;;
      back <- vget coord (length coord - 1) ;;
      xs <- vset xs i (if order mod 2 =? 0 then omul o (ohalf o) (oadd o back present) else present) ;;
      Ok (xs, coord ++ [present])) ;;
  back <- vget coord (length coord - 1) ;;
  front <- vget coord 0 ;;
  let period := osub o back front in
  xs <- for_ 0 (order + 1) xs (fun xs i =>
      k <- usub (n + i) 1 ;;
      v <- vget xs k ;;
      xs <- vset xs i (osub o v period) ;;
      a <- usub (length xs) i ;; a1 <- usub a 1 ;;
      an <- usub a n ;;
      w <- vget xs an ;;
      vset xs a1 (oadd o w period)) ;;
  Ok (xs, coord).

(** Body of the aperiodic branch (Interpolation.hpp:418-447); [it] is the
    position of the iterator. *)
Definition aperiodic_points (order : nat) (l : list T) : res (list T * list T) :=
  let n := length l in
  let xs := repeat (o0 o) (n + order + 1) in
  l_knot <- vget l 0 ;;
  xs <- for_ 0 (order + 1) xs (fun xs i => vset xs i l_knot) ;;
  ' (it, coord, window) <- for_ 1 order (0, [l_knot], o0 o) (fun st i =>
      let '(it, coord, window) := st in
      v <- vget l (it + 1) ;;
      let coord := coord ++ [v] in
      c <- vget coord i ;;
      Ok (it + 1, coord, oadd o window c)) ;;
  ' (xs, it, coord, window) <- for_ (order + 1) n (xs, it, coord, window) (fun st i =>
      let '(xs, it, coord, window) := st in
      v <- vget l (it + 1) ;;
      let coord := coord ++ [v] in
      c <- vget coord (i - 1) ;;
      let window := oadd o window c in
      k <- odiv o window (onat o order) ;;
      xs <- vset xs i k ;;
      c <- vget coord (i - order) ;;
      Ok (xs, it + 1, coord, osub o window c)) ;;
  r_knot <- vget l (it + 1) ;;
  xs <- for_ n (n + order + 1) xs (fun xs i => vset xs i r_knot) ;;
  Ok (xs, coord ++ [r_knot]).

(** [create_knot_vector_] for an iterator pair (Interpolation.hpp:364-464).
    [std::distance] on a single-pass input iterator would consume it; the
    model assumes iterators that can be traversed twice.  The knot values are
    computed in [coord_type]. *)
Definition points_knots (order : nat) (periodic : bool) (size : nat) (l : list T)
  : res (list T * list T) :=
  _ <- intp_assert on (length l =? size + (if no_dummy && periodic then 1 else 0)) ;;
  ' (xs, coord) <- (if periodic then periodic_points order l else aperiodic_points order l) ;;
  e <- usub (length coord) 1 ;;
  _ <- for_ 0 e tt (fun _ i =>
      b <- vget coord (i + 1) ;;
      a <- vget coord i ;;
      intp_assert on (olt o a b)) ;;
  Ok (xs, coord).

(** [create_knots_] (Interpolation.hpp:466-480) with the dispatch on the
    kind of range; also records [uniform_], [dx_] and [input_coords]. *)
Definition create_knots (f : interp T) (dims : list nat) (ranges : list (xrange T))
  : res (interp T * list (list T)) :=
  let dim := length (sp_per (if_spline f)) in
  for_ 0 (length ranges) (f, repeat [] dim) (fun st d =>
    let '(f, coords) := st in
    let s := if_spline f in
    r <- vget ranges d ;;
    p <- vget (sp_per s) d ;;
    n <- vget dims d ;;
    match r with
    | Uniform a b =>
        u <- vset (if_uniform f) d true ;;
        ' (xs, h) <- uniform_knots (sp_order s) p n a b ;;
        dx <- vset (if_dx f) d h ;;
        s <- load_knots s d xs ;;
        Ok (mkInterp s dx u, coords)
    | Points l =>
        u <- vset (if_uniform f) d false ;;
        ' (xs, c) <- points_knots (sp_order s) p n l ;;
        coords <- vset coords d c ;;
        s <- load_knots s d xs ;;
        Ok (mkInterp s (if_dx f) u, coords)
    end).

(** Constructor without interpolated values (Interpolation.hpp:109-121);
    [dx_] and [uniform_] are uninitialised before [create_knots_] (zeros and
    [false] in the model). *)
Definition interp_base (order : nat) (per : list bool) (dims : list nat) (ranges : list (xrange T))
  : res (interp T * list (list T)) :=
  create_knots (mkInterp (spline_empty o order per) (repeat (o0 o) (length per))
                         (repeat false (length per))) dims ranges.

(** ** The linear systems *)

(** [m(row, col) = v] on either kind of matrix. *)
Definition coef_set (m : solver T) (row col : nat) (v : T) : res (solver T) :=
  match m with
  | Aperiodic b => b <- band_set on b row col v ;; Ok (Aperiodic b)
  | Periodic e => e <- eb_set on e row col v ;; Ok (Periodic e)
  end.

(** The coefficient matrix of one dimension before it is filled
    (InterpolationTemplate.hpp:288-309). *)
Definition coef_make (order : nat) (periodic : bool) (n : nat) : res (solver T) :=
  let bw := if periodic then order / 2 else if order =? 0 then 0 else order - 1 in
  if periodic then e <- eband_make o n bw bw ;; Ok (Periodic e)
  else Ok (Aperiodic (band_make o n bw bw)).

(** One row of the coefficient matrix (InterpolationTemplate.hpp:316-420):
    [n] is [mesh_dimension_.dim_size(d)], [vals] the cached
    [base_spline_vals_per_dim[d]] (the empty list while uninitialised). *)
Definition coef_row (s : spline T) (d : nat) (uniform : bool) (dx : T) (coords : list T)
  (n i : nat) (st : solver T * list T) : res (solver T * list T) :=
  let '(m, vals) := st in
  let order := sp_order s in
  periodic <- vget (sp_per s) d ;;
  knots <- vget (sp_knots s) d ;;
  range <- vget (sp_range s) d ;;
  n1 <- usub n 1 ;;
  if negb periodic && ((i =? 0) || (i =? n1)) then
    m <- coef_set m i i (o1 o) ;; Ok (m, vals)
  else
  let knot_num := length knots in
  is_internal <- (if order / 2 <? i then
                    a <- usub n (order / 2) ;; a <- usub a 1 ;; Ok (i <? a)
                  else Ok false) ;;
  ' (knot_ind, vals) <-
    (if (uniform : bool) then
       if (periodic : bool) then Ok (i + order, vals)
       else
         a <- usub knot_num order ;; a <- usub a 2 ;;
         let knot_ind := Nat.min a (if order / 2 <? i then i + (order + 1) / 2 else order) in
         outside <- (if knot_ind <=? 2 * order + 1 then Ok true
                     else b <- usub knot_num (2 * order) ;; b <- usub b 2 ;; Ok (b <=? knot_ind)) ;;
         if (outside : bool) then
           vals <- base_spline_value o order knots knot_ind
                     (oadd o (fst range) (omul o (onat o i) dx)) order ;;
           Ok (knot_ind, vals)
         else Ok (knot_ind, vals)
     else
       x <- vget coords i ;;
       knot_ind <-
         (if (periodic : bool) then Ok (i + order)
          else if i =? 0 then Ok order
          else
            e <- usub (length coords) 1 ;;
            if i =? e then usub knot_num (order + 2)
            else
              a <- usub knot_num order ;; a <- usub a 1 ;;
              r <- get_knot_iter_last o order periodic knots range x (i + 1) (Nat.min a (i + order)) ;;
              Ok (snd r)) ;;
       vals <- base_spline_value o order knots knot_ind x order ;;
       Ok (knot_ind, vals)) ;;
  let s_num := if (periodic : bool) then order + (1 - order mod 2)
               else if order =? 1 then 1
               else if uniform && is_internal then order + (1 - order mod 2)
               else order + 1 in
  let bw := if (periodic : bool) then order / 2 else 0 in
  m <- for_ 0 s_num m (fun m j =>
    row <- umod (i + bw) n ;;
    c <- usub knot_ind order ;;
    col <- umod (c + j) n ;;
    v <- vget vals j ;;
    coef_set m row col v) ;;
  Ok (m, vals).

(** The values cached for uniform periodic dimensions
    (InterpolationTemplate.hpp:273-280). *)
Definition coef_cache (s : spline T) (d : nat) (uniform : bool) (dx : T) : res (list T) :=
  let order := sp_order s in
  periodic <- vget (sp_per s) d ;;
  if periodic && uniform then
    knots <- vget (sp_knots s) d ;;
    t <- vget knots order ;;
    base_spline_value o order knots order
      (oadd o t (omul o (omul o (onat o (1 - order mod 2)) dx) (ohalf o))) order
  else Ok [].

(** [BandLU::compute] for either kind (InterpolationTemplate.hpp:427-434). *)
Definition coef_factor (m : solver T) : res (solver T) :=
  match m with
  | Aperiodic b => b <- band_lu o on b ;; Ok (Aperiodic b)
  | Periodic e => e <- eband_lu o on e ;; Ok (Periodic e)
  end.

(** The filled matrix of dimension [d] (InterpolationTemplate.hpp:286-425). *)
Definition coef_matrix (f : interp T) (coords : list (list T)) (dims : list nat) (d : nat)
  : res (solver T) :=
  let s := if_spline f in
  periodic <- vget (sp_per s) d ;;
  uniform <- vget (if_uniform f) d ;;
  dx <- vget (if_dx f) d ;;
  c <- vget coords d ;;
  n <- vget dims d ;;
  cache <- coef_cache s d uniform dx ;;
  m <- coef_make (sp_order s) periodic n ;;
  ' (m, _) <- for_ 0 n (m, cache) (fun st i => coef_row s d uniform dx c n i st) ;;
  Ok m.

(** The adjusted mesh dimension (InterpolationTemplate.hpp:255-265). *)
Definition reduced_dims (per : list bool) (dims : list nat) : res (list nat) :=
  if no_dummy then Ok dims
  else mapM (fun d =>
         n <- vget dims d ;; p <- vget per d ;;
         usub n (if (p : bool) then 1 else 0)) (seq 0 (length per)).

(** Constructor of InterpolationFunctionTemplate with [build_solver_]
    (InterpolationTemplate.hpp:60-79, 254-446).  As many ranges as dimensions
    must be given (the C++ code compiles with fewer and then leaves knot
    vectors empty). *)
Definition templ_make (order : nat) (per : list bool) (dims : list nat) (ranges : list (xrange T))
  : res (templ T) :=
  ' (f, coords) <- interp_base order per dims ranges ;;
  dims' <- reduced_dims per dims ;;
  solvers <- mapM (fun d => m <- coef_matrix f coords dims' d ;; coef_factor m)
                  (seq 0 (length per)) ;;
  Ok (mkTempl f dims' coords solvers).

(** ** Solving for the control points *)

(** [check_idx] (InterpolationTemplate.hpp:451-479) and the loop 451-461 of
    the other mode: the shifted index and whether the value is kept. *)
Definition shift_index (order : nat) (per : list bool) (wdims idx : list nat)
  : res (list nat * bool) :=
  for_ 0 (length per) (idx, true) (fun st d =>
    let '(idx, keep) := st in
    p <- vget per d ;;
    if (p : bool) then
      i <- vget idx d ;;
      n <- vget wdims d ;;
      r <- umod (i + n + order / 2) n ;;
      idx <- vset idx d r ;;
      Ok (idx, keep && (no_dummy || negb (i =? n)))
    else Ok (idx, keep)).

(** Copying the data into the control point mesh
    (InterpolationTemplate.hpp:448-489). *)
Definition init_weights (order : nat) (per : list bool) (wdims : list nat) (f : mesh T)
  : res (mesh T) :=
  for_ 0 (mesh_size f) (mesh_make (o0 o) wdims) (fun w off =>
    idx <- mesh_iter_indices f off ;;
    ' (idx, keep) <- shift_index order per wdims idx ;;
    if (keep : bool) then v <- vget (m_data f) off ;; mesh_set w idx v else Ok w).

(** [array_right_shift] (InterpolationTemplate.hpp:493-499). *)
Definition right_shift (arr : list nat) : res (list nat) :=
  let dim := length arr in
  mapM (fun d => k <- usub (d + dim) 1 ;; k <- umod k dim ;; vget arr k) (seq 0 dim).

(** Memory cell of [iter[n]] for a line iterator into array [arr]. *)
Definition line_cell (arr : nat) (it : skip_iter) (n : nat) : loc :=
  (arr, Z.to_nat (sk_off (sk_add it (Z.of_nat n)))).

(** [solver.solve(iter)] (InterpolationTemplate.hpp:526-536): in place. *)
Definition solver_solve (m : solver T) (iter : nat -> loc) : prog T unit :=
  match m with
  | Aperiodic b => band_solve o on b iter
  | Periodic e => eband_solve o on e iter
  end.

(** [solve_and_rearrange_block] (InterpolationTemplate.hpp:516-545) in round
    [d], for the lines [lo], ..., [hi] - 1.  [odims], [ndims] are the shapes
    of [old_weight] and [new_weight], which are the arrays number [d mod 2]
    ([weights] = 0, [weights_tmp] = 1) and [1 - d mod 2].  The copy loop runs
    until the iterators are equal; the model takes their distance. *)
Definition solve_block (sv : solver T) (d : nat) (odims ndims : list nat) (lo hi : nat) : prog T unit :=
  let dim := length odims in
  let old := d mod 2 in
  let new := 1 - d mod 2 in
  let om := mkMesh odims (@nil T) in
  let nm := mkMesh ndims (@nil T) in
  pbind (plift (usub dim 1)) (fun last =>
  pbind (plift (vget odims last)) (fun line_size =>
  pfor lo hi (fun j =>
    pbind (plift (md_dimwise_indices odims (j * line_size))) (fun ind =>
    pbind (plift (mesh_begin on om last ind)) (fun old_begin =>
    pbind (plift (mesh_end om last ind)) (fun old_end =>
    pbind (plift (ind' <- right_shift ind ;; mesh_begin on nm 0 ind')) (fun new_begin =>
    pbind (solver_solve sv (line_cell old old_begin)) (fun _ =>
    if 1 <? dim then
      pbind (plift (sk_diff old_end old_begin)) (fun len =>
      pfor 0 (Z.to_nat len) (fun k =>
        pbind (pread (line_cell old old_begin k)) (fun v =>
        pwrite (line_cell new new_begin k) v)))
    else Ret tt)))))))).

(** Shape of the weights at the beginning of round [d]
    (InterpolationTemplate.hpp:506-508). *)
Fixpoint round_dims (dims : list nat) (d : nat) : res (list nat) :=
  match d with 0 => Ok dims | S d => l <- round_dims dims d ;; right_shift l end.

(** Number of lines in a round (InterpolationTemplate.hpp:510-512). *)
Definition hyperplane_size (odims : list nat) : res nat :=
  last <- usub (length odims) 1 ;;
  line_size <- vget odims last ;;
  udiv (md_size odims) line_size.

(** Round [d] of the single-threaded code (InterpolationTemplate.hpp:503-572). *)
Definition solve_round (solvers : list (solver T)) (dims : list nat) (d : nat) : prog T unit :=
  pbind (plift (round_dims dims d)) (fun odims =>
  pbind (plift (right_shift odims)) (fun ndims =>
  pbind (plift (k <- usub (length dims) 1 ;; k <- usub k d ;; vget solvers k)) (fun sv =>
  pbind (plift (hyperplane_size odims)) (fun h =>
  solve_block sv d odims (if 1 <? length dims then ndims else [1]) 0 h)))).

(** Content of the two weight arrays before the first round: [weights_tmp]
    has the size of the control mesh for dim > 1 and is not initialised
    (zeros in the model; every cell is written before it is read). *)
Definition initial_mem (dims : list nat) (w : mesh T) : mem T :=
  [m_data w; if 1 <? length dims then repeat (o0 o) (md_size dims) else [o0 o]].

(** Which array is returned, with its shape (InterpolationTemplate.hpp:575-579). *)
Definition final_mesh (dims : list nat) (m : mem T) : res (mesh T) :=
  let dim := length dims in
  let arr := if (dim mod 2 =? 0) || (dim =? 1) then 0 else 1 in
  data <- vget m arr ;;
  dims <- (if dim =? 1 then Ok dims else round_dims dims dim) ;;
  Ok (mkMesh dims data).

(** [solve_for_control_points_] (InterpolationTemplate.hpp:448-580). *)
Definition solve_ctrl (t : templ T) (f : mesh T) : res (mesh T) :=
  let s := if_spline (tp_base t) in
  let dims := tp_dims t in
  w <- init_weights (sp_order s) (sp_per s) dims f ;;
  r <- run (pfor 0 (length dims) (solve_round (tp_solvers t) dims)) (initial_mem dims w) ;;
  final_mesh dims (snd r).

(** [interpolate] const& (InterpolationTemplate.hpp:118-125). *)
Definition set_ctrl (f : interp T) (c : mesh T) : interp T :=
  mkInterp (load_ctrl (if_spline f) c) (if_dx f) (if_uniform f).
Definition interpolate (t : templ T) (f : mesh T) : res (interp T) :=
  c <- solve_ctrl t f ;; Ok (set_ctrl (tp_base t) c).
(** [interpolate] && (InterpolationTemplate.hpp:127-133): fills and moves out
    [base_]; the moved-from object is modelled as the empty function. *)
Definition interpolate_move (t : templ T) (f : mesh T) : res (interp T * templ T) :=
  c <- solve_ctrl t f ;;
  let s := if_spline (tp_base t) in
  Ok (set_ctrl (tp_base t) c,
      mkTempl (mkInterp (spline_empty o (sp_order s) (sp_per s)) (if_dx (tp_base t)) (if_uniform (tp_base t)))
              (tp_dims t) (tp_coords t) (tp_solvers t)).
(** [interpolate(interp, f)] (InterpolationTemplate.hpp:135-143): overwrites
    its argument. *)
Definition interpolate_into (t : templ T) (old : interp T) (f : mesh T) : res (interp T) :=
  let copy := tp_base t in
  c <- solve_ctrl t f ;; Ok (set_ctrl copy c).

(** A user program that keeps functions made from one template in a list:
    [OpNew f] appends [t.interpolate(f)], [OpInto i f] runs
    [t.interpolate(fs[i], f)] (InterpolationTemplate.hpp:118-125, 134-142).
    Both are const members: the template is not part of the state. *)
Inductive templ_op : Type := OpNew (f : mesh T) | OpInto (i : nat) (f : mesh T).
Fixpoint run_ops (t : templ T) (fs : list (interp T)) (l : list templ_op) : res (list (interp T)) :=
  match l with
  | [] => Ok fs
  | OpNew f :: l => g <- interpolate t f ;; run_ops t (fs ++ [g]) l
  | OpInto i f :: l =>
      old <- vget fs i ;; g <- interpolate_into t old f ;;
      fs <- vset fs i g ;; run_ops t fs l
  end.

(** Constructor from data (Interpolation.hpp:92-107). *)
Definition interp_make (order : nat) (per : list bool) (f : mesh T) (ranges : list (xrange T))
  : res (interp T) :=
  t <- templ_make order per (m_dims f) ranges ;;
  r <- interpolate_move t f ;; Ok (fst r).

(** ** Evaluation *)

(** [add_hint_for_spline] (Interpolation.hpp:277-295), also the hints of
    [derivative_helper] (302-319): same formula. *)
Definition hint_for (f : interp T) (d : nat) (c : T) : res nat :=
  let s := if_spline f in
  let order := sp_order s in
  u <- vget (if_uniform f) d ;;
  if (u : bool) then
    knots <- vget (sp_knots s) d ;;
    range <- vget (sp_range s) d ;;
    p <- vget (sp_per s) d ;;
    dx <- vget (if_dx f) d ;;
    q <- odiv o (osub o c (fst range)) dx ;;
    let v := osub o q (if (p : bool) then o1 o else omul o (ohalf o) (onat o (order + 1))) in
    k <- oceil o (if olt o (o0 o) v then v else o0 o) ;;
    a <- usub (length knots) order ;; a <- usub a 2 ;;
    Ok (Nat.min a (k + order))
  else Ok order.

Definition add_hints (f : interp T) (xs : list T) : res (list (T * nat)) :=
  mapM (fun d => x <- vget xs d ;; h <- hint_for f d x ;; Ok (x, h))
       (seq 0 (sp_dim (if_spline f))).

(** [operator()] (Interpolation.hpp:132-146, 297-300). *)
Definition interp_eval (f : interp T) (xs : list T) : res T :=
  c <- add_hints f xs ;; spline_eval o (if_spline f) c.

(** [derivative] (Interpolation.hpp:177-205, 302-319). *)
Definition interp_derivative (f : interp T) (xs : list T) (orders : list nat) : res T :=
  c <- mapM (fun d => x <- vget xs d ;; h <- hint_for f d x ;; q <- vget orders d ;; Ok (x, h, q))
            (seq 0 (sp_dim (if_spline f))) ;;
  spline_derivative_at o on (if_spline f) c.

(** [boundary_check_] (Interpolation.hpp:482-491). *)
Definition boundary_check (f : interp T) (xs : list T) : res unit :=
  let s := if_spline f in
  for_ 0 (sp_dim s) tt (fun _ d =>
    p <- vget (sp_per s) d ;;
    if (p : bool) then Ok tt
    else
      x <- vget xs d ;;
      range <- vget (sp_range s) d ;;
      if olt o x (fst range) || olt o (snd range) x then Throw DomainError else Ok tt).

(** [at], [derivative_at] (Interpolation.hpp:153-169, 213-244). *)
Definition interp_at (f : interp T) (xs : list T) : res T :=
  _ <- boundary_check f xs ;; interp_eval f xs.
Definition interp_derivative_at (f : interp T) (xs : list T) (orders : list nat) : res T :=
  _ <- boundary_check f xs ;; interp_derivative f xs orders.

(** [InterpolationFunction1D] without range (Interpolation.hpp:518-539); the
    iterator difference is signed, an empty range is excluded. *)
Definition interp1d_make (order : nat) (f : list T) (periodic : bool) : res (interp T) :=
  e <- (if no_dummy && periodic then Ok (length f) else usub (length f) 1) ;;
  interp_make order [periodic] (mesh_of_list f) [Uniform (o0 o) (onat o e)].

(** [InterpolationFunctionTemplate1D] without range
    (InterpolationTemplate.hpp:590-603). *)
Definition templ1d_make (order : nat) (f_length : nat) (periodic : bool) : res (templ T) :=
  e <- usub f_length 1 ;;
  templ_make order [periodic] [f_length] [Uniform (o0 o) (onat o e)].

End Interp.
Arguments OpNew {T}.
Arguments OpInto {T}.
