(** Model of the INTP_CELL_LAYOUT parts of BSpline.hpp, Interpolation.hpp and
    InterpolationTemplate.hpp.  In this mode [control_points_] is a mesh with
    one more dimension; the record [spline] is used with such a mesh in
    [sp_ctrl]. *)
From Coq Require Import List Arith Lia Bool ZArith.
From Verif Require Import Base Num MeshM ProgM SplineM InterpM.
Import ListNotations.

Section Cell.
Context {T : Type} (o : ops T) (on : bool).

(** [cell_container_dim] (BSpline.hpp:679-685).  C++ evaluates
    [n - order + order] modulo 2^64; the model adds first, which gives the
    same result. *)
Definition cell_dims (s : spline T) (ctrl : mesh T) : res (list nat) :=
  l <- mapM (fun d =>
         n <- mesh_dim_size ctrl d ;;
         p <- vget (sp_per s) d ;;
         usub (n + (if (p : bool) then sp_order s else 0))
              (if d =? sp_dim s - 1 then 0 else sp_order s)) (seq 0 (sp_dim s)) ;;
  Ok (l ++ [(sp_order s + 1) ^ (sp_dim s - 1)]).

(** The control point stored at entry [i] of the cell with index [cell_ind]
    (BSpline.hpp:717-728).  [dim] is at least 1. *)
Definition cell_source (s : spline T) (ctrl : mesh T) (cell_ind : list nat) (i : nat) : res (list nat) :=
  let dim := sp_dim s in
  shift <- md_dimwise_indices (repeat (sp_order s + 1) (dim - 1)) i ;;
  mapM (fun d =>
    a <- vget cell_ind d ;;
    b <- (if d =? dim - 1 then Ok 0 else e <- usub dim (2 + d) ;; vget shift e) ;;
    n <- mesh_dim_size ctrl d ;;
    umod (a + b) n) (seq 0 dim).

(** [fill_cell] (BSpline.hpp:701-733) for the hyperplane indices [lo], ...,
    [hi] - 1; [cdims] is the shape of [control_point_cell], whose storage is
    array number 0.  The walk along the line takes the distance of its
    iterators. *)
Definition fill_cell (s : spline T) (ctrl : mesh T) (cdims : list nat) (lo hi : nat) : prog T unit :=
  let dim := sp_dim s in
  let cm := mkMesh cdims (@nil T) in
  pbind (plift (a <- vget cdims (dim - 1) ;; b <- vget cdims dim ;; Ok (a * b))) (fun line_size =>
  pfor lo hi (fun h =>
    pbind (plift (md_dimwise_indices cdims (h * line_size))) (fun ind =>
    pbind (plift (mesh_begin on cm (dim - 1) ind)) (fun line_begin =>
    pbind (plift (mesh_end cm (dim - 1) ind)) (fun line_end =>
    pbind (plift (sk_diff line_end line_begin)) (fun len =>
    pfor 0 (Z.to_nat len) (fun k =>
      pbind (plift (mesh_iter_indices cm (Z.to_nat (sk_off (sk_add line_begin (Z.of_nat k)))))) (fun cell_ind =>
      pfor 0 (md_size (repeat (sp_order s + 1) (dim - 1))) (fun i =>
        pbind (plift (vset cell_ind dim i)) (fun cell_ind' =>
        pbind (plift (cell_source s ctrl cell_ind' i)) (fun cp_ind =>
        pbind (plift (mesh_get ctrl cp_ind)) (fun v =>
        pbind (plift (md_indexing cdims cell_ind')) (fun off =>
        pwrite (0, off) v))))))))))))).

(** [hyper_surface_size] (BSpline.hpp:693-699). *)
Definition cell_hyper (s : spline T) (cdims : list nat) : res nat :=
  a <- vget cdims (sp_dim s - 1) ;;
  b <- vget cdims (sp_dim s) ;;
  udiv (md_size cdims) (a * b).

(** [generate_cell_layout] (BSpline.hpp:677-758), single-threaded.  The new
    storage is not initialised in C++ (zeros here). *)
Definition generate_cells (s : spline T) (ctrl : mesh T) : res (mesh T) :=
  cdims <- cell_dims s ctrl ;;
  h <- cell_hyper s cdims ;;
  r <- run (fill_cell s ctrl cdims 0 h) [repeat (o0 o) (md_size cdims)] ;;
  data <- vget (snd r) 0 ;;
  Ok (mkMesh cdims data).

(** [load_ctrlPts] in this mode (BSpline.hpp:229-232). *)
Definition load_cells (s : spline T) (ctrl : mesh T) : res (spline T) :=
  c <- generate_cells s ctrl ;; Ok (load_ctrl s c).

(** The cell of a segment (BSpline.hpp:321-327 and 434-440). *)
Definition cell_index (s : spline T) (iters : list (T * nat)) : res (list nat) :=
  l <- mapM (fun d => it <- vget iters d ;; usub (snd it) (sp_order s)) (seq 0 (sp_dim s)) ;;
  Ok (l ++ [0]).

(** [operator()] (BSpline.hpp:305-336). *)
Definition cell_eval (s : spline T) (coords : list (T * nat)) : res T :=
  iters <- get_knot_iters o s coords ;;
  vals <- calc_base_spline_vals o s iters (repeat (sp_order s) (sp_dim s)) ;;
  ind_arr <- cell_index s iters ;;
  cell_iter <- mesh_begin on (sp_ctrl s) (sp_dim s) ind_arr ;;
  for_ 0 (buf_size s) (o0 o) (fun v i =>
    c <- sk_at (sp_ctrl s) cell_iter (Z.of_nat i) ;;
    coef <- for_ 0 (sp_dim s) c (fun coef d =>
        a <- vget (digits (sp_order s + 1) (sp_dim s) i) d ;;
        bs <- vget vals d ;;
        b <- vget bs a ;;
        Ok (omul o coef b)) ;;
    Ok (oadd o v coef)).

(** [derivative_at] (BSpline.hpp:393-455 and 489-532). *)
Definition cell_derivative_at (s : spline T) (coords : list (T * nat * nat)) : res T :=
  let order := sp_order s in
  let dim := sp_dim s in
  let base := order + 1 in
  let so := map (fun c => if snd c <=? order then order - snd c else order + 1) coords in
  if existsb (fun q => order <? q) so then Ok (o0 o) else
  iters <- get_knot_iters o s (map fst coords) ;;
  vals <- calc_base_spline_vals o s iters so ;;
  let local := mesh_make (o0 o) (repeat base dim) in
  ind_arr <- cell_index s iters ;;
  cell_iter <- mesh_begin on (sp_ctrl s) dim ind_arr ;;
  ' (lsv, lcp) <- for_ 0 (buf_size s) (local, local) (fun st i =>
    let '(lsv, lcp) := st in
    let local_ind := digits base dim i in
    coef <- for_ 0 dim (o1 o) (fun coef d =>
        a <- vget local_ind d ;;
        bs <- vget vals d ;;
        b <- vget bs a ;;
        Ok (omul o coef b)) ;;
    lsv <- mesh_set lsv local_ind coef ;;
    c <- sk_at (sp_ctrl s) cell_iter (Z.of_nat i) ;;
    lcp <- mesh_set lcp local_ind c ;;
    Ok (lsv, lcp)) ;;
  lcp <- for_ 0 dim lcp (fun lcp d =>
    q <- vget so d ;;
    if q =? order then Ok lcp else
    n <- mesh_dim_size lcp d ;;
    hyper <- udiv (mesh_size lcp) n ;;
    for_ 0 hyper lcp (fun lcp i =>
      it <- mesh_begin on lcp d (digits_skip base dim d i) ;;
      kn <- vget (sp_knots s) d ;;
      ki <- vget iters d ;;
      derive_line o order kn (snd ki) q lcp it)) ;;
  for_ 0 (mesh_size lsv) (o0 o) (fun v i =>
    a <- vget (m_data lsv) i ;;
    c <- vget (m_data lcp) i ;;
    Ok (oadd o v (omul o a c))).

(** [calculate_cell_dim_from_knots] (BSpline.hpp:667-675).  Both branches of
    the conditional on periodicity are the same in the source. *)
Definition cell_dims_from_knots (s : spline T) : res (list nat) :=
  l <- mapM (fun d =>
         kn <- vget (sp_knots s) d ;;
         a <- usub (length kn) (sp_order s + 1) ;;
         usub a (if d =? sp_dim s - 1 then 0 else sp_order s)) (seq 0 (sp_dim s)) ;;
  Ok (l ++ [(sp_order s + 1) ^ (sp_dim s - 1)]).

(** [pre_calc_coef] (BSpline.hpp:244-272): what the returned closure
    captures. *)
Definition pre_calc_coef (s : spline T) (coords : list (T * nat)) : res (list (list T) * nat) :=
  iters <- get_knot_iters o s coords ;;
  vals <- calc_base_spline_vals o s iters (repeat (sp_order s) (sp_dim s)) ;;
  ind_arr <- cell_index s iters ;;
  cdims <- cell_dims_from_knots s ;;
  off <- md_indexing cdims ind_arr ;;
  Ok (vals, off).

(** The closure applied to a spline of the same class
    (BSpline.hpp:272-296); order and dimension are template parameters, here
    those of the argument. *)
Definition apply_proxy (proxy : list (list T) * nat) (s : spline T) : res T :=
  let '(vals, off) := proxy in
  n <- mesh_dim_size (sp_ctrl s) (sp_dim s) ;;
  for_ 0 (n * (sp_order s + 1)) (o0 o) (fun v i =>
    coef <- (if sp_dim s =? 1 then bs <- vget vals 0 ;; vget bs i
             else for_ 0 (sp_dim s) (o1 o) (fun coef d =>
               a <- vget (digits (sp_order s + 1) (sp_dim s) i) d ;;
               bs <- vget vals d ;;
               b <- vget bs a ;;
               Ok (omul o coef b))) ;;
    c <- vget (m_data (sp_ctrl s)) (off + i) ;;
    Ok (oadd o v (omul o coef c))).

(** ** Interpolation functions in this mode *)
Context (nd : bool).

(** [load_ctrlPts] on the spline of an interpolation function. *)
Definition set_cells (f : interp T) (c : mesh T) : res (interp T) :=
  s <- load_cells (if_spline f) c ;; Ok (mkInterp s (if_dx f) (if_uniform f)).

(** [interpolate] const& (InterpolationTemplate.hpp:118-125). *)
Definition cell_interpolate (t : templ T) (f : mesh T) : res (interp T) :=
  c <- solve_ctrl o on nd t f ;; set_cells (tp_base t) c.

(** Constructor from data (Interpolation.hpp:92-107). *)
Definition cell_interp_make (order : nat) (per : list bool) (f : mesh T) (ranges : list (xrange T))
  : res (interp T) :=
  t <- templ_make o on nd order per (m_dims f) ranges ;; cell_interpolate t f.

(** [operator()] and [derivative] (Interpolation.hpp:132-146, 177-205). *)
Definition cell_interp_eval (f : interp T) (xs : list T) : res T :=
  c <- add_hints o f xs ;; cell_eval (if_spline f) c.
Definition cell_interp_derivative (f : interp T) (xs : list T) (orders : list nat) : res T :=
  c <- mapM (fun d => x <- vget xs d ;; h <- hint_for o f d x ;; q <- vget orders d ;; Ok (x, h, q))
            (seq 0 (sp_dim (if_spline f))) ;;
  cell_derivative_at (if_spline f) c.

(** [eval_proxy] of a function or of a template, which forwards to its base
    function (Interpolation.hpp:493-505, InterpolationTemplate.hpp:145-167),
    and its application. *)
Definition eval_proxy (f : interp T) (xs : list T) : res (list (list T) * nat) :=
  c <- add_hints o f xs ;; pre_calc_coef (if_spline f) c.
Definition templ_eval_proxy (t : templ T) (xs : list T) : res (list (list T) * nat) :=
  eval_proxy (tp_base t) xs.
Definition use_proxy (proxy : list (list T) * nat) (f : interp T) : res T :=
  apply_proxy proxy (if_spline f).

End Cell.
