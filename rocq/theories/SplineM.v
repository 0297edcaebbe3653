(** Model of BSpline.hpp, plain layout (without INTP_CELL_LAYOUT). *)
From Coq Require Import List Arith Lia Bool ZArith.
From Verif Require Import Base Num MeshM.
Import ListNotations.

(** ** The class (BSpline.hpp:32-69, 630-647)

    [sp_order] is the template parameter O, the length of the lists is the
    template parameter D; [control_points_] in plain layout. *)
Record spline (T : Type) : Type := mkSpline {
  sp_order : nat;
  sp_per : list bool;             (* periodicity_ *)
  sp_knots : list (list T);       (* knots_ *)
  sp_ctrl : mesh T;               (* control_points_ *)
  sp_range : list (T * T);        (* range_ *)
}.
Arguments mkSpline {T}.
Arguments sp_order {T}.
Arguments sp_per {T}.
Arguments sp_knots {T}.
Arguments sp_ctrl {T}.
Arguments sp_range {T}.

(** Dereferencing a knot iterator at signed offset [pos - neg] from the
    beginning of the knot vector. *)
Definition kget {T} (l : list T) (pos neg : nat) : res T :=
  if neg <=? pos then vget l (pos - neg) else Fault OutOfBounds.

Section Spline.
Context {T : Type} (o : ops T) (on : bool).

(** [base_spline_value] (BSpline.hpp:83-111): [order] is O, [seg] the offset
    of [seg_idx_iter], [so] the argument [spline_order].  [1] is [T{1}]; the
    array is zero-initialised. *)
Definition base_spline_value (order : nat) (knots : list T) (seg : nat) (x : T) (so : nat)
  : res (list T) :=
  b0 <- vset (repeat (o0 o) (order + 1)) order (o1 o) ;;
  for_ 1 (so + 1) b0 (fun b i =>
    idx_begin <- usub order i ;;
    for_ 0 (i + 1) b (fun b j =>
      l <- (if j =? 0 then Ok (o0 o)
            else bj <- vget b (idx_begin + j) ;;
                 tl <- kget knots (seg + j) i ;;
                 tr <- kget knots (seg + j) 0 ;;
                 odiv o (omul o bj (osub o x tl)) (osub o tr tl)) ;;
      r <- (if idx_begin + j =? order then Ok (o0 o)
            else bj <- vget b (idx_begin + j + 1) ;;
                 tr <- kget knots (seg + j + 1) 0 ;;
                 tl <- kget knots (seg + j + 1) i ;;
                 odiv o (omul o bj (osub o tr x)) (osub o tr tl)) ;;
      vset b (idx_begin + j) (oadd o l r))).

(** [std::upper_bound] on the range of [len] knots starting at [first]; the
    bisection of libstdc++ (bits/stl_algobase.h), [fuel] >= [len] suffices
    (the length shrinks in each round). *)
Fixpoint upper_bound (knots : list T) (x : T) (fuel first len : nat) : res nat :=
  match fuel with
  | 0 => Ok first
  | S fuel =>
      if len =? 0 then Ok first else
      let half := len / 2 in
      m <- vget knots (first + half) ;;
      if olt o x m then upper_bound knots x fuel first half
      else upper_bound knots x fuel (first + half + 1) (len - half - 1)
  end.

(** The wrapping of a coordinate into the range of a periodic dimension
    (BSpline.hpp:130-136). *)
Definition wrap_coord (periodic : bool) (range : T * T) (x : T) : res T :=
  if periodic then
    let period := osub o (snd range) (fst range) in
    f <- ofmod o (osub o x (fst range)) period ;;
    Ok (oadd o (oadd o (fst range) f) (if olt o x (fst range) then period else o0 o))
  else Ok x.

(** [get_knot_iter] with explicit [last] (BSpline.hpp:125-157).  Returns the
    modified coordinate and the offset of the iterator.  An invalid search
    range (last < order) is a fault. *)
Definition get_knot_iter_last (order : nat) (periodic : bool) (knots : list T) (range : T * T)
  (x : T) (hint last : nat) : res (T * nat) :=
  x <- wrap_coord periodic range x ;;
  a <- vget knots hint ;;
  hit <- (if ole o a x then b <- vget knots (hint + 1) ;; Ok (olt o x b) else Ok false) ;;
  if (hit : bool) then Ok (x, hint)
  else if last <? order then Fault OutOfBounds
  else u <- upper_bound knots x (last - order) (order + 1) (last - order) ;;
       k <- usub u 1 ;;
       Ok (x, k).

(** [get_knot_iter] (BSpline.hpp:159-163). *)
Definition get_knot_iter (order : nat) (periodic : bool) (knots : list T) (range : T * T)
  (x : T) (hint : nat) : res (T * nat) :=
  l1 <- usub (length knots) order ;;
  last <- usub l1 2 ;;
  get_knot_iter_last order periodic knots range x hint last.

(** [dim] (BSpline.hpp:40). *)
Definition sp_dim (s : spline T) : nat := length (sp_per s).

(** [get_knot_iters] (BSpline.hpp:165-171): the coordinates are modified in
    place; the model returns (coordinate, offset) pairs. *)
Definition get_knot_iters (s : spline T) (coords : list (T * nat)) : res (list (T * nat)) :=
  mapM (fun d =>
    c <- vget coords d ;;
    p <- vget (sp_per s) d ;;
    kn <- vget (sp_knots s) d ;;
    rg <- vget (sp_range s) d ;;
    get_knot_iter (sp_order s) p kn rg (fst c) (snd c)) (seq 0 (sp_dim s)).

(** [calc_base_spline_vals] (BSpline.hpp:655-664). *)
Definition calc_base_spline_vals (s : spline T) (iters : list (T * nat)) (so : list nat)
  : res (list (list T)) :=
  mapM (fun d =>
    it <- vget iters d ;;
    kn <- vget (sp_knots s) d ;;
    q <- vget so d ;;
    base_spline_value (sp_order s) kn (snd it) (fst it) q) (seq 0 (sp_dim s)).

(** The index shift of dimension [d] for local index [a]
    (BSpline.hpp:345-360 and 469-481). *)
Definition shifted_index (s : spline T) (iters : list (T * nat)) (d a : nat) : res nat :=
  it <- vget iters d ;;
  kn <- vget (sp_knots s) d ;;
  n <- mesh_dim_size (sp_ctrl s) d ;;
  sh <- (if snd it =? 0 then Ok 0
         else if snd it =? length kn then
                n1 <- usub n (sp_order s) ;; usub n1 1
         else usub (snd it) (sp_order s)) ;;
  p <- vget (sp_per s) d ;;
  if (p : bool) then umod (a + sh) n else Ok (a + sh).

(** [buf_size_] (BSpline.hpp:642). *)
Definition buf_size (s : spline T) : nat := (sp_order s + 1) ^ sp_dim s.

(** [operator()] with hints (BSpline.hpp:305-368). *)
Definition spline_eval (s : spline T) (coords : list (T * nat)) : res T :=
  iters <- get_knot_iters s coords ;;
  vals <- calc_base_spline_vals s iters (repeat (sp_order s) (sp_dim s)) ;;
  let local_mesh_dim := repeat (sp_order s + 1) (sp_dim s) in
  for_ 0 (buf_size s) (o0 o) (fun v i =>
    ind_arr <- md_dimwise_indices local_mesh_dim i ;;
    ' (coef, ind_arr) <- for_ 0 (sp_dim s) (o1 o, ind_arr) (fun st d =>
        let '(coef, ind_arr) := st in
        a <- vget ind_arr d ;;
        bs <- vget vals d ;;
        b <- vget bs a ;;
        a' <- shifted_index s iters d a ;;
        ind_arr' <- vset ind_arr d a' ;;
        Ok (omul o coef b, ind_arr')) ;;
    c <- mesh_get (sp_ctrl s) ind_arr ;;
    Ok (oadd o v (omul o coef c))).

(** [operator()] with coordinates only (BSpline.hpp:376-382). *)
Definition spline_eval_plain (s : spline T) (coords : list T) : res T :=
  spline_eval s (map (fun x => (x, sp_order s)) coords).

(** Writing through a line iterator, [iter[n] = v] (Mesh.hpp:223-225). *)
Definition sk_set (m : mesh T) (it : skip_iter) (n : Z) (v : T) : res (mesh T) :=
  let z := sk_off (sk_add it n) in
  if Z.ltb z 0 then Fault OutOfBounds
  else d <- vset (m_data m) (Z.to_nat z) v ;; Ok (mkMesh (m_dims m) d).

(** The digits of [i] in base [order+1], lowest first: the loop
    [for (d = 0, combined_ind = i; d < dim; ++d)] (BSpline.hpp:459-462). *)
Fixpoint digits (base dim i : nat) : list nat :=
  match dim with 0 => [] | S dim => i mod base :: digits base dim (i / base) end.

(** The same loop skipping dimension [d] (BSpline.hpp:497-502), where the
    array entry stays 0. *)
Fixpoint digits_skip (base dim d i : nat) : list nat :=
  match dim with
  | 0 => []
  | S dim => match d with
             | 0 => 0 :: digits base dim i
             | S d => i mod base :: digits_skip base dim d (i / base)
             end
  end.

(** Control points of the derivative along one line
    (BSpline.hpp:504-518). *)
Definition derive_line (order : nat) (knots : list T) (seg so : nat) (m : mesh T) (it : skip_iter)
  : res (mesh T) :=
  foldM (fun m k =>
    foldM (fun m j =>
      let pos := (Z.of_nat order + Z.of_nat j - Z.of_nat k)%Z in
      a <- sk_at m it pos ;;
      b <- sk_at m it (pos - 1) ;;
      tr <- kget knots (seg + j) 0 ;;
      tl <- kget knots (seg + j) k ;;
      v <- odiv o (omul o (onat o k) (osub o a b)) (osub o tr tl) ;;
      sk_set m it pos v) (rev (seq 1 k)) m) (rev (seq (so + 1) (order - so))) m.

(** [derivative_at] with hints (BSpline.hpp:393-532); a coordinate is
    (x, hint, derivative order).  The local meshes live in a stack buffer or
    on the heap; the model does not distinguish (see C49 for the
    allocator). *)
Definition spline_derivative_at (s : spline T) (coords : list (T * nat * nat)) : res T :=
  let order := sp_order s in
  let dim := sp_dim s in
  let base := order + 1 in
  let so := map (fun c => if snd c <=? order then order - snd c else order + 1) coords in
  if existsb (fun q => order <? q) so then Ok (o0 o) else
  iters <- get_knot_iters s (map fst coords) ;;
  vals <- calc_base_spline_vals s iters so ;;
  let local := mesh_make (o0 o) (repeat base dim) in
  ' (lsv, lcp) <- for_ 0 (buf_size s) (local, local) (fun st i =>
    let '(lsv, lcp) := st in
    let local_ind := digits base dim i in
    ' (coef, ind_arr) <- for_ 0 dim (o1 o, repeat 0 dim) (fun st d =>
        let '(coef, ind_arr) := st in
        a <- vget local_ind d ;;
        bs <- vget vals d ;;
        b <- vget bs a ;;
        a' <- shifted_index s iters d a ;;
        ind_arr' <- vset ind_arr d a' ;;
        Ok (omul o coef b, ind_arr')) ;;
    lsv <- mesh_set lsv local_ind coef ;;
    c <- mesh_get (sp_ctrl s) ind_arr ;;
    lcp <- mesh_set lcp local_ind c ;;
    Ok (lsv, lcp)) ;;
  lcp <- for_ 0 dim lcp (fun lcp d =>
    q <- vget so d ;;
    if q =? order then Ok lcp else
    n <- mesh_dim_size lcp d ;;
    hyper <- udiv (mesh_size lcp) n ;;
    for_ 0 hyper lcp (fun lcp i =>
      it <- mesh_begin on lcp d (digits_skip base dim d i) ;;
      kn <- vget (sp_knots s) d ;;
      ki <- vget iters d ;;
      derive_line order kn (snd ki) q lcp it)) ;;
  for_ 0 (mesh_size lsv) (o0 o) (fun v i =>
    a <- vget (m_data lsv) i ;;
    c <- vget (m_data lcp) i ;;
    Ok (oadd o v (omul o a c))).

(** [derivative_at] without hints (BSpline.hpp:540-550). *)
Definition spline_derivative_plain (s : spline T) (coords : list (T * nat)) : res T :=
  spline_derivative_at s (map (fun c => (fst c, sp_order s, snd c)) coords).

(** [load_knots] (BSpline.hpp:217-227). *)
Definition load_knots (s : spline T) (d : nat) (kn : list T) : res (spline T) :=
  let order := sp_order s in
  knots' <- vset (sp_knots s) d kn ;;
  a <- vget kn order ;;
  i <- usub (length kn) order ;;
  j <- usub i (2 - order mod 2) ;;
  b <- vget kn j ;;
  range' <- vset (sp_range s) d (a, b) ;;
  Ok (mkSpline order (sp_per s) knots' (sp_ctrl s) range').

(** [load_ctrlPts] (BSpline.hpp:234-241). *)
Definition load_ctrl (s : spline T) (c : mesh T) : spline T :=
  mkSpline (sp_order s) (sp_per s) (sp_knots s) c (sp_range s).

(** Constructor with periodicity only (BSpline.hpp:178-179). *)
Definition spline_empty (order : nat) (per : list bool) : spline T :=
  mkSpline order per (repeat [] (length per)) (mesh_make (o0 o) (repeat 0 (length per)))
           (repeat (o0 o, o0 o) (length per)).

(** Constructor from control points and knots (BSpline.hpp:188-210).  The
    assertion compares a [size_t] difference with a constant; the model
    compares the sums (same truth value). *)
Definition spline_make (order : nat) (per : list bool) (ctrl : mesh T) (knots : list (list T))
  : res (spline T) :=
  range <- mapM (fun kn =>
      a <- vget kn order ;;
      i <- usub (length kn) (order + 1) ;;
      b <- vget kn i ;;
      Ok (a, b)) knots ;;
  _ <- for_ 0 (length per) tt (fun _ d =>
      kn <- vget knots d ;;
      n <- mesh_dim_size ctrl d ;;
      p <- vget per d ;;
      intp_assert on (length kn =? n + (if (p : bool) then 2 * order + 1 else order + 1))) ;;
  Ok (mkSpline order per knots ctrl range).

End Spline.
