(** Model of the library when the value type [T] of the template parameters
    differs from the coordinate type [U] (BSpline.hpp:27-39,
    Interpolation.hpp:17-25): values may be floats with double coordinates,
    complex numbers, or vectors as in test/src/interpolation-test.cpp:672-697.
    Knots, basis functions and matrices are made of coordinates
    (InterpolationTemplate.hpp:179-180), so the templates of [InterpM.v] are
    used as they are; the code that handles values is written again here, for
    the plain control point layout and one thread.

    In this file [T] is the type of coordinates, [V] that of values. *)
From Coq Require Import List Arith Lia Bool ZArith.
From Verif Require Import Base Num MeshM ProgM BandM LUM SplineM InterpM.
Import ListNotations.

(** The expressions of the code in which values occur.
    - [v_zero]: [val_type{}] (BSpline.hpp:319, 406, 524; Mesh.hpp:252);
    - [v_mac v t c]: [v += t * c] with [knot_type t] (BSpline.hpp:363);
    - [v_msub v t c]: [v -= t * c] with a matrix element [t]
      (BandLU.hpp:131-132, 139-140, 227-229, 235-237, 245-247, 253-255);
    - [v_div v t]: [v /= t] with a matrix element [t] (BandLU.hpp:137, 243);
    - [v_mac_conv v t c]: [v += s * c] where [s] is the [knot_type] number [t]
      stored in a variable of type [val_type] (BSpline.hpp:484, 528; the
      model converts where the number is used, not where it is stored);
    - [v_diff k a b t]: [static_cast<val_type>(k) * (a - b) / t] with
      [knot_type t] (BSpline.hpp:512-516). *)
Record vops (T V : Type) : Type := mkVops {
  v_zero : V;
  v_mac : V -> T -> V -> V;
  v_msub : V -> T -> V -> V;
  v_div : V -> T -> res V;
  v_mac_conv : V -> T -> V -> V;
  v_diff : nat -> V -> V -> T -> res V;
}.
Arguments mkVops {T V}.
Arguments v_zero {T V}.
Arguments v_mac {T V}.
Arguments v_msub {T V}.
Arguments v_div {T V}.
Arguments v_mac_conv {T V}.
Arguments v_diff {T V}.

(** Values and coordinates of one type. *)
Definition scalar_vops {T} (o : ops T) : vops T T := {|
  v_zero := o0 o;
  v_mac v t c := oadd o v (omul o t c);
  v_msub v t c := osub o v (omul o t c);
  v_div v t := odiv o v t;
  v_mac_conv v t c := oadd o v (omul o t c);
  v_diff k a b t := odiv o (omul o (onat o k) (osub o a b)) t;
|}.

(** [Vec<D, T>] of the tests (test/src/include/Vec.hpp:94-129); [t * c] is
    computed as [c *= t].  [Vec] has no product of two vectors, so code that
    takes derivatives does not compile with it; the last two operations are
    those a class with such a product and conversion, acting on each
    component, would have. *)
Definition vec_vops {T} (o : ops T) (dim : nat) : vops T (list T) :=
  let at_ (v : list T) i := nth i v (o0 o) in
  {|
  v_zero := repeat (o0 o) dim;
  v_mac v t c := map (fun i => oadd o (at_ v i) (omul o (at_ c i) t)) (seq 0 dim);
  v_msub v t c := map (fun i => osub o (at_ v i) (omul o (at_ c i) t)) (seq 0 dim);
  v_div v t := mapM (fun i => odiv o (at_ v i) t) (seq 0 dim);
  v_mac_conv v t c := map (fun i => oadd o (at_ v i) (omul o t (at_ c i))) (seq 0 dim);
  v_diff k a b t := mapM (fun i => odiv o (omul o (onat o k) (osub o (at_ a i) (at_ b i))) t) (seq 0 dim);
|}.

(** [std::complex<T>] with coordinates of type [T] (standard library): the
    product with a [T] acts on each part; [static_cast<std::complex<T>>] gives
    imaginary part zero and products of complex numbers are the usual ones
    (the recovery of infinities of C99 Annex G is left out). *)
Definition cmul {T} (o : ops T) (a b : T * T) : T * T :=
  (osub o (omul o (fst a) (fst b)) (omul o (snd a) (snd b)),
   oadd o (omul o (fst a) (snd b)) (omul o (snd a) (fst b))).
Definition complex_vops {T} (o : ops T) : vops T (T * T) :=
  let cdiv (a : T * T) t := x <- odiv o (fst a) t ;; y <- odiv o (snd a) t ;; Ok (x, y) in
  let cadd (a b : T * T) := (oadd o (fst a) (fst b), oadd o (snd a) (snd b)) in
  let csub (a b : T * T) := (osub o (fst a) (fst b), osub o (snd a) (snd b)) in
  {|
  v_zero := (o0 o, o0 o);
  v_mac v t c := cadd v (omul o (fst c) t, omul o (snd c) t);
  v_msub v t c := csub v (omul o (fst c) t, omul o (snd c) t);
  v_div v t := cdiv v t;
  v_mac_conv v t c := cadd v (cmul o (t, o0 o) c);
  v_diff k a b t := cdiv (cmul o (onat o k, o0 o) (csub a b)) t;
|}.

(** An interpolation function: the spline without control points, [dx_],
    [uniform_] (Interpolation.hpp:269-273) and the control points
    (BSpline.hpp:637). *)
Record vinterp (T V : Type) : Type := mkVInterp {
  vf_base : interp T;
  vf_ctrl : mesh V;
}.
Arguments mkVInterp {T V}.
Arguments vf_base {T V}.
Arguments vf_ctrl {T V}.

Section Vec.
Context {T V : Type} (o : ops T) (vo : vops T V).
Context (on : bool).        (* INTP_ENABLE_ASSERTION *)
Context (no_dummy : bool).  (* INTP_PERIODIC_NO_DUMMY_POINT *)

(** [iter[i] -= a * iter[j]] and [iter[j] /= a] (as in [LUM.v]). *)
Definition vit_sub_assign (iter : nat -> loc) (a : res T) (i j : nat) : prog V unit :=
  pbind (pread (iter i)) (fun xi =>
  pbind (plift a) (fun a =>
  pbind (pread (iter j)) (fun xj =>
  pwrite (iter i) (v_msub vo xi a xj)))).
Definition vit_div_assign (iter : nat -> loc) (a : res T) (j : nat) : prog V unit :=
  pbind (pread (iter j)) (fun xj =>
  pbind (plift a) (fun a =>
  pbind (plift (v_div vo xj a)) (fun r => pwrite (iter j) r))).

(** [BandLU<BandMatrix>::solve_in_place_impl] (BandLU.hpp:120-143). *)
Definition vband_solve (m : band T) (iter : nat -> loc) : prog V unit :=
  let n := b_n m in let p := b_p m in let q := b_q m in
  pbind (pfor 0 n (fun j =>
           pfor (j + 1) (Nat.min (j + p + 1) n) (fun i =>
             vit_sub_assign iter (band_get on m i j) i j)))
  (fun _ => pfor_down n (fun j =>
     pbind (vit_div_assign iter (band_get on m j j) j) (fun _ =>
     pfor (if j <? q then 0 else j - q) j (fun i =>
       vit_sub_assign iter (band_get on m i j) i j)))).

(** [BandLU<ExtendedBandMatrix>::solve_in_place_impl] (BandLU.hpp:215-259). *)
Definition veband_solve (m : eband T) (iter : nat -> loc) : prog V unit :=
  let n := e_n m in let p := e_p m in let q := e_q m in
  let main := eb_main_get on in let side := eb_side_get on in
  pbind (pfor 0 n (fun j =>
    pbind (pfor (j + 1) (Nat.min (j + p + 1) n) (fun i =>
             vit_sub_assign iter (main m i j) i j)) (fun _ =>
    pbind (plift (a <- usub n p ;; usub a 1)) (fun np1 =>
    if j <? np1 then
      pbind (plift (usub n q)) (fun nq =>
      pfor (Nat.max nq (j + p + 1)) n (fun i => vit_sub_assign iter (side m i j) i j))
    else Ret tt))))
  (fun _ => pfor_down n (fun j =>
     pbind (vit_div_assign iter (main m j j) j) (fun _ =>
     pbind (pfor (if j <? q then 0 else j - q) j (fun i =>
              vit_sub_assign iter (main m i j) i j)) (fun _ =>
     pbind (plift (a <- usub n p ;; usub a 1)) (fun np1 =>
     if np1 <? j then
       pbind (plift (usub j q)) (fun e =>
       pfor 0 e (fun i => vit_sub_assign iter (side m i j) i j))
     else Ret tt))))).

(** [solver.solve(iter)] (InterpolationTemplate.hpp:526-536). *)
Definition vsolver_solve (m : solver T) (iter : nat -> loc) : prog V unit :=
  match m with
  | Aperiodic b => vband_solve b iter
  | Periodic e => veband_solve e iter
  end.

(** Copying the data into the control point mesh
    (InterpolationTemplate.hpp:448-489). *)
Definition vinit_weights (order : nat) (per : list bool) (wdims : list nat) (f : mesh V)
  : res (mesh V) :=
  for_ 0 (mesh_size f) (mesh_make (v_zero vo) wdims) (fun w off =>
    idx <- mesh_iter_indices f off ;;
    ' (idx, keep) <- shift_index no_dummy order per wdims idx ;;
    if (keep : bool) then v <- vget (m_data f) off ;; mesh_set w idx v else Ok w).

(** [solve_and_rearrange_block] (InterpolationTemplate.hpp:516-545) and one
    round of solving (503-572), see [solve_block] and [solve_round]. *)
Definition vsolve_block (sv : solver T) (d : nat) (odims ndims : list nat) (lo hi : nat) : prog V unit :=
  let dim := length odims in
  let old := d mod 2 in
  let new := 1 - d mod 2 in
  let om := mkMesh odims (@nil V) in
  let nm := mkMesh ndims (@nil V) in
  pbind (plift (usub dim 1)) (fun last =>
  pbind (plift (vget odims last)) (fun line_size =>
  pfor lo hi (fun j =>
    pbind (plift (md_dimwise_indices odims (j * line_size))) (fun ind =>
    pbind (plift (mesh_begin on om last ind)) (fun old_begin =>
    pbind (plift (mesh_end om last ind)) (fun old_end =>
    pbind (plift (ind' <- right_shift ind ;; mesh_begin on nm 0 ind')) (fun new_begin =>
    pbind (vsolver_solve sv (line_cell old old_begin)) (fun _ =>
    if 1 <? dim then
      pbind (plift (sk_diff old_end old_begin)) (fun len =>
      pfor 0 (Z.to_nat len) (fun k =>
        pbind (pread (line_cell old old_begin k)) (fun v =>
        pwrite (line_cell new new_begin k) v)))
    else Ret tt)))))))).
Definition vsolve_round (solvers : list (solver T)) (dims : list nat) (d : nat) : prog V unit :=
  pbind (plift (round_dims dims d)) (fun odims =>
  pbind (plift (right_shift odims)) (fun ndims =>
  pbind (plift (k <- usub (length dims) 1 ;; k <- usub k d ;; vget solvers k)) (fun sv =>
  pbind (plift (hyperplane_size odims)) (fun h =>
  vsolve_block sv d odims (if 1 <? length dims then ndims else [1]) 0 h)))).

(** The two weight arrays, see [initial_mem]. *)
Definition vinitial_mem (dims : list nat) (w : mesh V) : mem V :=
  [m_data w; if 1 <? length dims then repeat (v_zero vo) (md_size dims) else [v_zero vo]].

(** [solve_for_control_points_] (InterpolationTemplate.hpp:448-580). *)
Definition vsolve_ctrl (t : templ T) (f : mesh V) : res (mesh V) :=
  let s := if_spline (tp_base t) in
  let dims := tp_dims t in
  w <- vinit_weights (sp_order s) (sp_per s) dims f ;;
  r <- run (pfor 0 (length dims) (vsolve_round (tp_solvers t) dims)) (vinitial_mem dims w) ;;
  final_mesh dims (snd r).

(** [interpolate] (InterpolationTemplate.hpp:118-143) and the constructor from
    data (Interpolation.hpp:92-107). *)
Definition vinterpolate (t : templ T) (f : mesh V) : res (vinterp T V) :=
  c <- vsolve_ctrl t f ;; Ok (mkVInterp (tp_base t) c).
Definition vinterp_make (order : nat) (per : list bool) (f : mesh V) (ranges : list (xrange T))
  : res (vinterp T V) :=
  t <- templ_make o on no_dummy order per (m_dims f) ranges ;;
  vinterpolate t f.

(** The index shift (BSpline.hpp:345-360 and 469-481), see
    [shifted_index]. *)
Definition vshifted_index (s : spline T) (ctrl : mesh V) (iters : list (T * nat)) (d a : nat) : res nat :=
  it <- vget iters d ;;
  kn <- vget (sp_knots s) d ;;
  n <- mesh_dim_size ctrl d ;;
  sh <- (if snd it =? 0 then Ok 0
         else if snd it =? length kn then
                n1 <- usub n (sp_order s) ;; usub n1 1
         else usub (snd it) (sp_order s)) ;;
  p <- vget (sp_per s) d ;;
  if (p : bool) then umod (a + sh) n else Ok (a + sh).

(** [operator()] of the spline with hints (BSpline.hpp:305-368). *)
Definition vspline_eval (s : spline T) (ctrl : mesh V) (coords : list (T * nat)) : res V :=
  iters <- get_knot_iters o s coords ;;
  vals <- calc_base_spline_vals o s iters (repeat (sp_order s) (sp_dim s)) ;;
  let local_mesh_dim := repeat (sp_order s + 1) (sp_dim s) in
  for_ 0 (buf_size s) (v_zero vo) (fun v i =>
    ind_arr <- md_dimwise_indices local_mesh_dim i ;;
    ' (coef, ind_arr) <- for_ 0 (sp_dim s) (o1 o, ind_arr) (fun st d =>
        let '(coef, ind_arr) := st in
        a <- vget ind_arr d ;;
        bs <- vget vals d ;;
        b <- vget bs a ;;
        a' <- vshifted_index s ctrl iters d a ;;
        ind_arr' <- vset ind_arr d a' ;;
        Ok (omul o coef b, ind_arr')) ;;
    c <- mesh_get ctrl ind_arr ;;
    Ok (v_mac vo v coef c)).

(** [operator()], [at] (Interpolation.hpp:132-169). *)
Definition vinterp_eval (g : vinterp T V) (xs : list T) : res V :=
  c <- add_hints o (vf_base g) xs ;; vspline_eval (if_spline (vf_base g)) (vf_ctrl g) c.
Definition vinterp_at (g : vinterp T V) (xs : list T) : res V :=
  _ <- boundary_check o (vf_base g) xs ;; vinterp_eval g xs.

(** Control points of the derivative along one line
    (BSpline.hpp:504-518). *)
Definition vderive_line (order : nat) (knots : list T) (seg so : nat) (m : mesh V) (it : skip_iter)
  : res (mesh V) :=
  foldM (fun m k =>
    foldM (fun m j =>
      let pos := (Z.of_nat order + Z.of_nat j - Z.of_nat k)%Z in
      a <- sk_at m it pos ;;
      b <- sk_at m it (pos - 1) ;;
      tr <- kget knots (seg + j) 0 ;;
      tl <- kget knots (seg + j) k ;;
      v <- v_diff vo k a b (osub o tr tl) ;;
      sk_set m it pos v) (rev (seq 1 k)) m) (rev (seq (so + 1) (order - so))) m.

(** [derivative_at] with hints (BSpline.hpp:393-532). *)
Definition vspline_derivative_at (s : spline T) (ctrl : mesh V) (coords : list (T * nat * nat)) : res V :=
  let order := sp_order s in
  let dim := sp_dim s in
  let base := order + 1 in
  let so := map (fun c => if snd c <=? order then order - snd c else order + 1) coords in
  if existsb (fun q => order <? q) so then Ok (v_zero vo) else
  iters <- get_knot_iters o s (map fst coords) ;;
  vals <- calc_base_spline_vals o s iters so ;;
  ' (lsv, lcp) <- for_ 0 (buf_size s) (mesh_make (o0 o) (repeat base dim), mesh_make (v_zero vo) (repeat base dim)) (fun st i =>
    let '(lsv, lcp) := st in
    let local_ind := digits base dim i in
    ' (coef, ind_arr) <- for_ 0 dim (o1 o, repeat 0 dim) (fun st d =>
        let '(coef, ind_arr) := st in
        a <- vget local_ind d ;;
        bs <- vget vals d ;;
        b <- vget bs a ;;
        a' <- vshifted_index s ctrl iters d a ;;
        ind_arr' <- vset ind_arr d a' ;;
        Ok (omul o coef b, ind_arr')) ;;
    lsv <- mesh_set lsv local_ind coef ;;
    c <- mesh_get ctrl ind_arr ;;
    lcp <- mesh_set lcp local_ind c ;;
    Ok (lsv, lcp)) ;;
  lcp <- for_ 0 dim lcp (fun lcp d =>
    q <- vget so d ;;
    if q =? order then Ok lcp else
    n <- mesh_dim_size lcp d ;;
    hyper <- udiv (mesh_size lcp) n ;;
    for_ 0 hyper lcp (fun lcp i =>
      it <- mesh_begin on lcp d (digits_skip base dim d i) ;;
      kn <- vget (sp_knots s) d ;;
      ki <- vget iters d ;;
      vderive_line order kn (snd ki) q lcp it)) ;;
  for_ 0 (mesh_size lsv) (v_zero vo) (fun v i =>
    a <- vget (m_data lsv) i ;;
    c <- vget (m_data lcp) i ;;
    Ok (v_mac_conv vo v a c)).

(** [derivative], [derivative_at] (Interpolation.hpp:177-244, 302-319). *)
Definition vinterp_derivative (g : vinterp T V) (xs : list T) (orders : list nat) : res V :=
  c <- mapM (fun d => x <- vget xs d ;; h <- hint_for o (vf_base g) d x ;; q <- vget orders d ;; Ok (x, h, q))
            (seq 0 (sp_dim (if_spline (vf_base g)))) ;;
  vspline_derivative_at (if_spline (vf_base g)) (vf_ctrl g) c.
Definition vinterp_derivative_at (g : vinterp T V) (xs : list T) (orders : list nat) : res V :=
  _ <- boundary_check o (vf_base g) xs ;; vinterp_derivative g xs orders.

End Vec.
