(** The MEX function of matlab/bspline.cpp: interpolation of a MATLAB array.

    Not modelled: the number and types of the arguments (bspline.cpp:144-151;
    the arguments are typed here), the text printed and the texts of errors,
    conversions between MATLAB's and C++'s containers other than indexing.
    The unused [range_invoke_row_major] (bspline.cpp:30-40) is left out. *)
From Coq Require Import List Arith Bool.
From Verif Require Import Base Num MeshM SplineM InterpM.
Import ListNotations.

(** [TypedArray<A>]: the dimensions and the elements, stored column by column
    as MATLAB does. *)
Record marray (A : Type) : Type := mkArr { a_dims : list nat; a_data : list A }.
Arguments mkArr {A}.
Arguments a_dims {A}.
Arguments a_data {A}.

(** What a call does: a result or a fault or exception of the library, an
    error reported by [feval(u"error", ...)] (bspline.cpp:143-181), or
    [std::terminate] ([throw;] without an exception, bspline.cpp:137). *)
Inductive mex_outcome (A : Type) : Type := Done (r : res A) | Rejected | Terminated.
Arguments Done {A} r.
Arguments Rejected {A}.
Arguments Terminated {A}.

(** [get_matlab_arr] (bspline.cpp:22-28), also [range[i][0]], [coor_in[i][j]],
    [is_periodic[i]]: the chain of [operator[]] multiplies up the strides;
    missing trailing indices are zero.  The Data API throws for an index that
    is too large; here it is a fault. *)
Definition arr_get {A} (x : marray A) (is : list nat) : res A :=
  if (length is <=? length (a_dims x))
     && forallb (fun p => fst p <? snd p) (combine is (a_dims x))
  then
    let r := fold_left (fun r p => (fst r + fst p * snd r, snd r * snd p))
                       (combine is (a_dims x)) (0, 1) in
    vget (a_data x) (fst r)
  else Fault OutOfBounds.

(** [range_invoke_col_major] (bspline.cpp:42-53): the outermost loop is over
    the last dimension, each level puts its index in front.  [rdims] are the
    sizes still to be looped over, the last one first. *)
Fixpoint col_loops {S} (body : S -> list nat -> res S) (rdims is : list nat) (s : S) : res S :=
  match rdims with
  | [] => body s is
  | n :: rdims => for_ 0 n s (fun s i => col_loops body rdims (i :: is) s)
  end.

(** [make_inverse_index_sequence<Dim>] (bspline.cpp:12-17). *)
Definition inverse_indices (dim : nat) : list nat := map (fun i => dim - i - 1) (seq 0 dim).

(** [reverse_invoke] (bspline.cpp:55-61): the arguments in reverse order. *)
Definition reverse_args (is : list nat) : res (list nat) :=
  mapM (fun i => vget is i) (inverse_indices (length is)).

Section Mex.
Context {T : Type} (o : ops T).
Context (on : bool).        (* INTP_ENABLE_ASSERTION *)
Context (no_dummy : bool).  (* INTP_PERIODIC_NO_DUMMY_POINT *)

(** The data mesh (bspline.cpp:79-87): sizes in reverse order, one more value
    in periodic dimensions, which is left zero. *)
Definition mex_mesh (dim : nat) (per : marray bool) (mesh_in : marray T) : res (mesh T) :=
  dims <- mapM (fun d => vget (a_dims mesh_in) d) (seq 0 dim) ;;
  sizes <- mapM (fun d => n <- vget dims d ;; p <- arr_get per [d] ;;
                          Ok (n + (if (p : bool) then 1 else 0)))
                (inverse_indices dim) ;;
  col_loops (fun f is => js <- reverse_args is ;; v <- arr_get mesh_in is ;;
                         mesh_set_safe on f js v)
            (rev dims) [] (mesh_make (o0 o) sizes).

(** [interpolation_nd<Dim>] (bspline.cpp:69-104). *)
Definition mex_nd (dim order : nat) (per : marray bool) (range mesh_in coor : marray T)
    (deriv : marray nat) : res (list T) :=
  f <- mex_mesh dim per mesh_in ;;
  flags <- mapM (fun d => arr_get per [d]) (inverse_indices dim) ;;
  ranges <- mapM (fun d => a <- arr_get range [d; 0] ;; b <- arr_get range [d; 1] ;;
                           Ok (Uniform a b))
                 (inverse_indices dim) ;;
  g <- interp_make o on no_dummy order flags f ranges ;;
  rows <- vget (a_dims coor) 0 ;;
  mapM (fun i =>
          xs <- mapM (fun d => arr_get coor [i; d]) (inverse_indices dim) ;;
          orders <- mapM (fun d => arr_get deriv [d]) (inverse_indices dim) ;;
          interp_derivative o on g xs orders)
       (seq 0 rows).

(** Number of dimensions larger than one (bspline.cpp:119-121, 158-160). *)
Definition mex_dim (mesh_in : marray T) : nat :=
  length (filter (fun n => 1 <? n) (a_dims mesh_in)).

(** [checkArguments] (bspline.cpp:162-180).  MATLAB arrays have at least two
    dimensions; [getDimensions()[0]] of shorter ones counts as 0 here. *)
Definition mex_check (per : marray bool) (range mesh_in coor : marray T) (deriv : marray nat) : bool :=
  let dim := mex_dim mesh_in in
  (length (a_dims range) =? 2) && (nth 0 (a_dims range) 0 =? dim) && (nth 1 (a_dims range) 0 =? 2)
  && negb (nth 0 (a_dims mesh_in) 0 =? 1)
  && (nth 0 (a_dims per) 0 =? dim) && (nth 0 (a_dims deriv) 0 =? dim)
  && (length (a_dims coor) =? 2) && (nth 1 (a_dims coor) 0 =? dim).

(** [MexFunction::operator()] (bspline.cpp:106-141). *)
Definition mex (order : nat) (per : marray bool) (range mesh_in coor : marray T)
    (deriv : marray nat) : mex_outcome (list T) :=
  if mex_check per range mesh_in coor deriv then
    match mex_dim mesh_in with
    | 1 => Done (mex_nd 1 order per range mesh_in coor deriv)
    | 2 => Done (mex_nd 2 order per range mesh_in coor deriv)
    | 3 => Done (mex_nd 3 order per range mesh_in coor deriv)
    | _ => Terminated
    end
  else Rejected.
End Mex.
