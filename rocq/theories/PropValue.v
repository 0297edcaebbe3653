(** C88, C89: values of another type than the coordinates (vectors, complex
    numbers). Properties only; the proofs are in VecTop. *)
From Coq Require Import List Arith Bool ZArith QArith Reals Floats.
From Verif Require Import Base Num FloatM MeshM SplineM InterpM SpecMesh SpecInterp VecM SpecValue SpecCurve MeshProofs VecTop PropInterpEx PropValueEx.
Import ListNotations.
Open Scope R_scope.

(** C88: a map that preserves the operations on values can be applied to the
    data or to the results; construction throws or faults the same way. *)
Theorem C88_values_mapped : forall T V W (o : ops T) (vo : vops T V) (wo : vops T W) pi on nd order per f ranges,
  preserves vo wo pi ->
  match vinterp_make o vo on nd order per f ranges, vinterp_make o wo on nd order per (mesh_map pi f) ranges with
  | Ok g, Ok h =>
      (forall xs, same_outcome pi (vinterp_eval o vo g xs) (vinterp_eval o wo h xs) /\
                  same_outcome pi (vinterp_at o vo g xs) (vinterp_at o wo h xs)) /\
      (preserves_diff vo wo pi -> forall xs orders,
         same_outcome pi (vinterp_derivative o vo on g xs orders) (vinterp_derivative o wo on h xs orders) /\
         same_outcome pi (vinterp_derivative_at o vo on g xs orders) (vinterp_derivative_at o wo on h xs orders))
  | Throw e, Throw e' => e = e'
  | Fault u, Fault u' => u = u'
  | _, _ => False
  end.
Proof. exact @values_mapped. Qed.
Print Assumptions C88_values_mapped.
Example C88_example : (* rotation by a right angle *)
  preserves (vec_vops Rops 2) (vec_vops Rops 2) (affine 2 [[0; -1]; [1; 0]] [0; 0]) /\
  exists g, vinterp_make Rops (vec_vops Rops 2) true false 3 [false; true] (vdata IZR) (gx IZR) = Ok g.
Proof. exact ex_rotation. Qed.

(** C88: ... in particular onto numbers, against the model of numbers. *)
Theorem C88_values_component : forall T V (o : ops T) (vo : vops T V) pi on nd order per f ranges,
  preserves vo (scalar_vops o) pi ->
  match vinterp_make o vo on nd order per f ranges, interp_make o on nd order per (mesh_map pi f) ranges with
  | Ok g, Ok h =>
      (forall xs, same_outcome pi (vinterp_eval o vo g xs) (interp_eval o h xs) /\
                  same_outcome pi (vinterp_at o vo g xs) (interp_at o h xs)) /\
      (preserves_diff vo (scalar_vops o) pi -> forall xs orders,
         same_outcome pi (vinterp_derivative o vo on g xs orders) (interp_derivative o on h xs orders) /\
         same_outcome pi (vinterp_derivative_at o vo on g xs orders) (interp_derivative_at o on h xs orders))
  | Throw e, Throw e' => e = e'
  | Fault u, Fault u' => u = u'
  | _, _ => False
  end.
Proof. exact @values_component. Qed.
Print Assumptions C88_values_component.
Example C88_component_run :
  vevals Qops (vec_vops Qops 2) (vinterp_make Qops (vec_vops Qops 2) true false 3 [false; true] (vdata inject_Z) (gx inject_Z)) [[2; 1#2]; [7; -1]]%Q =
    bind (evals (interp_make Qops true false 3 [false; true] (mesh_map (fun v => nth 0 v 0%Q) (vdata inject_Z)) (gx inject_Z)) [[2; 1#2]; [7; -1]]%Q) (fun a =>
    bind (evals (interp_make Qops true false 3 [false; true] (mesh_map (fun v => nth 1 v 0%Q) (vdata inject_Z)) (gx inject_Z)) [[2; 1#2]; [7; -1]]%Q) (fun b =>
    Ok (map (fun k => [nth k a 0; nth k b 0]%Q) (seq 0 2)))) /\
  exists l, vevals Qops (vec_vops Qops 2) (vinterp_make Qops (vec_vops Qops 2) true false 3 [false; true] (vdata inject_Z) (gx inject_Z)) [[2; 1#2]; [7; -1]]%Q = Ok l.
Proof. split; [|eexists]; vm_compute; reflexivity. Qed.

(** C88: the components of vectors are such maps, for doubles too. *)
Theorem C88_vectors : forall T (o : ops T) dim i,
  (forall a b, omul o a b = omul o b a) -> division_uniform o -> (i < dim)%nat ->
  preserves (vec_vops o dim) (scalar_vops o) (fun v => nth i v (o0 o)) /\
  preserves_diff (vec_vops o dim) (scalar_vops o) (fun v => nth i v (o0 o)).
Proof. exact @vec_components. Qed.
Print Assumptions C88_vectors.
Example C88_vectors_example :
  (forall a b, omul Fops a b = omul Fops b a) /\ division_uniform Fops /\
  (forall a b, omul Rops a b = omul Rops b a) /\ division_uniform Rops.
Proof. exact ex_uniform. Qed.
Example C88_vectors_run :
  match vinterp_make Fops (vec_vops Fops 2) true false 3 [false; true] (vdata Fnum) (gx Fnum) with
  | Ok g => vinterp_eval Fops (vec_vops Fops 2) g [0.5; 0.25]%float
  | _ => Ok []
  end =
  match interp_make Fops true false 3 [false; true] (mesh_map (fun v => nth 0 v 0%float) (vdata Fnum)) (gx Fnum),
        interp_make Fops true false 3 [false; true] (mesh_map (fun v => nth 1 v 0%float) (vdata Fnum)) (gx Fnum) with
  | Ok g, Ok h => bind (interp_eval Fops g [0.5; 0.25]%float) (fun a => bind (interp_eval Fops h [0.5; 0.25]%float) (fun b => Ok [a; b]))
  | _, _ => Throw AssertFailed
  end.
Proof. vm_compute. reflexivity. Qed.

(** C88: so are the real and imaginary parts of complex numbers, exactly. *)
Theorem C88_complex :
  (preserves (complex_vops Rops) (scalar_vops Rops) fst /\ preserves_diff (complex_vops Rops) (scalar_vops Rops) fst) /\
  (preserves (complex_vops Rops) (scalar_vops Rops) snd /\ preserves_diff (complex_vops Rops) (scalar_vops Rops) snd).
Proof. exact complex_parts. Qed.
Print Assumptions C88_complex.
Example C88_complex_run : (* the data 1 + 2i, i, 3, 2 - i; value at 1/2 and derivative at 1 *)
  bind (vinterp_make Qops (complex_vops Qops) true false 2 [false] (mkMesh [4]%nat [(1, 2); (0, 1); (3, 0); (2, -1)]%Q) [Points [0; 1; 2; 3]%Q]) (fun g =>
  bind (vinterp_eval Qops (complex_vops Qops) g [1#2]%Q) (fun a =>
  bind (vinterp_derivative Qops (complex_vops Qops) true g [1%Q] [1]%nat) (fun b => Ok (map (fun z => (Qred (fst z), Qred (snd z))) [a; b])))) =
  Ok [(-1#6, 3#2); (5#3, -1)]%Q.
Proof. vm_compute. reflexivity. Qed.

(** C89: an interpolation of points of a vector space passes through them. *)
Theorem C89_vectors_pass : forall on nd p per dims ranges n f,
  good_input nd p per dims ranges -> m_dims f = dims -> wf_mesh f -> small_dims dims -> (0 < n)%nat ->
  (forall v, In v (m_data f) -> length v = n) ->
  (solvable p per ranges -> exists g, vinterp_make Rops (vec_vops Rops n) on nd p per f ranges = Ok g) /\
  forall g, vinterp_make Rops (vec_vops Rops n) on nd p per f ranges = Ok g ->
    forall idx, valid dims idx ->
      vinterp_eval Rops (vec_vops Rops n) g (grid_point nd per dims ranges idx) = Ok (vec_at f (representative nd per dims idx)).
Proof. exact vectors_pass. Qed.
Print Assumptions C89_vectors_pass.
Example C89_pass_example :
  good_input false 3 [false; true] gdims (gx IZR) /\ wf_mesh (vdata IZR) /\ small_dims gdims /\
  (forall v, In v (m_data (vdata IZR)) -> length v = 2%nat) /\ solvable 3 [false; true] (gx IZR).
Proof. exact ex_vectors. Qed.
Example C89_pass_run :
  vevals Qops (vec_vops Qops 2) (vinterp_make Qops (vec_vops Qops 2) true false 3 [false; true] (vdata inject_Z) (gx inject_Z)) [[1; 2]]%Q = Ok [[5; 2]]%Q.
Proof. vm_compute. reflexivity. Qed.

(** C89: an affine map can be applied to the data or to the values. *)
Theorem C89_affine_map : forall on nd p per dims ranges n f g a b,
  good_input nd p per dims ranges -> m_dims f = dims -> wf_mesh f -> (0 < n)%nat -> (0 < length b)%nat ->
  vinterp_make Rops (vec_vops Rops n) on nd p per f ranges = Ok g ->
  exists g', vinterp_make Rops (vec_vops Rops (length b)) on nd p per (mesh_map (affine n a b) f) ranges = Ok g' /\
    forall xs, length xs = length per -> countable_point nd per dims ranges xs ->
      exists v, vinterp_eval Rops (vec_vops Rops n) g xs = Ok v /\
        vinterp_eval Rops (vec_vops Rops (length b)) g' xs = Ok (affine n a b v).
Proof. exact affine_data. Qed.
Print Assumptions C89_affine_map.
Example C89_affine_example :
  good_input false 3 [false; true] gdims (gx IZR) /\ wf_mesh (vdata IZR) /\
  (exists g, vinterp_make Rops (vec_vops Rops 2) true false 3 [false; true] (vdata IZR) (gx IZR) = Ok g) /\
  affine 2 [[1; 2]; [0; -1]; [1; 0]] [1; 0; 5] [2; 1] = [5; -1; 7].
Proof. exact ex_affine. Qed.

(** C89: within the range of the data, values lie in the convex hull of the
    control points: in every half-space that contains all of them. *)
Theorem C89_convex_hull : forall on nd p per dims ranges n f g,
  good_input nd p per dims ranges -> m_dims f = dims -> wf_mesh f -> (0 < n)%nat ->
  vinterp_make Rops (vec_vops Rops n) on nd p per f ranges = Ok g ->
  forall xs, length xs = length per -> countable_point nd per dims ranges xs -> in_grid nd per dims ranges xs ->
  exists v, vinterp_eval Rops (vec_vops Rops n) g xs = Ok v /\
    forall w c, (forall q, In q (m_data (vf_ctrl g)) -> dot n w q <= c) -> dot n w v <= c.
Proof. exact vector_hull. Qed.
Print Assumptions C89_convex_hull.
Example C89_hull_example :
  good_input false 3 [false; true] gdims (gx IZR) /\
  (exists g, vinterp_make Rops (vec_vops Rops 2) true false 3 [false; true] (vdata IZR) (gx IZR) = Ok g) /\
  countable_point false [false; true] gdims (gx IZR) [1/2; -7] /\ in_grid false [false; true] gdims (gx IZR) [1/2; -7].
Proof. exact ex_hull. Qed.
