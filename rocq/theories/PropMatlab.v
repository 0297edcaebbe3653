(** C79, C80: the MEX function for MATLAB. *)
From Coq Require Import List Arith Bool ZArith QArith Reals.
From Verif Require Import Base Num MeshM SpecMesh MeshProofs SpecCalc SpecInterp InterpM MatlabM SpecMatlab MatlabProofs MatlabTop PropMatlabEx.
Import ListNotations.
Open Scope R_scope.

(** C79: the array, its ranges and flags determine one function F.  F takes
    the values of the array at the points of the grid, continues periodically,
    and each call returns its values or its mixed derivatives. *)
Theorem C79_mex_function : forall on order D per range mesh,
  (1 <= D <= 3)%nat -> shaped_data D per range mesh -> good_data order D range mesh ->
  exists F : list R -> R,
    (forall idx, length idx = D -> (forall d, (d < D)%nat -> (nth d idx 0 < size_of mesh d)%nat) ->
       F (node D per range mesh idx) = elem 0 mesh idx) /\
    (forall xs ys d (m : Z), length xs = D -> length ys = D -> (d < D)%nat -> flag_of per d = true ->
       (forall e, (e < D)%nat -> e <> d -> nth e ys 0 = nth e xs 0) ->
       nth d ys 0 = nth d xs 0 + IZR m * (hi_of range d - lo_of range d) -> F ys = F xs) /\
    forall N coor deriv, shaped_points D N coor deriv -> good_points D N per range mesh coor ->
      exists vs, mex Rops on false order per range mesh coor deriv = Done (Ok vs) /\ length vs = N /\
        forall i, (i < N)%nat ->
          ((forall d, (d < D)%nat -> order_of deriv d = 0%nat) -> nth i vs 0 = F (row_of D coor i)) /\
          ((forall d, (d < D)%nat -> off_half_steps per range mesh d (elem 0 coor [i; d])) ->
             is_mixed (map (order_of deriv) (seq 0 D)) F (row_of D coor i) (nth i vs 0)).
Proof. exact mex_function. Qed.
Print Assumptions C79_mex_function.
Example C79_example :
  shaped_data 2 mx_per (mx_range IZR) (mx_mesh IZR) /\ good_data 2 2 (mx_range IZR) (mx_mesh IZR) /\
  shaped_points 2 3 (mx_coor IZR) (mx_deriv 1 0) /\ good_points 2 3 mx_per (mx_range IZR) (mx_mesh IZR) (mx_coor IZR).
Proof. exact (conj (mx_data IZR) (conj mx_good (conj (mx_points IZR 1 0) mx_near))). Qed.
Example C79_example_run : (* at (1, 1), (2, 4) = node (2, 2) and (6, 3) = (2, 3) + a period *)
  mex Qops true false 2 mx_per (mx_range inject_Z) (mx_mesh inject_Z) (mx_coor inject_Z) (mx_deriv 0 0)
    = Done (Ok [4; 2; 2#9]%Q) /\
  mex Qops true false 2 mx_per (mx_range inject_Z) (mx_mesh inject_Z) (mx_coor inject_Z) (mx_deriv 1 0)
    = Done (Ok [2#3; 4#3; 4#9]%Q).
Proof. split; vm_compute; reflexivity. Qed.

(** In any arithmetic, what the wrapper makes the library do. *)
Theorem C79_mex_calls : forall (T : Type) (o : ops T) on nd order D N per (range mesh coor : marray T) deriv,
  (1 <= D <= 3)%nat -> shaped_data D per range mesh -> shaped_points D N coor deriv ->
  exists f, m_dims f = rev (map (fun d => (size_of mesh d + (if flag_of per d then 1 else 0))%nat) (seq 0 D)) /\ wf_mesh f /\
    (forall idx, length idx = D -> (forall d, (d < D)%nat -> (nth d idx 0 < size_of mesh d)%nat) ->
       nth (row_major (m_dims f) (rev idx)) (m_data f) (o0 o) = elem (o0 o) mesh idx) /\
    mex o on nd order per range mesh coor deriv = Done (
      g <- interp_make o on nd order (rev (map (fun d => flag_of per d) (seq 0 D))) f
            (rev (map (fun d => Uniform (elem (o0 o) range [d; 0%nat]) (elem (o0 o) range [d; 1%nat])) (seq 0 D))) ;;
      mapM (fun i => interp_derivative o on g (rev (map (fun d => elem (o0 o) coor [i; d]) (seq 0 D)))
                       (rev (map (fun d => order_of deriv d) (seq 0 D)))) (seq 0 N)).
Proof. exact @mex_calls. Qed.
Print Assumptions C79_mex_calls.
Example C79_calls_example :
  shaped_data 2 mx_per (mx_range inject_Z) (mx_mesh inject_Z) /\ shaped_points 2 3 (mx_coor inject_Z) (mx_deriv 1 0).
Proof. exact (conj (mx_data inject_Z) (mx_points inject_Z 1 0)). Qed.

(** A call is carried out only if the other arguments fit the array. *)
Theorem C79_shapes_checked : forall (T : Type) (o : ops T) on nd order per (range mesh coor : marray T) deriv D ns k,
  a_dims mesh = ns ++ repeat 1%nat k -> length ns = D -> Forall (fun n => (2 <= n)%nat) ns ->
  mex o on nd order per range mesh coor deriv <> Rejected ->
  a_dims range = [D; 2]%nat /\ (exists N, a_dims coor = [N; D]%nat) /\
  nth 0 (a_dims per) 0%nat = D /\ nth 0 (a_dims deriv) 0%nat = D.
Proof. exact @mex_checked. Qed.
Print Assumptions C79_shapes_checked.
Example C79_rejected : (* points with three coordinates for a matrix *)
  mex Qops true false 2 mx_per (mx_range inject_Z) (mx_mesh inject_Z) (mkArr [2; 3]%nat [0; 1; 2; 3; 4; 5]%Q) (mx_deriv 0 0) = Rejected.
Proof. reflexivity. Qed.

(** C80: arrays of more than three dimensions end the process; they are not
    reported as errors. *)
Theorem C80_many_dimensions_terminate : forall (T : Type) (o : ops T) on nd order D N per (range mesh coor : marray T) deriv,
  (4 <= D)%nat -> shaped_data D per range mesh -> shaped_points D N coor deriv ->
  mex o on nd order per range mesh coor deriv = Terminated.
Proof. exact @mex_terminates. Qed.
Print Assumptions C80_many_dimensions_terminate.
Example C80_many_example : shaped_data 4 big_per big_range big_mesh /\ shaped_points 4 1 big_coor big_deriv.
Proof. exact (conj big_data big_points). Qed.

(** An array with a dimension of size one between others is accepted ...  *)
Theorem C80_thin_array_refuted : exists order per (range mesh coor : marray Q) deriv,
  mex_check per range mesh coor deriv = true /\ wf_array mesh /\
  mex Qops true false order per range mesh coor deriv = Done (Fault DivByZero).
Proof. exact thin_fails. Qed.
Print Assumptions C80_thin_array_refuted.
(** ... and part of it is ignored: the last two values should be 3 and 4. *)
Theorem C80_thin_values_refuted : exists order per (range mesh coor : marray Q) deriv,
  mex_check per range mesh coor deriv = true /\ wf_array mesh /\ a_dims mesh = [2; 1; 2]%nat /\ order = 0%nat /\
  a_data mesh = [1; 2; 3; 4]%Q /\
  a_data coor = [0; 1; 0; 1; 0; 0; 1#2; 1#2]%Q /\ (* the four points of the grid *)
  mex Qops true false order per range mesh coor deriv = Done (Ok [1; 2; 1; 2]%Q).
Proof. exact thin_wrong. Qed.
Print Assumptions C80_thin_values_refuted.
(** With INTP_PERIODIC_NO_DUMMY_POINT defined the padding becomes data: the
    first value should be 4. *)
Theorem C80_padding_refuted : exists order per (range mesh coor : marray Q) deriv D N,
  shaped_data D per range mesh /\ shaped_points D N coor deriv /\
  a_data coor = [1; 2; 6; 1; 4; 3]%Q /\ elem 0%Q mesh [1; 0]%nat = 4%Q /\ (* value at (1, 1), the first point *)
  mex Qops true true order per range mesh coor deriv = Done (Ok [447#116; 100#29; 287#261]%Q).
Proof. exact padded_wrong. Qed.
Print Assumptions C80_padding_refuted.
