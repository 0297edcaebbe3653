(** Property theorems about Interpolation.hpp and InterpolationTemplate.hpp. *)
From Coq Require Import List Arith Bool ZArith QArith Reals.
From Verif Require Import Base Num MeshM SplineM InterpM SpecMesh SpecBand SpecSpline SpecSplineObj SpecInterp
  MeshProofs GenInterp InterpFinal AffineProofs InterpMore PropInterpEx.
Import ListNotations.
Local Open Scope R_scope.

(** C23: non-periodic interpolation exists and passes through the data. *)
Theorem C23_aperiodic_passes_through_data : forall on nd p per dims ranges f,
  good_input nd p per dims ranges -> List.Forall (fun b => b = false) per ->
  m_dims f = dims -> wf_mesh f -> small_dims dims ->
  exists g, interp_make Rops on nd p per f ranges = Ok g /\
    forall idx, valid dims idx ->
      interp_eval Rops g (grid_point nd per dims ranges idx) = Ok (val_at f idx).
Proof. exact aperiodic_passes. Qed.
Print Assumptions C23_aperiodic_passes_through_data.
Example C23_example :
  good_input false 3 [false; false] gdims (gx IZR) /\ small_dims gdims /\ wf_mesh (gdata IZR).
Proof. exact (conj (good_gx 3 false (conj (le_S _ _ (le_S _ _ (le_n 1))) (le_n 3))) (conj small_gx eq_refl)). Qed.
Example C23_example_run : (* grid points (3, 2) and (4, 4), and a point in between *)
  evals (interp_make Qops true false 3 [false; false] (gdata inject_Z) (gx inject_Z)) [[3; 2]; [4; 4]; [2; 1#2]]%Q
  = Ok [7; 6; 211#24]%Q.
Proof. vm_compute. reflexivity. Qed.

(** C24: periodic (and mixed) interpolation passes through the data; the
    repeated end point stands for the first one. *)
Theorem C24_periodic_passes_through_data : forall on nd p per dims ranges f,
  good_input nd p per dims ranges -> m_dims f = dims -> wf_mesh f -> small_dims dims ->
  (solvable p per ranges -> exists g, interp_make Rops on nd p per f ranges = Ok g) /\
  forall g, interp_make Rops on nd p per f ranges = Ok g ->
    forall idx, valid dims idx ->
      interp_eval Rops g (grid_point nd per dims ranges idx) = Ok (val_at f (representative nd per dims idx)).
Proof. exact periodic_passes. Qed.
Print Assumptions C24_periodic_passes_through_data.
Example C24_example :
  good_input false 3 [false; true] gdims (gx IZR) /\ solvable 3 [false; true] (gx IZR) /\ small_dims gdims.
Proof. exact (conj (good_gx 3 true (conj (le_S _ _ (le_S _ _ (le_n 1))) (le_n 3))) (conj (solvable_gx 3 _ (le_n 3)) small_gx)). Qed.
Example C24_example_run : (* (4, 4) is one period away from (4, 0) *)
  evals (interp_make Qops true false 3 [false; true] (gdata inject_Z) (gx inject_Z)) [[3; 2]; [4; 4]; [4; 0]; [0; 7]]%Q
  = Ok [7; 2; 2; 5]%Q.
Proof. vm_compute. reflexivity. Qed.

(** On uniform grids of every order, periodic or not. *)
Theorem C24_uniform_passes_through_data : forall on nd p per dims ranges f,
  good_input nd p per dims ranges -> (forall d, (d < length per)%nat -> ~ by_points ranges d) ->
  m_dims f = dims -> wf_mesh f -> small_dims dims ->
  exists g, interp_make Rops on nd p per f ranges = Ok g /\
    forall idx, valid dims idx ->
      interp_eval Rops g (grid_point nd per dims ranges idx) = Ok (val_at f (representative nd per dims idx)).
Proof. exact uniform_passes. Qed.
Print Assumptions C24_uniform_passes_through_data.
Example C24_uniform_example_run : (* order 9 *)
  evals (interp_make Qops true false 9 [true] (mkMesh [13%nat] (map inject_Z [1; 0; 0; 5; 0; -2; 0; 3; 0; 7; 4; 0; 1]%Z)) [Uniform 0 12]%Q) [[3]; [5]; [9]; [12]; [-3]]%Q
  = Ok [5; -2; 7; 1; 7]%Q.
Proof. vm_compute. reflexivity. Qed.

(** C25: linearity in the data, for values and derivatives. *)
Theorem C25_linear_in_data : forall on nd p per dims ranges f1 f2 h g1 g2 a b,
  good_input nd p per dims ranges ->
  m_dims f1 = dims -> wf_mesh f1 -> m_dims f2 = dims -> wf_mesh f2 -> m_dims h = dims -> wf_mesh h ->
  (forall idx, valid dims idx -> val_at h idx = a * val_at f1 idx + b * val_at f2 idx) ->
  interp_make Rops on nd p per f1 ranges = Ok g1 -> interp_make Rops on nd p per f2 ranges = Ok g2 ->
  exists g, interp_make Rops on nd p per h ranges = Ok g /\
    forall xs orders, length xs = length per -> length orders = length per -> countable_point nd per dims ranges xs ->
      (exists u v, interp_eval Rops g1 xs = Ok u /\ interp_eval Rops g2 xs = Ok v /\
         interp_eval Rops g xs = Ok (a * u + b * v)) /\
      (exists u v, interp_derivative Rops on g1 xs orders = Ok u /\ interp_derivative Rops on g2 xs orders = Ok v /\
         interp_derivative Rops on g xs orders = Ok (a * u + b * v)).
Proof. exact linear_data. Qed.
Print Assumptions C25_linear_in_data.
Example C25_example :
  good_input false 3 [false; true] gdims (gx IZR) /\
  (forall idx, valid gdims idx -> val_at (gsum IZR) idx = 1 * val_at (gdata IZR) idx + 2 * val_at (gaffine IZR) idx) /\
  (exists g, interp_make Rops true false 3 [false; true] (gdata IZR) (gx IZR) = Ok g) /\
  (exists g, interp_make Rops true false 3 [false; true] (gaffine IZR) (gx IZR) = Ok g) /\
  countable_point false [false; true] gdims (gx IZR) [7; -1].
Proof. exact ex_linear. Qed.
Example C25_example_run :
  evals (interp_make Qops true false 3 [false; true] (gsum inject_Z) (gx inject_Z)) [[2; 1#2]; [7; -1]]%Q =
  bind (evals (interp_make Qops true false 3 [false; true] (gdata inject_Z) (gx inject_Z)) [[2; 1#2]; [7; -1]]%Q) (fun u =>
  bind (evals (interp_make Qops true false 3 [false; true] (gaffine inject_Z) (gx inject_Z)) [[2; 1#2]; [7; -1]]%Q) (fun v =>
  Ok (map (fun p => Qred (fst p + 2 * snd p)) (combine u v)))).
Proof. vm_compute. reflexivity. Qed.

(** C26: constant data. *)
Theorem C26_constant_data : forall on nd p per dims ranges f g c,
  good_input nd p per dims ranges -> m_dims f = dims -> wf_mesh f ->
  (forall v, In v (m_data f) -> v = c) -> interp_make Rops on nd p per f ranges = Ok g ->
  forall xs orders, length xs = length per -> length orders = length per -> countable_point nd per dims ranges xs ->
    interp_eval Rops g xs = Ok c /\
    interp_derivative Rops on g xs orders = Ok (if forallb (Nat.eqb 0) orders then c else 0).
Proof. exact constant_data. Qed.
Print Assumptions C26_constant_data.
Example C26_example :
  good_input false 3 [false; true] gdims (gx IZR) /\ (forall v, In v (m_data (gones IZR)) -> v = 1) /\
  (exists g, interp_make Rops true false 3 [false; true] (gones IZR) (gx IZR) = Ok g) /\
  countable_point false [false; true] gdims (gx IZR) [7; -1].
Proof. exact ex_constant. Qed.
Example C26_example_run :
  evals (interp_make Qops true false 3 [false; true] (gones inject_Z) (gx inject_Z)) [[2; 1#2]; [7; -1]]%Q = Ok [1; 1]%Q.
Proof. vm_compute. reflexivity. Qed.

(** C27: the last point of a periodic dimension is ignored; any arithmetic. *)
Theorem C27_end_point_ignored : forall (T : Type) (o : ops T) on order per f f' ranges,
  m_dims f' = m_dims f -> wf_mesh f -> wf_mesh f' -> length (m_dims f) = length per ->
  (forall idx, valid (m_dims f) idx ->
     (forall d, (d < length per)%nat -> nth d per false = true -> (nth d idx 0 + 1 < nth d (m_dims f) 0)%nat) ->
     nth_error (m_data f) (row_major (m_dims f) idx) = nth_error (m_data f') (row_major (m_dims f) idx)) ->
  interp_make o on false order per f ranges = interp_make o on false order per f' ranges.
Proof. exact @dummy_ignored. Qed.
Print Assumptions C27_end_point_ignored.
Example C27_example :
  (forall idx, valid gdims idx ->
    (forall d, (d < 2)%nat -> nth d [false; true] false = true -> (nth d idx 0 + 1 < nth d gdims 0)%nat) ->
    nth_error (m_data (gdata inject_Z)) (row_major gdims idx) = nth_error (m_data (gdata' inject_Z)) (row_major gdims idx)) /\
  gdata inject_Z <> gdata' inject_Z.
Proof. split; [exact (dummy_gx inject_Z)|discriminate]. Qed.

(** C28: bounds-checked access; any arithmetic. *)
Theorem C28_at_checks_bounds : forall (T : Type) (o : ops T) on (f : interp T) xs orders,
  length xs = sp_dim (if_spline f) -> length (sp_range (if_spline f)) = sp_dim (if_spline f) ->
  let out := existsb (outside o (sp_per (if_spline f)) (sp_range (if_spline f)) xs) (seq 0 (sp_dim (if_spline f))) in
  interp_at o f xs = (if out then Throw DomainError else interp_eval o f xs) /\
  interp_derivative_at o on f xs orders = (if out then Throw DomainError else interp_derivative o on f xs orders).
Proof. exact @at_spec. Qed.
Print Assumptions C28_at_checks_bounds.
(** Over the reals, for functions made by the constructor. *)
Theorem C28_at_checks_bounds_real : forall on nd p per dims ranges f g,
  good_input nd p per dims ranges -> m_dims f = dims -> wf_mesh f -> interp_make Rops on nd p per f ranges = Ok g ->
  forall xs, length xs = length per -> countable_point nd per dims ranges xs ->
  (interp_at Rops g xs = Throw DomainError <->
   exists d, (d < length per)%nat /\ nth d per false = false /\
     (nth d xs 0 < fst (rng (if_spline g) d) \/ snd (rng (if_spline g) d) < nth d xs 0)) /\
  (interp_at Rops g xs <> Throw DomainError -> interp_at Rops g xs = interp_eval Rops g xs).
Proof. exact at_real. Qed.
Print Assumptions C28_at_checks_bounds_real.
Example C28_example_run :
  bind (interp_make Qops true false 3 [false; true] (gdata inject_Z) (gx inject_Z)) (fun g =>
    Ok (sp_range (if_spline g), interp_at Qops g [4; 9]%Q, interp_at Qops g [-1#100; 1]%Q, interp_at Qops g [401#100; 1]%Q))
  = Ok ([(0, 4); (0, 4)]%Q, Ok 3%Q, Throw DomainError, Throw DomainError).
Proof. vm_compute. reflexivity. Qed.

(** C29: the range is the data range for odd orders. *)
Theorem C29_range_odd_order_partial : forall on nd p per dims ranges f g,
  good_input nd p per dims ranges -> m_dims f = dims -> wf_mesh f -> interp_make Rops on nd p per f ranges = Ok g ->
  forall xs, Nat.odd p = true -> length xs = length per -> countable_point nd per dims ranges xs ->
  (forall d, (d < length per)%nat -> nth d per false = false ->
     coordinate nd per dims ranges d 0 <= nth d xs 0 <= coordinate nd per dims ranges d (nth d dims 0%nat - 1)) ->
  exists v, interp_at Rops g xs = Ok v /\ interp_eval Rops g xs = Ok v.
Proof. exact at_accepts. Qed.
Print Assumptions C29_range_odd_order_partial.
(** The range reported, for both parities. *)
Theorem C29_range : forall on nd p per dims ranges f g,
  good_input nd p per dims ranges -> m_dims f = dims -> wf_mesh f -> interp_make Rops on nd p per f ranges = Ok g ->
  forall d, (d < length per)%nat -> nth d per false = false ->
  let first := coordinate nd per dims ranges d 0 in
  let last := coordinate nd per dims ranges d (nth d dims 0%nat - 1) in
  fst (rng (if_spline g) d) = first /\ first < last /\
  (Nat.odd p = true -> snd (rng (if_spline g) d) = last) /\
  (Nat.odd p = false -> first <= snd (rng (if_spline g) d) < last).
Proof. exact ap_range. Qed.
Print Assumptions C29_range.
(** For even orders [at] throws at every point with the last coordinate of a
    non-periodic dimension, on every grid. *)
Theorem C29_last_point_rejected : forall on nd p per dims ranges f g,
  good_input nd p per dims ranges -> m_dims f = dims -> wf_mesh f -> interp_make Rops on nd p per f ranges = Ok g ->
  forall xs d, Nat.odd p = false -> length xs = length per -> countable_point nd per dims ranges xs ->
  (d < length per)%nat -> nth d per false = false -> nth d xs 0 = coordinate nd per dims ranges d (nth d dims 0%nat - 1) ->
  interp_at Rops g xs = Throw DomainError.
Proof. exact at_rejects. Qed.
Print Assumptions C29_last_point_rejected.
Theorem C29_range_even_order_refuted :
  exists f ranges g, interp_make Qops true false 2 [false] f ranges = Ok g /\
    ranges = [Uniform 0 3]%Q /\ interp_at Qops g [3%Q] = Throw DomainError /\ interp_eval Qops g [3%Q] = Ok 4%Q.
Proof. exact even_range_witness. Qed.
Print Assumptions C29_range_even_order_refuted.
Example C29_example :
  good_input false 3 [false; true] gdims (gx IZR) /\ Nat.odd 3 = true /\
  (exists g, interp_make Rops true false 3 [false; true] (gdata IZR) (gx IZR) = Ok g) /\
  (forall d, (d < 2)%nat -> nth d [false; true] false = false ->
     coordinate false [false; true] gdims (gx IZR) d 0 <= nth d [4; -1] 0 <=
     coordinate false [false; true] gdims (gx IZR) d (nth d gdims 0%nat - 1)).
Proof. exact ex_range. Qed.
Example C29_example_even :
  good_input false 2 [false; true] gdims (gx IZR) /\ Nat.odd 2 = false /\
  (exists g, interp_make Rops true false 2 [false; true] (gdata IZR) (gx IZR) = Ok g) /\
  nth 0 [4; -1] 0 = coordinate false [false; true] gdims (gx IZR) 0 (nth 0 gdims 0%nat - 1).
Proof. exact ex_range_even. Qed.

(** C30: all overloads of interpolate agree, and a template can be reused;
    any arithmetic. *)
Theorem C30_overloads_agree : forall (T : Type) (o : ops T) on nd (t : templ T) old f,
  interpolate_into o on nd t old f = interpolate o on nd t f /\
  (forall g, interpolate o on nd t f = Ok g <-> exists t', interpolate_move o on nd t f = Ok (g, t')) /\
  (forall e, interpolate o on nd t f = Throw e <-> interpolate_move o on nd t f = Throw e) /\
  (forall e, interpolate o on nd t f = Fault e <-> interpolate_move o on nd t f = Fault e).
Proof. exact @overloads. Qed.
Print Assumptions C30_overloads_agree.
Theorem C30_template_is_constructor : forall (T : Type) (o : ops T) on nd order per dims ranges t f,
  templ_make o on nd order per dims ranges = Ok t -> m_dims f = dims ->
  interp_make o on nd order per f ranges = interpolate o on nd t f.
Proof. exact @make_interpolate. Qed.
Print Assumptions C30_template_is_constructor.
Theorem C30_any_history : forall (T : Type) (o : ops T) on nd order per dims ranges t l gs,
  templ_make o on nd order per dims ranges = Ok t ->
  (forall p, In p l -> m_dims (op_data p) = dims) ->
  run_ops o on nd t [] l = Ok gs ->
  mapM (fun f => interp_make o on nd order per f ranges) (data_after [] l) = Ok gs.
Proof. exact @history_from_start. Qed.
Print Assumptions C30_any_history.
Example C30_example :
  bind (templ_make Qops true false 3 [false; true] gdims (gx inject_Z)) (fun t =>
  bind (run_ops Qops true false t []
    [OpNew (gdata inject_Z); OpNew (gones inject_Z); OpInto 0 (gaffine inject_Z); OpNew (gdata inject_Z)]) (fun gs =>
  mapM (fun g => interp_eval Qops g [3; 2]%Q) gs)) = Ok [5; 1; 7]%Q.
Proof. vm_compute. reflexivity. Qed.

(** C31: unit spacing of the 1-D constructors. *)
Theorem C31_unit_spacing : forall on nd p (f : list R) per,
  (p + 1 <= distinct nd per (length f))%nat -> (2 <= coords_num nd per (length f))%nat ->
  (Z.of_nat (length f) < two64)%Z ->
  exists g, interp1d_make Rops on nd p f per = Ok g /\
  forall i, (i < distinct nd per (length f))%nat -> interp_eval Rops g [INR i] = Ok (nth i f 0).
Proof. exact one_dim. Qed.
Print Assumptions C31_unit_spacing.
Theorem C31_template_agrees_partial : forall (T : Type) (o : ops T) on nd order f periodic,
  nd && periodic = false ->
  interp1d_make o on nd order f periodic =
  bind (templ1d_make o on nd order (length f) periodic) (fun t => interpolate o on nd t (mesh_of_list f)).
Proof. exact @one_dim_agree. Qed.
Print Assumptions C31_template_agrees_partial.
(** With INTP_PERIODIC_NO_DUMMY_POINT the periodic template has spacing
    (n - 1) / n. *)
Theorem C31_template_spacing_no_dummy : forall on p (f : list R) g,
  (p + 1 <= length f)%nat -> (2 <= length f)%nat -> (Z.of_nat (length f) < two64)%Z ->
  bind (templ1d_make Rops on true p (length f) true) (fun t => interpolate Rops on true t (mesh_of_list f)) = Ok g ->
  forall i, (i < length f)%nat -> interp_eval Rops g [INR i * (INR (length f - 1) / INR (length f))] = Ok (nth i f 0).
Proof. exact template_spacing. Qed.
Print Assumptions C31_template_spacing_no_dummy.
Theorem C31_template_no_dummy_refuted :
  exists (f : list Q) g h, interp1d_make Qops true true 3 f true = Ok g /\
    bind (templ1d_make Qops true true 3 (length f) true) (fun t => interpolate Qops true true t (mesh_of_list f)) = Ok h /\
    interp_eval Qops g [1%Q] = Ok 2%Q /\ nth 1 f 0%Q = 2%Q /\ interp_eval Qops h [1%Q] <> Ok 2%Q.
Proof. exact template_witness. Qed.
Print Assumptions C31_template_no_dummy_refuted.
Example C31_example : (3 + 1 <= distinct true true 4)%nat /\ (2 <= coords_num true true 4)%nat.
Proof. exact (conj (le_n 4) (le_S _ _ (le_S _ _ (le_S _ _ (le_n 2))))). Qed.

(** C32: the control points solve the tensor-product collocation system, and
    are determined by it. *)
Theorem C32_collocation : forall on nd p per dims ranges f g,
  good_input nd p per dims ranges -> m_dims f = dims -> wf_mesh f ->
  interp_make Rops on nd p per f ranges = Ok g ->
  let s := if_spline g in let N := map (fun d => distinct nd (nth d per false) (nth d dims 0%nat)) (seq 0 (length per)) in
  m_dims (sp_ctrl s) = N /\ wf_mesh (sp_ctrl s) /\
  exists M : nat -> nat -> nat -> R,
    (forall idx, valid N idx ->
       tensor (map (fun d => (nth d N 0%nat, M d (nth d idx 0%nat))) (seq 0 (length per))) (ctrl_at Rops s) = val_at f idx) /\
    (forall c, (forall idx, valid N idx ->
       tensor (map (fun d => (nth d N 0%nat, M d (nth d idx 0%nat))) (seq 0 (length per))) c = val_at f idx) ->
       forall idx, valid N idx -> c idx = ctrl_at Rops s idx) /\
    (forall d i, (d < length per)%nat -> (i < nth d N 0)%nat ->
       exists k, segment (kn (knot_of s d)) p (length (knot_of s d) - p - 2) (coordinate nd per dims ranges d i) k /\
       forall j, (j < nth d N 0)%nat -> M d i j =
         Rsum (p + 1) (fun a => if ((k - p + a) mod nth d N 0 =? j)%nat
                                then piece (kn (knot_of s d)) k p (k - p + a) (coordinate nd per dims ranges d i) else 0)).
Proof. exact control_points. Qed.
Print Assumptions C32_collocation.
Example C32_example :
  good_input false 3 [false; true] gdims (gx IZR) /\
  (exists g, interp_make Rops true false 3 [false; true] (gdata IZR) (gx IZR) = Ok g).
Proof. exact (conj (proj1 ex_range) (proj1 (proj2 (proj2 ex_range)))). Qed.

(** C41: fewer distinct points than order + 1: constant data 1 gives 6/5. *)
Theorem C41_few_points_refuted :
  exists f g, m_data f = [1; 1; 1]%Q /\ interp_make Qops true false 3 [true] f [Uniform 0 2]%Q = Ok g /\
    interp_eval Qops g [0%Q] = Ok (6#5)%Q.
Proof. exact few_points_witness. Qed.
Print Assumptions C41_few_points_refuted.

(** C42: order 0 on given coordinates always reads past their end. *)
Theorem C42_order_zero_reads_past_end : forall (T : Type) (o : ops T) on nd f l,
  (forall a b, exists c, odiv o a b = Ok c) -> l <> [] -> m_dims f = [length l] ->
  interp_make o on nd 0 [false] f [Points l] = Fault OutOfBounds.
Proof. exact @order_zero_make. Qed.
Print Assumptions C42_order_zero_reads_past_end.
Example C42_example : (forall a b, exists c, odiv Zops a b = Ok c) /\ [0; 1; 2]%Z <> [] /\ m_dims (mkMesh [3%nat] [5; 7; 6]%Z) = [length [0; 1; 2]%Z].
Proof. split; [intros a b; eexists; reflexivity|]. split; [discriminate|reflexivity]. Qed.
Theorem C42_order_zero_points_refuted :
  exists (f : mesh Z) l, length l = 3%nat /\ m_dims f = [3%nat] /\ l = [0; 1; 2]%Z /\
    interp_make Zops true false 0 [false] f [Points l] = Fault OutOfBounds.
Proof. exact order_zero_witness. Qed.
Print Assumptions C42_order_zero_points_refuted.

(** C43: the shape of the knot vectors. *)
Theorem C43_knot_shape : forall on nd p per dims ranges f g,
  good_input nd p per dims ranges -> m_dims f = dims -> wf_mesh f ->
  interp_make Rops on nd p per f ranges = Ok g ->
  forall d, (d < length per)%nat ->
  let t := knot_of (if_spline g) d in let x := coordinate nd per dims ranges d in
  let n := distinct nd (nth d per false) (nth d dims 0%nat) in
  nondecreasing t /\
  (forall i, (p <= i)%nat -> (i + p + 2 <= length t)%nat -> kn t i < kn t (i + 1)) /\
  (nth d per false = false ->
     length t = (n + p + 1)%nat /\
     (forall i, (i <= p)%nat -> kn t i = x 0%nat /\ kn t (n + p - i) = x (n - 1)%nat) /\
     (forall i, (1 <= p)%nat -> (p < i < n)%nat -> kn t i = mean p (fun j => x (i - p + j)%nat)) /\
     (forall i, (1 <= i)%nat -> (i + 1 < n)%nat -> kn t i < x i < kn t (i + p + 1))) /\
  (nth d per false = true ->
     length t = (n + 2 * p + 1 + (1 - p mod 2))%nat /\
     (forall i, (i + n < length t)%nat -> kn t (i + n) = kn t i + (x n - x 0%nat)) /\
     (forall i, (i <= n)%nat -> if Nat.odd p then kn t (i + p) = x i
                              else (1 <= i)%nat -> kn t (i + p) = (x (i - 1)%nat + x i) / 2)).
Proof. exact knot_shapes. Qed.
Print Assumptions C43_knot_shape.
Example C43_example :
  bind (interp_make Qops true false 2 [false; true] (gdata inject_Z) (gx inject_Z)) (fun g => Ok (sp_knots (if_spline g)))
  = Ok [[0; 0; 0; 2; 4; 4; 4]; [-5#2; -3#2; -1#2; 1#2; 3#2; 5#2; 7#2; 9#2; 11#2; 13#2]]%Q.
Proof. vm_compute. reflexivity. Qed.

(** C44: bad lists of coordinates are rejected when assertions are on. *)
Theorem C44_bad_grids_rejected : forall nd p per dims ranges f,
  per <> [] -> length dims = length per -> length ranges = length per -> m_dims f = dims -> wf_mesh f ->
  (forall d, (d < length per)%nat -> enough_points nd p (nth d per false) (nth d dims 0%nat) (nth d ranges (Points []))) ->
  let bad := exists d, (d < length per)%nat /\ bad_points nd (nth d per false) (nth d dims 0%nat) (nth d ranges (Points [])) in
  (bad -> interp_make Rops true nd p per f ranges = Throw AssertFailed) /\
  (~ bad -> (exists g, interp_make Rops true nd p per f ranges = Ok g) \/
            interp_make Rops true nd p per f ranges = Fault DivByZero) /\
  (solvable p per ranges -> ~ bad -> exists g, interp_make Rops true nd p per f ranges = Ok g).
Proof. exact make_rejects. Qed.
Print Assumptions C44_bad_grids_rejected.
Example C44_example :
  (forall d, (d < 2)%nat -> enough_points false 3 (nth d [false; true] false) (nth d gdims 0%nat) (nth d (unsorted IZR) (Points []))) /\
  bad_points false false 4 (nth 0 (unsorted IZR) (Points [])).
Proof. exact (conj enough_gx bad_gx). Qed.
Example C44_example_run :
  map (fun r => interp_make Qops true false 3 [false; true] (gdata inject_Z) r) [short inject_Z; unsorted inject_Z]
  = [Throw AssertFailed; Throw AssertFailed].
Proof. vm_compute. reflexivity. Qed.

(** C45: the same coordinates given in different ways. *)
Theorem C45_same_coordinates : forall on on' nd p per dims ranges ranges' f g,
  good_input nd p per dims ranges -> good_input nd p per dims ranges' -> same_grid nd per dims ranges ranges' ->
  m_dims f = dims -> wf_mesh f -> interp_make Rops on nd p per f ranges = Ok g ->
  exists g', interp_make Rops on' nd p per f ranges' = Ok g' /\
    sp_knots (if_spline g) = sp_knots (if_spline g') /\ sp_range (if_spline g) = sp_range (if_spline g') /\
    sp_ctrl (if_spline g) = sp_ctrl (if_spline g') /\
    forall xs orders, length xs = length per -> length orders = length per ->
      countable_point nd per dims ranges xs -> countable_point nd per dims ranges' xs ->
      interp_eval Rops g xs = interp_eval Rops g' xs /\
      interp_derivative Rops on g xs orders = interp_derivative Rops on' g' xs orders.
Proof. exact same_coordinates. Qed.
Print Assumptions C45_same_coordinates.
Example C45_example :
  good_input false 3 [false; true] gdims (gx IZR) /\ good_input false 3 [false; true] gdims (gx' IZR) /\
  same_grid false [false; true] gdims (gx IZR) (gx' IZR).
Proof. exact (conj (proj1 ex_range) (conj (good_gx' 3 true (conj (le_S _ _ (le_S _ _ (le_n 1))) (le_n 3))) (same_gx true))). Qed.

(** C50: affine data. *)
Theorem C50_affine_data : forall on nd p per dims ranges f g a b,
  good_input nd p per dims ranges -> List.Forall (fun v => v = false) per -> (1 <= p)%nat ->
  m_dims f = dims -> wf_mesh f -> length b = length per ->
  (forall idx, valid dims idx -> val_at f idx = a + dot b (grid_point nd per dims ranges idx)) ->
  interp_make Rops on nd p per f ranges = Ok g ->
  forall xs, length xs = length per -> countable_point nd per dims ranges xs ->
    interp_eval Rops g xs = Ok (a + dot b xs).
Proof. exact affine_data. Qed.
Print Assumptions C50_affine_data.
Example C50_example :
  good_input false 3 [false; false] gdims (gx IZR) /\
  (forall idx, valid gdims idx ->
     val_at (gaffine IZR) idx = 5 + dot [2; -3] (grid_point false [false; false] gdims (gx IZR) idx)) /\
  (exists g, interp_make Rops true false 3 [false; false] (gaffine IZR) (gx IZR) = Ok g).
Proof. exact ex_affine. Qed.
Example C50_example_run : (* 5 + 2 * 7 - 3 * (-1), outside the grid *)
  evals (interp_make Qops true false 3 [false; false] (gaffine inject_Z) (gx inject_Z)) [[2; 1#2]; [7; -1]]%Q = Ok [15#2; 22]%Q.
Proof. vm_compute. reflexivity. Qed.
