(** Property theorems: what can fail in any arithmetic (C60, C61, C63), in IEEE
    double arithmetic (C62, C63), and for wide extended bands (C64). *)
From Coq Require Import List Arith Lia Floats.
From Verif Require Import Base Num FloatM MeshM SpecMesh MeshProofs ProgM BandM LUM SplineM InterpM SpecBand LUTop SafeProofs SpecInterp SafeTop.
Import ListNotations.

(** C60: factorisation and solution of band systems. *)
Theorem C60_band_solver_safe : forall (T : Type) (o : ops T) on n p q h iter m0,
  divides o -> 0 < n -> writes_in (in_band n p q) h -> in_memory n iter m0 ->
  exists m, build_band o on n p q h = Ok m /\
    ((exists f, band_lu o on m = Ok f /\
       ((exists r, run (band_solve o on f iter) m0 = Ok r) \/ run (band_solve o on f iter) m0 = Fault DivByZero)) \/
     band_lu o on m = Fault DivByZero).
Proof. exact band_never_fails. Qed.
Print Assumptions C60_band_solver_safe.
Theorem C60_extended_solver_safe : forall (T : Type) (o : ops T) on n p q h iter m0,
  divides o -> p < n -> q < n -> p + q <= n -> writes_in (in_ext n p q) h -> in_memory n iter m0 ->
  exists m, build_eband o on n p q h = Ok m /\
    ((exists f, eband_lu o on m = Ok f /\
       ((exists r, run (eband_solve o on f iter) m0 = Ok r) \/ run (eband_solve o on f iter) m0 = Fault DivByZero)) \/
     eband_lu o on m = Fault DivByZero).
Proof. exact eband_never_fails. Qed.
Print Assumptions C60_extended_solver_safe.
Theorem C60_solvers_total : forall (T : Type) (o : ops T) on n p q iter m0,
  total_ops o -> in_memory n iter m0 ->
  (forall h, 0 < n -> writes_in (in_band n p q) h ->
     exists m f r, build_band o on n p q h = Ok m /\ band_lu o on m = Ok f /\ run (band_solve o on f iter) m0 = Ok r) /\
  (forall h, p < n -> q < n -> p + q <= n -> writes_in (in_ext n p q) h ->
     exists m f r, build_eband o on n p q h = Ok m /\ eband_lu o on m = Ok f /\ run (eband_solve o on f iter) m0 = Ok r).
Proof. exact lu_total. Qed.
Print Assumptions C60_solvers_total.
(** Doubles with zero pivots: infinities and NaN, but no failure. *)
Example C60_example : total_ops Fops /\ writes_in (in_band 2 1 1) [(0, 1, 1%float); (1, 0, 1%float)] /\
  in_memory 2 (fun i => (0, i)) [[1%float; 2%float]].
Proof.
  split; [exact F_total|]. split; [repeat constructor; cbn; lia|]. intros i Hi. unfold mem_ok. cbn. lia.
Qed.

(** C61: construction of interpolation functions. *)
Theorem C61_construction_safe : forall (T : Type) (o : ops T) on nd p per dims ranges f,
  divides o -> sane_order o -> sized_input nd p per dims ranges -> m_dims f = dims -> wf_mesh f ->
  (on = false -> forall d, by_points ranges d -> nth d per false = true) ->
  (exists g, interp_make o on nd p per f ranges = Ok g) \/
  interp_make o on nd p per f ranges = Fault DivByZero \/
  (on = true /\ (exists d, by_points ranges d) /\ exists e, interp_make o on nd p per f ranges = Throw e).
Proof. exact make_never_fails. Qed.
Print Assumptions C61_construction_safe.
Theorem C61_construction_total : forall (T : Type) (o : ops T) on nd p per dims ranges f,
  total_ops o -> sane_order o -> sized_input nd p per dims ranges -> m_dims f = dims -> wf_mesh f ->
  (on = false -> forall d, by_points ranges d -> nth d per false = true) ->
  (exists g, interp_make o on nd p per f ranges = Ok g) \/
  (on = true /\ (exists d, by_points ranges d) /\ exists e, interp_make o on nd p per f ranges = Throw e).
Proof. exact make_total. Qed.
Print Assumptions C61_construction_total.
Example C61_example : total_ops Fops /\ sane_order Fops /\
  sized_input false 2 [false; true] [4; 5] [Uniform 0%float nan; Points [0; 1; 3; 4; 6]%float] /\
  forall d, by_points [Uniform 0%float nan; Points [0; 1; 3; 4; 6]%float] d -> nth d [false; true] false = true.
Proof.
  split; [exact F_total|]. split; [exact F_order|]. split.
  - split; [discriminate|]. split; [reflexivity|]. split; [reflexivity|]. intros d Hd.
    destruct d as [|[|d]]; [split; [cbn; lia|exact I]| |cbn in Hd; lia]. split; [cbn; lia|]. split; [reflexivity|discriminate].
  - intros [|[|[|d]]] (l & E); try discriminate E. reflexivity.
Qed.

(** C62: strictly increasing finite doubles that are not accepted. *)
Theorem C62_increasing_doubles_refuted : exists p l f,
  (forall i, S i < length l -> (nth i l 0 <? nth (S i) l 0)%float = true) /\
  List.Forall (fun x => is_finite x = true) l /\
  sized_input false p [false] [length l] [Points l] /\ m_dims f = [length l] /\ wf_mesh f /\
  interp_make Fops true false p [false] f [Points l] = Throw AssertFailed /\
  interp_make Fops false false p [false] f [Points l] = Fault Wrapped.
Proof. exact lists_rejected. Qed.
Print Assumptions C62_increasing_doubles_refuted.

(** C63: evaluation of interpolation functions. *)
Theorem C63_evaluation_safe : forall (T : Type) (o : ops T) on nd p per dims ranges f g xs orders,
  divides o -> sane_order o -> sized_input nd p per dims ranges -> m_dims f = dims -> wf_mesh f ->
  (on = false -> forall d, by_points ranges d -> nth d per false = true) ->
  interp_make o on nd p per f ranges = Ok g ->
  length xs = length per -> length orders = length per -> convertible o g xs ->
  ((exists v, interp_eval o g xs = Ok v) \/ interp_eval o g xs = Fault DivByZero) /\
  ((exists v, interp_derivative o on g xs orders = Ok v) \/ interp_derivative o on g xs orders = Fault DivByZero).
Proof. exact eval_never_fails. Qed.
Print Assumptions C63_evaluation_safe.
Theorem C63_evaluation_double : forall on nd p per dims ranges f g xs orders,
  sized_input nd p per dims ranges -> m_dims f = dims -> wf_mesh f ->
  (on = false -> forall d, by_points ranges d -> nth d per false = true) ->
  interp_make Fops on nd p per f ranges = Ok g ->
  length xs = length per -> length orders = length per -> below_two64 g xs ->
  (exists v, interp_eval Fops g xs = Ok v) /\ (exists v, interp_derivative Fops on g xs orders = Ok v).
Proof. exact eval_double. Qed.
Print Assumptions C63_evaluation_double.
Example C63_example : exists g,
  interp_make Fops true false 3 [false] (mkMesh [5] [1; 2; 4; 8; 16]%float) unit_grid = Ok g /\
  below_two64 g [0x1p60%float] /\ below_two64 g [nan] /\ below_two64 g [neg_infinity].
Proof.
  eexists. split; [vm_compute; reflexivity|].
  split; [|split]; intros [|d] Hd; try (cbn in Hd; lia); intros _; vm_compute; reflexivity.
Qed.
(** A finite coordinate far outside: the conversion to an index is undefined. *)
Theorem C63_huge_coordinate_refuted : exists p f g x,
  sized_input false p [false] [5] unit_grid /\ m_dims f = [5] /\ wf_mesh f /\
  interp_make Fops true false p [false] f unit_grid = Ok g /\ is_finite x = true /\
  interp_eval Fops g [x] = Fault BadCast.
Proof. exact huge_coordinate. Qed.
Print Assumptions C63_huge_coordinate_refuted.

(** C64: extended bands wider than the matrix. *)
Theorem C64_wide_bands_fail : forall (T : Type) (o : ops T) on n p q h m f iter m0 r,
  divides o -> p < n -> q < n -> n < p + q -> writes_in (in_ext n p q) h ->
  build_eband o on n p q h = Ok m -> eband_lu o on m = Ok f ->
  run (eband_solve o on f iter) m0 <> Ok r.
Proof. exact wide_solve_fails. Qed.
Print Assumptions C64_wide_bands_fail.
Example C64_example :
  divides Fops /\ 3 < 2 + 2 /\ writes_in (in_ext 3 2 2) [(0, 0, 2%float); (1, 1, 3%float); (2, 0, 1%float); (2, 2, 4%float)] /\
  exists f, (m <- build_eband Fops true 3 2 2 [(0, 0, 2%float); (1, 1, 3%float); (2, 0, 1%float); (2, 2, 4%float)] ;; eband_lu Fops true m) = Ok f.
Proof.
  split; [intros a b; cbn; split; left; eexists; reflexivity|]. split; [lia|]. split; [repeat constructor; unfold in_ext, in_band; cbn; lia|]. eexists. vm_compute. reflexivity.
Qed.
Theorem C64_wide_bands_refuted : exists n p q h m f iter m0, (p < n /\ q < n) /\ writes_in (in_ext n p q) h /\
  (forall i j, i < n -> j < n -> content 0%float h i j = if Nat.eqb i j then 1%float else 0%float) /\
  build_eband Fops true n p q h = Ok m /\ eband_lu Fops true m = Ok f /\ in_memory n iter m0 /\
  run (eband_solve Fops true f iter) m0 = Fault Wrapped.
Proof. exact wide_identity. Qed.
Print Assumptions C64_wide_bands_refuted.
