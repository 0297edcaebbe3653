(** Property theorems: positive definite systems (C65), exactly which systems
    are solved (C69), the code before C++17 (C66), copies of templates (C67),
    data of another shape (C68). *)
From Coq Require Import List Arith Reals QArith.
From Verif Require Import Base Num MeshM BandM ProgM LUM SplineM InterpM Templ14M SpecBand SpecInterp LUTop LUMore Templ14Proofs.
Import ListNotations.
Local Open Scope R_scope.

(** C65: positive definite systems. *)
Theorem C65_definite_band : forall on n p q h iter m0 b,
  (0 < n)%nat -> writes_in (in_band n p q) h -> positive_definite n (content 0 h) ->
  good_iter n iter m0 -> vector_at n iter m0 m0 b ->
  exists m f m1 x,
    build_band Rops on n p q h = Ok m /\ band_lu Rops on m = Ok f /\
    run (band_solve Rops on f iter) m0 = Ok (tt, m1) /\
    vector_at n iter m0 m1 x /\ solves n (content 0 h) x b /\
    forall y, solves n (content 0 h) y b -> forall i, (i < n)%nat -> y i = x i.
Proof. exact band_definite_solves. Qed.
Print Assumptions C65_definite_band.
Theorem C65_definite_extended : forall on n p q h iter m0 b,
  (p < n)%nat -> (q < n)%nat -> (p + q <= n)%nat ->
  writes_in (in_ext n p q) h -> positive_definite n (content 0 h) ->
  good_iter n iter m0 -> vector_at n iter m0 m0 b ->
  exists m f m1 x,
    build_eband Rops on n p q h = Ok m /\ eband_lu Rops on m = Ok f /\
    run (eband_solve Rops on f iter) m0 = Ok (tt, m1) /\
    vector_at n iter m0 m1 x /\ solves n (content 0 h) x b /\
    forall y, solves n (content 0 h) y b -> forall i, (i < n)%nat -> y i = x i.
Proof. exact eband_definite_solves. Qed.
Print Assumptions C65_definite_extended.
Example C65_example :
  positive_definite 3 (content 0 (tri_history 2 (-1) (-1))) /\ ~ row_dominant 3 (content 0 (tri_history 2 (-1) (-1))) /\
  positive_definite 4 (content 0 (corner_history 2 (-1) (-1) 1 1)) /\ writes_in (in_ext 4 1 1) (corner_history 2 (-1) (-1) 1 1).
Proof. split; [apply tri_definite|]. split; [apply tri_definite|]. split; [apply corner_definite|apply corner_writes]. Qed.

(** C66: the code before C++17 computes the same functions. *)
Theorem C66_templates_same : forall (T : Type) (o : ops T) on nd p per dims ranges fs,
  never_throws o -> sized_input nd p per dims ranges -> ends_last o per ranges ->
  (t <- templ14_make o on nd p per dims ranges ;; mapM (interpolate14 o on nd t) fs) =
  (t <- templ_make o on nd p per dims ranges ;; mapM (interpolate o on nd t) fs).
Proof. exact templ_runs_same. Qed.
Print Assumptions C66_templates_same.
Theorem C66_functions_same : forall (T : Type) (o : ops T) on nd p per ranges f,
  never_throws o -> sized_input nd p per (m_dims f) ranges -> ends_last o per ranges ->
  interp14_make o on nd p per f ranges = interp_make o on nd p per f ranges.
Proof. exact make_runs_same. Qed.
Print Assumptions C66_functions_same.
Theorem C66_functions_same_real : forall on nd p per ranges f, good_input nd p per (m_dims f) ranges ->
  interp14_make Rops on nd p per f ranges = interp_make Rops on nd p per f ranges.
Proof. exact make_runs_same_R. Qed.
Print Assumptions C66_functions_same_real.
Example C66_example : sized_input false 3 [true; false] (m_dims mixed_data) mixed_ranges /\ ends_last Qops [true; false] mixed_ranges /\
  (g <- interp14_make Qops true false 3 [true; false] mixed_data mixed_ranges ;; interp_eval Qops g [2; 3]%Q) = Ok 4%Q.
Proof. split; [apply mixed_sized|]. split; [apply mixed_sized|]. vm_compute. reflexivity. Qed.

(** C67: copies of templates. *)
Theorem C67_copy_partial : forall (T : Type) (o : ops T) on nd (t : templ T) f,
  interpolate o on nd (templ_copy t) f = interpolate o on nd t f.
Proof. exact copies_same. Qed.
Print Assumptions C67_copy_partial.
(** Before C++17 no copy can be used. *)
Theorem C67_copy_unusable : forall (T : Type) (o : ops T) on nd p per dims ranges t f g,
  never_throws o -> sized_input nd p per dims ranges -> ends_last o per ranges ->
  templ14_make o on nd p per dims ranges = Ok t -> interpolate14 o on nd t f = Ok g ->
  interpolate14 o on nd (templ14_copy t) f = Fault Inactive.
Proof. exact copies_idle. Qed.
Print Assumptions C67_copy_unusable.
Example C67_example : never_throws Qops /\ sized_input false 3 [true; false] (m_dims mixed_data) mixed_ranges /\ ends_last Qops [true; false] mixed_ranges /\
  exists g, (t <- templ14_make Qops true false 3 [true; false] (m_dims mixed_data) mixed_ranges ;; interpolate14 Qops true false t mixed_data) = Ok g.
Proof. split; [intros a b e; split; cbn; try discriminate; destruct (Qeq_bool _ _); discriminate|]. split; [apply mixed_sized|]. split; [apply mixed_sized|]. eexists. vm_compute. reflexivity. Qed.
Theorem C67_copy_refuted : exists t f g, templ14_make Qops true false 3 [true; false] [6; 5]%nat mixed_ranges = Ok t /\
  interpolate14 Qops true false t f = Ok g /\ interpolate14 Qops true false (templ14_copy t) f = Fault Inactive.
Proof. exact copies_differ. Qed.
Print Assumptions C67_copy_refuted.

(** C68: data of another shape than the template's is not refused. *)
Theorem C68_other_shape_refuted : exists t f g, templ_make Qops true false 1 [false] [5]%nat [Uniform 0 4]%Q = Ok t /\
  m_dims f = [3]%nat /\ interpolate Qops true false t f = Ok g /\
  interp_eval Qops g [2]%Q = Ok 3%Q /\ interp_eval Qops g [4]%Q = Ok 0%Q.
Proof. exact other_shapes. Qed.
Print Assumptions C68_other_shape_refuted.
Theorem C68_larger_shape_refuted : exists t f, templ_make Qops true false 1 [false] [5]%nat [Uniform 0 4]%Q = Ok t /\
  m_dims f = [6]%nat /\ interpolate Qops true false t f = Fault OutOfBounds.
Proof. exact too_much_data. Qed.
Print Assumptions C68_larger_shape_refuted.

(** C69: exactly the systems whose leading blocks are nonsingular are solved. *)
Theorem C69_band_exact : forall on n p q h iter m0,
  (0 < n)%nat -> writes_in (in_band n p q) h -> good_iter n iter m0 ->
  (exists m f m1, build_band Rops on n p q h = Ok m /\ band_lu Rops on m = Ok f /\
     run (band_solve Rops on f iter) m0 = Ok (tt, m1)) <->
  leading_nonsingular n (content 0 h).
Proof. exact band_solved_iff. Qed.
Print Assumptions C69_band_exact.
Theorem C69_extended_exact : forall on n p q h iter m0,
  (p < n)%nat -> (q < n)%nat -> (p + q <= n)%nat -> writes_in (in_ext n p q) h -> good_iter n iter m0 ->
  (exists m f m1, build_eband Rops on n p q h = Ok m /\ eband_lu Rops on m = Ok f /\
     run (eband_solve Rops on f iter) m0 = Ok (tt, m1)) <->
  leading_nonsingular n (content 0 h).
Proof. exact eband_solved_iff. Qed.
Print Assumptions C69_extended_exact.
Example C69_example :
  leading_nonsingular 3 (content 0 (tri_history 4 1 2)) /\ good_iter 3 line_iter [[1; 2; 3]] /\
  ~ leading_nonsingular 2 (content 0 [(0%nat, 1%nat, 1); (1%nat, 0%nat, 1)]).
Proof. split; [apply dominant_leading, tri_dominant|]. split; [apply line_iter_good|apply swap_singular]. Qed.
