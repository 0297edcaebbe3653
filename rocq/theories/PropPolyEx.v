(** Data of the examples in PropPoly. *)
From Coq Require Import List Arith Lia Bool ZArith QArith Reals Lra.
From Verif Require Import Base Num MeshM SplineM InterpM SpecMesh SpecInterp SpecSplineObj SpecPoly MeshProofs InterpFinal PropInterpEx PolyProofs InterpProofs BetaProofs EvalR SplineTop.
Import ListNotations.
Open Scope R_scope.

(** x^3 y^2 - 2 x y + 5 and x^3 - 2 x on the grid of PropInterpEx. *)
Definition gpoly {T} (i : Z -> T) : mesh T :=
  mkMesh gdims (map i [5; 5; 5; 5; 5; 5; 4; 5; 8; 13; 5; 26; 101; 230; 413; 5; 61; 245; 557; 997]%Z).
Definition gpoly1 {T} (i : Z -> T) : mesh T :=
  mkMesh gdims (map i [0; 0; 0; 0; 0; -1; -1; -1; -1; -1; 21; 21; 21; 21; 21; 56; 56; 56; 56; 56]%Z).
Definition poly2 : list (R * list nat) := [(1, [3; 2]%nat); (-2, [1; 1]%nat); (5, [0; 0]%nat)].
Definition poly1 : list (R * list nat) := [(1, [3; 0]%nat); (-2, [1; 0]%nat)].

Lemma poly_gx : forall idx, valid gdims idx ->
  val_at (gpoly IZR) idx = polynomial poly2 (grid_point false [false; false] gdims (gx IZR) idx).
Proof. apply gdims_ind. cases20. Qed.
Lemma poly1_gx : forall idx, valid gdims idx ->
  val_at (gpoly1 IZR) idx = polynomial poly1 (grid_point false [false; true] gdims (gx IZR) idx).
Proof. apply gdims_ind. cases20. Qed.

Ltac degs := repeat constructor; intros d Hd; cbn in Hd; do 2 (destruct d as [|d]; [cbn; lia|]); lia.
Lemma ex_poly :
  good_input false 3 [false; false] gdims (gx IZR) /\ of_degree 3 [false; false] poly2 /\
  (forall idx, valid gdims idx -> val_at (gpoly IZR) idx = polynomial poly2 (grid_point false [false; false] gdims (gx IZR) idx)) /\
  (exists g, interp_make Rops true false 3 [false; false] (gpoly IZR) (gx IZR) = Ok g) /\
  countable_point false [false; false] gdims (gx IZR) [7; -1].
Proof.
  split; [apply good_gx; lia|]. split; [degs|]. split; [apply poly_gx|]. split; [apply made; [lia|reflexivity|reflexivity]|].
  apply countable_gx. cbn. lra.
Qed.
Lemma ex_poly1 :
  good_input false 3 [false; true] gdims (gx IZR) /\ of_degree 3 [false; true] poly1 /\
  (forall idx, valid gdims idx -> val_at (gpoly1 IZR) idx = polynomial poly1 (grid_point false [false; true] gdims (gx IZR) idx)) /\
  (exists g, interp_make Rops true false 3 [false; true] (gpoly1 IZR) (gx IZR) = Ok g).
Proof.
  split; [apply good_gx; lia|]. split; [degs|]. split; [apply poly1_gx|]. apply made; [lia|reflexivity|reflexivity].
Qed.

(** The spline of the interpolation of [gdata]. *)
Lemma ex_samples : exists g,
  interp_make Rops true false 3 [false; false] (gdata IZR) (gx IZR) = Ok g /\
  wf_mesh (sp_ctrl (if_spline g)) /\
  forall idx, valid gdims idx ->
    spline_eval_plain Rops (if_spline g) (grid_point false [false; false] gdims (gx IZR) idx) = Ok (val_at (gdata IZR) idx).
Proof.
  pose proof (good_gx 3 false ltac:(lia)) as GI.
  destruct (aperiodic_passes true false 3 [false; false] gdims (gx IZR) (gdata IZR) GI ltac:(repeat constructor) eq_refl eq_refl small_gx) as (g & E & H).
  exists g. split; auto.
  destruct (interp_make_spec true false 3 [false; false] gdims (gx IZR) (gdata IZR) GI eq_refl eq_refl) as (mats & _ & _ & HG & _).
  pose proof (HG g E) as IP. split; [apply (ip_wf _ _ _ _ _ _ _ _ IP)|]. intros idx V. rewrite <- (H idx V).
  rewrite (s_eval false 3 [false; false] gdims (gx IZR) (gdata IZR) g mats GI IP).
  - apply eval_sval; [apply (s_good false 3 [false; false] gdims (gx IZR) (gdata IZR) g mats GI IP)|].
    rewrite (s_dim _ _ _ _ _ _ _ _ IP). reflexivity.
  - reflexivity.
  - apply countable_gx. revert idx V. apply gdims_ind. cases20.
Qed.

(** A cubic on [0, 4] with control points 1, 2, 0, 5. *)
Definition qcubic : spline Q := mkSpline 3 [false] [[0; 0; 0; 0; 4; 4; 4; 4]]%Q (mesh_of_list [1; 2; 0; 5]%Q) [(0, 4)]%Q.
