(** The example of PropNan. *)
From Coq Require Import List Arith Lia Bool Floats ZArith.
From Verif Require Import Base Num FloatM MeshM SplineM SpecMesh MeshProofs SpecSplineObj SplineCons SplineFinal PropRoundEx PropPositiveEx.
Import ListNotations.
Definition nan_ctrl : mesh float := mkMesh [3; 2] [1; 2; 4; 3; 5; nan]%float.
Definition nan_spline : spline float := load_ctrl (ex_spline FZ) nan_ctrl.
Lemma ex_nan :
  wf_spline nan_spline /\ hints_ok nan_spline [1; 1] /\
  get_knot_iters Fops nan_spline (combine [1.5; 0]%float [1; 1]) = Ok [(1.5%float, 2); (0%float, 1)] /\ valid (m_dims (sp_ctrl nan_spline)) [2; 1] /\
  (forall d, d < sp_dim nan_spline -> attached nan_spline d (nth d [2; 1] 0) (nth d [2; 1] 0)) /\
  is_nan (ctrl_at Fops nan_spline [2; 1]) = true /\
  spline_eval Fops nan_spline (combine [0.5; 2.5]%float [1; 1]) = Ok 2.5%float.
Proof.
  split; [exact (pe_wf nan_ctrl eq_refl eq_refl)|]. split; [exact (pe_hints nan_ctrl)|]. split; [vm_compute; reflexivity|].
  split; [apply valid_nth; [reflexivity|]; intros d Hd; two d; cbn; lia|]. split; [|split; vm_compute; reflexivity].
  intros d Hd. two d; [exists 2|exists 1]; cbn; split; auto; lia.
Qed.
Lemma nan_counts : forall d, d < sp_dim nan_spline -> per_of nan_spline d = true -> length (knot_of nan_spline d) = num_of nan_spline d + 2 * sp_order nan_spline + 1.
Proof. intros d Hl. two d; cbn; [discriminate|reflexivity]. Qed.
