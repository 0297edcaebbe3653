(** The examples of PropHint. *)
From Coq Require Import List Arith Lia Bool Floats ZArith Reals Lra.
From Verif Require Import Base Num FloatM MeshM SplineM InterpM SpecMesh MeshProofs SpecSpline SpecSplineObj SpecInterp SpecRound SplineCons SplineFinal PropRoundEx SafeTop SpecPositive PropPositiveEx SpecHint.
Import ListNotations.
Local Open Scope nat_scope.

Lemma ex_hint_double :
  wf_spline (ex_spline FZ) /\ sorted_finite (ex_spline FZ) /\ hints_ok (ex_spline FZ) [1; 1] /\ hints_ok (ex_spline FZ) [2; 2] /\
  spline_eval Fops (ex_spline FZ) (combine [0.5; 2.5]%float [1; 1]) = Ok 2.5%float /\
  spline_eval Fops (ex_spline FZ) (combine [0.5; 2.5]%float [2; 2]) = Ok 2.5%float.
Proof.
  split; [exact (pe_wf (sp_ctrl (ex_spline FZ)) eq_refl eq_refl)|]. split.
  { intros d Hd. destruct (pe_sorted (sp_ctrl (ex_spline FZ)) d Hd) as (A & B & _). auto. }
  split; [exact ex_hintsF|]. split; [|split; vm_compute; reflexivity].
  split; [reflexivity|]. intros d Hd. two d; cbn; lia.
Qed.

Lemma p53 : (powerRZ 2 (-53) = / 9007199254740992)%R.
Proof. cbn [powerRZ]. f_equal. change (Pos.to_nat 53) with 53. rewrite pow_IZR. reflexivity. Qed.
Lemma p52 : (powerRZ 2 (-52) = / 4503599627370496)%R.
Proof. cbn [powerRZ]. f_equal. change (Pos.to_nat 52) with 52. rewrite pow_IZR. reflexivity. Qed.
Lemma val_half : (double_val 0.5 = / 2)%R.
Proof. change (double_val 0.5) with (1 * 4503599627370496 * powerRZ 2 (-53))%R. rewrite p53. lra. Qed.
Lemma val_one : (double_val 1 = 1)%R.
Proof. change (double_val 1) with (1 * 4503599627370496 * powerRZ 2 (-52))%R. rewrite p52. lra. Qed.
Lemma val_zero : (double_val 0 = 0)%R.
Proof. reflexivity. Qed.
Lemma ex_hint_function : exists g v,
  sized_input false 3 [false] [5] SafeTop.unit_grid /\
  interp_make Fops true false 3 [false] (mkMesh [5] [1; 2; 4; 8; 16]%float) SafeTop.unit_grid = Ok g /\ sorted_finite (if_spline g) /\
  below_two64 g [0.8%float] /\
  interp_eval Fops g [0.8%float] = Ok v /\ spline_eval_plain Fops (if_spline g) [0.8%float] = Ok v.
Proof.
  eexists. eexists. split.
  { split; [discriminate|]. split; [reflexivity|]. split; [reflexivity|]. intros d Hd. destruct d; [|cbn in Hd; lia]. split; [cbn; lia|exact I]. }
  split; [vm_compute; reflexivity|]. split.
  { intros d Hd. destruct d as [|d]; [|cbn in Hd; lia]. cbn [if_spline sp_knots knot_of nth]. split.
    - intros a Ha. cbn in Ha. repeat (destruct Ha as [<-|Ha]; [exact I|]). contradiction.
    - cbn [map]. rewrite val_half, val_one, val_zero. intros i j Hij. cbn [length] in Hij.
      do 9 (destruct i as [|i]; [do 9 (destruct j as [|j]; [first [exfalso; lia | unfold kn; cbn [nth]; lra]|]); exfalso; lia|]). exfalso; lia. }
  split; [intros [|d] Hd; [|cbn in Hd; lia]; intros _; vm_compute; reflexivity|].
  split; vm_compute; reflexivity.
Qed.

Definition unsorted_spline : spline float :=
  mkSpline 1 [false] [[0; 0; 2; 1; 3; 3]%float] (mkMesh [4] [1; 2; 4; 8]%float) [(0, 3)%float].
Lemma ex_hint_unsorted :
  wf_spline unsorted_spline /\ hints_ok unsorted_spline [1] /\ hints_ok unsorted_spline [3] /\
  spline_eval Fops unsorted_spline (combine [1.5]%float [1]) = Ok 1.75%float /\
  spline_eval Fops unsorted_spline (combine [1.5]%float [3]) = Ok 5%float.
Proof.
  split.
  { constructor; try reflexivity; intros [|d] Hd; cbn in *; lia. }
  split; [split; [reflexivity|intros [|d] Hd; cbn in *; lia]|].
  split; [split; [reflexivity|intros [|d] Hd; cbn in *; lia]|].
  split; vm_compute; reflexivity.
Qed.
