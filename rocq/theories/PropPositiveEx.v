(** The example of PropPositive: ex_spline with control points between the
    smallest and the largest doubles. *)
From Coq Require Import List Arith Lia Bool ZArith Reals Lra Floats.
From Verif Require Import Base Num FloatM MeshM SplineM SpecMesh MeshProofs SpecSpline SpecSplineObj SpecRound SplineCons SplineFinal PropRoundEx SpecPositive.
Import ListNotations.
Local Open Scope R_scope.

Definition pe_ctrl : mesh float := mkMesh [3; 2]%nat [0; 0x1p-1074; 4; 0x1p1023; 0x1p1023; -0]%float.
Definition pe_spline : spline float := load_ctrl (ex_spline FZ) pe_ctrl.
Definition pe_ctrl_minus : mesh float := mkMesh [3; 2]%nat [-1; -0; -4; -0x1p-1074; 0; -3]%float.
Definition pe_minus : spline float := load_ctrl (ex_spline FZ) pe_ctrl_minus.
Lemma pe_wf c : m_dims c = [3; 2]%nat -> wf_mesh c -> wf_spline (load_ctrl (ex_spline FZ) c).
Proof.
  intros Hd Hw. constructor; auto; try reflexivity.
  - cbn. rewrite Hd. reflexivity.
  - intros d Hl. two d; cbn; lia.
  - intros d Hl. unfold num_of. cbn [load_ctrl sp_ctrl]. rewrite Hd. two d; cbn; lia.
Qed.
Lemma pe_sorted c : sorted_doubles (load_ctrl (ex_spline FZ) c).
Proof.
  intros d Hd. pose proof ex_number as N. destruct N as [G K _ _ _]. rewrite ex_real in G.
  assert (E : map double_val (knot_of (load_ctrl (ex_spline FZ) c) d) = knot_of (ex_spline IZR) d).
  { rewrite <- ex_real. unfold knot_of, real_spline. cbn [sp_knots load_ctrl]. change (@nil R) with (map double_val []). symmetry. apply map_nth. }
  rewrite E. split; [|split].
  - intros a Ha. apply (K (knot_of (ex_spline FZ) d)); auto. unfold knot_of. apply nth_In. exact Hd.
  - apply (gs_sorted _ G). exact Hd.
  - replace (last_of (load_ctrl (ex_spline FZ) c) d) with (last_of (ex_spline IZR) d) by (two d; reflexivity). apply (gs_last _ G). exact Hd.
Qed.
Lemma pe_domain c : in_domain (load_ctrl (ex_spline FZ) c) [0.5; 2.5]%float [0.5; 0.5]%float.
Proof. split; [reflexivity|]. intros d Hd. destruct (ex_evaluation d Hd) as (A & B & C & _). exact (conj A (conj B C)). Qed.
Lemma pe_hints c : hints_ok (load_ctrl (ex_spline FZ) c) [1; 1]%nat.
Proof. exact ex_hintsF. Qed.
Lemma pe_nonneg : forall c, In c (m_data (sp_ctrl pe_spline)) -> not_negative c.
Proof. intros c H. cbn in H. repeat (destruct H as [<-|H]; [reflexivity|]). contradiction. Qed.
Lemma pe_nonpos : forall c, In c (m_data (sp_ctrl pe_minus)) -> not_positive c.
Proof. intros c H. cbn in H. repeat (destruct H as [<-|H]; [reflexivity|]). contradiction. Qed.
Lemma pe_counts : forall d, (d < sp_dim pe_minus)%nat -> per_of pe_minus d = true -> length (knot_of pe_minus d) = (num_of pe_minus d + 2 * sp_order pe_minus + 1)%nat.
Proof. intros d Hl. two d; cbn; [discriminate|reflexivity]. Qed.
