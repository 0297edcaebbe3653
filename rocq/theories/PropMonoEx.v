(** Data of the examples in PropMono. *)
From Coq Require Import List Arith Lia Bool ZArith Reals Lra.
From Verif Require Import Base Num MeshM SplineM InterpM SpecMesh SpecSpline SpecSplineObj SpecInterp SpecSmooth SpecCurve SpecMono MeshProofs SplineProofs SplineCons PropSplineEx InterpFinal SpecInterp PropInterpEx.
Import ListNotations.
Open Scope R_scope.

Lemma ex_mono_spline :
  good_spline (ex_spline IZR) /\ per_of (ex_spline IZR) 0 = false /\ strict_knots (ex_spline IZR) 0 /\
  (forall e, (e < 2)%nat -> in_range (ex_spline IZR) e (nth e [1/2; 7/2] 0)) /\ in_range (ex_spline IZR) 0 (3/2) /\
  increasing_along (m_dims (sp_ctrl (ex_spline IZR))) (ctrl_at Rops (ex_spline IZR)) 0.
Proof.
  split; [exact ex_good|]. split; [reflexivity|]. split; [apply ex_strict_periodic; lia|]. split; [|split].
  - intros [|[|e]] He; [right; cbn; lra|left; reflexivity|lia].
  - right. cbn. lra.
  - intros idx V H. cbn in V, H. destruct idx as [|i idx]; [inversion V|]. apply valid_cons in V as [V1 V].
    destruct idx as [|j idx]; [inversion V|]. apply valid_cons in V as [V2 V]. destruct idx; [|inversion V].
    cbn in H. destruct i as [|[|i]]; [| |lia]; (destruct j as [|[|j]]; [| |lia]); cbn; lra.
Qed.

(** Increasing along the first dimension. *)
Definition gmono {T} (i : Z -> T) : mesh T :=
  mkMesh gdims (map i [1; 4; 1; 5; 1; 2; 6; 5; 5; 2; 8; 9; 5; 9; 8; 8; 9; 8; 10; 8]%Z).

Lemma gmono_up : increasing_along gdims (val_at (gmono IZR)) 0.
Proof.
  intros idx V. revert idx V. apply (gdims_ind (fun idx => (S (nth 0 idx 0) < nth 0 gdims 0)%nat -> _ <= _)). intros i j Hi Hj H. cbn in H.
  destruct i as [|[|[|i]]]; [| | |lia]; (destruct j as [|[|[|[|[|j]]]]]; [| | | | |lia]); cbn; lra.
Qed.
Lemma gmono_between : forall idx, valid gdims idx -> 1 <= val_at (gmono IZR) idx <= 10.
Proof.
  apply gdims_ind. intros i j Hi Hj.
  destruct i as [|[|[|[|i]]]]; [| | | |lia]; (destruct j as [|[|[|[|[|j]]]]]; [| | | | |lia]); cbn; lra.
Qed.

Lemma ex_mono :
  good_input false 1 [false; true] gdims (gx IZR) /\ wf_mesh (gmono IZR) /\
  (exists g, interp_make Rops true false 1 [false; true] (gmono IZR) (gx IZR) = Ok g) /\
  countable_point false [false; true] gdims (gx IZR) [2; -1/2] /\ countable_point false [false; true] gdims (gx IZR) (with_at [2; -1/2] 0 7) /\
  increasing_along gdims (val_at (gmono IZR)) 0.
Proof.
  split; [apply good_gx; lia|]. split; [reflexivity|]. split.
  - apply (make_ok true false 1 [false; true] gdims (gx IZR)); auto. apply good_gx; lia. apply solvable_gx; lia. reflexivity.
  - split; [apply countable_gx; simpl; lra|]. split; [apply countable_gx; simpl; lra|]. exact gmono_up.
Qed.

Lemma ex_between :
  good_input false 1 [false; true] gdims (gx IZR) /\
  (exists g, interp_make Rops true false 1 [false; true] (gmono IZR) (gx IZR) = Ok g) /\
  countable_point false [false; true] gdims (gx IZR) [2; -1/2] /\ in_grid false [false; true] gdims (gx IZR) [2; -1/2] /\
  (forall idx, valid gdims idx -> 1 <= val_at (gmono IZR) idx <= 10).
Proof.
  destruct ex_mono as (A & _ & B & C & _). split; auto. split; auto. split; auto. split; [|exact gmono_between].
  intros [|[|d]] Hd; [right; cbn; lra|left; reflexivity|cbn in Hd; lia].
Qed.
