(** Data of the examples in PropStab. *)
From Coq Require Import List Arith Lia Bool ZArith Reals Lra.
From Verif Require Import Base Num MeshM SplineM InterpM SpecMesh SpecSpline SpecSplineObj SpecInterp SpecCurve SpecStab MeshProofs SplineProofs InterpFinal SpecInterp PropInterpEx.
Import ListNotations.
Open Scope R_scope.

(** Equally spaced points in both dimensions. *)
Definition gu {T} (i : Z -> T) : list (xrange T) := [Uniform (i 0%Z) (i 4%Z); Uniform (i 0%Z) (i 5%Z)].
(** The data of [gdata], every value off by 1. *)
Definition gnoisy {T} (i : Z -> T) : mesh T :=
  mkMesh gdims (map i [2; 3; 2; 4; 10; 1; 7; 4; 4; 4; 9; 8; 8; 8; 4; 1; 4; 7; 5; 5]%Z).

Lemma good_gu p : (1 <= p <= 3)%nat -> good_input true p [true; true] gdims (gu IZR).
Proof.
  intros Hp. split; [discriminate|]. split; [reflexivity|]. split; [reflexivity|]. intros d Hd. cbn in Hd.
  destruct d as [|[|d]]; [| |lia]; cbn [nth gu gdims]; unfold good_dim, coords_num, distinct; cbn [andb negb]; (split; [lia|]; split; [lia|lra]).
Qed.
Lemma uniform_gu : uniform_periodic [true; true] (gu IZR).
Proof. intros [|[|d]] Hd; [| |simpl in Hd; lia]; (split; [reflexivity|]); eexists; eexists; reflexivity. Qed.
Lemma solvable_gu : solvable 3 [true; true] (gu IZR).
Proof. intros d Hd. right. left. auto. Qed.
Lemma countable_gu xs : nth 0 xs 0 < 1000 -> nth 1 xs 0 < 1000 -> countable_point true [true; true] gdims (gu IZR) xs.
Proof.
  intros H0 H1 d Hd. cbn in Hd. destruct d as [|[|d]]; [| |lia]; cbn [nth gu]; unfold countable, two64; cbn; lra.
Qed.
Lemma noisy : forall idx, valid gdims idx -> Rabs (val_at (gdata IZR) idx - val_at (gnoisy IZR) idx) <= 1.
Proof.
  apply gdims_ind. intros i j Hi Hj. apply Rabs_le.
  destruct i as [|[|[|[|i]]]]; [| | | |lia]; (destruct j as [|[|[|[|[|j]]]]]; [| | | | |lia]); cbn; lra.
Qed.
Lemma below9 : forall idx, valid gdims idx -> Rabs (val_at (gdata IZR) idx) <= 9.
Proof.
  apply gdims_ind. intros i j Hi Hj. apply Rabs_le.
  destruct i as [|[|[|[|i]]]]; [| | | |lia]; (destruct j as [|[|[|[|[|j]]]]]; [| | | | |lia]); cbn; lra.
Qed.
Lemma made_gu f : m_dims f = gdims -> wf_mesh f -> exists g, interp_make Rops true true 3 [true; true] f (gu IZR) = Ok g.
Proof. intros E W. apply (make_ok true true 3 [true; true] gdims); auto. apply good_gu; lia. exact solvable_gu. Qed.

Lemma ex_noise :
  good_input true 3 [true; true] gdims (gu IZR) /\ uniform_periodic [true; true] (gu IZR) /\
  (exists g1 g2, interp_make Rops true true 3 [true; true] (gdata IZR) (gu IZR) = Ok g1 /\
     interp_make Rops true true 3 [true; true] (gnoisy IZR) (gu IZR) = Ok g2) /\
  (forall idx, valid gdims idx -> Rabs (val_at (gdata IZR) idx - val_at (gnoisy IZR) idx) <= 1) /\
  countable_point true [true; true] gdims (gu IZR) [1/4; -4].
Proof.
  split; [apply good_gu; lia|]. split; [exact uniform_gu|]. split; [|split; [exact noisy|apply countable_gu; cbn; lra]].
  destruct (made_gu (gdata IZR)) as [g1 H1]; [reflexivity|reflexivity|].
  destruct (made_gu (gnoisy IZR)) as [g2 H2]; [reflexivity|reflexivity|]. eauto.
Qed.
Lemma ex_bound :
  good_input true 3 [true; true] gdims (gu IZR) /\ uniform_periodic [true; true] (gu IZR) /\
  (exists g, interp_make Rops true true 3 [true; true] (gdata IZR) (gu IZR) = Ok g) /\
  (forall idx, valid gdims idx -> Rabs (val_at (gdata IZR) idx) <= 9) /\
  countable_point true [true; true] gdims (gu IZR) [1/4; -4].
Proof.
  split; [apply good_gu; lia|]. split; [exact uniform_gu|].
  split; [apply made_gu; reflexivity|]. split; [exact below9|apply countable_gu; cbn; lra].
Qed.
