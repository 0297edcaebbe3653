(** Data of the examples in PropDApprox. *)
From Coq Require Import List Arith Lia Bool ZArith Reals Lra.
From Coquelicot Require Import Coquelicot.
From Verif Require Import Base Num MeshM SplineM InterpM SpecMesh SpecSpline SpecSplineObj SpecInterp SpecCurve SpecStab SpecApprox SpecSmooth SpecDApprox MeshProofs SmoothTop PropInterpEx PropApproxEx SpecInterp.
Import ListNotations.
Open Scope R_scope.

(** The second derivative of [wave] in its second variable. *)
Definition wave2 (xs : list R) : R := - (PI / 2 * (PI / 2)) * sin (PI / 2 * nth 1 xs 0).

Lemma wave_derived : differentiates 2 [1; 1]%nat wave wave2.
Proof.
  exists (fun xs => PI / 2 * cos (PI / 2 * nth 1 xs 0)). split; [|exists wave2; split].
  - intros xs Lx. apply (is_derive_ext (fun t => cos (PI / 2 * nth 0 xs 0) + sin (PI / 2 * t))).
    + intros t. unfold wave. rewrite !with_nth by lia. reflexivity.
    + auto_derive; auto. ring.
  - intros xs Lx. apply (is_derive_ext (fun t => PI / 2 * cos (PI / 2 * t))).
    + intros t. rewrite !with_nth by lia. reflexivity.
    + auto_derive; auto. unfold wave2. ring.
  - intros xs _. reflexivity.
Qed.
Lemma wave2_lip xs ys r : Rabs (nth 1 xs 0 - nth 1 ys 0) <= r -> Rabs (wave2 xs - wave2 ys) <= PI / 2 * (PI / 2) * (PI / 2) * r.
Proof.
  intros H. unfold wave2. pose proof PI_RGT_0 as HP. pose proof (sin_lip (PI / 2 * nth 1 xs 0) (PI / 2 * nth 1 ys 0)) as S.
  rewrite <- Rmult_minus_distr_l, Rabs_mult, (Rabs_pos_eq (PI / 2)) in S by lra.
  rewrite <- Rmult_minus_distr_l, Rabs_mult, Rabs_Ropp, (Rabs_pos_eq (PI / 2 * (PI / 2))) by (apply Rmult_le_pos; lra).
  rewrite (Rmult_assoc _ (PI / 2) r). apply Rmult_le_compat_l; [apply Rmult_le_pos; lra|]. eapply Rle_trans; [exact S|]. apply Rmult_le_compat_l; lra.
Qed.
Lemma wave2_continuous : uniformly_continuous 2 wave2.
Proof.
  intros eps He. pose proof PI_RGT_0 as HP. set (L := PI / 2 * (PI / 2) * (PI / 2)).
  assert (HL : 0 < L) by (unfold L; apply Rmult_lt_0_compat; [apply Rmult_lt_0_compat|]; lra). exists (eps / L). split; [apply Rdiv_lt_0_compat; lra|].
  intros xs ys _ _ Hd. replace eps with (L * (eps / L)) by (field; lra). apply wave2_lip. apply Hd. auto.
Qed.
Lemma ex_dwave :
  good_input true 3 [true; true] wdims (wx IZR) /\ uniform_periodic [true; true] (wx IZR) /\ wf_mesh (wdata IZR) /\
  (exists g, interp_make Rops true true 3 [true; true] (wdata IZR) (wx IZR) = Ok g) /\
  sampled true [true; true] wdims (wx IZR) wave (wdata IZR) /\ periodic_function true [true; true] wdims (wx IZR) wave /\
  (forall d, (d < 2)%nat -> (order_of [1; 1] d <= 3)%nat) /\ orders_of 2 [1; 1]%nat = [0; 2]%nat /\ differentiates 2 [1; 1]%nat wave wave2 /\
  mesh_width true [true; true] wdims (wx IZR) 1 /\
  varies true [true; true] wdims (wx IZR) wave2 (INR (2 * 3 + 1) / 2 * 1) (PI / 2 * (PI / 2) * (PI / 2) * (INR (2 * 3 + 1) / 2 * 1)) /\
  countable_point true [true; true] wdims (wx IZR) [1/2; -7/2].
Proof.
  split; [apply good_wx; lia|]. split; [exact uniform_wx|]. split; [reflexivity|]. split; [apply made_wx; lia|].
  split; [exact wave_sampled|]. split; [exact wave_periodic|]. split; [intros [|[|d]] Hd; cbn; lia|]. split; [reflexivity|].
  split; [exact wave_derived|]. split; [exact width_wx|]. split; [|apply countable_wx; cbn; lra].
  intros xs ys _ _ _ _ H. apply wave2_lip. apply H. simpl. lia.
Qed.
Lemma ex_dconverge : differentiates 2 [1; 1]%nat wave wave2 /\ uniformly_continuous 2 wave2 /\ (forall d, (d < 2)%nat -> (order_of [1; 1] d <= 3)%nat).
Proof. split; [exact wave_derived|]. split; [exact wave2_continuous|]. intros [|[|d]] Hd; cbn; lia. Qed.
