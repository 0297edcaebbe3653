(** Data of the examples in PropRate. *)
From Coq Require Import List Arith Lia Bool ZArith Reals Lra.
From Coquelicot Require Import Coquelicot.
From Verif Require Import Base Num MeshM SplineM InterpM SpecMesh SpecSpline SpecSplineObj SpecInterp SpecCurve SpecStab SpecApprox SpecSmooth SpecRate MeshProofs SmoothTop PropInterpEx PropApproxEx SpecInterp.
Import ListNotations.
Open Scope R_scope.

(** The [k]-th derivatives of cos(pi x / 2) and of sin(pi x / 2); the partial
    derivatives of [wave]. *)
Definition cosd (k : nat) (x : R) : R := (PI / 2) ^ k * cos (PI / 2 * x + INR k * (PI / 2)).
Definition sind (k : nat) (x : R) : R := (PI / 2) ^ k * sin (PI / 2 * x + INR k * (PI / 2)).
Definition waves (o : list nat) (xs : list R) : R :=
  (if (nth 1 o 0 =? 0)%nat then cosd (nth 0 o 0%nat) (nth 0 xs 0) else 0) +
  (if (nth 0 o 0 =? 0)%nat then sind (nth 1 o 0%nat) (nth 1 xs 0) else 0).

Lemma cosd_derive k x : is_derive (cosd k) x (cosd (S k) x).
Proof.
  unfold cosd. auto_derive; auto. rewrite S_INR. replace (PI / 2 * x + (INR k + 1) * (PI / 2)) with (PI / 2 + (PI / 2 * x + INR k * (PI / 2))) by ring.
  rewrite <- cos_sin_alt || idtac. replace (cos (PI / 2 + (PI / 2 * x + INR k * (PI / 2)))) with (- sin (PI / 2 * x + INR k * (PI / 2))).
  - cbn [pow]. ring.
  - rewrite cos_plus, cos_PI2, sin_PI2. ring.
Qed.
Lemma sind_derive k x : is_derive (sind k) x (sind (S k) x).
Proof.
  unfold sind. auto_derive; auto. rewrite S_INR. replace (PI / 2 * x + (INR k + 1) * (PI / 2)) with (PI / 2 + (PI / 2 * x + INR k * (PI / 2))) by ring.
  replace (sin (PI / 2 + (PI / 2 * x + INR k * (PI / 2)))) with (cos (PI / 2 * x + INR k * (PI / 2))).
  - cbn [pow]. ring.
  - rewrite sin_plus, cos_PI2, sin_PI2. ring.
Qed.
Lemma const_derive (c t : R) : is_derive (fun _ : R => c) t 0.
Proof. auto_derive; auto. Qed.
Lemma pi_pow k : 0 <= (PI / 2) ^ k /\ ((k <= 4)%nat -> (PI / 2) ^ k <= 16).
Proof.
  pose proof PI_RGT_0. pose proof PI_4. split; [apply pow_le; lra|]. intros Hk.
  apply Rle_trans with (2 ^ k); [apply pow_incr; lra|]. replace 16 with (2 ^ 4) by (simpl; lra). apply Rle_pow; [lra|lia].
Qed.
Lemma cosd_bound k x : (k <= 4)%nat -> Rabs (cosd k x) <= 16.
Proof.
  intros Hk. destruct (pi_pow k) as [A B]. specialize (B Hk). unfold cosd. rewrite Rabs_mult, (Rabs_pos_eq ((PI / 2) ^ k)) by auto.
  pose proof (COS_bound (PI / 2 * x + INR k * (PI / 2))) as C. set (c := cos _) in *. assert (Rabs c <= 1) by (apply Rabs_le; lra). pose proof (Rabs_pos c). nra.
Qed.
Lemma sind_bound k x : (k <= 4)%nat -> Rabs (sind k x) <= 16.
Proof.
  intros Hk. destruct (pi_pow k) as [A B]. specialize (B Hk). unfold sind. rewrite Rabs_mult, (Rabs_pos_eq ((PI / 2) ^ k)) by auto.
  pose proof (SIN_bound (PI / 2 * x + INR k * (PI / 2))) as C. set (c := sin _) in *. assert (Rabs c <= 1) by (apply Rabs_le; lra). pose proof (Rabs_pos c). nra.
Qed.
Lemma waves_wave xs : waves [0; 0]%nat xs = wave xs.
Proof. unfold waves, wave, cosd, sind. cbn. rewrite !Rmult_0_l, !Rplus_0_r, !Rmult_1_l. reflexivity. Qed.

Lemma wave_smooth : smooth_along 2 4 wave (fun _ => 16).
Proof.
  intros [|[|d]] xs Hd Lx; [| |lia].
  - exists (fun k t => cosd k t + match k with 0%nat => sin (PI / 2 * nth 1 xs 0) | _ => 0 end). split; [|split].
    + intros t. unfold wave. rewrite !with_nth by lia. cbn. unfold cosd. cbn. rewrite Rmult_0_l, Rplus_0_r, Rmult_1_l. reflexivity.
    + intros k t _. replace (cosd (S k) t + 0) with (plus (cosd (S k) t) 0) by reflexivity.
      apply (is_derive_plus (cosd k)); [apply cosd_derive|]. destruct k; apply const_derive.
    + intros t. rewrite Rplus_0_r. apply cosd_bound. lia.
  - exists (fun k t => sind k t + match k with 0%nat => cos (PI / 2 * nth 0 xs 0) | _ => 0 end). split; [|split].
    + intros t. unfold wave. rewrite !with_nth by lia. cbn. unfold sind. cbn. rewrite Rmult_0_l, Rplus_0_r, Rmult_1_l. apply Rplus_comm.
    + intros k t _. replace (sind (S k) t + 0) with (plus (sind (S k) t) 0) by reflexivity.
      apply (is_derive_plus (sind k)); [apply sind_derive|]. destruct k; apply const_derive.
    + intros t. rewrite Rplus_0_r. apply sind_bound. lia.
Qed.

Lemma waves_family m : derivative_family 2 m waves.
Proof.
  intros [|i [|j [|? ?]]] xs Lo Lx Ho d Hd Hm; try discriminate. destruct d as [|[|d]]; [| |lia].
  - apply (is_derive_ext (fun t => (if (j =? 0)%nat then cosd i t else 0) + (if (i =? 0)%nat then sind j (nth 1 xs 0) else 0))).
    + intros t. unfold waves. rewrite !with_nth by lia. reflexivity.
    + unfold waves. cbn [nth with_at firstn skipn app]. change (S i =? 0)%nat with false. cbv iota.
      apply (is_derive_plus (fun t => if (j =? 0)%nat then cosd i t else 0) (fun _ => if (i =? 0)%nat then sind j (nth 1 xs 0) else 0)).
      * destruct (j =? 0)%nat; [apply cosd_derive|apply const_derive].
      * apply const_derive.
  - apply (is_derive_ext (fun t => (if (j =? 0)%nat then cosd i (nth 0 xs 0) else 0) + (if (i =? 0)%nat then sind j t else 0))).
    + intros t. unfold waves. rewrite !with_nth by lia. reflexivity.
    + unfold waves. cbn [nth with_at firstn skipn app]. change (S j =? 0)%nat with false. cbv iota.
      apply (is_derive_plus (fun _ => if (j =? 0)%nat then cosd i (nth 0 xs 0) else 0) (fun t => if (i =? 0)%nat then sind j t else 0)).
      * apply const_derive.
      * destruct (i =? 0)%nat; [apply sind_derive|apply const_derive].
Qed.
Lemma waves_bound o xs : (forall d, (d < 2)%nat -> (nth d o 0 <= 4)%nat) -> Rabs (waves o xs) <= 32.
Proof.
  intros H. unfold waves. eapply Rle_trans; [apply Rabs_triang|].
  pose proof (cosd_bound (nth 0 o 0%nat) (nth 0 xs 0) (H 0%nat ltac:(lia))). pose proof (sind_bound (nth 1 o 0%nat) (nth 1 xs 0) (H 1%nat ltac:(lia))).
  destruct (nth 1 o 0 =? 0)%nat, (nth 0 o 0 =? 0)%nat; rewrite ?Rabs_R0; lra.
Qed.
Lemma gap_wx : mesh_gap true [true; true] wdims (wx IZR) 1.
Proof.
  intros d i Hd _. cbn in Hd. destruct d as [|[|d]]; [| |lia]; unfold coordinate; cbn [nth wx wdims grid_of coords_num distinct andb negb Nat.add Nat.sub];
  rewrite plus_INR; simpl; lra.
Qed.

Lemma ex_order :
  good_input true 3 [true; true] wdims (wx IZR) /\ uniform_periodic [true; true] (wx IZR) /\ wf_mesh (wdata IZR) /\
  (exists g, interp_make Rops true true 3 [true; true] (wdata IZR) (wx IZR) = Ok g) /\
  sampled true [true; true] wdims (wx IZR) wave (wdata IZR) /\ periodic_function true [true; true] wdims (wx IZR) wave /\
  mesh_width true [true; true] wdims (wx IZR) 1 /\ smooth_along 2 (3 + 1) wave (fun _ => 16) /\
  countable_point true [true; true] wdims (wx IZR) [1/2; -7/2].
Proof.
  split; [apply good_wx; lia|]. split; [exact uniform_wx|]. split; [reflexivity|]. split; [apply made_wx; lia|].
  split; [exact wave_sampled|]. split; [exact wave_periodic|]. split; [exact width_wx|]. split; [exact wave_smooth|apply countable_wx; cbn; lra].
Qed.
Lemma ex_dorder :
  good_input true 3 [true; true] wdims (wx IZR) /\ uniform_periodic [true; true] (wx IZR) /\ wf_mesh (wdata IZR) /\
  (exists g, interp_make Rops true true 3 [true; true] (wdata IZR) (wx IZR) = Ok g) /\
  sampled true [true; true] wdims (wx IZR) (waves [0; 0]%nat) (wdata IZR) /\ periodic_function true [true; true] wdims (wx IZR) (waves [0; 0]%nat) /\
  mesh_width true [true; true] wdims (wx IZR) 1 /\ mesh_gap true [true; true] wdims (wx IZR) 1 /\ derivative_family 2 (3 + 1) waves /\
  (forall o xs, length o = 2%nat -> length xs = 2%nat -> (forall d, (d < 2)%nat -> (nth d o 0 <= 3 + 1)%nat) -> Rabs (waves o xs) <= 32) /\
  countable_point true [true; true] wdims (wx IZR) [1/2; -7/2].
Proof.
  split; [apply good_wx; lia|]. split; [exact uniform_wx|]. split; [reflexivity|]. split; [apply made_wx; lia|].
  split; [intros idx V; rewrite waves_wave; apply wave_sampled; auto|]. split; [intros xs ys Lx Ly S; rewrite !waves_wave; apply wave_periodic; auto|].
  split; [exact width_wx|]. split; [exact gap_wx|]. split; [apply waves_family|]. split; [intros o xs _ _ H; apply waves_bound; auto|apply countable_wx; cbn; lra].
Qed.
