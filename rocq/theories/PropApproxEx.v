(** Data of the examples in PropApprox. *)
From Coq Require Import List Arith Lia Bool ZArith Reals Lra.
From Coquelicot Require Import Coquelicot.
From Verif Require Import Base Num MeshM SplineM InterpM SpecMesh SpecSpline SpecSplineObj SpecInterp SpecCurve SpecStab SpecApprox MeshProofs SplineProofs InterpFinal SpecInterp PropInterpEx.
Import ListNotations.
Open Scope R_scope.

(** cos(pi x / 2) + sin(pi y / 2), its values on a 4 x 4 grid. *)
Definition wave (xs : list R) : R := cos (PI / 2 * nth 0 xs 0) + sin (PI / 2 * nth 1 xs 0).
Definition wdims : list nat := [4; 4]%nat.
Definition wx {T} (i : Z -> T) : list (xrange T) := [Uniform (i 0%Z) (i 4%Z); Uniform (i 0%Z) (i 4%Z)].
Definition wdata {T} (i : Z -> T) : MeshM.mesh T :=
  mkMesh wdims (map i [1; 2; 1; 0; 0; 1; 0; -1; -1; 0; -1; -2; 0; 1; 0; -1]%Z).

Lemma good_wx p : (1 <= p <= 3)%nat -> good_input true p [true; true] wdims (wx IZR).
Proof.
  intros Hp. split; [discriminate|]. split; [reflexivity|]. split; [reflexivity|]. intros d Hd. cbn in Hd.
  destruct d as [|[|d]]; [| |lia]; cbn [nth wx wdims]; unfold good_dim, coords_num, distinct; cbn [andb negb]; (split; [lia|]; split; [lia|lra]).
Qed.
Lemma uniform_wx : uniform_periodic [true; true] (wx IZR).
Proof. intros [|[|d]] Hd; [| |simpl in Hd; lia]; (split; [reflexivity|]); eexists; eexists; reflexivity. Qed.
Lemma countable_wx xs : nth 0 xs 0 < 1000 -> nth 1 xs 0 < 1000 -> countable_point true [true; true] wdims (wx IZR) xs.
Proof.
  intros H0 H1 d Hd. cbn in Hd. destruct d as [|[|d]]; [| |lia]; cbn [nth wx]; unfold countable, two64; cbn; lra.
Qed.
Lemma made_wx p : (1 <= p <= 3)%nat -> exists g, interp_make Rops true true p [true; true] (wdata IZR) (wx IZR) = Ok g.
Proof.
  intros Hp. apply (make_ok true true p [true; true] wdims); auto; try reflexivity. apply good_wx; auto.
  intros d Hd. right. left. lia.
Qed.
Lemma width_wx : mesh_width true [true; true] wdims (wx IZR) 1.
Proof.
  intros d i Hd _. cbn in Hd. rewrite plus_INR || idtac. destruct d as [|[|d]]; [| |lia]; unfold coordinate; cbn [nth wx wdims grid_of coords_num distinct andb negb Nat.add Nat.sub];
  rewrite plus_INR; simpl; lra.
Qed.

Lemma half_turns (k : nat) : (k < 4)%nat -> cos (PI / 2 * INR k) = nth k [1; 0; -1; 0] 0 /\ sin (PI / 2 * INR k) = nth k [0; 1; 0; -1] 0.
Proof.
  intros H. destruct k as [|[|[|[|k]]]]; [| | | |lia]; simpl.
  - rewrite Rmult_0_r. split; [apply cos_0|apply sin_0].
  - rewrite Rmult_1_r. split; [apply cos_PI2|apply sin_PI2].
  - replace (PI / 2 * (1 + 1)) with PI by field. split; [rewrite cos_PI|rewrite sin_PI]; lra.
  - replace (PI / 2 * (1 + 1 + 1)) with (3 * (PI / 2)) by field. split; [apply cos_3PI2|rewrite sin_3PI2; lra].
Qed.
Lemma wave_sampled : sampled true [true; true] wdims (wx IZR) wave (wdata IZR).
Proof.
  intros idx V. destruct idx as [|i idx]; [inversion V|]. apply valid_cons in V as [Hi V].
  destruct idx as [|j idx]; [inversion V|]. apply valid_cons in V as [Hj V]. destruct idx; [|inversion V].
  assert (G : grid_point true [true; true] wdims (wx IZR) [i; j] = [INR i; INR j]).
  { unfold grid_point, coordinate. cbn [length seq map nth wx wdims grid_of coords_num distinct andb negb Nat.add Nat.sub]. simpl (INR 4). f_equal; [field|f_equal; field]. }
  rewrite G. unfold wave. cbn [nth]. destruct (half_turns i Hi) as [-> _]. destruct (half_turns j Hj) as [_ ->].
  destruct i as [|[|[|[|i]]]]; [| | | |lia]; (destruct j as [|[|[|[|j]]]]; [| | | |lia]); cbn; lra.
Qed.

Lemma cos_turns x (z : Z) : cos (x + 2 * IZR z * PI) = cos x /\ sin (x + 2 * IZR z * PI) = sin x.
Proof.
  destruct (Z_le_gt_dec 0 z) as [H|H].
  - replace (IZR z) with (INR (Z.to_nat z)) by (rewrite INR_IZR_INZ, Z2Nat.id; auto).
    split; [apply cos_period|apply sin_period].
  - replace (IZR z) with (- INR (Z.to_nat (- z))) by (rewrite INR_IZR_INZ, Z2Nat.id, opp_IZR by lia; ring).
    set (k := Z.to_nat (- z)). split.
    + rewrite <- (cos_period (x + 2 * - INR k * PI) k). f_equal. ring.
    + rewrite <- (sin_period (x + 2 * - INR k * PI) k). f_equal. ring.
Qed.
Lemma wave_periodic : periodic_function true [true; true] wdims (wx IZR) wave.
Proof.
  intros xs ys Lx Ly H. unfold wave.
  destruct (H 0%nat ltac:(simpl; lia)) as (z0 & E0). destruct (H 1%nat ltac:(simpl; lia)) as (z1 & E1).
  assert (P0 : forall d, (d < 2)%nat -> period true [true; true] wdims (wx IZR) d = 4).
  { intros [|[|d]] Hd; [| |lia]; unfold period, coordinate; cbn [nth wx wdims grid_of coords_num distinct andb negb Nat.add Nat.sub]; simpl; field. }
  rewrite P0 in E0, E1 by lia. rewrite E0, E1.
  replace (PI / 2 * (nth 0 xs 0 + IZR z0 * 4)) with (PI / 2 * nth 0 xs 0 + 2 * IZR z0 * PI) by field.
  replace (PI / 2 * (nth 1 xs 0 + IZR z1 * 4)) with (PI / 2 * nth 1 xs 0 + 2 * IZR z1 * PI) by field.
  rewrite (proj1 (cos_turns _ z0)), (proj2 (cos_turns _ z1)). reflexivity.
Qed.

Lemma lip1 (f f' : R -> R) x y : (forall t, is_derive f t (f' t)) -> (forall t, Rabs (f' t) <= 1) -> Rabs (f x - f y) <= Rabs (x - y).
Proof.
  intros Hd Hb. destruct (MVT_gen f y x f') as (c & _ & E).
  - intros; apply Hd.
  - intros t _. apply continuity_pt_filterlim. apply (ex_derive_continuous (V := R_NormedModule)). exists (f' t). apply Hd.
  - rewrite E, Rabs_mult. specialize (Hb c). pose proof (Rabs_pos (x - y)). nra.
Qed.
Lemma cos_lip x y : Rabs (cos x - cos y) <= Rabs (x - y).
Proof. apply (lip1 cos (fun t => - sin t)). intros; apply is_derive_cos. intros t. rewrite Rabs_Ropp. apply Rabs_le. apply SIN_bound. Qed.
Lemma sin_lip x y : Rabs (sin x - sin y) <= Rabs (x - y).
Proof. apply (lip1 sin cos). intros; apply is_derive_sin. intros t. apply Rabs_le. apply COS_bound. Qed.

Lemma wave_lip xs ys r : (forall d, (d < 2)%nat -> Rabs (nth d xs 0 - nth d ys 0) <= r) -> Rabs (wave xs - wave ys) <= PI * r.
Proof.
  intros H. unfold wave. pose proof (H 0%nat ltac:(lia)) as H0. pose proof (H 1%nat ltac:(lia)) as H1. pose proof PI_RGT_0 as HP.
  pose proof (cos_lip (PI / 2 * nth 0 xs 0) (PI / 2 * nth 0 ys 0)) as C. pose proof (sin_lip (PI / 2 * nth 1 xs 0) (PI / 2 * nth 1 ys 0)) as S.
  rewrite <- Rmult_minus_distr_l, Rabs_mult, (Rabs_pos_eq (PI / 2)) in C, S by lra.
  match goal with |- Rabs (?a + ?b - (?c + ?d)) <= _ => replace (a + b - (c + d)) with ((a - c) + (b - d)) by ring end.
  eapply Rle_trans; [apply Rabs_triang|]. nra.
Qed.
Lemma wave_varies r : varies true [true; true] wdims (wx IZR) wave r (PI * r).
Proof. intros xs ys _ _ _ _ H. apply wave_lip. exact H. Qed.
Lemma wave_continuous : uniformly_continuous 2 wave.
Proof.
  intros eps He. pose proof PI_RGT_0. exists (eps / PI). split; [apply Rdiv_lt_0_compat; lra|].
  intros xs ys _ _ Hd. apply wave_lip in Hd. replace (PI * (eps / PI)) with eps in Hd by (field; lra). exact Hd.
Qed.

Lemma ex_wave :
  good_input true 3 [true; true] wdims (wx IZR) /\ uniform_periodic [true; true] (wx IZR) /\ wf_mesh (wdata IZR) /\
  (exists g, interp_make Rops true true 3 [true; true] (wdata IZR) (wx IZR) = Ok g) /\
  sampled true [true; true] wdims (wx IZR) wave (wdata IZR) /\ periodic_function true [true; true] wdims (wx IZR) wave /\
  mesh_width true [true; true] wdims (wx IZR) 1 /\ varies true [true; true] wdims (wx IZR) wave (INR (3 + 1) / 2 * 1) (PI * (INR (3 + 1) / 2 * 1)) /\
  countable_point true [true; true] wdims (wx IZR) [1/2; -7/2].
Proof.
  split; [apply good_wx; lia|]. split; [exact uniform_wx|]. split; [reflexivity|]. split; [apply made_wx; lia|].
  split; [exact wave_sampled|]. split; [exact wave_periodic|]. split; [exact width_wx|]. split; [apply wave_varies|]. apply countable_wx; cbn; lra.
Qed.
Lemma ex_wave1 :
  good_input true 1 [true; true] wdims (wx IZR) /\ wf_mesh (wdata IZR) /\
  (exists g, interp_make Rops true true 1 [true; true] (wdata IZR) (wx IZR) = Ok g) /\
  sampled true [true; true] wdims (wx IZR) wave (wdata IZR) /\ periodic_function true [true; true] wdims (wx IZR) wave /\
  mesh_width true [true; true] wdims (wx IZR) 1 /\ varies true [true; true] wdims (wx IZR) wave 1 (PI * 1) /\
  countable_point true [true; true] wdims (wx IZR) [1/2; -7/2] /\ in_grid true [true; true] wdims (wx IZR) [1/2; -7/2].
Proof.
  split; [apply good_wx; lia|]. split; [reflexivity|]. split; [apply made_wx; lia|].
  split; [exact wave_sampled|]. split; [exact wave_periodic|]. split; [exact width_wx|]. split; [apply wave_varies|]. split; [apply countable_wx; cbn; lra|].
  intros [|[|d]] Hd; [left; reflexivity|left; reflexivity|simpl in Hd; lia].
Qed.
