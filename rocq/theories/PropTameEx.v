(** Data of the examples in PropTame. *)
From Coq Require Import List Arith Lia Bool ZArith Reals Lra.
From Coquelicot Require Import Coquelicot.
From Verif Require Import Base Num MeshM SplineM InterpM SpecMesh SpecSpline SpecSplineObj SpecInterp SpecCurve SpecStab SpecSmooth SpecApprox SpecTame MeshProofs SplineProofs SmoothTop InterpFinal SumR SpecInterp PropInterpEx PropApproxEx.
Import ListNotations.
Open Scope R_scope.

(** 2 cos(pi x / 3) + y^2 on the periodic points 0, 1, 3, 4 (period 6) and the
    points 0, ..., 6. *)
Definition hill (xs : list R) : R := 2 * cos (PI / 3 * nth 0 xs 0) + nth 1 xs 0 ^ 2.
Definition ripple (xs : list R) : R := 2 * cos (PI / 3 * nth 0 xs 0) + cos (nth 1 xs 0).
Definition hper : list bool := [true; false].
Definition hdims : list nat := [4; 7]%nat.
Definition hx {T} (i : Z -> T) : list (xrange T) := [Points (map i [0; 1; 3; 4; 6]%Z); Uniform (i 0%Z) (i 6%Z)].
Definition hdata {T} (i : Z -> T) : MeshM.mesh T :=
  mkMesh hdims (map i [2; 3; 6; 11; 18; 27; 38; 1; 2; 5; 10; 17; 26; 37; -2; -1; 2; 7; 14; 23; 34; -1; 0; 3; 8; 15; 24; 35]%Z).
Definition hdata' {T} (i : Z -> T) : MeshM.mesh T :=
  mkMesh hdims (map i [3; 3; 6; 10; 18; 28; 37; 1; 1; 5; 9; 17; 26; 38; -2; -1; 2; 8; 15; 22; 34; 0; 0; 3; 7; 15; 24; 36]%Z).

Lemma good_hx p : (1 <= p <= 3)%nat -> good_input true p hper hdims (hx IZR).
Proof.
  intros Hp. split; [discriminate|]. split; [reflexivity|]. split; [reflexivity|]. intros d Hd. cbn in Hd.
  destruct d as [|[|d]]; [| |lia]; cbn [nth hx hdims hper]; unfold good_dim, coords_num, distinct; cbn [andb negb map length]; (split; [lia|]; split; [lia|]).
  - split; [reflexivity|]. split; [|intros; discriminate]. intros i j Hi. destruct i as [|[|[|[|[|i]]]]]; destruct j as [|[|[|[|[|j]]]]]; cbn; try lra; lia.
  - lra.
Qed.
Lemma tame_hx : tame true 3 hper hdims (hx IZR).
Proof.
  intros d Hd. cbn in Hd. destruct d as [|[|d]]; [| |lia]; cbn [nth hper hdims hx].
  - unfold distinct. cbn [andb negb]. intros i j Hi Hj. unfold coordinate. cbn [nth hper hdims hx map].
    destruct i as [|[|[|[|i]]]]; [| | | |lia]; (destruct j as [|[|[|[|j]]]]; [| | | |lia]); cbn; lra.
  - split; [lia|]. eexists; eexists; reflexivity.
Qed.
Lemma countable_hx xs : nth 1 xs 0 < 1000 -> countable_point true hper hdims (hx IZR) xs.
Proof.
  intros H0 d Hd. cbn in Hd. destruct d as [|[|d]]; [| |lia]; cbn [nth hx hper]; unfold countable, two64; cbn; auto; lra.
Qed.
Lemma made_hx f : m_dims f = hdims -> wf_mesh f -> exists g, interp_make Rops true true 3 hper f (hx IZR) = Ok g.
Proof.
  intros E W. apply (make_ok true true 3 hper hdims); auto. apply good_hx; lia. intros d Hd. right. left. lia.
Qed.
Lemma in_hx xs : 0 <= nth 1 xs 0 <= 6 -> in_grid true hper hdims (hx IZR) xs.
Proof.
  intros H d Hd. cbn in Hd. destruct d as [|[|d]]; [left; reflexivity|right|lia]. unfold coordinate. cbn. simpl in H. lra.
Qed.
Lemma width_hx : mesh_width true hper hdims (hx IZR) 2.
Proof.
  intros d i Hd Hi. cbn in Hd. destruct d as [|[|d]]; [| |lia]; unfold coordinate, coords_num, distinct in *; cbn [nth hper hdims hx map andb negb] in *.
  - destruct i as [|[|[|[|i]]]]; [| | | |lia]; cbn; lra.
  - cbn [grid_of]. rewrite plus_INR. simpl. lra.
Qed.

Lemma sixths (k : nat) : (k < 4)%nat -> cos (PI / 3 * nth k [0; 1; 3; 4] 0) = nth k [1; 1 / 2; -1; - (1 / 2)] 0.
Proof.
  intros H. destruct k as [|[|[|[|k]]]]; [| | | |lia]; cbn [nth].
  - rewrite Rmult_0_r. apply cos_0.
  - rewrite Rmult_1_r. apply cos_PI3.
  - replace (PI / 3 * 3) with PI by field. apply cos_PI.
  - replace (PI / 3 * 4) with (PI / 3 + PI) by field. rewrite neg_cos, cos_PI3. lra.
Qed.
Lemma hill_sampled : sampled true hper hdims (hx IZR) hill (hdata IZR).
Proof.
  intros idx V. destruct idx as [|i idx]; [inversion V|]. apply valid_cons in V as [Hi V].
  destruct idx as [|j idx]; [inversion V|]. apply valid_cons in V as [Hj V]. destruct idx; [|inversion V].
  assert (G : grid_point true hper hdims (hx IZR) [i; j] = [nth i [0; 1; 3; 4; 6] 0; INR j]).
  { unfold grid_point, coordinate. cbn [length hper seq map nth hx hdims grid_of coords_num distinct andb negb Nat.add Nat.sub]. simpl (INR 6). f_equal. f_equal; field. }
  assert (S : nth i [0; 1; 3; 4; 6] 0 = nth i [0; 1; 3; 4] 0) by (destruct i as [|[|[|[|i]]]]; [| | | |lia]; reflexivity).
  rewrite S in G. rewrite G. unfold hill. change (nth 0 [nth i [0; 1; 3; 4] 0; INR j] 0) with (nth i [0; 1; 3; 4] 0). change (nth 1 [nth i [0; 1; 3; 4] 0; INR j] 0) with (INR j).
  rewrite (sixths i Hi). destruct i as [|[|[|[|i]]]]; [| | | |lia]; (destruct j as [|[|[|[|[|[|[|j]]]]]]]; [| | | | | | |lia]); cbn; lra.
Qed.
Lemma turn (xs ys : list R) : (forall d, (d < 2)%nat -> if nth d hper false then exists z : Z, nth d ys 0 = nth d xs 0 + IZR z * period true hper hdims (hx IZR) d else nth d ys 0 = nth d xs 0) ->
  cos (PI / 3 * nth 0 ys 0) = cos (PI / 3 * nth 0 xs 0) /\ nth 1 ys 0 = nth 1 xs 0.
Proof.
  intros H. destruct (H 0%nat ltac:(lia)) as (z & E). pose proof (H 1%nat ltac:(lia)) as E1. split; [|exact E1].
  assert (P0 : period true hper hdims (hx IZR) 0 = 6) by (unfold period, coordinate; cbn; lra). rewrite P0 in E. rewrite E.
  replace (PI / 3 * (nth 0 xs 0 + IZR z * 6)) with (PI / 3 * nth 0 xs 0 + 2 * IZR z * PI) by field. apply cos_turns.
Qed.
Lemma hill_periodic : periodic_function true hper hdims (hx IZR) hill.
Proof. intros xs ys Lx Ly H. destruct (turn xs ys H) as [E0 E1]. unfold hill. rewrite E0, E1. reflexivity. Qed.
Lemma ripple_periodic : periodic_function true hper hdims (hx IZR) ripple.
Proof. intros xs ys Lx Ly H. destruct (turn xs ys H) as [E0 E1]. unfold ripple. rewrite E0, E1. reflexivity. Qed.
Lemma cos3_lip x y r : Rabs (x - y) <= r -> Rabs (2 * cos (PI / 3 * x) - 2 * cos (PI / 3 * y)) <= 2 * PI / 3 * r.
Proof.
  intros H. pose proof PI_RGT_0. pose proof (cos_lip (PI / 3 * x) (PI / 3 * y)) as C.
  rewrite <- Rmult_minus_distr_l, Rabs_mult, (Rabs_pos_eq (PI / 3)) in C by lra.
  rewrite <- Rmult_minus_distr_l, Rabs_mult, (Rabs_pos_eq 2) by lra. nra.
Qed.
Lemma hill_varies : varies true hper hdims (hx IZR) hill (INR 3 * 2) (2 * PI / 3 * 6 + 36).
Proof.
  intros xs ys _ _ Hx Hy H. unfold hill. pose proof (H 0%nat ltac:(cbn; lia)) as H0. 
  pose proof (Hx 1%nat ltac:(cbn; lia)) as X1. pose proof (Hy 1%nat ltac:(cbn; lia)) as Y1. unfold coordinate in X1, Y1. cbn in X1, Y1.
  destruct X1 as [X1|X1]; [discriminate|]. destruct Y1 as [Y1|Y1]; [discriminate|].
  replace (INR 3 * 2) with 6 in H0 by (simpl; ring). apply cos3_lip in H0.
  assert (U : 0 <= nth 1 xs 0 <= 6) by (clear - X1; split; lra). assert (V : 0 <= nth 1 ys 0 <= 6) by (clear - Y1; split; lra). clear X1 Y1.
  set (u := nth 1 xs 0) in *. set (v := nth 1 ys 0) in *.
  match goal with |- Rabs (?a + ?b - (?c + ?d)) <= _ => replace (a + b - (c + d)) with ((a - c) + (b - d)) by ring end.
  eapply Rle_trans; [apply Rabs_triang|]. apply Rplus_le_compat; [exact H0|]. apply Rabs_le. nra.
Qed.
Lemma hill_curvature : curvature true hper hdims (hx IZR) hill (fun d => match d with 0%nat => 2 * (PI / 3) ^ 2 | _ => 2 end).
Proof.
  intros d xs Hd Lx _. cbn in Hd, Lx. assert (HP : 0 <= (PI / 3) ^ 2) by apply pow2_ge_0.
  assert (CB : forall u, Rabs (cos u) <= 1) by (intros; apply Rabs_le; apply COS_bound).
  destruct xs as [|x [|y [|]]]; try discriminate. destruct d as [|[|d]]; [| |lia].
  - exists (fun t => - 2 * (PI / 3) * sin (PI / 3 * t)), (fun t => - (2 * (PI / 3) ^ 2) * cos (PI / 3 * t)). intros t _. unfold hill, with_at. cbn [firstn skipn app nth].
    split; [auto_derive; auto; field|]. split; [auto_derive; auto; field|].
    rewrite Rabs_mult, Rabs_Ropp, (Rabs_pos_eq (2 * (PI / 3) ^ 2)) by lra. specialize (CB (PI / 3 * t)). nra.
  - exists (fun t => 2 * t), (fun t => 2). intros t _. unfold hill, with_at. cbn [firstn skipn app nth].
    split; [auto_derive; auto; ring|]. split; [auto_derive; auto; ring|]. rewrite Rabs_pos_eq; lra.
Qed.
Lemma ripple_continuous : uniformly_continuous 2 ripple.
Proof.
  intros eps He. pose proof PI_RGT_0. assert (0 < 2 * PI / 3 + 1) by lra. exists (eps / (2 * PI / 3 + 1)). split; [apply Rdiv_lt_0_compat; lra|].
  intros xs ys _ _ Hd. pose proof (cos3_lip _ _ _ (Hd 0%nat ltac:(lia))) as C. pose proof (cos_lip (nth 1 xs 0) (nth 1 ys 0)) as S. specialize (Hd 1%nat ltac:(lia)).
  unfold ripple. match goal with |- Rabs (?a + ?b - (?c + ?d)) <= _ => replace (a + b - (c + d)) with ((a - c) + (b - d)) by ring end.
  eapply Rle_trans; [apply Rabs_triang|]. set (q := eps / (2 * PI / 3 + 1)) in *. replace eps with (2 * PI / 3 * q + q) by (unfold q; field; lra). lra.
Qed.
Lemma hdata_close : forall idx, valid hdims idx -> Rabs (val_at (hdata IZR) idx - val_at (hdata' IZR) idx) <= 1.
Proof.
  intros idx V. destruct idx as [|i idx]; [inversion V|]. apply valid_cons in V as [Hi V].
  destruct idx as [|j idx]; [inversion V|]. apply valid_cons in V as [Hj V]. destruct idx; [|inversion V].
  destruct i as [|[|[|[|i]]]]; [| | | |lia]; (destruct j as [|[|[|[|[|[|[|j]]]]]]]; [| | | | | | |lia]); cbn; apply Rabs_le; lra.
Qed.

Lemma ex_noise :
  good_input true 3 hper hdims (hx IZR) /\ tame true 3 hper hdims (hx IZR) /\ wf_mesh (hdata IZR) /\ wf_mesh (hdata' IZR) /\
  (exists g, interp_make Rops true true 3 hper (hdata IZR) (hx IZR) = Ok g) /\
  (exists g, interp_make Rops true true 3 hper (hdata' IZR) (hx IZR) = Ok g) /\
  (forall idx, valid hdims idx -> Rabs (val_at (hdata IZR) idx - val_at (hdata' IZR) idx) <= 1) /\
  countable_point true hper hdims (hx IZR) [2; 5 / 2] /\ in_grid true hper hdims (hx IZR) [2; 5 / 2].
Proof.
  split; [apply good_hx; lia|]. split; [exact tame_hx|]. split; [reflexivity|]. split; [reflexivity|]. split; [apply made_hx; reflexivity|]. split; [apply made_hx; reflexivity|].
  split; [exact hdata_close|]. split; [apply countable_hx; cbn; lra|]. apply in_hx. cbn. lra.
Qed.
Lemma ex_hill :
  good_input true 3 hper hdims (hx IZR) /\ tame true 3 hper hdims (hx IZR) /\ wf_mesh (hdata IZR) /\
  (exists g, interp_make Rops true true 3 hper (hdata IZR) (hx IZR) = Ok g) /\
  sampled true hper hdims (hx IZR) hill (hdata IZR) /\ periodic_function true hper hdims (hx IZR) hill /\
  mesh_width true hper hdims (hx IZR) 2 /\ varies true hper hdims (hx IZR) hill (INR 3 * 2) (2 * PI / 3 * 6 + 36) /\
  curvature true hper hdims (hx IZR) hill (fun d => match d with 0%nat => 2 * (PI / 3) ^ 2 | _ => 2 end) /\
  countable_point true hper hdims (hx IZR) [2; 5 / 2] /\ in_grid true hper hdims (hx IZR) [2; 5 / 2].
Proof.
  split; [apply good_hx; lia|]. split; [exact tame_hx|]. split; [reflexivity|]. split; [apply made_hx; reflexivity|].
  split; [exact hill_sampled|]. split; [exact hill_periodic|]. split; [exact width_hx|]. split; [exact hill_varies|]. split; [exact hill_curvature|].
  split; [apply countable_hx; cbn; lra|]. apply in_hx. cbn. lra.
Qed.
