(** Data of the examples in PropDual. *)
From Coq Require Import List Arith Lia Bool ZArith Reals Lra.
From Coquelicot Require Import Coquelicot.
From Verif Require Import Base Num MeshM SplineM InterpM SpecMesh SpecSpline SpecSplineObj SpecInterp SpecCurve SpecStab SpecApprox SpecSmooth SpecTame SpecRate MeshProofs SmoothTop PropInterpEx PropApproxEx PropTameEx PropRateEx SpecInterp.
Import ListNotations.
Open Scope R_scope.

(** The [k]-th derivatives of 2 cos(pi x / 3) and of x^2; the partial
    derivatives of [hill]. *)
Definition cos3d (k : nat) (x : R) : R := 2 * (PI / 3) ^ k * cos (PI / 3 * x + INR k * (PI / 2)).
Definition squared (k : nat) (x : R) : R := match k with 0%nat => x ^ 2 | 1%nat => 2 * x | 2%nat => 2 | _ => 0 end.
Definition hills (o : list nat) (xs : list R) : R :=
  (if (nth 1 o 0 =? 0)%nat then cos3d (nth 0 o 0%nat) (nth 0 xs 0) else 0) +
  (if (nth 0 o 0 =? 0)%nat then squared (nth 1 o 0%nat) (nth 1 xs 0) else 0).

Lemma cos3d_derive k x : is_derive (cos3d k) x (cos3d (S k) x).
Proof.
  unfold cos3d. auto_derive; auto. rewrite S_INR. replace (PI / 3 * x + (INR k + 1) * (PI / 2)) with (PI / 2 + (PI / 3 * x + INR k * (PI / 2))) by ring.
  replace (cos (PI / 2 + (PI / 3 * x + INR k * (PI / 2)))) with (- sin (PI / 3 * x + INR k * (PI / 2))).
  - cbn [pow]. ring.
  - rewrite cos_plus, cos_PI2, sin_PI2. ring.
Qed.
Lemma squared_derive k x : is_derive (squared k) x (squared (S k) x).
Proof.
  destruct k as [|[|[|k]]].
  - change (is_derive (fun t : R => t ^ 2) x (2 * x)). auto_derive; auto. ring.
  - change (is_derive (fun t : R => 2 * t) x 2). auto_derive; auto. ring.
  - change (is_derive (fun t : R => 2) x 0). apply const_derive.
  - change (is_derive (fun t : R => 0) x 0). apply const_derive.
Qed.
Lemma cos3d_bound k x : (k <= 4)%nat -> Rabs (cos3d k x) <= 8.
Proof.
  intros Hk. pose proof PI_RGT_0. pose proof PI_4. assert (A : 0 <= (PI / 3) ^ k) by (apply pow_le; lra).
  assert (B : (PI / 3) ^ k <= 4). { apply Rle_trans with ((4 / 3) ^ k); [apply pow_incr; lra|]. apply Rle_trans with ((4 / 3) ^ 4); [apply Rle_pow; [lra|lia]|simpl; lra]. }
  unfold cos3d. rewrite Rabs_mult, (Rabs_pos_eq (2 * (PI / 3) ^ k)) by lra.
  pose proof (COS_bound (PI / 3 * x + INR k * (PI / 2))) as C. set (c := cos _) in *. assert (Rabs c <= 1) by (apply Rabs_le; lra). pose proof (Rabs_pos c). nra.
Qed.
Lemma hills_hill xs : hills [0; 0]%nat xs = hill xs.
Proof. unfold hills, hill, cos3d, squared. cbn. rewrite !Rmult_0_l, !Rplus_0_r, !Rmult_1_r. reflexivity. Qed.
Lemma hills_family m : derivative_family 2 m hills.
Proof.
  intros [|i [|j [|? ?]]] xs Lo Lx Ho d Hd Hm; try discriminate. destruct d as [|[|d]]; [| |lia].
  - apply (is_derive_ext (fun t => (if (j =? 0)%nat then cos3d i t else 0) + (if (i =? 0)%nat then squared j (nth 1 xs 0) else 0))).
    + intros t. unfold hills. rewrite !with_nth by lia. reflexivity.
    + unfold hills. cbn [nth with_at firstn skipn app]. change (S i =? 0)%nat with false. cbv iota.
      apply (is_derive_plus (fun t => if (j =? 0)%nat then cos3d i t else 0) (fun _ => if (i =? 0)%nat then squared j (nth 1 xs 0) else 0)).
      * destruct (j =? 0)%nat; [apply cos3d_derive|apply const_derive].
      * apply const_derive.
  - apply (is_derive_ext (fun t => (if (j =? 0)%nat then cos3d i (nth 0 xs 0) else 0) + (if (i =? 0)%nat then squared j t else 0))).
    + intros t. unfold hills. rewrite !with_nth by lia. reflexivity.
    + unfold hills. cbn [nth with_at firstn skipn app]. change (S j =? 0)%nat with false. cbv iota.
      apply (is_derive_plus (fun _ => if (j =? 0)%nat then cos3d i (nth 0 xs 0) else 0) (fun t => if (i =? 0)%nat then squared j t else 0)).
      * apply const_derive.
      * destruct (i =? 0)%nat; [apply squared_derive|apply const_derive].
Qed.
Lemma hills_bound o xs : (forall d, (d < 2)%nat -> (nth d o 0 <= 4)%nat) -> in_grid true hper hdims (hx IZR) xs -> Rabs (hills o xs) <= 44.
Proof.
  intros H IG. destruct (IG 1%nat ltac:(cbn; lia)) as [Q|Q]; [discriminate|]. unfold coordinate in Q. cbn in Q.
  assert (U : 0 <= nth 1 xs 0 <= 6) by (clear - Q; split; lra). clear Q.
  unfold hills. eapply Rle_trans; [apply Rabs_triang|].
  pose proof (cos3d_bound (nth 0 o 0%nat) (nth 0 xs 0) (H 0%nat ltac:(lia))).
  assert (Rabs (squared (nth 1 o 0%nat) (nth 1 xs 0)) <= 36).
  { set (u := nth 1 xs 0) in *. destruct (nth 1 o 0%nat) as [|[|[|k]]]; cbn [squared]; apply Rabs_le; nra. }
  destruct (nth 1 o 0 =? 0)%nat, (nth 0 o 0 =? 0)%nat; rewrite ?Rabs_R0; lra.
Qed.
Lemma gap_hx : mesh_gap true hper hdims (hx IZR) 1.
Proof.
  intros d i Hd Hi. cbn in Hd. destruct d as [|[|d]]; [| |lia]; unfold coordinate, coords_num, distinct in *; cbn [nth hper hdims hx map andb negb] in *.
  - destruct i as [|[|[|[|i]]]]; [| | | |lia]; cbn; lra.
  - cbn [grid_of]. rewrite plus_INR. simpl. lra.
Qed.
Lemma ex_dual :
  good_input true 3 hper hdims (hx IZR) /\ tame true 3 hper hdims (hx IZR) /\ wf_mesh (hdata IZR) /\
  (exists g, interp_make Rops true true 3 hper (hdata IZR) (hx IZR) = Ok g) /\
  sampled true hper hdims (hx IZR) (hills [0; 0]%nat) (hdata IZR) /\ periodic_function true hper hdims (hx IZR) (hills [0; 0]%nat) /\
  mesh_width true hper hdims (hx IZR) 2 /\ mesh_gap true hper hdims (hx IZR) 1 /\ derivative_family 2 (3 + 1) hills /\
  (forall o xs, length o = 2%nat -> length xs = 2%nat -> (forall d, (d < 2)%nat -> (nth d o 0 <= 3 + 1)%nat) -> in_grid true hper hdims (hx IZR) xs -> Rabs (hills o xs) <= 44) /\
  countable_point true hper hdims (hx IZR) [2; 5 / 2] /\ in_grid true hper hdims (hx IZR) [2; 5 / 2].
Proof.
  split; [apply good_hx; lia|]. split; [exact tame_hx|]. split; [reflexivity|]. split; [apply made_hx; reflexivity|].
  split; [intros idx V; rewrite hills_hill; apply hill_sampled; auto|]. split; [intros xs ys Lx Ly S; rewrite !hills_hill; apply hill_periodic; auto|].
  split; [exact width_hx|]. split; [exact gap_hx|]. split; [apply hills_family|]. split; [intros o xs _ _ H; apply hills_bound; auto|].
  split; [apply countable_hx; cbn; lra|apply in_hx; cbn; lra].
Qed.

(** The same kind of grid with points at most 1 apart: a constant function of
    one variable would do, but a parabola tells the orders apart. *)
Definition qdata {T} (i : Z -> T) : MeshM.mesh T := mkMesh [7%nat] (map i [0; 1; 4; 9; 16; 25; 36]%Z).
Definition quads (o : list nat) (xs : list R) : R := squared (nth 0 o 0%nat) (nth 0 xs 0).
Lemma ex_values :
  good_input true 3 [false] [7%nat] [Uniform 0 6] /\ tame true 3 [false] [7%nat] [Uniform 0 6] /\ wf_mesh (qdata IZR) /\
  (exists g, interp_make Rops true true 3 [false] (qdata IZR) [Uniform 0 6] = Ok g) /\
  sampled true [false] [7%nat] [Uniform 0 6] (quads [0%nat]) (qdata IZR) /\ periodic_function true [false] [7%nat] [Uniform 0 6] (quads [0%nat]) /\
  mesh_width true [false] [7%nat] [Uniform 0 6] 1 /\ derivative_family 1 (3 + 1) quads /\
  (forall o xs, length o = 1%nat -> length xs = 1%nat -> (forall d, (d < 1)%nat -> (nth d o 0 <= 3 + 1)%nat) -> in_grid true [false] [7%nat] [Uniform 0 6] xs -> Rabs (quads o xs) <= 36) /\
  countable_point true [false] [7%nat] [Uniform 0 6] [5 / 2] /\ in_grid true [false] [7%nat] [Uniform 0 6] [5 / 2].
Proof.
  assert (GI : good_input true 3 [false] [7%nat] [Uniform 0 6]).
  { split; [discriminate|]. split; [reflexivity|]. split; [reflexivity|]. intros d Hd. cbn in Hd. destruct d as [|d]; [|lia]. cbn [nth]. unfold good_dim, coords_num, distinct. cbn. split; [lia|]. split; [lia|]. lra. }
  assert (CO : forall i, coordinate true [false] [7%nat] [Uniform 0 6] 0 i = INR i).
  { intros i. unfold coordinate. cbn [nth grid_of coords_num distinct andb negb Nat.add Nat.sub]. simpl (INR 6). field. }
  split; [auto|]. split; [intros d Hd; cbn in Hd; destruct d as [|d]; [|lia]; cbn [nth]; split; [lia|eexists; eexists; reflexivity]|]. split; [reflexivity|].
  split; [apply (InterpFinal.make_ok true true 3 [false] [7%nat]); [exact GI|intros d Hd; right; left; lia|reflexivity|reflexivity]|].
  split. { intros idx V. destruct idx as [|i idx]; [inversion V|]. apply valid_cons in V as [Hi V]. destruct idx; [|inversion V].
    unfold grid_point. cbn [length seq map nth]. rewrite CO. unfold quads. cbn [nth squared].
    destruct i as [|[|[|[|[|[|[|i]]]]]]]; [| | | | | | |lia]; cbn; lra. }
  split. { intros xs ys Lx Ly S. specialize (S 0%nat ltac:(cbn; lia)). cbn [nth] in S. unfold quads. rewrite S. reflexivity. }
  split. { intros d i Hd Hi. cbn in Hd. destruct d as [|d]; [|lia]. rewrite !CO, plus_INR. simpl. lra. }
  split. { intros [|i [|? ?]] xs Lo Lx Ho d Hd Hm; try discriminate. destruct d as [|d]; [|lia]. 
    apply (is_derive_ext (squared i)); [|apply squared_derive]. intros t. unfold quads. rewrite with_nth by lia. reflexivity. }
  assert (IN : forall xs, in_grid true [false] [7%nat] [Uniform 0 6] xs <-> 0 <= nth 0 xs 0 <= 6).
  { intros xs. split.
    - intros H. destruct (H 0%nat ltac:(cbn; lia)) as [Q|Q]; [discriminate|]. rewrite !CO in Q. simpl in Q. simpl. lra.
    - intros H d Hd. cbn in Hd. destruct d as [|d]; [|lia]. right. rewrite !CO. simpl. simpl in H. lra. }
  split. { intros o xs _ _ H IG. apply IN in IG. unfold quads. set (u := nth 0 xs 0) in *. destruct (nth 0 o 0%nat) as [|[|[|k]]]; cbn [squared]; apply Rabs_le; nra. }
  split; [|apply IN; cbn; lra]. intros d Hd. cbn in Hd. destruct d as [|d]; [|lia]. cbn [nth]. unfold countable, two64. cbn. lra.
Qed.
