(** Data of the examples in PropQuad. *)
From Coq Require Import List Arith Lia Bool ZArith Reals Lra.
From Coquelicot Require Import Coquelicot.
From Verif Require Import Base Num MeshM SplineM InterpM SpecMesh SpecSpline SpecSplineObj SpecInterp SpecCurve SpecStab SpecSmooth SpecApprox MeshProofs SplineProofs SmoothTop InterpFinal SumR SpecInterp PropInterpEx PropApproxEx.
Import ListNotations.
Open Scope R_scope.

Lemma wave_curvature : curvature true [true; true] wdims (wx IZR) wave (fun _ => (PI / 2) ^ 2).
Proof.
  intros d xs Hd Lx _. cbn in Hd, Lx. assert (HP : 0 <= (PI / 2) ^ 2) by apply pow2_ge_0.
  assert (CB : forall u, Rabs (cos u) <= 1) by (intros; apply Rabs_le; apply COS_bound).
  assert (SB : forall u, Rabs (sin u) <= 1) by (intros; apply Rabs_le; apply SIN_bound).
  destruct xs as [|x [|y [|]]]; try discriminate. destruct d as [|[|d]]; [| |lia].
  - exists (fun t => - (PI / 2) * sin (PI / 2 * t)), (fun t => - (PI / 2) ^ 2 * cos (PI / 2 * t)). intros t _. unfold wave, with_at. cbn [firstn skipn app nth].
    split; [auto_derive; auto; field|]. split; [auto_derive; auto; field|].
    rewrite Rabs_mult, Rabs_Ropp, (Rabs_pos_eq ((PI / 2) ^ 2)) by auto. specialize (CB (PI / 2 * t)). nra.
  - exists (fun t => PI / 2 * cos (PI / 2 * t)), (fun t => - (PI / 2) ^ 2 * sin (PI / 2 * t)). intros t _. unfold wave, with_at. cbn [firstn skipn app nth].
    split; [auto_derive; auto; field|]. split; [auto_derive; auto; field|].
    rewrite Rabs_mult, Rabs_Ropp, (Rabs_pos_eq ((PI / 2) ^ 2)) by auto. specialize (SB (PI / 2 * t)). nra.
Qed.

Lemma ex_quad :
  good_input true 3 [true; true] wdims (wx IZR) /\ uniform_periodic [true; true] (wx IZR) /\ wf_mesh (wdata IZR) /\
  (exists g, interp_make Rops true true 3 [true; true] (wdata IZR) (wx IZR) = Ok g) /\
  sampled true [true; true] wdims (wx IZR) wave (wdata IZR) /\ periodic_function true [true; true] wdims (wx IZR) wave /\
  mesh_width true [true; true] wdims (wx IZR) 1 /\ curvature true [true; true] wdims (wx IZR) wave (fun _ => (PI / 2) ^ 2) /\
  countable_point true [true; true] wdims (wx IZR) [1/2; -7/2].
Proof.
  split; [apply good_wx; lia|]. split; [exact uniform_wx|]. split; [reflexivity|]. split; [apply made_wx; lia|].
  split; [exact wave_sampled|]. split; [exact wave_periodic|]. split; [exact width_wx|]. split; [exact wave_curvature|]. apply countable_wx; cbn; lra.
Qed.

(** The square on the points 0, 1, 3. *)
Definition square (xs : list R) : R := nth 0 xs 0 ^ 2.
Definition sqx {T} (i : Z -> T) : list (xrange T) := [Points (map i [0; 1; 3]%Z)].
Definition sqdata {T} (i : Z -> T) : MeshM.mesh T := mkMesh [3]%nat (map i [0; 1; 9]%Z).

Lemma good_sqx : good_input true 1 [false] [3]%nat (sqx IZR).
Proof.
  split; [discriminate|]. split; [reflexivity|]. split; [reflexivity|]. intros [|d] Hd; [|simpl in Hd; lia].
  cbn [nth sqx]. unfold good_dim, coords_num, distinct. cbn [andb negb map length]. split; [lia|]. split; [lia|].
  split; [reflexivity|]. split; [|auto]. intros i j Hi. destruct i as [|[|[|i]]]; destruct j as [|[|[|j]]]; cbn; try lra; lia.
Qed.
Lemma ex_square :
  good_input true 1 [false] [3]%nat (sqx IZR) /\ wf_mesh (sqdata IZR) /\
  (exists g, interp_make Rops true true 1 [false] (sqdata IZR) (sqx IZR) = Ok g) /\
  sampled true [false] [3]%nat (sqx IZR) square (sqdata IZR) /\ periodic_function true [false] [3]%nat (sqx IZR) square /\
  mesh_width true [false] [3]%nat (sqx IZR) 2 /\ curvature true [false] [3]%nat (sqx IZR) square (fun _ => 2) /\
  countable_point true [false] [3]%nat (sqx IZR) [2] /\ in_grid true [false] [3]%nat (sqx IZR) [2] /\
  square [2] = 4 /\ sum 1 (fun _ => 2) * 2 ^ 2 / 8 = 1.
Proof.
  split; [exact good_sqx|]. split; [reflexivity|].
  split. { apply (make_ok true true 1 [false] [3]%nat); auto; try reflexivity. exact good_sqx. intros d Hd. right. left. lia. }
  split. { intros idx V. destruct idx as [|i idx]; [inversion V|]. apply valid_cons in V as [Hi V]. destruct idx; [|inversion V].
    destruct i as [|[|[|i]]]; [| | |lia]; unfold square, grid_point, coordinate; cbn; lra. }
  split. { intros xs ys _ _ H. unfold square. specialize (H 0%nat ltac:(simpl; lia)). cbn in H. rewrite H. reflexivity. }
  split. { intros d i Hd Hi. cbn in Hd. destruct d; [|lia]. unfold coords_num, distinct in Hi. cbn in Hi. unfold coordinate. cbn [nth sqx map].
    destruct i as [|[|i]]; [| |lia]; cbn; lra. }
  split. { intros d xs Hd Lx _. cbn in Hd, Lx. destruct d; [|lia]. destruct xs as [|x [|]]; try discriminate. exists (fun t => 2 * t), (fun _ => 2).
    intros t _. unfold square, with_at. cbn [firstn skipn app nth]. split; [auto_derive; auto; ring|]. split; [auto_derive; auto; ring|]. rewrite Rabs_pos_eq; lra. }
  split. { intros d Hd. cbn in Hd. destruct d; [|lia]. cbn [nth sqx]. unfold countable. auto. }
  split. { intros d Hd. cbn in Hd. destruct d; [|lia]. right. unfold coordinate. cbn. lra. }
  split; [unfold square; cbn; lra|]. cbn [sum]. lra.
Qed.
