(** Example data for the properties about values of another type. *)
From Coq Require Import List Arith Lia Bool ZArith QArith Reals Lra Floats.
From Verif Require Import Base Num FloatM MeshM SpecMesh MeshProofs SplineM InterpM SpecInterp VecM SpecValue SpecCurve VecProofs VecTop PropInterpEx.
Import ListNotations.

(** Products of doubles do not depend on the order of the factors. *)
Lemma Fmul_comm (a b : float) : PrimFloat.mul a b = PrimFloat.mul b a.
Proof.
  apply Prim2SF_inj. rewrite !mul_spec.
  destruct (Prim2SF a), (Prim2SF b); simpl; auto; rewrite 1?xorb_comm; auto.
  unfold SF64mul, SFmul. rewrite xorb_comm, Pos.mul_comm, Z.add_comm. auto.
Qed.

Lemma vec_doubles dim i : (i < dim)%nat ->
  preserves (vec_vops Fops dim) (scalar_vops Fops) (fun v => nth i v (o0 Fops)).
Proof. intros Hi. apply vec_components; auto. apply Fmul_comm. intros a b t. exact I. Qed.

(** Points of the plane on the grid of the other examples; the second
    component is the product of the indices. *)
Definition vdata {T} (inj : Z -> T) : mesh (list T) :=
  mkMesh gdims (map (fun k => [nth k (m_data (gdata inj)) (inj 0%Z); inj (Z.of_nat (k / 5) * Z.of_nat (k mod 5))%Z]) (seq 0 20)).

Lemma vdata_wf : wf_mesh (vdata IZR).
Proof. reflexivity. Qed.
Lemma vdata_dim v : In v (m_data (vdata IZR)) -> length v = 2%nat.
Proof. unfold vdata. cbn [m_data]. intros H. apply in_map_iff in H as (k & <- & _). reflexivity. Qed.

Definition vevals {T V} (o : ops T) (vo : vops T V) (r : res (vinterp T V)) (pts : list (list T)) : res (list V) :=
  bind r (fun g => mapM (fun x => vinterp_eval o vo g x) pts).

Definition Fnum (z : Z) : float := Fround z 0 false.

Local Open Scope R_scope.
Lemma made_vdata : exists g, vinterp_make Rops (vec_vops Rops 2) true false 3 [false; true] (vdata IZR) (gx IZR) = Ok g.
Proof.
  apply (vectors_pass true false 3 [false; true] gdims (gx IZR) 2 (vdata IZR)); auto.
  apply good_gx; lia. reflexivity. apply small_gx. apply vdata_dim. apply solvable_gx; lia.
Qed.

Lemma ex_rotation :
  preserves (vec_vops Rops 2) (vec_vops Rops 2) (affine 2 [[0; -1]; [1; 0]] [0; 0]) /\
  exists g, vinterp_make Rops (vec_vops Rops 2) true false 3 [false; true] (vdata IZR) (gx IZR) = Ok g.
Proof.
  split; [|apply made_vdata]. unfold affine, dot. split; [|split; [|split]].
  - simpl. repeat (f_equal; [ring|]). f_equal. ring.
  - intros. simpl. repeat (f_equal; [ring|]). f_equal. ring.
  - intros. simpl. repeat (f_equal; [ring|]). f_equal. ring.
  - intros v t. simpl. destruct (Req_EM_T t 0); simpl; auto. f_equal; [field|f_equal; field]; auto.
Qed.

Lemma ex_uniform :
  (forall a b, omul Fops a b = omul Fops b a) /\ division_uniform Fops /\
  (forall a b, omul Rops a b = omul Rops b a) /\ division_uniform Rops.
Proof.
  split; [apply Fmul_comm|]. split; [intros a b t; exact I|]. split; [intros; simpl; ring|]. apply Rops_div_uniform.
Qed.

Lemma ex_vectors :
  good_input false 3 [false; true] gdims (gx IZR) /\ wf_mesh (vdata IZR) /\ small_dims gdims /\
  (forall v, In v (m_data (vdata IZR)) -> length v = 2%nat) /\ solvable 3 [false; true] (gx IZR).
Proof.
  split; [apply good_gx; lia|]. split; [reflexivity|]. split; [apply small_gx|]. split; [apply vdata_dim|]. apply solvable_gx; lia.
Qed.

Lemma ex_affine :
  good_input false 3 [false; true] gdims (gx IZR) /\ wf_mesh (vdata IZR) /\
  (exists g, vinterp_make Rops (vec_vops Rops 2) true false 3 [false; true] (vdata IZR) (gx IZR) = Ok g) /\
  affine 2 [[1; 2]; [0; -1]; [1; 0]] [1; 0; 5] [2; 1] = [5; -1; 7].
Proof.
  split; [apply good_gx; lia|]. split; [reflexivity|]. split; [apply made_vdata|].
  unfold affine, dot. simpl. repeat (f_equal; [ring|]). f_equal. ring.
Qed.

Lemma ex_hull :
  good_input false 3 [false; true] gdims (gx IZR) /\
  (exists g, vinterp_make Rops (vec_vops Rops 2) true false 3 [false; true] (vdata IZR) (gx IZR) = Ok g) /\
  countable_point false [false; true] gdims (gx IZR) [1/2; -7] /\ in_grid false [false; true] gdims (gx IZR) [1/2; -7].
Proof.
  split; [apply good_gx; lia|]. split; [apply made_vdata|]. split; [apply countable_gx; simpl; lra|].
  intros d Hd. simpl in Hd. destruct d as [|[|d]]; [right|left; reflexivity|lia]. unfold coordinate. simpl. lra.
Qed.
