(** Data of the examples in PropDims. *)
From Coq Require Import List Arith Lia Bool ZArith QArith Reals Lra Permutation.
From Verif Require Import Base Num MeshM SplineM InterpM SpecMesh SpecInterp SpecDims MeshProofs InterpFinal PropInterpEx.
Import ListNotations.
Open Scope R_scope.

(** [gdata] with the dimensions exchanged. *)
Definition tdata {T} (i : Z -> T) : mesh T :=
  mkMesh [5; 4]%nat (map i [1; 2; 8; 2; 4; 6; 9; 3; 1; 5; 7; 8; 5; 3; 9; 4; 9; 5; 3; 6]%Z).
(** Values of one variable, their product, and the first ones at every y. *)
Definition udata {T} (i : Z -> T) : mesh T := mkMesh [4]%nat (map i [1; 2; 8; 2]%Z).
Definition vdata {T} (i : Z -> T) : mesh T := mkMesh [5]%nat (map i [1; 3; 0; 2; 1]%Z).
Definition uvdata {T} (i : Z -> T) : mesh T :=
  mkMesh gdims (map i [1; 3; 0; 2; 1; 2; 6; 0; 4; 2; 8; 24; 0; 16; 8; 2; 6; 0; 4; 2]%Z).
Definition uudata {T} (i : Z -> T) : mesh T :=
  mkMesh gdims (map i [1; 1; 1; 1; 1; 2; 2; 2; 2; 2; 8; 8; 8; 8; 8; 2; 2; 2; 2; 2]%Z).
Definition ux {T} (i : Z -> T) : list (xrange T) := [Points (map i [0; 1; 3; 4]%Z)].
Definition vx {T} (i : Z -> T) : list (xrange T) := [Uniform (i 0%Z) (i 4%Z)].

Lemma good_ux : good_input false 3 [false] [4]%nat (ux IZR).
Proof.
  split; [discriminate|]. split; [reflexivity|]. split; [reflexivity|]. intros d Hd. cbn in Hd. destruct d as [|d]; [|lia].
  cbn [nth ux]. unfold good_dim, coords_num, distinct. cbn [andb]. split; [lia|]. split; [lia|]. split; [reflexivity|]. split; [exact inc4|lia].
Qed.
Lemma good_vx : good_input false 3 [true] [5]%nat (vx IZR).
Proof.
  split; [discriminate|]. split; [reflexivity|]. split; [reflexivity|]. intros d Hd. cbn in Hd. destruct d as [|d]; [|lia].
  cbn [nth vx]. unfold good_dim, coords_num, distinct. cbn [andb negb]. split; [lia|]. split; [lia|]. lra.
Qed.
Lemma good_tx : good_input false 3 (permuted false [1; 0]%nat [false; true]) (permuted 0%nat [1; 0]%nat gdims) (permuted (Points []) [1; 0]%nat (gx IZR)).
Proof.
  split; [discriminate|]. split; [reflexivity|]. split; [reflexivity|]. intros d Hd. cbn in Hd. destruct d as [|[|d]]; [| |lia].
  - cbn [nth permuted map gx gdims]. unfold good_dim, coords_num, distinct. cbn [andb negb]. split; [lia|]. split; [lia|]. lra.
  - cbn [nth permuted map gx gdims]. unfold good_dim, coords_num, distinct. cbn [andb]. split; [lia|]. split; [lia|]. split; [reflexivity|]. split; [exact inc4|lia].
Qed.

Lemma ex_permuted :
  good_input false 3 [false; true] gdims (gx IZR) /\ Permutation [1; 0]%nat (seq 0 (length [false; true])) /\
  m_dims (tdata IZR) = permuted 0%nat [1; 0]%nat gdims /\ permuted_data gdims [1; 0]%nat (gdata IZR) (tdata IZR) /\
  (exists g, interp_make Rops true false 3 [false; true] (gdata IZR) (gx IZR) = Ok g) /\
  (exists g, interp_make Rops true false 3 (permuted false [1; 0]%nat [false; true]) (tdata IZR) (permuted (Points []) [1; 0]%nat (gx IZR)) = Ok g) /\
  countable_point false [false; true] gdims (gx IZR) [7; -1].
Proof.
  split; [apply good_gx; lia|]. split; [cbn; apply perm_swap|]. split; [reflexivity|].
  split. { refine (gdims_ind (fun idx => val_at (tdata IZR) (permuted 0%nat [1; 0]%nat idx) = val_at (gdata IZR) idx) _). cases20. }
  split; [apply made; [lia|reflexivity|reflexivity]|]. split; [|apply countable_gx; cbn; lra].
  apply (make_ok true false 3 _ (permuted 0%nat [1; 0]%nat gdims)); [apply good_tx|intros d Hd; right; left; lia|reflexivity|reflexivity].
Qed.

Lemma cases1 n (P : list nat -> Prop) : (forall i, (i < n)%nat -> P [i]) -> forall idx, valid [n] idx -> P idx.
Proof. intros H idx V. inversion V as [|i ? l ? Hi V1]; subst. inversion V1; subst. auto. Qed.

Lemma ex_product :
  good_input false 3 [false] [4]%nat (ux IZR) /\ good_input false 3 [true] [5]%nat (vx IZR) /\
  product_data [4]%nat [5]%nat (udata IZR) (vdata IZR) (uvdata IZR) /\
  (exists g, interp_make Rops true false 3 [false] (udata IZR) (ux IZR) = Ok g) /\
  (exists g, interp_make Rops true false 3 [true] (vdata IZR) (vx IZR) = Ok g) /\
  (exists g, interp_make Rops true false 3 ([false] ++ [true]) (uvdata IZR) (ux IZR ++ vx IZR) = Ok g).
Proof.
  split; [exact good_ux|]. split; [exact good_vx|].
  split. { intros i1 i2 V1 V2. revert i1 V1. refine (cases1 4 _ _). intros i Hi. revert i2 V2. refine (cases1 5 _ _). revert i Hi.
    intros i Hi j Hj. do 4 (destruct i as [|i]; [do 5 (destruct j as [|j]; [unfold val_at; cbn; lra|]); lia|]); lia. }
  split. { apply (make_ok true false 3 [false] [4]%nat); [exact good_ux|intros d Hd; right; left; lia|reflexivity|reflexivity]. }
  split. { apply (make_ok true false 3 [true] [5]%nat); [exact good_vx|intros d Hd; right; left; lia|reflexivity|reflexivity]. }
  apply (made 3 true true (uvdata IZR)); [lia|reflexivity|reflexivity].
Qed.

Lemma ex_independent :
  good_input false 3 [false] [4]%nat (ux IZR) /\ good_input false 3 [true] [5]%nat (vx IZR) /\
  independent_data [4]%nat [5]%nat (udata IZR) (uudata IZR) /\
  (exists g, interp_make Rops true false 3 [false] (udata IZR) (ux IZR) = Ok g) /\
  (exists g, interp_make Rops true false 3 ([false] ++ [true]) (uudata IZR) (ux IZR ++ vx IZR) = Ok g).
Proof.
  split; [exact good_ux|]. split; [exact good_vx|].
  split. { intros i1 i2 V1 V2. revert i1 V1. refine (cases1 4 _ _). intros i Hi. revert i2 V2. refine (cases1 5 _ _). revert i Hi.
    intros i Hi j Hj. do 4 (destruct i as [|i]; [do 5 (destruct j as [|j]; [unfold val_at; cbn; lra|]); lia|]); lia. }
  split. { apply (make_ok true false 3 [false] [4]%nat); [exact good_ux|intros d Hd; right; left; lia|reflexivity|reflexivity]. }
  apply (made 3 true true (uudata IZR)); [lia|reflexivity|reflexivity].
Qed.

Lemma ex_linear_cells :
  good_input false 1 [false; true] gdims (gx IZR) /\
  (exists g, interp_make Rops true false 1 [false; true] (gdata IZR) (gx IZR) = Ok g) /\
  countable_point false [false; true] gdims (gx IZR) [7; -1/2] /\
  (forall d, (d < 2)%nat -> in_cell false [false; true] gdims (gx IZR) d (nth d [2; 3]%nat 0%nat) (nth d [7; -1/2] 0) (nth d [7; 7/2] 0)).
Proof.
  split; [apply good_gx; lia|]. split; [apply made; [lia|reflexivity|reflexivity]|]. split; [apply countable_gx; cbn; lra|].
  intros d Hd. destruct d as [|[|d]]; [| |lia]; unfold in_cell; cbn [nth]; unfold distinct; cbn [andb negb gdims nth].
  - split; [lia|]. split; auto. split; [right; unfold coordinate; cbn; lra|left; reflexivity].
  - split; [lia|]. split; [exists 1%Z; unfold coordinate; cbn; lra|]. unfold coordinate. cbn. lra.
Qed.
