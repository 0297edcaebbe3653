(** Data of the examples in PropSym. *)
From Coq Require Import List Arith Lia Bool ZArith QArith Reals Lra.
From Verif Require Import Base Num MeshM SplineM InterpM SpecMesh SpecInterp SpecSym MeshProofs InterpFinal PropInterpEx.
Import ListNotations.
Open Scope R_scope.

(** The grid of PropInterpEx after x -> 1 - 2 x and, with a period starting at
    the second point, y -> -y; [gdata] in the new order. *)
Definition msx : list move := [(-2, 1, 0%nat); (-1, 0, 1%nat)].
Definition mx {T} (i : Z -> T) : list (xrange T) := [Points (map i [-7; -5; -1; 1]%Z); Points (map i [-5; -4; -3; -2; -1]%Z)].
Definition mdata {T} (i : Z -> T) : mesh T :=
  mkMesh gdims (map i [3; 2; 4; 8; 0; 9; 8; 9; 7; 0; 6; 2; 3; 5; 0; 4; 1; 5; 1; 0]%Z).

Lemma inc_mx : increasing 4 (fun i => nth i (map IZR [-7; -5; -1; 1]%Z) 0).
Proof. intros i j H. do 4 (destruct i as [|i]; [do 4 (destruct j as [|j]; [cbn; try lra; lia|]); lia|]). lia. Qed.
Lemma inc_my : increasing 5 (fun i => nth i (map IZR [-5; -4; -3; -2; -1]%Z) 0).
Proof. intros i j H. do 5 (destruct i as [|i]; [do 5 (destruct j as [|j]; [cbn; try lra; lia|]); lia|]). lia. Qed.
Lemma good_mx : good_input false 3 [false; true] gdims (mx IZR).
Proof.
  split; [discriminate|]. split; [reflexivity|]. split; [reflexivity|]. intros d Hd. cbn in Hd.
  destruct d as [|[|d]]; [| |lia].
  - cbn [nth mx gdims]. unfold good_dim, coords_num, distinct. cbn [andb]. split; [lia|]. split; [lia|]. split; [reflexivity|]. split; [exact inc_mx|lia].
  - cbn [nth mx gdims]. unfold good_dim, coords_num, distinct. cbn [andb negb]. split; [lia|]; split; [lia|]; split; [reflexivity|]; split; [exact inc_my|lia].
Qed.

Lemma ex_moved :
  good_input false 3 [false; true] gdims (gx IZR) /\ good_input false 3 [false; true] gdims (mx IZR) /\
  (forall d, (d < 2)%nat -> fst (fst (move_at msx d)) <> 0) /\
  moved_grid false [false; true] gdims msx (gx IZR) (mx IZR) /\
  moved_data false [false; true] gdims msx (gdata IZR) (mdata IZR) /\
  (exists g, interp_make Rops true false 3 [false; true] (gdata IZR) (gx IZR) = Ok g) /\
  (exists g, interp_make Rops true false 3 [false; true] (mdata IZR) (mx IZR) = Ok g).
Proof.
  split; [apply good_gx; lia|]. split; [exact good_mx|].
  split. { intros [|[|d]] H; cbn; try lra; lia. }
  assert (D1 : forall (a b : nat), (if Rlt_dec 0 (-2) then a else b) = b) by (intros; destruct (Rlt_dec 0 (-2)); auto; lra).
  assert (D2 : forall (a b : nat), (if Rlt_dec 0 (-1) then a else b) = b) by (intros; destruct (Rlt_dec 0 (-1)); auto; lra).
  split.
  { intros d i Hd Hi. cbn in Hd. destruct d as [|[|d]]; [| |lia]; unfold moved_coordinate; cbn [nth move_at msx fst snd]; rewrite ?D1, ?D2; cbn in Hi.
    - do 4 (destruct i as [|i]; [unfold coordinate, move_point; cbn; lra|]); lia.
    - do 5 (destruct i as [|i]; [unfold coordinate, move_point, pext; cbn; lra|]); lia. }
  split.
  { intros idx L V. pose proof (V 0%nat ltac:(cbn; lia)) as V0. pose proof (V 1%nat ltac:(cbn; lia)) as V1.
    destruct idx as [|i [|j [|k idx]]]; try discriminate. cbn in V0, V1. unfold moved_index. cbn [length seq map nth move_at msx fst snd]. rewrite D1, D2.
    do 4 (destruct i as [|i]; [do 4 (destruct j as [|j]; [unfold val_at; cbn; lra|]); lia|]); lia. }
  split; [apply made; [lia|reflexivity|reflexivity]|].
  apply (make_ok true false 3 [false; true] gdims); auto; try reflexivity. apply good_mx. intros d Hd. right. left. lia.
Qed.
