(** Calls of the MEX function used as examples. *)
From Coq Require Import List Arith Lia Bool ZArith QArith Reals Lra.
From Verif Require Import Base Num SpecMesh SpecInterp MatlabM SpecMatlab.
Import ListNotations.

(** A 4 x 3 array, periodic along its columns. *)
Definition mx_per : marray bool := mkArr [2; 1]%nat [true; false].
Definition mx_range {T} (z : Z -> T) : marray T := mkArr [2; 2]%nat [z 0; z 1; z 4; z 4]%Z.
Definition mx_mesh {T} (z : Z -> T) : marray T := mkArr [4; 3]%nat (map z [1; 4; 2; 2; 4; 1; 0; 1; 4; 2; 2; 4])%Z.
Definition mx_coor {T} (z : Z -> T) : marray T := mkArr [3; 2]%nat (map z [1; 2; 6; 1; 4; 3])%Z.
Definition mx_deriv (a b : nat) : marray nat := mkArr [2; 1]%nat [a; b].

Lemma mx_data {T} (z : Z -> T) : shaped_data 2 mx_per (mx_range z) (mx_mesh z).
Proof.
  repeat split. exists [4; 3]%nat, 0%nat. split; [reflexivity|]. split; [repeat constructor|reflexivity].
Qed.
Lemma mx_points {T} (z : Z -> T) a b : shaped_points 2 3 (mx_coor z) (mx_deriv a b).
Proof. repeat split. Qed.

Open Scope R_scope.
Lemma mx_good : good_data 2 2 (mx_range IZR) (mx_mesh IZR).
Proof.
  intros d Hd. destruct d as [|[|d]]; [| |lia]; unfold size_of, lo_of, hi_of, elem; cbn;
    (split; [lia|]; split; [reflexivity|lra]).
Qed.
Lemma mx_near : good_points 2 3 mx_per (mx_range IZR) (mx_mesh IZR) (mx_coor IZR).
Proof.
  intros i d Hi Hd. unfold step_of, size_of, flag_of, lo_of, hi_of, elem, two64.
  destruct d as [|[|d]]; [| |lia]; (destruct i as [|[|[|i]]]; [| | |lia]); cbn; lra.
Qed.
Close Scope R_scope.

(** A 2 x 1 x 2 array. *)
Definition thin_mesh : marray Q := mkArr [2; 1; 2]%nat [1; 2; 3; 4]%Q.
Definition thin_range : marray Q := mkArr [2; 2]%nat [0; 0; 1; 1]%Q.
(** A 2 x 2 x 2 x 2 array. *)
Definition big_mesh : marray Q := mkArr [2; 2; 2; 2]%nat (map inject_Z [1; 2; 3; 4; 5; 6; 7; 8; 9; 10; 11; 12; 13; 14; 15; 16])%Z.
Definition big_range : marray Q := mkArr [4; 2]%nat [0; 0; 0; 0; 1; 1; 1; 1]%Q.
Definition big_per : marray bool := mkArr [4; 1]%nat [false; false; false; false].
Definition big_coor : marray Q := mkArr [1; 4]%nat [0; 0; 0; 0]%Q.
Definition big_deriv : marray nat := mkArr [4; 1]%nat [0; 0; 0; 0]%nat.
Lemma big_data : shaped_data 4 big_per big_range big_mesh.
Proof. repeat split. exists [2; 2; 2; 2]%nat, 0%nat. split; [reflexivity|]. split; [repeat constructor|reflexivity]. Qed.
Lemma big_points : shaped_points 4 1 big_coor big_deriv.
Proof. repeat split. Qed.

(** C80 *)
Lemma thin_fails : exists order per (range mesh coor : marray Q) deriv,
  mex_check per range mesh coor deriv = true /\ wf_array mesh /\
  mex Qops true false order per range mesh coor deriv = Done (Fault DivByZero).
Proof.
  exists 0%nat, (mkArr [2; 1]%nat [false; false]), thin_range, thin_mesh, (mkArr [4; 2]%nat [0; 1; 0; 1; 0; 0; 1; 1]%Q), (mx_deriv 0 0).
  repeat split.
Qed.
Lemma thin_wrong : exists order per (range mesh coor : marray Q) deriv,
  mex_check per range mesh coor deriv = true /\ wf_array mesh /\ a_dims mesh = [2; 1; 2]%nat /\ order = 0%nat /\
  a_data mesh = [1; 2; 3; 4]%Q /\
  a_data coor = [0; 1; 0; 1; 0; 0; 1#2; 1#2]%Q /\ (* the four points of the grid *)
  mex Qops true false order per range mesh coor deriv = Done (Ok [1; 2; 1; 2]%Q).
Proof.
  exists 0%nat, (mkArr [2; 1]%nat [false; true]), thin_range, thin_mesh, (mkArr [4; 2]%nat [0; 1; 0; 1; 0; 0; 1#2; 1#2]%Q), (mx_deriv 0 0).
  repeat split.
Qed.
Lemma padded_wrong : exists order per (range mesh coor : marray Q) deriv D N,
  shaped_data D per range mesh /\ shaped_points D N coor deriv /\
  a_data coor = [1; 2; 6; 1; 4; 3]%Q /\ elem 0%Q mesh [1; 0]%nat = 4%Q /\ (* value at (1, 1), the first point *)
  mex Qops true true order per range mesh coor deriv = Done (Ok [447#116; 100#29; 287#261]%Q).
Proof.
  exists 2%nat, mx_per, (mx_range inject_Z), (mx_mesh inject_Z), (mx_coor inject_Z), (mx_deriv 0 0), 2%nat, 3%nat.
  split; [apply mx_data|]. split; [apply mx_points|]. repeat split.
Qed.
