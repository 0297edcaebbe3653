(** Data of the examples in PropInterp. *)
From Coq Require Import List Arith Lia Bool ZArith QArith Reals Lra.
From Verif Require Import Base Num MeshM SplineM InterpM SpecMesh SpecInterp MeshProofs InterpFinal.
Import ListNotations.
Open Scope R_scope.

(** A 4 x 5 grid: unevenly spaced points and an equally spaced range. *)
Definition gx {T} (i : Z -> T) : list (xrange T) := [Points (map i [0; 1; 3; 4]%Z); Uniform (i 0%Z) (i 4%Z)].
Definition gx' {T} (i : Z -> T) : list (xrange T) := [Points (map i [0; 1; 3; 4]%Z); Points (map i [0; 1; 2; 3; 4]%Z)].
Definition gdims : list nat := [4; 5]%nat.
Definition gdata {T} (i : Z -> T) : mesh T :=
  mkMesh gdims (map i [1; 4; 1; 5; 9; 2; 6; 5; 3; 5; 8; 9; 7; 9; 3; 2; 3; 8; 4; 6]%Z).
(** The same but for the last column. *)
Definition gdata' {T} (i : Z -> T) : mesh T :=
  mkMesh gdims (map i [1; 4; 1; 5; 0; 2; 6; 5; 3; 0; 8; 9; 7; 9; 0; 2; 3; 8; 4; 0]%Z).
Definition gones {T} (i : Z -> T) : mesh T := mkMesh gdims (map i (repeat 1%Z 20)).
(** 5 + 2 x - 3 y. *)
Definition gaffine {T} (i : Z -> T) : mesh T :=
  mkMesh gdims (map i [5; 2; -1; -4; -7; 7; 4; 1; -2; -5; 11; 8; 5; 2; -1; 13; 10; 7; 4; 1]%Z).
(** gdata + 2 gaffine. *)
Definition gsum {T} (i : Z -> T) : mesh T :=
  mkMesh gdims (map i [11; 8; -1; -3; -5; 16; 14; 7; -1; -5; 30; 25; 17; 13; 1; 28; 23; 22; 12; 8]%Z).

Lemma inc4 : increasing 4 (fun i => nth i (map IZR [0; 1; 3; 4]%Z) 0).
Proof. intros i j H. do 4 (destruct i as [|i]; [do 4 (destruct j as [|j]; [cbn; try lra; lia|]); lia|]). lia. Qed.
Lemma inc5 : increasing 5 (fun i => nth i (map IZR [0; 1; 2; 3; 4]%Z) 0).
Proof. intros i j H. do 5 (destruct i as [|i]; [do 5 (destruct j as [|j]; [cbn; try lra; lia|]); lia|]). lia. Qed.

Lemma good_gx p per2 : (1 <= p <= 3)%nat -> good_input false p [false; per2] gdims (gx IZR).
Proof.
  intros Hp. split; [discriminate|]. split; [reflexivity|]. split; [reflexivity|]. intros d Hd. cbn in Hd.
  destruct d as [|[|d]]; [| |lia].
  - cbn [nth gx gx' gdims]. unfold good_dim, coords_num, distinct. cbn [andb]. split; [lia|]. split; [lia|]. split; [reflexivity|]. split; [exact inc4|lia].
  - cbn [nth gx gdims]. unfold good_dim, coords_num, distinct. destruct per2; cbn [andb negb]; (split; [lia|]; split; [lia|lra]).
Qed.
Lemma good_gx' p per2 : (1 <= p <= 3)%nat -> good_input false p [false; per2] gdims (gx' IZR).
Proof.
  intros Hp. split; [discriminate|]. split; [reflexivity|]. split; [reflexivity|]. intros d Hd. cbn in Hd.
  destruct d as [|[|d]]; [| |lia].
  - cbn [nth gx gx' gdims]. unfold good_dim, coords_num, distinct. cbn [andb]. split; [lia|]. split; [lia|]. split; [reflexivity|]. split; [exact inc4|lia].
  - cbn [nth gx' gdims]. unfold good_dim, coords_num, distinct. destruct per2; cbn [andb negb]; (split; [lia|]; split; [lia|]; split; [reflexivity|]; split; [exact inc5|lia]).
Qed.
Lemma solvable_gx p per : (p <= 3)%nat -> solvable p per (gx IZR).
Proof. intros Hp d Hd. right. left. auto. Qed.
Lemma small_gx : small_dims gdims.
Proof. intros n [<-|[<-|[]]]; reflexivity. Qed.
Lemma same_gx per2 : same_grid false [false; per2] gdims (gx IZR) (gx' IZR).
Proof.
  intros d i Hd Hi. cbn in Hd. destruct d as [|[|d]]; [| |lia].
  - reflexivity.
  - assert (H : (i < 5)%nat) by (destruct per2; cbn in Hi; lia). unfold coordinate. destruct per2; cbn;
    do 5 (destruct i as [|i]; [cbn; lra|]); lia.
Qed.
Lemma countable_gx per2 xs : nth 1 xs 0 < 1000 -> countable_point false [false; per2] gdims (gx IZR) xs.
Proof.
  intros H d Hd. cbn in Hd. destruct d as [|[|d]]; [exact I| |lia]. cbn [nth gx]. unfold countable, two64.
  destruct per2; cbn; lra.
Qed.

(** Case analysis on the 20 indices. *)
Lemma gdims_ind (P : list nat -> Prop) :
  (forall i j, (i < 4)%nat -> (j < 5)%nat -> P [i; j]) -> forall idx, valid gdims idx -> P idx.
Proof.
  intros H idx V. inversion V as [|i ? l1 ? Hi V1]; subst. inversion V1 as [|j ? l2 ? Hj V2]; subst. inversion V2; subst. auto.
Qed.
Ltac cases20 := let i := fresh "i" in let j := fresh "j" in let Hi := fresh in let Hj := fresh in
  intros i j Hi Hj; do 4 (destruct i as [|i]; [do 5 (destruct j as [|j]; [try (unfold val_at; cbn; lra); try (cbn; lra)|]); lia|]); lia.

Lemma affine_gx : forall idx, valid gdims idx ->
  val_at (gaffine IZR) idx = 5 + dot [2; -3] (grid_point false [false; false] gdims (gx IZR) idx).
Proof. apply gdims_ind. cases20. Qed.
Lemma sum_gx : forall idx, valid gdims idx ->
  val_at (gsum IZR) idx = 1 * val_at (gdata IZR) idx + 2 * val_at (gaffine IZR) idx.
Proof. apply gdims_ind. cases20. Qed.

Lemma dummy_gx {T} (i : Z -> T) : forall idx, valid gdims idx ->
  (forall d, (d < 2)%nat -> nth d [false; true] false = true -> (nth d idx 0 + 1 < nth d gdims 0)%nat) ->
  nth_error (m_data (gdata i)) (row_major gdims idx) = nth_error (m_data (gdata' i)) (row_major gdims idx).
Proof.
  apply (gdims_ind (fun idx => (forall d, (d < 2)%nat -> nth d [false; true] false = true -> (nth d idx 0 + 1 < nth d gdims 0)%nat) ->
  nth_error (m_data (gdata i)) (row_major gdims idx) = nth_error (m_data (gdata' i)) (row_major gdims idx))).
  intros a b Ha Hb H. specialize (H 1%nat ltac:(lia) eq_refl). cbn in H.
  do 4 (destruct a as [|a]; [do 4 (destruct b as [|b]; [reflexivity|]); lia|]); lia.
Qed.

Lemma made p per2 (on : bool) f : (1 <= p <= 3)%nat -> m_dims f = gdims -> wf_mesh f ->
  exists g, interp_make Rops on false p [false; per2] f (gx IZR) = Ok g.
Proof. intros Hp Ef Wf. apply (make_ok on false p [false; per2] gdims); auto. apply good_gx; auto. apply solvable_gx; lia. Qed.

(** Bad coordinates: one too few; not increasing. *)
Definition short {T} (i : Z -> T) : list (xrange T) := [Points (map i [0; 1; 3]%Z); Uniform (i 0%Z) (i 4%Z)].
Definition unsorted {T} (i : Z -> T) : list (xrange T) := [Points (map i [0; 3; 1; 4]%Z); Uniform (i 0%Z) (i 4%Z)].
Lemma enough_gx (d : nat) : (d < 2)%nat ->
  enough_points false 3 (nth d [false; true] false) (nth d gdims 0%nat) (nth d (unsorted IZR) (Points [])).
Proof. intros Hd. unfold enough_points, coords_num, distinct. destruct d as [|[|d]]; [| |lia]; cbn [nth gdims unsorted andb negb]; (split; [lia|]; split; [lia|]); [lia|lra]. Qed.
Lemma bad_gx : bad_points false false 4 (nth 0 (unsorted IZR) (Points [])).
Proof. right. intros H. specialize (H 1%nat 2%nat ltac:(cbn; lia)). cbn in H. lra. Qed.

Definition evals (r : res (interp Q)) (xs : list (list Q)) : res (list Q) :=
  bind r (fun g => mapM (interp_eval Qops g) xs).

Lemma le13 : (1 <= 3 <= 3)%nat. Proof. lia. Qed.
Lemma ex_linear :
  good_input false 3 [false; true] gdims (gx IZR) /\
  (forall idx, valid gdims idx -> val_at (gsum IZR) idx = 1 * val_at (gdata IZR) idx + 2 * val_at (gaffine IZR) idx) /\
  (exists g, interp_make Rops true false 3 [false; true] (gdata IZR) (gx IZR) = Ok g) /\
  (exists g, interp_make Rops true false 3 [false; true] (gaffine IZR) (gx IZR) = Ok g) /\
  countable_point false [false; true] gdims (gx IZR) [7; -1].
Proof.
  split; [apply good_gx; lia|]. split; [apply sum_gx|]. split; [apply made; [lia|reflexivity|reflexivity]|]. split; [apply made; [lia|reflexivity|reflexivity]|].
  apply countable_gx. cbn. lra.
Qed.
Lemma ex_constant :
  good_input false 3 [false; true] gdims (gx IZR) /\ (forall v, In v (m_data (gones IZR)) -> v = 1) /\
  (exists g, interp_make Rops true false 3 [false; true] (gones IZR) (gx IZR) = Ok g) /\
  countable_point false [false; true] gdims (gx IZR) [7; -1].
Proof.
  split; [apply good_gx; lia|]. split; [cbn; tauto || (intros v H; repeat (destruct H as [<-|H]; [reflexivity|]); destruct H)|].
  split; [apply made; [lia|reflexivity|reflexivity]|]. apply countable_gx. cbn. lra.
Qed.
Lemma ex_range :
  good_input false 3 [false; true] gdims (gx IZR) /\ Nat.odd 3 = true /\
  (exists g, interp_make Rops true false 3 [false; true] (gdata IZR) (gx IZR) = Ok g) /\
  (forall d, (d < 2)%nat -> nth d [false; true] false = false ->
     coordinate false [false; true] gdims (gx IZR) d 0 <= nth d [4; -1] 0 <=
     coordinate false [false; true] gdims (gx IZR) d (nth d gdims 0%nat - 1)).
Proof.
  split; [apply good_gx; lia|]. split; auto. split; [apply made; [lia|reflexivity|reflexivity]|].
  intros d Hd E. destruct d as [|[|d]]; [|discriminate|lia]. unfold coordinate. cbn. lra.
Qed.
Lemma ex_range_even :
  good_input false 2 [false; true] gdims (gx IZR) /\ Nat.odd 2 = false /\
  (exists g, interp_make Rops true false 2 [false; true] (gdata IZR) (gx IZR) = Ok g) /\
  nth 0 [4; -1] 0 = coordinate false [false; true] gdims (gx IZR) 0 (nth 0 gdims 0%nat - 1).
Proof. split; [apply good_gx; lia|]. split; auto. split; [apply made; [lia|reflexivity|reflexivity]|]. reflexivity. Qed.
Lemma ex_affine :
  good_input false 3 [false; false] gdims (gx IZR) /\
  (forall idx, valid gdims idx ->
     val_at (gaffine IZR) idx = 5 + dot [2; -3] (grid_point false [false; false] gdims (gx IZR) idx)) /\
  (exists g, interp_make Rops true false 3 [false; false] (gaffine IZR) (gx IZR) = Ok g).
Proof. split; [apply good_gx; lia|]. split; [apply affine_gx|]. apply made; [lia|reflexivity|reflexivity]. Qed.

Definition get {A} (d : A) (r : res A) : A := match r with Ok a => a | _ => d end.
Definition nofun : interp Q := mkInterp (spline_empty Qops 0 []) [] [].

Lemma even_range_witness :
  exists f ranges g, interp_make Qops true false 2 [false] f ranges = Ok g /\
    ranges = [Uniform 0 3]%Q /\ interp_at Qops g [3%Q] = Throw DomainError /\ interp_eval Qops g [3%Q] = Ok 4%Q.
Proof.
  exists (mesh_of_list [1; 2; 0; 4]%Q), [Uniform 0 3]%Q.
  exists (get nofun (interp_make Qops true false 2 [false] (mesh_of_list [1; 2; 0; 4]%Q) [Uniform 0 3]%Q)).
  split; [vm_compute; reflexivity|]. split; [reflexivity|]. split; vm_compute; reflexivity.
Qed.
Lemma template_witness :
  exists (f : list Q) g h, interp1d_make Qops true true 3 f true = Ok g /\
    bind (templ1d_make Qops true true 3 (length f) true) (fun t => interpolate Qops true true t (mesh_of_list f)) = Ok h /\
    interp_eval Qops g [1%Q] = Ok 2%Q /\ nth 1 f 0%Q = 2%Q /\ interp_eval Qops h [1%Q] <> Ok 2%Q.
Proof.
  exists [1; 2; 0; 4]%Q, (get nofun (interp1d_make Qops true true 3 [1; 2; 0; 4]%Q true)),
   (get nofun (bind (templ1d_make Qops true true 3 4 true) (fun t => interpolate Qops true true t (mesh_of_list [1; 2; 0; 4]%Q)))).
  split; [vm_compute; reflexivity|]. split; [vm_compute; reflexivity|]. split; [vm_compute; reflexivity|].
  split; [reflexivity|]. vm_compute. discriminate.
Qed.
Lemma few_points_witness :
  exists f g, m_data f = [1; 1; 1]%Q /\ interp_make Qops true false 3 [true] f [Uniform 0 2]%Q = Ok g /\
    interp_eval Qops g [0%Q] = Ok (6#5)%Q.
Proof.
  exists (mesh_of_list [1; 1; 1]%Q), (get nofun (interp_make Qops true false 3 [true] (mesh_of_list [1; 1; 1]%Q) [Uniform 0 2]%Q)).
  split; [reflexivity|]. split; vm_compute; reflexivity.
Qed.

(** Integer arithmetic with truncated division, 0 for a zero divisor: total. *)
Definition Zops : ops Z := {|
  o0 := 0%Z; o1 := 1%Z; oadd := Z.add; osub := Z.sub; omul := Z.mul;
  odiv x y := Ok (Z.quot x y); ole := Z.leb; olt := Z.ltb; onat := Z.of_nat; ohalf := 0%Z;
  ofmod x y := Ok (Z.rem x y); oceil x := Ok (Z.to_nat x) |}.
Lemma order_zero_witness :
  exists (f : mesh Z) l, length l = 3%nat /\ m_dims f = [3%nat] /\ l = [0; 1; 2]%Z /\
    interp_make Zops true false 0 [false] f [Points l] = Fault OutOfBounds.
Proof. exists (mesh_of_list [0; 1; 2]%Z), [0; 1; 2]%Z. repeat split. Qed.
