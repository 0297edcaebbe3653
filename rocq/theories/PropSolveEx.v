(** Examples for PropSolve.v. *)
From Coq Require Import List Arith Lia Bool ZArith Reals Lra Floats.
From Flocq Require Import Core.
From Verif Require Import Base Num FloatM MeshM BandM ProgM LUM SpecBand LUTop SpecRound.
Import ListNotations.
Local Open Scope nat_scope.

(** Four equations: a band of one, and with corners (the cyclic system). *)
Definition sv_h : list (nat * nat * PrimFloat.float) :=
  [(0, 0, 4%float); (0, 1, 1%float); (1, 0, 1%float); (1, 1, 4%float); (1, 2, 1%float); (2, 1, 1%float); (2, 2, 4%float); (2, 3, 1%float); (3, 2, 1%float); (3, 3, 4%float)].
Definition sv_he : list (nat * nat * PrimFloat.float) := (0, 3, 1%float) :: (3, 0, 0.1%float) :: sv_h.
Definition sv_iter (i : nat) : loc := (0, i).
Definition sv_mem : mem PrimFloat.float := [[6; 12; 18; 0.3]]%float.
Definition sv_b (i : nat) : PrimFloat.float := nth i [6; 12; 18; 0.3]%float zero.

Lemma sv_writes : writes_in (in_band 4 1 1) sv_h /\ writes_in (in_ext 4 1 1) sv_he.
Proof. split; unfold writes_in, sv_he, sv_h; repeat apply Forall_cons; try apply Forall_nil; unfold in_ext, in_band; cbn [fst snd]; lia. Qed.
Lemma sv_good : good_iter 4 sv_iter sv_mem /\ vector_at 4 sv_iter sv_mem sv_mem sv_b.
Proof.
  assert (C : forall i, i < 4 -> i = 0 \/ i = 1 \/ i = 2 \/ i = 3) by lia.
  split; [split|split; [|split]]; auto.
  - intros i j _ _ E. inversion E; auto.
  - intros i Hi. destruct (C i Hi) as [->|[->|[->| ->]]]; eexists; reflexivity.
  - intros i Hi. destruct (C i Hi) as [->|[->|[->| ->]]]; reflexivity.
Qed.
Lemma sv_size : (INR 4 <= powerRZ 2 40)%R.
Proof. rewrite <- (bpow_powerRZ radix2). replace (INR 4) with (bpow radix2 2) by (cbn; lra). apply bpow_le. lia. Qed.

Definition finb (x : PrimFloat.float) : bool := match Prim2SF x with S754_finite _ _ _ | S754_zero _ => true | _ => false end.
Lemma finb_ok x : finb x = true -> double_finite x.
Proof. unfold finb, double_finite. destruct (Prim2SF x); auto; discriminate. Qed.
Definition res_fin (r : res PrimFloat.float) : bool := match r with Ok v => finb v | _ => false end.

Lemma sv_band : exists m f m1, build_band Fops true 4 1 1 sv_h = Ok m /\ band_lu Fops true m = Ok f /\
  run (band_solve Fops true f sv_iter) sv_mem = Ok (tt, m1) /\
  forallb (fun i => forallb (fun j => (1 <? i - j) || (1 <? j - i) || res_fin (band_get true f i j)) (seq 0 4) && res_fin (mem_get m1 (sv_iter i))) (seq 0 4) = true.
Proof. do 3 eexists. split; [vm_compute; reflexivity|]. split; [vm_compute; reflexivity|]. split; [vm_compute; reflexivity|]. vm_compute. reflexivity. Qed.
Lemma sv_eband : exists m f m1, build_eband Fops true 4 1 1 sv_he = Ok m /\ eband_lu Fops true m = Ok f /\
  run (eband_solve Fops true f sv_iter) sv_mem = Ok (tt, m1) /\
  forallb (fun i => forallb (fun j => (1 <? i - j) && (i <? 3) || (1 <? j - i) && (j <? 3) || res_fin (eb_get true f i j)) (seq 0 4) && res_fin (mem_get m1 (sv_iter i))) (seq 0 4) = true.
Proof. do 3 eexists. split; [vm_compute; reflexivity|]. split; [vm_compute; reflexivity|]. split; [vm_compute; reflexivity|]. vm_compute. reflexivity. Qed.
Lemma res_fin_ok r : res_fin r = true -> exists v, r = Ok v /\ double_finite v.
Proof. destruct r; cbn; try discriminate. intros. eexists. split; [reflexivity|]. apply finb_ok; auto. Qed.

Lemma sv_band_example : exists m f m1,
  build_band Fops true 4 1 1 sv_h = Ok m /\ band_lu Fops true m = Ok f /\ run (band_solve Fops true f sv_iter) sv_mem = Ok (tt, m1) /\
  (forall i j, in_band 4 1 1 i j -> exists v, band_get true f i j = Ok v /\ double_finite v) /\
  (forall i, i < 4 -> exists v, mem_get m1 (sv_iter i) = Ok v /\ double_finite v).
Proof.
  destruct sv_band as (m & f & m1 & A & B & C & D). exists m, f, m1. do 3 (split; [assumption|]). rewrite forallb_forall in D. split.
  - intros i j (Hi & Hj & H1 & H2). specialize (D i (proj2 (in_seq 4 0 i) ltac:(lia))). apply andb_prop in D. destruct D as [D _]. rewrite forallb_forall in D.
    specialize (D j (proj2 (in_seq 4 0 j) ltac:(lia))). destruct (Nat.ltb_spec 1 (i - j)), (Nat.ltb_spec 1 (j - i)); try lia. apply res_fin_ok. exact D.
  - intros i Hi. specialize (D i (proj2 (in_seq 4 0 i) ltac:(lia))). apply andb_prop in D. destruct D as [_ D]. apply res_fin_ok. exact D.
Qed.
Lemma sv_eband_example : exists m f m1,
  build_eband Fops true 4 1 1 sv_he = Ok m /\ eband_lu Fops true m = Ok f /\ run (eband_solve Fops true f sv_iter) sv_mem = Ok (tt, m1) /\
  (forall i j, in_ext 4 1 1 i j -> exists v, eb_get true f i j = Ok v /\ double_finite v) /\
  (forall i, i < 4 -> exists v, mem_get m1 (sv_iter i) = Ok v /\ double_finite v).
Proof.
  destruct sv_eband as (m & f & m1 & A & B & C & D). exists m, f, m1. do 3 (split; [assumption|]). rewrite forallb_forall in D. split.
  - intros i j (Hi & Hj & H). specialize (D i (proj2 (in_seq 4 0 i) ltac:(lia))). apply andb_prop in D. destruct D as [D _]. rewrite forallb_forall in D.
    specialize (D j (proj2 (in_seq 4 0 j) ltac:(lia))). unfold in_band in H.
    destruct (Nat.ltb_spec 1 (i - j)), (Nat.ltb_spec 1 (j - i)), (Nat.ltb_spec i 3), (Nat.ltb_spec j 3); try lia; apply res_fin_ok; exact D.
  - intros i Hi. specialize (D i (proj2 (in_seq 4 0 i) ltac:(lia))). apply andb_prop in D. destruct D as [_ D]. apply res_fin_ok. exact D.
Qed.
