(** Data errors on grids that are not uniform or not periodic: rows of the
    coefficient matrices of the orders 2 and 3. *)
From Coq Require Import List Arith Lia Bool ZArith Reals Lra.
From Verif Require Import Base Num InterpM SpecBand SpecSpline SplineProofs SumR DenseLU BasisProofs BetaProofs MulProofs
  SpecInterp KnotProofs KnotShape CoefProofs SolverProofs BuildProofs PerDom SpecStab StabProofs SWProofs.
Import ListNotations.
Open Scope R_scope.

(** Rows dominated by their diagonal, after scaling the columns. *)
Lemma stable_scaled n A (w : nat -> R) K :
  (forall r, (r < n)%nat -> 0 < w r <= K /\ (forall j, (j < n)%nat -> 0 <= A r j) /\ sum n (fun j => A r j * w j) <= 2 * (A r r * w r) - 1) ->
  stable n A K.
Proof.
  intros HA y B HB i Hi. destruct (argmax (fun j => Rabs (y j) / w j) n ltac:(lia)) as (r & Hr & Hm). cbv beta in Hm.
  destruct (HA r Hr) as (Hw & Hn & Hd). specialize (HB r Hr). set (m := Rabs (y r) / w r) in *.
  assert (M0 : 0 <= m) by (unfold m; apply Rmult_le_pos; [apply Rabs_pos|apply Rlt_le, Rinv_0_lt_compat; lra]).
  assert (Y : forall j, (j < n)%nat -> Rabs (y j) <= m * w j).
  { intros j Hj. destruct (HA j Hj) as (Hwj & _). specialize (Hm j Hj). apply (Rmult_le_compat_r (w j)) in Hm; [|lra].
    replace (Rabs (y j) / w j * w j) with (Rabs (y j)) in Hm by (field; lra). auto. }
  assert (Yr : Rabs (y r) = m * w r) by (unfold m; field; lra).
  assert (E : mv n A y r = A r r * y r + sum n (fun j => if (j =? r)%nat then 0 else A r j * y j)).
  { unfold mv. transitivity (sum n (fun j => if (j =? r)%nat then A r j * y j else 0) + sum n (fun j => if (j =? r)%nat then 0 else A r j * y j)).
    - rewrite <- sum_plus. apply sum_ext. intros j Hj. destruct (j =? r)%nat; lra.
    - f_equal. rewrite (sum_single n r); auto; [rewrite Nat.eqb_refl; auto|]. intros j Hj Ne. destruct (Nat.eqb_spec j r); [lia|auto]. }
  assert (E1 : sum n (fun j => A r j * w j) = A r r * w r + sum n (fun j => if (j =? r)%nat then 0 else A r j * w j)).
  { transitivity (sum n (fun j => if (j =? r)%nat then A r j * w j else 0) + sum n (fun j => if (j =? r)%nat then 0 else A r j * w j)).
    - rewrite <- sum_plus. apply sum_ext. intros j Hj. destruct (j =? r)%nat; lra.
    - f_equal. rewrite (sum_single n r); auto; [rewrite Nat.eqb_refl; auto|]. intros j Hj Ne. destruct (Nat.eqb_spec j r); [lia|auto]. }
  assert (O : Rabs (sum n (fun j => if (j =? r)%nat then 0 else A r j * y j)) <= m * sum n (fun j => if (j =? r)%nat then 0 else A r j * w j)).
  { eapply Rle_trans; [apply sum_Rabs|]. rewrite <- sum_scal. apply sum_le. intros j Hj. destruct (j =? r)%nat.
    - rewrite Rabs_R0. lra.
    - rewrite Rabs_mult, (Rabs_pos_eq (A r j)) by auto. specialize (Y j Hj). specialize (Hn j Hj).
      replace (m * (A r j * w j)) with (A r j * (m * w j)) by ring. apply Rmult_le_compat_l; auto. }
  assert (L : A r r * Rabs (y r) - Rabs (sum n (fun j => if (j =? r)%nat then 0 else A r j * y j)) <= B).
  { eapply Rle_trans; [|exact HB]. rewrite E. rewrite <- (Rabs_pos_eq (A r r)) at 1 by auto. rewrite <- Rabs_mult.
    set (u := A r r * y r). set (v := sum n _). pose proof (Rabs_triang (u + v) (- v)) as T. rewrite Rabs_Ropp in T.
    replace (u + v + - v) with u in T by ring. lra. }
  rewrite Yr in L. assert (MB : m <= B) by nra.
  destruct (HA i Hi) as (Hwi & _). specialize (Y i Hi). eapply Rle_trans; [exact Y|].
  apply Rle_trans with (m * K); [apply Rmult_le_compat_l; lra|]. rewrite Rmult_comm. apply Rmult_le_compat_l; lra.
Qed.

(** ** Basis functions of the orders 2 and 3 on one segment *)
Section Local.
Variables (t : nat -> R) (j : nat) (x : R).

Lemma local2 : t (j + 1)%nat <= t (j + 2)%nat -> t (j + 2)%nat < t (j + 3)%nat -> t (j + 3)%nat <= t (j + 4)%nat ->
  piece t (j + 2) 2 j x = (t (j + 3)%nat - x) ^ 2 / ((t (j + 3)%nat - t (j + 2)%nat) * (t (j + 3)%nat - t (j + 1)%nat)) /\
  piece t (j + 2) 2 (j + 1) x = (x - t (j + 1)%nat) * (t (j + 3)%nat - x) / ((t (j + 3)%nat - t (j + 2)%nat) * (t (j + 3)%nat - t (j + 1)%nat))
    + (t (j + 4)%nat - x) * (x - t (j + 2)%nat) / ((t (j + 3)%nat - t (j + 2)%nat) * (t (j + 4)%nat - t (j + 2)%nat)) /\
  piece t (j + 2) 2 (j + 2) x = (x - t (j + 2)%nat) ^ 2 / ((t (j + 3)%nat - t (j + 2)%nat) * (t (j + 4)%nat - t (j + 2)%nat)).
Proof.
  intros H1 H2 H3.
  assert (E : piece t (j + 2) 0 (j + 2) x = 1). { unfold piece; simpl. rewrite Nat.eqb_refl; auto. }
  assert (P1 : piece t (j + 2) 1 (j + 1) x = (t (j + 3)%nat - x) / (t (j + 3)%nat - t (j + 2)%nat)).
  { rewrite piece_S. rewrite (piece_support t (j + 2) 0 (j + 1)) by lia. replace (j + 1 + 1)%nat with (j + 2)%nat by lia. rewrite E.
    replace (j + 2 + 1)%nat with (j + 3)%nat by lia. rewrite (frac_ok (t (j + 3)%nat - x)) by lra. ring. }
  assert (P2 : piece t (j + 2) 1 (j + 2) x = (x - t (j + 2)%nat) / (t (j + 3)%nat - t (j + 2)%nat)).
  { rewrite piece_S. rewrite (piece_support t (j + 2) 0 (j + 2 + 1)) by lia. rewrite E.
    replace (j + 2 + 1)%nat with (j + 3)%nat by lia. rewrite (frac_ok (x - t (j + 2)%nat)) by lra. ring. }
  split; [|split]; rewrite piece_S.
  - rewrite (piece_support t (j + 2) 1 j), P1 by lia. replace (j + 2 + 1)%nat with (j + 3)%nat by lia.
    rewrite (frac_ok (t (j + 3)%nat - x)) by lra. field. lra.
  - replace (j + 1 + 1)%nat with (j + 2)%nat by lia. rewrite P1, P2. replace (j + 1 + 2)%nat with (j + 3)%nat by lia.
    replace (j + 3 + 1)%nat with (j + 4)%nat by lia. rewrite !frac_ok by lra. field. lra.
  - rewrite (piece_support t (j + 2) 1 (j + 2 + 1)), P2 by lia. replace (j + 2 + 2)%nat with (j + 4)%nat by lia.
    rewrite (frac_ok (x - t (j + 2)%nat)) by lra. field. lra.
Qed.
End Local.

Section Local3.
Variables (t : nat -> R) (j : nat) (x : R).
Hypothesis H1 : t (j + 1)%nat <= t (j + 2)%nat.
Hypothesis H2 : t (j + 2)%nat <= t (j + 3)%nat.
Hypothesis H3 : t (j + 3)%nat < t (j + 4)%nat.
Hypothesis H4 : t (j + 4)%nat <= t (j + 5)%nat.
Hypothesis H5 : t (j + 5)%nat <= t (j + 6)%nat.
Let t1 := t (j + 1)%nat. Let t2 := t (j + 2)%nat. Let t3 := t (j + 3)%nat. Let t4 := t (j + 4)%nat. Let t5 := t (j + 5)%nat. Let t6 := t (j + 6)%nat.
Let b1 := (t4 - x) ^ 2 / ((t4 - t3) * (t4 - t2)).
Let b2 := (x - t2) * (t4 - x) / ((t4 - t3) * (t4 - t2)) + (t5 - x) * (x - t3) / ((t4 - t3) * (t5 - t3)).
Let b3 := (x - t3) ^ 2 / ((t4 - t3) * (t5 - t3)).

Lemma local3 :
  piece t (j + 3) 3 j x = (t4 - x) / (t4 - t1) * b1 /\
  piece t (j + 3) 3 (j + 1) x = (x - t1) / (t4 - t1) * b1 + (t5 - x) / (t5 - t2) * b2 /\
  piece t (j + 3) 3 (j + 2) x = (x - t2) / (t5 - t2) * b2 + (t6 - x) / (t6 - t3) * b3 /\
  piece t (j + 3) 3 (j + 3) x = (x - t3) / (t6 - t3) * b3.
Proof.
  destruct (local2 t (j + 1) x) as (E1 & E2 & E3).
  { replace (j + 1 + 1)%nat with (j + 2)%nat by lia. replace (j + 1 + 2)%nat with (j + 3)%nat by lia. auto. }
  { replace (j + 1 + 2)%nat with (j + 3)%nat by lia. replace (j + 1 + 3)%nat with (j + 4)%nat by lia. auto. }
  { replace (j + 1 + 3)%nat with (j + 4)%nat by lia. replace (j + 1 + 4)%nat with (j + 5)%nat by lia. auto. }
  replace (j + 1 + 1)%nat with (j + 2)%nat in * by lia. replace (j + 1 + 2)%nat with (j + 3)%nat in * by lia.
  replace (j + 1 + 3)%nat with (j + 4)%nat in * by lia. replace (j + 1 + 4)%nat with (j + 5)%nat in * by lia.
  fold t2 t3 t4 t5 in E1, E2, E3. fold b1 in E1. fold b2 in E2. fold b3 in E3.
  fold t1 t2 in H1. fold t2 t3 in H2. fold t3 t4 in H3. fold t4 t5 in H4. fold t5 t6 in H5.
  split; [|split; [|split]]; rewrite piece_S.
  - rewrite (piece_support t (j + 3) 2 j), E1 by lia. replace (j + 3 + 1)%nat with (j + 4)%nat by lia. fold t4 t1.
    rewrite (frac_ok (t4 - x)) by lra. ring.
  - replace (j + 1 + 1)%nat with (j + 2)%nat by lia. rewrite E1, E2. replace (j + 1 + 3)%nat with (j + 4)%nat by lia.
    replace (j + 4 + 1)%nat with (j + 5)%nat by lia. fold t1 t2 t4 t5. rewrite !frac_ok by lra. ring.
  - replace (j + 2 + 1)%nat with (j + 3)%nat by lia. rewrite E2, E3. replace (j + 2 + 3)%nat with (j + 5)%nat by lia.
    replace (j + 5 + 1)%nat with (j + 6)%nat by lia. fold t2 t3 t5 t6. rewrite !frac_ok by lra. ring.
  - rewrite (piece_support t (j + 3) 2 (j + 3 + 1)), E3 by lia. replace (j + 3 + 3)%nat with (j + 6)%nat by lia. fold t3 t6.
    rewrite (frac_ok (x - t3)) by lra. ring.
Qed.
End Local3.
