(** Rows of periodic dimensions whose distances differ at most by a factor 2. *)
From Coq Require Import List Arith Lia Bool ZArith Reals Lra.
From Verif Require Import Base Num InterpM SpecBand SpecSpline SplineProofs SumR DenseLU BasisProofs BetaProofs
  SpecInterp KnotProofs KnotShape CoefProofs SolverProofs BuildProofs PerDom SpecStab StabProofs.
Import ListNotations.
Open Scope R_scope.

Lemma div_le2 a b c : 0 <= a -> 0 < b -> b <= c -> a / c <= a / b.
Proof. intros. apply Rmult_le_compat_l; auto. apply Rinv_le_contravar; auto. Qed.

Lemma ratio_cubic0 l1 l2 r1 r2 : 0 < l1 -> 0 < r1 -> l1 <= r1 <= 2 * l1 -> r1 <= 2 * l2 -> r1 <= 2 * r2 ->
  r1 * r1 / ((l1 + r1) * (l2 + l1 + r1)) + l1 * l1 / ((l1 + r1) * (l1 + r1 + r2)) <= 5 / 12.
Proof.
  intros H1 H2 H3 H4 H5. assert (S : 0 < (l1 + r1) * (l1 + 3 / 2 * r1)) by nra.
  apply Rle_trans with (r1 * r1 / ((l1 + r1) * (l1 + 3 / 2 * r1)) + l1 * l1 / ((l1 + r1) * (l1 + 3 / 2 * r1))).
  - apply Rplus_le_compat; apply div_le2; nra.
  - apply (Rmult_le_reg_r ((l1 + r1) * (l1 + 3 / 2 * r1))); auto.
    replace ((r1 * r1 / ((l1 + r1) * (l1 + 3 / 2 * r1)) + l1 * l1 / ((l1 + r1) * (l1 + 3 / 2 * r1))) * ((l1 + r1) * (l1 + 3 / 2 * r1))) with (r1 * r1 + l1 * l1) by (field; lra).
    assert (0 <= (2 * l1 - r1) * (9 * r1 - 7 * l1)) by (apply Rmult_le_pos; lra). nra.
Qed.
Lemma ratio_cubic l1 l2 r1 r2 : 0 < l1 -> 0 < l2 -> 0 < r1 -> 0 < r2 -> r1 <= 2 * l1 -> l1 <= 2 * r1 -> r1 <= 2 * l2 -> r1 <= 2 * r2 -> l1 <= 2 * l2 -> l1 <= 2 * r2 ->
  r1 * r1 / ((l1 + r1) * (l2 + l1 + r1)) + l1 * l1 / ((l1 + r1) * (l1 + r1 + r2)) <= 5 / 12.
Proof.
  intros. destruct (Rle_or_lt l1 r1).
  - apply ratio_cubic0; lra.
  - pose proof (ratio_cubic0 r1 r2 l1 l2 ltac:(lra) ltac:(lra) ltac:(lra) ltac:(lra) ltac:(lra)) as Q.
    replace (r1 + l1) with (l1 + r1) in Q by ring. replace (r2 + r1 + l1) with (l1 + r1 + r2) in Q by ring. replace (l1 + r1 + l2) with (l2 + l1 + r1) in Q by ring. lra.
Qed.

Lemma ratio_square0 l1 l2 r1 r2 : 0 < l1 -> 0 < r1 -> l1 <= r1 <= 2 * l1 -> r1 <= 2 * l2 -> r1 <= 2 * r2 ->
  r1 * r1 / ((l1 + r1) * (l2 + 2 * l1 + r1)) + l1 * l1 / ((l1 + r1) * (l1 + 2 * r1 + r2)) <= 29 / 90.
Proof.
  intros H1 H2 H3 H4 H5. assert (S1 : 0 < 2 * l1 + 3 / 2 * r1) by lra. assert (S2 : 0 < l1 + 5 / 2 * r1) by lra.
  apply Rle_trans with (r1 * r1 / ((l1 + r1) * (2 * l1 + 3 / 2 * r1)) + l1 * l1 / ((l1 + r1) * (l1 + 5 / 2 * r1))).
  - apply Rplus_le_compat; apply div_le2; nra.
  - assert (S : 0 < (l1 + r1) * ((2 * l1 + 3 / 2 * r1) * (l1 + 5 / 2 * r1))) by (repeat apply Rmult_lt_0_compat; lra).
    apply (Rmult_le_reg_r ((l1 + r1) * ((2 * l1 + 3 / 2 * r1) * (l1 + 5 / 2 * r1)))); auto.
    replace ((r1 * r1 / ((l1 + r1) * (2 * l1 + 3 / 2 * r1)) + l1 * l1 / ((l1 + r1) * (l1 + 5 / 2 * r1))) * ((l1 + r1) * ((2 * l1 + 3 / 2 * r1) * (l1 + 5 / 2 * r1))))
      with (r1 * r1 * (l1 + 5 / 2 * r1) + l1 * l1 * (2 * l1 + 3 / 2 * r1)) by (field; lra).
    assert (Q : 0 <= (2 * l1 - r1) * (465 / 4 * (r1 * r1) + 101 / 4 * (r1 * l1) - 61 * (l1 * l1))) by (apply Rmult_le_pos; nra). nra.
Qed.
Lemma ratio_square l1 l2 r1 r2 : 0 < l1 -> 0 < l2 -> 0 < r1 -> 0 < r2 -> r1 <= 2 * l1 -> l1 <= 2 * r1 -> r1 <= 2 * l2 -> r1 <= 2 * r2 -> l1 <= 2 * l2 -> l1 <= 2 * r2 ->
  r1 * r1 / ((l1 + r1) * (l2 + 2 * l1 + r1)) + l1 * l1 / ((l1 + r1) * (l1 + 2 * r1 + r2)) <= 29 / 90.
Proof.
  intros. destruct (Rle_or_lt l1 r1).
  - apply ratio_square0; lra.
  - pose proof (ratio_square0 r1 r2 l1 l2 ltac:(lra) ltac:(lra) ltac:(lra) ltac:(lra) ltac:(lra)) as Q.
    replace (r1 + l1) with (l1 + r1) in Q by ring. replace (r2 + 2 * r1 + l1) with (l1 + 2 * r1 + r2) in Q by ring. replace (r1 + 2 * l1 + l2) with (l2 + 2 * l1 + r1) in Q by ring. lra.
Qed.

Section Per.
Variables (p N : nat) (x : nat -> R).
Hypothesis Hp : (p + 1 <= N)%nat.
Hypothesis Hx : increasing (N + 1) x.
Let P := x N - x 0%nat.
Let X := pext N P x.
Let e (i : nat) := X (i + 1)%nat - X i.
Hypothesis HR : forall i j, (i < N)%nat -> (j < N)%nat -> x (i + 1)%nat - x i <= 2 * (x (j + 1)%nat - x j).

Lemma ep_pos i : 0 < e i.
Proof. unfold e, X, P. pose proof (pext_step p N x Hx Hp i). lra. Qed.
Lemma ep_add q i : e (i + q * N)%nat = e i.
Proof.
  induction q; [f_equal; lia|]. rewrite <- IHq. unfold e, X.
  replace (i + S q * N + 1)%nat with (i + q * N + 1 + N)%nat by lia. replace (i + S q * N)%nat with (i + q * N + N)%nat by lia. rewrite !pext_add by lia. ring.
Qed.
Lemma ep_mod i : e i = x (i mod N + 1)%nat - x (i mod N)%nat.
Proof.
  rewrite (Nat.div_mod i N) at 1 by lia. rewrite Nat.add_comm, Nat.mul_comm, ep_add. unfold e, X, P.
  pose proof (Nat.mod_upper_bound i N ltac:(lia)). rewrite !pext_in by lia. reflexivity.
Qed.
Lemma ep_ratio i j : e i <= 2 * e j.
Proof. rewrite !ep_mod. apply HR; apply Nat.mod_upper_bound; lia. Qed.

Lemma ratio_rows i : (i < N)%nat -> (p = 2 \/ p = 3)%nat ->
  (if (p =? 2)%nat then 61 / 90 else 7 / 12) <= piece (kn (knots_for p true N x)) (i + p) p (i + p / 2) (x i).
Proof.
  intros Hi Hp23. pose proof (half_cases p) as HC. pose proof ep_ratio as RT.
  pose proof (row_unity p N x Hp Hx i (x i) Hi) as RU.
  set (t := per_knot p N P x).
  assert (ET : forall a, (a <= p)%nat -> piece (kn (knots_for p true N x)) (i + p) p (i + a) (x i) = piece t (i + p) p (i + a) (x i)).
  { intros a Ha. apply piece_ext. intros i' Hi'. unfold t, P. apply pk_at. lia. }
  rewrite (sum_ext _ _ (fun a => piece t (i + p) p (i + a) (x i))) in RU by (intros; apply ET; lia).
  rewrite ET by lia.
  assert (Ht : forall i, t i < t (i + 1)%nat) by (intros; apply per_step; auto).
  set (l1 := e (i + N - 1)). set (l2 := e (i + N - 2)). set (r1 := e (i + N)). set (r2 := e (i + N + 1)).
  pose proof (ep_pos (i + N - 1)) as P1. pose proof (ep_pos (i + N - 2)) as P2. pose proof (ep_pos (i + N)) as P3. pose proof (ep_pos (i + N + 1)) as P4.
  fold l1 in P1. fold l2 in P2. fold r1 in P3. fold r2 in P4.
  assert (EXi : x i = X (i + N)%nat - P). { unfold X, P. rewrite pext_add, pext_in by lia. ring. }
  assert (D1 : X (i + N)%nat = X (i + N - 1)%nat + l1). { unfold l1, e. replace (i + N - 1 + 1)%nat with (i + N)%nat by lia. ring. }
  assert (D2 : X (i + N - 1)%nat = X (i + N - 2)%nat + l2). { unfold l2, e. replace (i + N - 2 + 1)%nat with (i + N - 1)%nat by lia. ring. }
  assert (D3 : X (i + N + 1)%nat = X (i + N)%nat + r1) by (unfold r1, e; ring).
  assert (D4 : X (i + N + 2)%nat = X (i + N + 1)%nat + r2).
  { unfold r2, e. replace (i + N + 1 + 1)%nat with (i + N + 2)%nat by lia. ring. }
  assert (PA : t (i + p)%nat <= x i < t (i + p + 1)%nat) by (apply per_at; auto; lia).
  assert (ET' : t = per_knot p N P x) by reflexivity. clearbody t.
  destruct Hp23 as [E|E].
  - assert (TV : forall a, t (i + a)%nat = (X (i + N + a - 3)%nat + X (i + N + a - 2)%nat) / 2 - P).
    { intros a. rewrite ET'. unfold per_knot. rewrite E. cbn [Nat.even]. fold X. f_equal. f_equal. f_equal; f_equal; lia. }
    rewrite E in *. change (2 + 1)%nat with 3%nat in *. cbn [sum] in RU |- *. change (2 / 2)%nat with 1%nat.
    destruct (piece2_ends t i (x i) Ht) as [EA EG].
    { replace (i + 2 + 1)%nat with (i + 3)%nat in PA by lia. exact PA. }
    replace (i + N + 3 - 3)%nat with (i + N)%nat in * by lia.
    assert (T1 : t (i + 1)%nat = (X (i + N - 2)%nat + X (i + N - 1)%nat) / 2 - P). { rewrite TV. f_equal. f_equal. f_equal; f_equal; lia. }
    assert (T2 : t (i + 2)%nat = (X (i + N - 1)%nat + X (i + N)%nat) / 2 - P). { rewrite TV. f_equal. f_equal. f_equal; f_equal; lia. }
    assert (T3 : t (i + 3)%nat = (X (i + N)%nat + X (i + N + 1)%nat) / 2 - P). { rewrite TV. f_equal. f_equal. f_equal; f_equal; lia. }
    assert (T4 : t (i + 4)%nat = (X (i + N + 1)%nat + X (i + N + 2)%nat) / 2 - P). { rewrite TV. f_equal. f_equal. f_equal; f_equal; lia. }
    replace (i + 0)%nat with i in * by lia.
    set (A0 := piece t (i + 2) 2 i (x i)) in *. set (A1 := piece t (i + 2) 2 (i + 1) (x i)) in *.
    set (A2 := piece t (i + 2) 2 (i + 2) (x i)) in *.
    pose proof (ratio_square l1 l2 r1 r2 P1 P2 P3 P4 ltac:(apply RT) ltac:(apply RT) ltac:(apply RT) ltac:(apply RT) ltac:(apply RT) ltac:(apply RT)) as GS.
    assert (EA' : A0 = r1 * r1 / ((l1 + r1) * (l2 + 2 * l1 + r1))).
    { rewrite EA, T1, T2, T3, EXi. rewrite D3, D1, D2. field. lra. }
    assert (EG' : A2 = l1 * l1 / ((l1 + r1) * (l1 + 2 * r1 + r2))).
    { rewrite EG, T2, T3, T4, EXi. rewrite D4, D3, D1, D2. field. lra. }
    rewrite <- EA', <- EG' in GS. cbn [Nat.eqb]. lra.
  - assert (TV : forall a, t (i + a)%nat = X (i + N + a - 3)%nat - P).
    { intros a. rewrite ET'. unfold per_knot. rewrite E. cbn [Nat.even]. fold X. f_equal. f_equal. lia. }
    rewrite E in *. change (3 + 1)%nat with 4%nat in *. cbn [sum] in RU |- *. change (3 / 2)%nat with 1%nat.
    destruct (piece3_ends t i Ht) as (EA & EG & EZ).
    assert (T3 : t (i + 3)%nat = x i). { rewrite TV, EXi. f_equal. f_equal. lia. } rewrite T3 in EA, EG, EZ.
    rewrite EZ in *.
    assert (T1 : t (i + 1)%nat = X (i + N - 2)%nat - P). { rewrite TV. f_equal. f_equal. lia. }
    assert (T2 : t (i + 2)%nat = X (i + N - 1)%nat - P). { rewrite TV. f_equal. f_equal. lia. }
    assert (T4 : t (i + 4)%nat = X (i + N + 1)%nat - P). { rewrite TV. f_equal. f_equal. lia. }
    assert (T5 : t (i + 5)%nat = X (i + N + 2)%nat - P). { rewrite TV. f_equal. f_equal. lia. }
    replace (i + 0)%nat with i in * by lia.
    set (A0 := piece t (i + 3) 3 i (x i)) in *. set (A1 := piece t (i + 3) 3 (i + 1) (x i)) in *.
    set (A2 := piece t (i + 3) 3 (i + 2) (x i)) in *.
    pose proof (ratio_cubic l1 l2 r1 r2 P1 P2 P3 P4 ltac:(apply RT) ltac:(apply RT) ltac:(apply RT) ltac:(apply RT) ltac:(apply RT) ltac:(apply RT)) as GS.
    assert (EA' : A0 = r1 * r1 / ((l1 + r1) * (l2 + l1 + r1))).
    { rewrite EA, T1, T2, T4, EXi. rewrite D3, D1, D2. field. lra. }
    assert (EG' : A2 = l1 * l1 / ((l1 + r1) * (l1 + r1 + r2))).
    { rewrite EG, T2, T4, T5, EXi. rewrite D4, D3, D1, D2. field. lra. }
    rewrite <- EA', <- EG' in GS. cbn [Nat.eqb]. lra.
Qed.


Lemma per_rows A : (p = 2 \/ p = 3)%nat -> col_good p true N x A -> forall r, (r < N)%nat ->
  (forall j, (j < N)%nat -> 0 <= A r j) /\ sum N (A r) = 1 /\ (if (p =? 2)%nat then 61 / 90 else 7 / 12) <= A r r.
Proof.
  intros P23 HC r Hr.
  destruct (rowof_onto p N r Hp Hr) as (i & Hi & Er).
  destruct (HC i Hi) as (k & Hk & EA). apply row_seg in Hk; auto. subst k. rewrite Er in EA.
  set (K := knots_for p true N x) in *.
  pose proof (pk_len p N x) as LK. fold K in LK. pose proof (half_cases p) as HHC.
  pose proof (per_at p N x Hx Hp i ltac:(lia)) as PA.
  assert (KA : forall i, (i < N + 2 * p + 1 + (1 - p mod 2))%nat -> kn K i = per_knot p N (x N - x 0%nat) x i) by (intros; apply pk_at; auto).
  split; [|split].
  - intros j Hj. rewrite EA by auto. apply sum_pos. intros c Hc. destruct (_ =? _)%nat; [|lra].
    apply (piece_nonneg (kn K) (N + 2 * p + 1 + (1 - p mod 2)) (i + p)); try lia.
    + intros u v Huv. rewrite !KA by lia. apply per_mono; auto; lia.
    + rewrite !KA by lia. apply per_step; auto.
    + rewrite !KA by lia. lra.
  - rewrite <- (row_unity p N x Hp Hx i (x i) Hi). fold K.
    rewrite (sum_ext N _ (fun j => sum (p + 1) (fun e => if ((i + e) mod N =? j)%nat then piece (kn K) (i + p) p (i + e) (x i) else 0))).
    + rewrite sum_swap. apply sum_ext. intros c Hc.
      rewrite (sum_single N ((i + c) mod N) (fun j => if ((i + c) mod N =? j)%nat then _ else 0)).
      * rewrite Nat.eqb_refl. reflexivity.
      * apply Nat.mod_upper_bound; lia.
      * intros j Hj Hne. destruct (Nat.eqb_spec ((i + c) mod N) j); auto; congruence.
    + intros j Hj. rewrite EA by auto. unfold Bmat. apply sum_ext. intros c Hc.
      replace (i + p - p + c)%nat with (i + c)%nat by lia. reflexivity.
  - eapply Rle_trans; [apply (ratio_rows i Hi P23)|]. fold K. rewrite EA by auto. unfold Bmat. rewrite (sum_single (p + 1) (p / 2)).
    + replace (i + p - p + p / 2)%nat with (i + p / 2)%nat by lia. unfold rowof in Er. rewrite Er, Nat.eqb_refl. lra.
    + lia.
    + intros c He Hne. destruct (Nat.eqb_spec ((i + p - p + c) mod N) r) as [E|]; auto.
      exfalso. apply Hne. rewrite <- Er in E. unfold rowof in E. replace (i + p - p + c)%nat with (i + c)%nat in E by lia.
      revert E. clear -He Hp HHC Hi. intros E.
      pose proof (Nat.div_mod (i + c) N ltac:(lia)). pose proof (Nat.div_mod (i + p / 2) N ltac:(lia)).
      assert ((i + c) / N <= 1)%nat by (apply Nat.lt_succ_r, Nat.div_lt_upper_bound; lia).
      assert ((i + p / 2) / N <= 1)%nat by (apply Nat.lt_succ_r, Nat.div_lt_upper_bound; lia).
      set (u := ((i + c) / N)%nat) in *. set (v := ((i + p / 2) / N)%nat) in *.
      destruct u as [|[|]]; destruct v as [|[|]]; lia.
Qed.
End Per.
