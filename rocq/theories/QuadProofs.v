(** Second order of approximation. *)
From Coq Require Import List Arith Lia Bool ZArith Reals Lra FunctionalExtensionality.
From Coquelicot Require Import Coquelicot.
From Verif Require Import Base Num MeshM SpecMesh MeshProofs ProgM BandM LUM SplineM InterpM.
From Verif Require Import SumR DenseLU SpecBand BandProofs MulProofs LUProofs LUConv SpecSpline SpecSplineObj SplineProofs BasisProofs BetaProofs TensorR EvalProofs EvalR SplineTop SplineCalc SpecInterp KnotProofs KnotShape CoefProofs SolverProofs RoundProofs SolveProofs BuildProofs WeightProofs InterpProofs PerDom PerPD InterpTop InterpFinal AffineProofs PolyProofs SymBasis SymProofs SpecDims LinProofs RoundTensor
  SpecCurve VecTop MonoTop SpecStab StabProofs StabTop SpecSmooth SpecApprox ApproxProofs ApproxTop.
Import ListNotations.
Open Scope R_scope.

(** ** One variable *)
Lemma taylor_above (F F1 F2 : R -> R) (M lo hi y q : R) :
  lo <= y <= hi -> lo <= q <= hi ->
  (forall t, lo <= t <= hi -> is_derive F t (F1 t) /\ is_derive F1 t (F2 t) /\ F2 t <= M) ->
  F q <= F y + F1 y * (q - y) + M / 2 * (q - y) ^ 2.
Proof.
  intros Hy Hq H.
  assert (C : forall f l t, is_derive (K := R_AbsRing) (V := R_NormedModule) f t l -> continuity_pt f t).
  { intros f l t D. apply continuity_pt_filterlim. apply (ex_derive_continuous (V := R_NormedModule)). exists l. exact D. }
  set (G := fun t => F t - (F y + F1 y * (t - y) + M / 2 * (t - y) ^ 2)).
  assert (DG : forall t, lo <= t <= hi -> is_derive G t (F1 t - (F1 y + M * (t - y)))).
  { intros t Ht. unfold G. auto_derive.
    - exists (F1 t). apply H; auto.
    - destruct (H t Ht) as (D & _). replace (Derive (fun x : R => F x) t) with (F1 t) by (symmetry; apply is_derive_unique; exact D). field. }
  assert (B : forall t, Rmin y q <= t <= Rmax y q -> lo <= t <= hi).
  { intros t Ht. unfold Rmin, Rmax in Ht. destruct (Rle_dec y q); lra. }
  destruct (MVT_gen G y q (fun t => F1 t - (F1 y + M * (t - y)))) as (c & Hc & E).
  - intros t Ht. apply DG. apply B. lra.
  - intros t Ht. apply (C G (F1 t - (F1 y + M * (t - y)))). apply DG. apply B. lra.
  - assert (Bc : forall t, Rmin y c <= t <= Rmax y c -> lo <= t <= hi).
    { intros t Ht. apply B. unfold Rmin, Rmax in *. destruct (Rle_dec y q); destruct (Rle_dec y c); lra. }
    destruct (MVT_gen F1 y c F2) as (c' & Hc' & E').
    + intros t Ht. apply H. apply Bc. lra.
    + intros t Ht. apply (C F1 (F2 t)). apply H. apply Bc. lra.
    + assert (S : 0 <= (c - y) * (q - y)).
      { unfold Rmin, Rmax in Hc. destruct (Rle_dec y q); nra. }
      destruct (H c' (Bc c' Hc')) as (_ & _ & Hm).
      assert (G q - G y <= 0).
      { rewrite E. replace (F1 c - (F1 y + M * (c - y))) with ((F2 c' - M) * (c - y)) by (rewrite Rmult_minus_distr_r, <- E'; ring).
        rewrite Rmult_assoc. nra. }
      unfold G in H0. replace (y - y) with 0 in H0 by ring. lra.
Qed.

Lemma taylor (F F1 F2 : R -> R) (M lo hi y q : R) :
  lo <= y <= hi -> lo <= q <= hi ->
  (forall t, lo <= t <= hi -> is_derive F t (F1 t) /\ is_derive F1 t (F2 t) /\ Rabs (F2 t) <= M) ->
  Rabs (F q - F y - F1 y * (q - y)) <= M / 2 * (q - y) ^ 2.
Proof.
  intros Hy Hq H. apply Rabs_le. split.
  - assert (Q := taylor_above (fun t => - F t) (fun t => - F1 t) (fun t => - F2 t) M lo hi y q Hy Hq). cbn beta in Q.
    assert (P : forall t, lo <= t <= hi -> is_derive (fun t => - F t) t (- F1 t) /\ is_derive (fun t => - F1 t) t (- F2 t) /\ - F2 t <= M).
    { intros t Ht. destruct (H t Ht) as (D1 & D2 & B). apply Rabs_le_between in B.
      split; [exact (is_derive_opp (V := R_NormedModule) F t (F1 t) D1)|]. split; [exact (is_derive_opp (V := R_NormedModule) F1 t (F2 t) D2)|lra]. }
    specialize (Q P). lra.
  - assert (Q := taylor_above F F1 F2 M lo hi y q Hy Hq).
    assert (P : forall t, lo <= t <= hi -> is_derive F t (F1 t) /\ is_derive F1 t (F2 t) /\ F2 t <= M).
    { intros t Ht. destruct (H t Ht) as (D1 & D2 & B). apply Rabs_le_between in B. split; auto. split; auto. lra. }
    specialize (Q P). lra.
Qed.

(** A mean of values with mean argument [y]. *)
Lemma mean2 m (w q : nat -> R) y (F F1 F2 : R -> R) M lo hi V :
  (forall e, (e < m)%nat -> 0 <= w e) -> sum m w = 1 -> sum m (fun e => w e * q e) = y -> sum m (fun e => w e * (q e - y) ^ 2) <= V ->
  lo <= y <= hi -> (forall e, (e < m)%nat -> lo <= q e <= hi) -> 0 <= M ->
  (forall t, lo <= t <= hi -> is_derive F t (F1 t) /\ is_derive F1 t (F2 t) /\ Rabs (F2 t) <= M) ->
  Rabs (sum m (fun e => w e * F (q e)) - F y) <= M / 2 * V.
Proof.
  intros Hw H1 Hq HV Hy Hlo HM HF.
  replace (sum m (fun e => w e * F (q e)) - F y) with (sum m (fun e => w e * (F (q e) - F y - F1 y * (q e - y)))).
  - eapply Rle_trans; [apply sum_Rabs|].
    apply Rle_trans with (sum m (fun e => M / 2 * (w e * (q e - y) ^ 2))).
    + apply sum_le. intros e He. rewrite Rabs_mult, (Rabs_pos_eq (w e)) by auto.
      replace (M / 2 * (w e * (q e - y) ^ 2)) with (w e * (M / 2 * (q e - y) ^ 2)) by ring.
      apply Rmult_le_compat_l; auto. apply (taylor F F1 F2 M lo hi); auto.
    + rewrite sum_scal. apply Rmult_le_compat_l; lra.
  - transitivity (sum m (fun e => w e * F (q e)) + (-1 * (F y - F1 y * y)) * sum m w + (- F1 y) * sum m (fun e => w e * q e)).
    + rewrite <- !sum_scal, <- !sum_plus. apply sum_ext. intros e He. ring.
    + rewrite H1, Hq. ring.
Qed.

(** ** One variable after another *)
Lemma with_at_S {A} (x : A) l d a : with_at (x :: l) (S d) a = x :: with_at l d a.
Proof. reflexivity. Qed.

Lemma tensor_steps bs : forall (pos : nat -> nat -> R) ys (ok : nat -> R -> Prop) (e : nat -> R) (F : list R -> R),
  length ys = length bs ->
  (forall d, (d < length bs)%nat ->
     sum (fst (nth d bs (0%nat, fun _ => 0))) (snd (nth d bs (0%nat, fun _ => 0))) = 1 /\
     forall i, (i < fst (nth d bs (0%nat, fun _ => 0%R)))%nat -> 0 <= snd (nth d bs (0%nat, fun _ => 0)) i) ->
  (forall d, (d < length bs)%nat -> ok d (nth d ys 0)) ->
  (forall d j, (d < length bs)%nat -> (j < fst (nth d bs (0%nat, fun _ => 0%R)))%nat -> ok d (pos d j)) ->
  (forall d xs, (d < length bs)%nat -> length xs = length bs -> (forall d', (d' < length bs)%nat -> ok d' (nth d' xs 0)) ->
     Rabs (sum (fst (nth d bs (0%nat, fun _ => 0))) (fun j => snd (nth d bs (0%nat, fun _ => 0)) j * F (with_at xs d (pos d j))) - F (with_at xs d (nth d ys 0))) <= e d) ->
  Rabs (tensor bs (fun idx => F (map (fun d => pos d (nth d idx 0%nat)) (seq 0 (length bs)))) - F ys) <= sum (length bs) e.
Proof.
  induction bs as [|[n b] bs IH]; intros pos ys ok e F Ly Hb Hy Hp H.
  - destruct ys; [|discriminate]. cbn [tensor length seq map sum]. replace (F [] - F []) with 0 by ring. rewrite Rabs_R0. lra.
  - destruct ys as [|y ys]; [discriminate|]. cbn [tensor]. rewrite Rsum_sum.
    destruct (Hb 0%nat ltac:(simpl; lia)) as [B1 B2]. cbn [nth fst snd] in B1, B2. cbn [length] in *.
    rewrite sum_S_l.
    rewrite (sum_ext n _ (fun k => b k * tensor bs (fun idx => F (pos 0%nat k :: map (fun d => pos (S d) (nth d idx 0%nat)) (seq 0 (length bs)))))).
    2:{ intros k Hk. f_equal. apply tensor_ext. intros idx V. f_equal. cbn [seq map nth]. f_equal. rewrite <- seq_shift, map_map. reflexivity. }
    set (T := fun k => tensor bs (fun idx => F (pos 0%nat k :: map (fun d => pos (S d) (nth d idx 0%nat)) (seq 0 (length bs))))).
    set (A := sum n (fun k => b k * (T k - F (pos 0%nat k :: ys)))). set (B := sum n (fun k => b k * F (pos 0%nat k :: ys)) - F (y :: ys)).
    assert (EQ : sum n (fun k => b k * T k) - F (y :: ys) = B + A).
    { unfold A, B. replace (sum n (fun k => b k * T k)) with (sum n (fun k => b k * (T k - F (pos 0%nat k :: ys))) + sum n (fun k => b k * F (pos 0%nat k :: ys))); [ring|].
      rewrite <- sum_plus. apply sum_ext. intros k Hk. ring. }
    change (Rabs (sum n (fun k => b k * T k) - F (y :: ys)) <= e 0%nat + sum (length bs) (fun i => e (S i))). rewrite EQ.
    apply Rle_trans with (Rabs B + Rabs A); [apply Rabs_triang|]. unfold A, B. apply Rplus_le_compat.
    + apply (H 0%nat (y :: ys)); auto; lia.
    + eapply Rle_trans; [apply sum_Rabs|].
      apply Rle_trans with (sum n (fun k => b k * sum (length bs) (fun i => e (S i)))).
      * apply sum_le. intros k Hk. rewrite Rabs_mult, (Rabs_pos_eq (b k)) by auto. apply Rmult_le_compat_l; auto.
        unfold T. apply (IH (fun d => pos (S d)) ys (fun d => ok (S d)) (fun d => e (S d)) (fun l => F (pos 0%nat k :: l))); auto.
        -- intros d Hd. apply (Hb (S d)). lia.
        -- intros d Hd. apply (Hy (S d)). lia.
        -- intros d j Hd Hj. apply (Hp (S d) j); auto. lia.
        -- intros d xs Hd Lx Hx. apply (H (S d) (pos 0%nat k :: xs)); simpl; try lia. intros [|d'] Hd'; [apply (Hp 0%nat k); auto; lia|]. apply Hx. lia.
      * rewrite sum_scal_r, B1. lra.
Qed.
