(** Coefficient matrices of periodic dimensions: rows, basis functions on
    uniform grids, and dominance on arbitrary grids for the orders up to 3. *)
From Coq Require Import List Arith Lia Bool ZArith Reals Lra.
From Verif Require Import Base Num InterpM SpecBand SpecSpline SplineProofs SumR DenseLU BasisProofs BetaProofs
  SpecInterp KnotProofs KnotShape CoefProofs SolverProofs BuildProofs.
Import ListNotations.
Open Scope R_scope.

(** Values of the basis functions over the integers: function k - j at k + th. *)
Fixpoint ub (th : R) (p j : nat) : R :=
  match p with
  | O => match j with O => 1 | S _ => 0 end
  | S q => ((INR j + th) * ub th q j
            + (INR (S (S q)) - INR j - th) * match j with O => 0 | S j' => ub th q j' end) / INR (S q)
  end.

Lemma uniform_piece c h th k p i : h <> 0 -> (i <= k)%nat ->
  piece (fun i => c + INR i * h) k p i (c + INR k * h + th * h) = ub th p (k - i).
Proof.
  intros Hh. revert i; induction p; intros i Hi.
  - unfold piece; simpl. destruct (Nat.eqb_spec i k).
    + subst. rewrite Nat.sub_diag. auto.
    + destruct (k - i)%nat eqn:E; auto. lia.
  - rewrite piece_S. cbn [ub].
    assert (Hp : INR (S p) <> 0) by (apply not_0_INR; lia).
    rewrite (IHp i Hi).
    assert (E2 : piece (fun i => c + INR i * h) k p (i + 1) (c + INR k * h + th * h)
       = match (k - i)%nat with O => 0 | S j' => ub th p j' end).
    { destruct (k - i)%nat eqn:E.
      - apply piece_support. lia.
      - rewrite IHp by lia. f_equal. lia. }
    rewrite E2.
    assert (EI : INR (k - i) = INR k - INR i) by (rewrite minus_INR; auto). rewrite EI.
    unfold frac.
    destruct (Req_EM_T _ 0) as [Z|_].
    { exfalso. replace (c + INR (i + S p) * h - (c + INR i * h)) with (INR (S p) * h) in Z by (rewrite plus_INR; ring).
      apply Rmult_integral in Z. tauto. }
    destruct (Req_EM_T _ 0) as [Z|_].
    { exfalso. replace (c + INR (i + S p + 1) * h - (c + INR (i + 1) * h)) with (INR (S p) * h) in Z by (rewrite !plus_INR; ring).
      apply Rmult_integral in Z. tauto. }
    replace (c + INR (i + S p) * h - (c + INR i * h)) with (INR (S p) * h) by (rewrite plus_INR; ring).
    replace (c + INR (i + S p + 1) * h - (c + INR (i + 1) * h)) with (INR (S p) * h) by (rewrite !plus_INR; ring).
    replace (INR (S (S p))) with (INR (S p) + 1) by (rewrite (S_INR (S p)); ring).
    replace (INR (i + S p + 1)) with (INR i + INR (S p) + 1) by (rewrite !plus_INR; simpl; ring).
    field. auto.
Qed.

Section Rows.
Variables (p N : nat) (x : nat -> R).
Hypothesis Hp : (p + 1 <= N)%nat.
Hypothesis Hx : increasing (N + 1) x.
Let K := knots_for p true N x.

Lemma pk_len : length K = (N + 2 * p + 1 + (1 - p mod 2))%nat.
Proof. unfold K, knots_for. rewrite map_length, seq_length. auto. Qed.
Lemma pk_at i : (i < N + 2 * p + 1 + (1 - p mod 2))%nat -> kn K i = per_knot p N (x N - x 0%nat) x i.
Proof. intros Hi. unfold K, knots_for. apply kn_map. auto. Qed.

Lemma row_seg i k : (i < N)%nat -> segment (kn K) p (length K - p - 2) (x i) k -> k = (i + p)%nat.
Proof.
  intros Hi (Hk & H1 & H2 & H3). rewrite pk_len in *. pose proof (half_cases p) as HC.
  pose proof (per_at p N x Hx Hp i ltac:(lia)) as PA.
  destruct (Nat.lt_trichotomy k (i + p)) as [L|[E|G]]; auto; exfalso.
  - destruct H3 as [E|H3]; [lia|]. rewrite pk_at in H3 by lia.
    pose proof (per_mono p N x Hx Hp (k + 1) (i + p) ltac:(lia)). lra.
  - destruct H2 as [E|H2]; [lia|]. rewrite pk_at in H2 by lia.
    pose proof (per_mono p N x Hx Hp (i + p + 1) k ltac:(lia)). lra.
Qed.

Lemma row_unity i y : (i < N)%nat -> sum (p + 1) (fun a => piece (kn K) (i + p) p (i + a) y) = 1.
Proof.
  intros Hi. pose proof pk_len as LK. pose proof (half_cases p) as HC.
  rewrite <- (piece_unity (kn K) (N + 2 * p + 1 + (1 - p mod 2)) (i + p)) with (p := p) (x := y).
  all: try lia.
  - replace (i + p - p)%nat with i by lia. reflexivity.
  - intros u v Huv. rewrite !pk_at by lia. apply per_mono; auto; lia.
  - rewrite !pk_at by lia. apply per_step; auto.
Qed.

(** Weighted dominance of a row. *)
Lemma row_dom i A c : (i < N)%nat ->
  (forall j, (j < N)%nat -> A j = Bmat (kn K) p N (i + p) (x i) j) -> (forall j, 0 <= c j) ->
  sum (p + 1) (fun a => piece (kn K) (i + p) p (i + a) (x i) * c ((i + a) mod N)%nat)
    < 2 * (piece (kn K) (i + p) p (i + p / 2) (x i) * c (rowof p true N i)) ->
  sum N (fun j => if (j =? rowof p true N i)%nat then 0 else Rabs (A j * c j)) < Rabs (A (rowof p true N i) * c (rowof p true N i)).
Proof.
  intros Hi EA Hc Hd. pose proof pk_len as LK. pose proof (half_cases p) as HC.
  pose proof (per_at p N x Hx Hp i ltac:(lia)) as PA.
  assert (Hb : forall j, (j < N)%nat -> 0 <= A j * c j).
  { intros j Hj. apply Rmult_le_pos; auto. rewrite EA by auto. apply sum_pos. intros a Ha. destruct (_ =? _)%nat; [|lra].
    apply (piece_nonneg (kn K) (N + 2 * p + 1 + (1 - p mod 2)) (i + p)).
    all: try lia.
    - intros u v Huv. rewrite !pk_at by lia. apply per_mono; auto; lia.
    - rewrite !pk_at by lia. apply per_step; auto.
    - rewrite !pk_at by lia. lra. }
  assert (Hr : (rowof p true N i < N)%nat) by (apply Nat.mod_upper_bound; lia).
  assert (HS : sum N (fun j => A j * c j) = sum (p + 1) (fun a => piece (kn K) (i + p) p (i + a) (x i) * c ((i + a) mod N)%nat)).
  { rewrite (sum_ext N _ (fun j => sum (p + 1) (fun a => if ((i + a) mod N =? j)%nat then piece (kn K) (i + p) p (i + a) (x i) * c j else 0))).
    - rewrite sum_swap. apply sum_ext. intros a Ha.
      rewrite (sum_single N ((i + a) mod N) (fun j => if ((i + a) mod N =? j)%nat then _ else 0)).
      + rewrite Nat.eqb_refl. reflexivity.
      + apply Nat.mod_upper_bound; lia.
      + intros j Hj Hne. destruct (Nat.eqb_spec ((i + a) mod N) j); auto; congruence.
    - intros j Hj. rewrite EA by auto. unfold Bmat. rewrite <- sum_scal_r. apply sum_ext. intros a Ha.
      replace (i + p - p + a)%nat with (i + a)%nat by lia. destruct (_ =? _)%nat; ring. }
  assert (HD : A (rowof p true N i) = piece (kn K) (i + p) p (i + p / 2) (x i)).
  { rewrite EA by auto. unfold Bmat. rewrite (sum_single (p + 1) (p / 2)).
    - replace (i + p - p + p / 2)%nat with (i + p / 2)%nat by lia. unfold rowof. rewrite Nat.eqb_refl. auto.
    - lia.
    - intros a Ha Hne. destruct (Nat.eqb_spec ((i + p - p + a) mod N) (rowof p true N i)) as [E|]; auto.
      exfalso. apply Hne. unfold rowof in E. replace (i + p - p + a)%nat with (i + a)%nat in E by lia.
      revert E. clear -Ha Hp HC Hi. intros E.
      pose proof (Nat.div_mod (i + a) N ltac:(lia)). pose proof (Nat.div_mod (i + p / 2) N ltac:(lia)).
      assert ((i + a) / N <= 1)%nat by (apply Nat.lt_succ_r, Nat.div_lt_upper_bound; lia).
      assert ((i + p / 2) / N <= 1)%nat by (apply Nat.lt_succ_r, Nat.div_lt_upper_bound; lia).
      set (u := ((i + a) / N)%nat) in *. set (v := ((i + p / 2) / N)%nat) in *.
      destruct u as [|[|]]; destruct v as [|[|]]; lia. }
  rewrite <- HS, <- HD in Hd.
  assert (HT : sum N (fun j => if (j =? rowof p true N i)%nat then 0 else Rabs (A j * c j)) + A (rowof p true N i) * c (rowof p true N i)
     = sum N (fun j => A j * c j)).
  { transitivity (sum N (fun j => if (j =? rowof p true N i)%nat then 0 else Rabs (A j * c j))
       + sum N (fun j => if (j =? rowof p true N i)%nat then A j * c j else 0)).
    - f_equal. rewrite (sum_single N (rowof p true N i)); auto.
      + rewrite Nat.eqb_refl; auto.
      + intros j Hj Hne. destruct (Nat.eqb_spec j (rowof p true N i)); auto; congruence.
    - rewrite <- sum_plus. apply sum_ext. intros j Hj. destruct (_ =? _)%nat; [lra|].
      rewrite Rabs_pos_eq; auto. lra. }
  rewrite (Rabs_pos_eq (A (rowof p true N i) * _)) by auto. lra.
Qed.

End Rows.

(** Every row belongs to a data point. *)
Lemma rowof_onto p N r : (p + 1 <= N)%nat -> (r < N)%nat -> exists i, (i < N)%nat /\ rowof p true N i = r.
Proof.
  intros Hp Hr. exists ((r + N - p / 2) mod N)%nat. split; [apply Nat.mod_upper_bound; lia|].
  unfold rowof. pose proof (half_cases p) as HC. rewrite Nat.add_mod_idemp_l by lia.
  replace (r + N - p / 2 + p / 2)%nat with (r + 1 * N)%nat by lia.
  rewrite Nat.mod_add by lia. apply Nat.mod_small; auto.
Qed.

(** Dominance after scaling the columns is enough. *)
Lemma scaled_lead A n c : (forall j, 0 < c j) -> dominant (fun i j => A i j * c j) n -> pivots_ok A n.
Proof.
  intros Hc D. pose proof (dominant_lead _ _ D) as P. apply leading_pivots. intros k y Hk Hy i Hi.
  assert (PK : pivots_ok (fun i j => A i j * c j) (S k)) by (intros l Hl; apply P; lia).
  assert (E : y i / c i = 0).
  { apply (pivots_ker _ (S k) (fun j => y j / c j) PK); [|lia]. intros r Hr. rewrite <- (Hy r) by lia.
    unfold mv. apply sum_ext. intros j Hj. field. apply Rgt_not_eq. apply Hc. }
  apply (Rmult_eq_reg_r (/ c i)). 2:{ apply Rinv_neq_0_compat. apply Rgt_not_eq, Hc. } 
  unfold Rdiv in E. rewrite E. ring.
Qed.

(** ** Arbitrary coordinates, orders up to 3: the columns are scaled with the
    product of the two distances next to the data point. *)
Lemma piece2_ends t k x : (forall i, t i < t (i + 1)%nat) -> t (k + 2)%nat <= x < t (k + 3)%nat ->
  piece t (k + 2) 2 k x = (t (k + 3)%nat - x) * (t (k + 3)%nat - x) / ((t (k + 3)%nat - t (k + 2)%nat) * (t (k + 3)%nat - t (k + 1)%nat)) /\
  piece t (k + 2) 2 (k + 2) x = (x - t (k + 2)%nat) * (x - t (k + 2)%nat) / ((t (k + 3)%nat - t (k + 2)%nat) * (t (k + 4)%nat - t (k + 2)%nat)).
Proof.
  intros Ht Hx. 
  pose proof (Ht k) as H0. pose proof (Ht (k + 1)%nat) as H1. pose proof (Ht (k + 2)%nat) as H2. pose proof (Ht (k + 3)%nat) as H3.
  replace (k + 1 + 1)%nat with (k + 2)%nat in * by lia. replace (k + 2 + 1)%nat with (k + 3)%nat in * by lia.
  replace (k + 3 + 1)%nat with (k + 4)%nat in * by lia.
  split; rewrite !piece_S.
  - rewrite (piece_support t (k + 2) 0 k), (piece_support t (k + 2) 0 (k + 1)) by lia.
    replace (k + 1 + 1)%nat with (k + 2)%nat by lia.
    replace (k + 2 + 1)%nat with (k + 3)%nat by lia.
    replace (k + 1 + 1 + 1)%nat with (k + 3)%nat by lia.
    assert (E : piece t (k + 2) 0 (k + 2) x = 1). { unfold piece; simpl. rewrite Nat.eqb_refl; auto. }
    rewrite E.
    rewrite !frac_ok by lra. field. lra.
  - rewrite (piece_support t (k + 2) 0 (k + 2 + 1)), (piece_support t (k + 2) 0 (k + 2 + 1 + 1)) by lia.
    assert (E : piece t (k + 2) 0 (k + 2) x = 1). { unfold piece; simpl. rewrite Nat.eqb_refl; auto. }
    rewrite E. replace (k + 2 + 1)%nat with (k + 3)%nat by lia. replace (k + 2 + 2)%nat with (k + 4)%nat by lia.
    rewrite (frac_ok (x - t (k + 2)%nat)) by lra. rewrite (frac_ok (x - t (k + 2)%nat)) by lra. field. lra.
Qed.

Lemma piece3_ends t k : (forall i, t i < t (i + 1)%nat) ->
  let x := t (k + 3)%nat in
  piece t (k + 3) 3 k x = (t (k + 4)%nat - x) * (t (k + 4)%nat - x) / ((t (k + 4)%nat - t (k + 2)%nat) * (t (k + 4)%nat - t (k + 1)%nat)) /\
  piece t (k + 3) 3 (k + 2) x = (x - t (k + 2)%nat) * (x - t (k + 2)%nat) / ((t (k + 4)%nat - t (k + 2)%nat) * (t (k + 5)%nat - t (k + 2)%nat)) /\
  piece t (k + 3) 3 (k + 3) x = 0.
Proof.
  intros Ht x.
  pose proof (Ht k) as H0. pose proof (Ht (k + 1)%nat) as H1. pose proof (Ht (k + 2)%nat) as H2. pose proof (Ht (k + 3)%nat) as H3.
  pose proof (Ht (k + 4)%nat) as H4.
  replace (k + 1 + 1)%nat with (k + 2)%nat in * by lia. replace (k + 2 + 1)%nat with (k + 3)%nat in * by lia.
  replace (k + 3 + 1)%nat with (k + 4)%nat in * by lia. replace (k + 4 + 1)%nat with (k + 5)%nat in * by lia.
  assert (EX : x = t (k + 3)%nat) by reflexivity. clearbody x.
  assert (Z : forall q, piece t (k + 3) (S q) (k + 3) x = 0).
  { induction q.
    - rewrite piece_S. rewrite (piece_support t (k + 3) 0 (k + 3 + 1)) by lia.
      rewrite EX. unfold frac. destruct (Req_EM_T _ 0); destruct (Req_EM_T _ 0); unfold Rdiv; ring.
    - rewrite piece_S, IHq. rewrite (piece_support t (k + 3) (S q) (k + 3 + 1)) by lia. ring. }
  split; [|split; [|apply Z]].
  - rewrite piece_S. rewrite (piece_support t (k + 3) 2 k) by lia.
    destruct (piece2_ends t (k + 1) x Ht) as [E _].
    { replace (k + 1 + 2)%nat with (k + 3)%nat by lia. replace (k + 1 + 3)%nat with (k + 4)%nat by lia. lra. }
    replace (k + 1 + 2)%nat with (k + 3)%nat in E by lia. replace (k + 1 + 3)%nat with (k + 4)%nat in E by lia.
    replace (k + 1 + 1)%nat with (k + 2)%nat in E by lia. rewrite E.
    replace (k + 3 + 1)%nat with (k + 4)%nat by lia.
    rewrite (frac_ok (t (k + 4)%nat - x)) by lra. rewrite EX. field. lra.
  - rewrite piece_S. replace (k + 2 + 1)%nat with (k + 3)%nat by lia. rewrite (Z 1%nat).
    rewrite piece_S. replace (k + 2 + 1)%nat with (k + 3)%nat by lia. rewrite (Z 0%nat).
    rewrite piece_S. rewrite (piece_support t (k + 3) 0 (k + 2)) by lia. replace (k + 2 + 1)%nat with (k + 3)%nat by lia.
    assert (E : piece t (k + 3) 0 (k + 3) x = 1). { unfold piece; simpl. rewrite Nat.eqb_refl; auto. }
    rewrite E. replace (k + 2 + 2)%nat with (k + 4)%nat by lia. replace (k + 2 + 3)%nat with (k + 5)%nat by lia.
    replace (k + 3 + 1)%nat with (k + 4)%nat by lia.
    rewrite (frac_ok (t (k + 4)%nat - x)) by lra. rewrite (frac_ok (x - t (k + 2)%nat) (t (k + 5)%nat - _)) by lra.
    rewrite (frac_ok (x - t (k + 2)%nat) (t (k + 4)%nat - _)) by lra. rewrite EX. field. lra.
Qed.

(** The inequality behind the dominance. *)
Lemma gap_cubic l1 l2 r1 r2 : 0 < l1 -> 0 < l2 -> 0 < r1 -> 0 < r2 ->
  let a := r1 * r1 / ((l1 + r1) * (l2 + l1 + r1)) in
  let g := l1 * l1 / ((l1 + r1) * (l1 + r1 + r2)) in
  a * (l2 * l1) + (1 - a - g) * (l1 * r1) + g * (r1 * r2) < 2 * ((1 - a - g) * (l1 * r1)).
Proof.
  intros H1 H2 H3 H4 a g.
  assert (E : 2 * ((1 - a - g) * (l1 * r1)) - (a * (l2 * l1) + (1 - a - g) * (l1 * r1) + g * (r1 * r2))
    = l1 * r1 * (r1 / (l1 + r1) * (l1 / (l2 + l1 + r1)) + l1 / (l1 + r1) * (r1 / (l1 + r1 + r2)))).
  { unfold a, g. field. lra. }
  assert (0 < l1 * r1 * (r1 / (l1 + r1) * (l1 / (l2 + l1 + r1)) + l1 / (l1 + r1) * (r1 / (l1 + r1 + r2)))).
  { repeat match goal with |- 0 < _ / _ => apply Rdiv_lt_0_compat | |- 0 < _ * _ => apply Rmult_lt_0_compat | |- 0 < _ / _ * _ + _ => apply Rplus_lt_0_compat end; lra. }
  lra.
Qed.

Lemma gap_square l1 l2 r1 r2 : 0 < l1 -> 0 < l2 -> 0 < r1 -> 0 < r2 ->
  let a := r1 * r1 / ((l1 + r1) * (l2 + 2 * l1 + r1)) in
  let g := l1 * l1 / ((l1 + r1) * (l1 + 2 * r1 + r2)) in
  a * (l2 * l1) + (1 - a - g) * (l1 * r1) + g * (r1 * r2) < 2 * ((1 - a - g) * (l1 * r1)).
Proof.
  intros H1 H2 H3 H4 a g.
  assert (E : 2 * ((1 - a - g) * (l1 * r1)) - (a * (l2 * l1) + (1 - a - g) * (l1 * r1) + g * (r1 * r2))
    = l1 * r1 * (r1 / (l1 + r1) * (2 * l1 / (l2 + 2 * l1 + r1)) + l1 / (l1 + r1) * (2 * r1 / (l1 + 2 * r1 + r2)))).
  { unfold a, g. field. lra. }
  assert (0 < l1 * r1 * (r1 / (l1 + r1) * (2 * l1 / (l2 + 2 * l1 + r1)) + l1 / (l1 + r1) * (2 * r1 / (l1 + 2 * r1 + r2)))).
  { repeat match goal with |- 0 < _ / _ => apply Rdiv_lt_0_compat | |- 0 < _ * _ => apply Rmult_lt_0_compat | |- 0 < _ / _ * _ + _ => apply Rplus_lt_0_compat end; lra. }
  lra.
Qed.

Section Low.
Variables (p N : nat) (x : nat -> R).
Hypothesis Hp : (p + 1 <= N)%nat.
Hypothesis Hx : increasing (N + 1) x.
Let P := x N - x 0%nat.
Let X := pext N P x.
Let e (i : nat) := X (i + 1)%nat - X i.
Let cw (j : nat) := e (j + N - 2) * e (j + N - 1).

Lemma e_pos i : 0 < e i.
Proof. unfold e, X, P. pose proof (pext_step p N x Hx Hp i). lra. Qed.
Lemma e_add i : e (i + N)%nat = e i.
Proof. unfold e, X. replace (i + N + 1)%nat with (i + 1 + N)%nat by lia. rewrite !pext_add by lia. ring. Qed.
Lemma cw_mod j : (2 <= N)%nat -> cw (j mod N) = cw j.
Proof.
  intros HN. assert (G : forall q r, cw (r + q * N)%nat = cw r).
  { induction q; intros r; [f_equal; lia|]. replace (r + S q * N)%nat with ((r + q * N) + N)%nat by lia. rewrite <- (IHq r).
    unfold cw. replace (r + q * N + N + N - 2)%nat with (r + q * N + N - 2 + N)%nat by lia.
    replace (r + q * N + N + N - 1)%nat with (r + q * N + N - 1 + N)%nat by lia. rewrite !e_add. auto. }
  rewrite (Nat.div_mod j N) at 2 by lia. rewrite Nat.add_comm, Nat.mul_comm. rewrite G. auto.
Qed.
Lemma cw_pos j : 0 < cw j.
Proof. unfold cw. apply Rmult_lt_0_compat; apply e_pos. Qed.

Lemma low_rows i : (i < N)%nat -> (p = 2 \/ p = 3)%nat ->
  sum (p + 1) (fun a => piece (kn (knots_for p true N x)) (i + p) p (i + a) (x i) * cw ((i + a) mod N)%nat)
    < 2 * (piece (kn (knots_for p true N x)) (i + p) p (i + p / 2) (x i) * cw (rowof p true N i)).
Proof.
  intros Hi Hp23. pose proof (half_cases p) as HC.
  pose proof (row_unity p N x Hp Hx i (x i) Hi) as RU.
  set (t := per_knot p N P x).
  assert (ET : forall a, (a <= p)%nat -> piece (kn (knots_for p true N x)) (i + p) p (i + a) (x i) = piece t (i + p) p (i + a) (x i)).
  { intros a Ha. apply piece_ext. intros i' Hi'. unfold t, P. apply pk_at. lia. }
  rewrite (sum_ext _ _ (fun a => piece t (i + p) p (i + a) (x i))) in RU by (intros; apply ET; lia).
  rewrite (sum_ext _ _ (fun a => piece t (i + p) p (i + a) (x i) * cw (i + a)%nat)).
  2:{ intros a Ha. rewrite ET by lia. rewrite cw_mod by lia. auto. }
  rewrite ET by lia. unfold rowof. rewrite cw_mod by lia.
  assert (Ht : forall i, t i < t (i + 1)%nat) by (intros; apply per_step; auto).
  set (l1 := e (i + N - 1)). set (l2 := e (i + N - 2)). set (r1 := e (i + N)). set (r2 := e (i + N + 1)).
  assert (C0 : cw (i + 0)%nat = l2 * l1). { unfold cw, l1, l2. f_equal; f_equal; lia. }
  assert (C1 : cw (i + 1)%nat = l1 * r1). { unfold cw, l1, r1. f_equal; f_equal; lia. }
  assert (C2 : cw (i + 2)%nat = r1 * r2). { unfold cw, r1, r2. f_equal; f_equal; lia. }
  pose proof (e_pos (i + N - 1)) as P1. pose proof (e_pos (i + N - 2)) as P2. pose proof (e_pos (i + N)) as P3. pose proof (e_pos (i + N + 1)) as P4.
  fold l1 in P1. fold l2 in P2. fold r1 in P3. fold r2 in P4.
  assert (EXi : x i = X (i + N)%nat - P). { unfold X, P. rewrite pext_add, pext_in by lia. ring. }
  assert (D1 : X (i + N)%nat = X (i + N - 1)%nat + l1). { unfold l1, e. replace (i + N - 1 + 1)%nat with (i + N)%nat by lia. ring. }
  assert (D2 : X (i + N - 1)%nat = X (i + N - 2)%nat + l2). { unfold l2, e. replace (i + N - 2 + 1)%nat with (i + N - 1)%nat by lia. ring. }
  assert (D3 : X (i + N + 1)%nat = X (i + N)%nat + r1) by (unfold r1, e; ring).
  assert (D4 : X (i + N + 2)%nat = X (i + N + 1)%nat + r2).
  { unfold r2, e. replace (i + N + 1 + 1)%nat with (i + N + 2)%nat by lia. ring. }
  assert (PA : t (i + p)%nat <= x i < t (i + p + 1)%nat) by (apply per_at; auto; lia).
  assert (ET' : t = per_knot p N P x) by reflexivity. clearbody t.
  destruct Hp23 as [E|E].
  - assert (TV : forall a, t (i + a)%nat = (X (i + N + a - 3)%nat + X (i + N + a - 2)%nat) / 2 - P).
    { intros a. rewrite ET'. unfold per_knot. rewrite E. cbn [Nat.even]. fold X. f_equal. f_equal. f_equal; f_equal; lia. }
    rewrite E in *. change (2 + 1)%nat with 3%nat in *. cbn [sum] in RU |- *. change (2 / 2)%nat with 1%nat.
    destruct (piece2_ends t i (x i) Ht) as [EA EG].
    { replace (i + 2 + 1)%nat with (i + 3)%nat in PA by lia. exact PA. }
    rewrite C0, C1, C2.
    replace (i + N + 3 - 3)%nat with (i + N)%nat in * by lia.
    assert (T1 : t (i + 1)%nat = (X (i + N - 2)%nat + X (i + N - 1)%nat) / 2 - P). { rewrite TV. f_equal. f_equal. f_equal; f_equal; lia. }
    assert (T2 : t (i + 2)%nat = (X (i + N - 1)%nat + X (i + N)%nat) / 2 - P). { rewrite TV. f_equal. f_equal. f_equal; f_equal; lia. }
    assert (T3 : t (i + 3)%nat = (X (i + N)%nat + X (i + N + 1)%nat) / 2 - P). { rewrite TV. f_equal. f_equal. f_equal; f_equal; lia. }
    assert (T4 : t (i + 4)%nat = (X (i + N + 1)%nat + X (i + N + 2)%nat) / 2 - P). { rewrite TV. f_equal. f_equal. f_equal; f_equal; lia. }
    replace (i + 0)%nat with i in * by lia.
    set (A0 := piece t (i + 2) 2 i (x i)) in *. set (A1 := piece t (i + 2) 2 (i + 1) (x i)) in *.
    set (A2 := piece t (i + 2) 2 (i + 2) (x i)) in *.
    pose proof (gap_square l1 l2 r1 r2 P1 P2 P3 P4) as GS. cbv zeta in GS.
    assert (EA' : A0 = r1 * r1 / ((l1 + r1) * (l2 + 2 * l1 + r1))).
    { rewrite EA, T1, T2, T3, EXi. rewrite D3, D1, D2. field. lra. }
    assert (EG' : A2 = l1 * l1 / ((l1 + r1) * (l1 + 2 * r1 + r2))).
    { rewrite EG, T2, T3, T4, EXi. rewrite D4, D3, D1, D2. field. lra. }
    rewrite <- EA', <- EG' in GS. replace A1 with (1 - A0 - A2) by lra. lra.
  - assert (TV : forall a, t (i + a)%nat = X (i + N + a - 3)%nat - P).
    { intros a. rewrite ET'. unfold per_knot. rewrite E. cbn [Nat.even]. fold X. f_equal. f_equal. lia. }
    rewrite E in *. change (3 + 1)%nat with 4%nat in *. cbn [sum] in RU |- *. change (3 / 2)%nat with 1%nat.
    destruct (piece3_ends t i Ht) as (EA & EG & EZ).
    assert (T3 : t (i + 3)%nat = x i). { rewrite TV, EXi. f_equal. f_equal. lia. } rewrite T3 in EA, EG, EZ.
    rewrite EZ in *. rewrite C0, C1, C2.
    assert (T1 : t (i + 1)%nat = X (i + N - 2)%nat - P). { rewrite TV. f_equal. f_equal. lia. }
    assert (T2 : t (i + 2)%nat = X (i + N - 1)%nat - P). { rewrite TV. f_equal. f_equal. lia. }
    assert (T4 : t (i + 4)%nat = X (i + N + 1)%nat - P). { rewrite TV. f_equal. f_equal. lia. }
    assert (T5 : t (i + 5)%nat = X (i + N + 2)%nat - P). { rewrite TV. f_equal. f_equal. lia. }
    replace (i + 0)%nat with i in * by lia.
    set (A0 := piece t (i + 3) 3 i (x i)) in *. set (A1 := piece t (i + 3) 3 (i + 1) (x i)) in *.
    set (A2 := piece t (i + 3) 3 (i + 2) (x i)) in *.
    pose proof (gap_cubic l1 l2 r1 r2 P1 P2 P3 P4) as GS. cbv zeta in GS.
    assert (EA' : A0 = r1 * r1 / ((l1 + r1) * (l2 + l1 + r1))).
    { rewrite EA, T1, T2, T4, EXi. rewrite D3, D1, D2. field. lra. }
    assert (EG' : A2 = l1 * l1 / ((l1 + r1) * (l1 + r1 + r2))).
    { rewrite EG, T2, T4, T5, EXi. rewrite D4, D3, D1, D2. field. lra. }
    rewrite <- EA', <- EG' in GS. replace A1 with (1 - A0 - A2) by lra. lra.
Qed.

Lemma one_row i : (i < N)%nat -> (p <= 1)%nat ->
  piece (kn (knots_for p true N x)) (i + p) p (i + p / 2) (x i) = 1.
Proof.
  intros Hi H1. pose proof (row_unity p N x Hp Hx i (x i) Hi) as RU. pose proof (half_cases p) as HC.
  destruct p as [|[|]] eqn:Ep; [| |lia].
  - cbn [sum Nat.add] in RU. replace (i + 0 / 2)%nat with (i + 0)%nat by auto. lra.
  - cbn [sum Nat.add] in RU. change (1 / 2)%nat with 0%nat.
    assert (Z : piece (kn (knots_for 1 true N x)) (i + 1) 1 (i + 1) (x i) = 0).
    { rewrite piece_S. rewrite (piece_support _ _ _ (i + 1 + 1)) by lia.
      assert (E : kn (knots_for 1 true N x) (i + 1) = x i).
      { rewrite pk_at by (rewrite ?Nat.mod_1_l; lia). apply per_at_odd; auto; lia. }
      rewrite E. unfold frac. destruct (Req_EM_T _ 0); destruct (Req_EM_T _ 0); unfold Rdiv; ring. }
    lra.
Qed.

Lemma per_pivots_low A : (p <= 3)%nat -> col_good p true N x A -> pivots_ok A N.
Proof.
  intros H3 HC. destruct (Nat.le_gt_cases p 1) as [H1|H1].
  - apply (scaled_lead _ _ (fun _ => 1)); [intros; lra|]. intros r Hr. destruct (rowof_onto p N r Hp Hr) as (i & Hi & <-).
    destruct (HC i Hi) as (k & Hk & EA). apply row_seg in Hk; auto. subst k.
    apply (row_dom p N x Hp Hx i (A (rowof p true N i)) (fun _ => 1)); auto; [intros; lra|].
    rewrite (sum_ext _ _ (fun a => piece (kn (knots_for p true N x)) (i + p) p (i + a) (x i))) by (intros; ring).
    rewrite row_unity by auto. rewrite one_row by auto. lra.
  - apply (scaled_lead _ _ cw); [apply cw_pos|]. intros r Hr. destruct (rowof_onto p N r Hp Hr) as (i & Hi & <-).
    destruct (HC i Hi) as (k & Hk & EA). apply row_seg in Hk; auto. subst k.
    apply (row_dom p N x Hp Hx i (A (rowof p true N i)) cw); auto; [intros; left; apply cw_pos|].
    apply low_rows; auto. lia.
Qed.

End Low.
