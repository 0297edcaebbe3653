(** Positive definite systems; coefficient matrices of uniform periodic
    dimensions are positive definite for every order. *)
From Coq Require Import List Arith Lia Bool ZArith Reals Lra.
From Verif Require Import Base Num InterpM SpecBand SpecSpline SplineProofs SumR DenseLU BasisProofs BetaProofs
  SpecInterp KnotProofs KnotShape CoefProofs SolverProofs BuildProofs PerDom.
Import ListNotations.
Open Scope R_scope.

Definition posdef (n : nat) (A : mat) : Prop := forall y,
  sum n (fun i => y i * mv n A y i) <= 0 -> forall i, (i < n)%nat -> y i = 0.

Lemma posdef_pivots A n : posdef n A -> pivots_ok A n.
Proof.
  intros H. apply leading_pivots. intros k y Hk Hy i Hi.
  set (z := fun j => if (j <=? k)%nat then y j else 0).
  assert (E : forall r, mv n A z r = mv (S k) A y r).
  { intros r. unfold mv. replace n with (S k + (n - S k))%nat by lia. rewrite sum_app.
    rewrite (sum_0 (n - S k)).
    - rewrite Rplus_0_r. apply sum_ext. intros j Hj. unfold z. destruct (Nat.leb_spec j k); auto. lia.
    - intros j Hj. unfold z. destruct (Nat.leb_spec (S k + j) k); [lia|ring]. }
  assert (Z : z i = 0).
  { apply (H z); [|lia]. right. apply sum_0. intros r Hr. destruct (Nat.le_gt_cases r k).
    - rewrite E, Hy by lia. ring.
    - unfold z at 1. destruct (Nat.leb_spec r k); [lia|ring]. }
  unfold z in Z. destruct (Nat.leb_spec i k); auto. lia.
Qed.

(** ** Laurent polynomials in the half step: coefficients of cos^k *)
Local Open Scope Z_scope.
Fixpoint cosc (k : nat) (m : Z) : R :=
  match k with
  | O => if Z.eqb m 0 then 1%R else 0%R
  | S k => ((cosc k (m + 1) + cosc k (m - 1)) / 2)%R
  end.
Lemma cosc_out k : forall m, Z.of_nat k < Z.abs m -> cosc k m = 0%R.
Proof.
  induction k; intros m Hm; cbn [cosc].
  - destruct (Z.eqb_spec m 0); auto. lia.
  - rewrite !IHk by lia. lra.
Qed.
(** (1 - c^2) times the derivative of c^k. *)
Lemma cosc_deriv k : forall m,
  ((1 + IZR m) * cosc k (m + 1) + (1 - IZR m) * cosc k (m - 1) = 2 * INR k * (cosc (pred k) m - cosc (S k) m))%R.
Proof.
  induction k; intros m.
  - cbn [pred cosc INR]. rewrite Rmult_0_r, Rmult_0_l.
    destruct (Z.eqb_spec (m + 1) 0) as [E|E]; destruct (Z.eqb_spec (m - 1) 0) as [F|F]; try lia.
    + replace m with (-1) by lia. lra.
    + replace m with 1 by lia. lra.
    + lra.
  - pose proof (IHk (m + 1)) as H1. pose proof (IHk (m - 1)) as H2.
    rewrite plus_IZR in H1. rewrite minus_IZR in H2.
    replace (m + 1 - 1) with m in H1 by lia. replace (m - 1 + 1) with m in H2 by lia.
    rewrite S_INR. cbn [pred].
    assert (E1 : (INR k * cosc k m = INR k * ((cosc (pred k) (m + 1) + cosc (pred k) (m - 1)) / 2))%R).
    { destruct k; [cbn [INR]; lra|]. reflexivity. }
    cbn [cosc] in *. replace (m + 1 - 1) with m in * by lia. replace (m - 1 + 1) with m in * by lia. nra.
Qed.

(** Coefficients of the symbol as a polynomial in the cosine: after [n] steps
    from order [s]. *)
Local Open Scope R_scope.
Fixpoint pc (s n k : nat) : R :=
  match n with
  | O => match k with O => 1 | S _ => 0 end
  | S n' => match k with O => 0 | S k' => (1 - INR k' / INR (n' + s + 1)) * pc s n' k' end
            + INR (k + 1) / INR (n' + s + 1) * pc s n' (k + 1)
  end.

Lemma pc_out s n : forall k, (n < k)%nat -> pc s n k = 0.
Proof.
  induction n; intros k Hk; (destruct k; [lia|]); cbn [pc]; auto.
  rewrite !IHn by lia. ring.
Qed.
Lemma inr_pos n : 0 < INR (n + 1).
Proof. apply lt_0_INR. lia. Qed.
Lemma pc_nonneg s n : forall k, 0 <= pc s n k.
Proof.
  induction n; intros k; cbn [pc].
  - destruct k; lra.
  - pose proof (inr_pos (n + s)) as HP.
    assert (0 <= INR (k + 1) / INR (n + s + 1) * pc s n (k + 1)).
    { apply Rmult_le_pos; auto. apply Rlt_le, Rdiv_lt_0_compat; auto. apply inr_pos. }
    destruct k as [|k]; [lra|].
    enough (0 <= (1 - INR k / INR (n + s + 1)) * pc s n k) by lra.
    destruct (Nat.le_gt_cases k n) as [L|L].
    + apply Rmult_le_pos; auto. enough (INR k / INR (n + s + 1) <= 1) by lra.
      apply (Rmult_le_reg_r (INR (n + s + 1))); auto. unfold Rdiv. rewrite Rmult_assoc, Rinv_l by lra.
      rewrite Rmult_1_l, Rmult_1_r. apply le_INR. lia.
    + rewrite pc_out by auto. lra.
Qed.
Lemma pc_parity s n : forall k, Nat.even (n + k) = false -> pc s n k = 0.
Proof.
  induction n; intros k Hk; cbn [pc].
  - destruct k; auto. cbn in Hk. discriminate.
  - rewrite (IHn (k + 1)%nat).
    + destruct k as [|k]; [ring|]. rewrite (IHn k); [ring|]. rewrite <- Hk. replace (S n + S k)%nat with (S (S (n + k))) by lia. reflexivity.
    + rewrite <- Hk. f_equal. lia.
Qed.
Lemma pc_first s n : 0 < pc s (2 * n) 0.
Proof.
  induction n.
  - cbn. lra.
  - replace (2 * S n)%nat with (S (S (2 * n))) by lia. set (m := (2 * n)%nat) in *.
    assert (H1 : 0 < pc s (S m) 1).
    { cbn [pc]. pose proof (pc_nonneg s m (1 + 1)) as H. pose proof (inr_pos (m + s)) as HP.
      assert (0 <= INR (1 + 1) / INR (m + s + 1) * pc s m (1 + 1)).
      { apply Rmult_le_pos; auto. apply Rlt_le, Rdiv_lt_0_compat; auto. apply inr_pos. }
      replace (INR 0 / INR (m + s + 1)) with 0 by (cbn [INR]; field; lra). lra. }
    remember (S m) as m1. cbn [pc]. rewrite Rplus_0_l. apply Rmult_lt_0_compat; auto.
    apply Rdiv_lt_0_compat; [apply inr_pos|]. apply inr_pos.
Qed.

(** Basis function values on the half-integer lattice. *)
Definition bz (s n : nat) (m : Z) : R := sum (S n) (fun k => pc s n k * cosc k m).
Lemma bz_bound s n M m : (n <= M)%nat -> bz s n m = sum (S M) (fun k => pc s n k * cosc k m).
Proof.
  intros H. unfold bz. replace (S M) with (S n + (M - n))%nat by lia. rewrite (sum_app (S n)).
  rewrite (sum_0 (M - n)); [ring|]. intros i Hi. rewrite pc_out by lia. ring.
Qed.
Lemma bz_out s n m : (Z.of_nat n < Z.abs m)%Z -> bz s n m = 0.
Proof. intros H. apply sum_0. intros k Hk. rewrite cosc_out by lia. ring. Qed.

Lemma bz_step s n m :
  bz s (S n) m = ((INR (n + s + 2) + IZR m) * bz s n (m + 1) + (INR (n + s + 2) - IZR m) * bz s n (m - 1)) / (2 * INR (n + s + 1)).
Proof.
  pose proof (inr_pos (n + s)) as HP. set (P := INR (n + s + 1)) in *.
  replace (INR (n + s + 2)) with (P + 1) by (unfold P; rewrite !plus_INR; cbn [INR]; ring).
  (* the right-hand side, term by term *)
  assert (E : forall k, ((P + 1 + IZR m) * cosc k (m + 1) + (P + 1 - IZR m) * cosc k (m - 1)) / (2 * P)
     = (1 - INR k / P) * cosc (S k) m + INR k / P * cosc (pred k) m).
  { intros k. pose proof (cosc_deriv k m) as D.
    replace ((P + 1 + IZR m) * cosc k (m + 1) + (P + 1 - IZR m) * cosc k (m - 1))
      with (P * (2 * cosc (S k) m) + ((1 + IZR m) * cosc k (m + 1) + (1 - IZR m) * cosc k (m - 1))) by (cbn [cosc]; lra).
    rewrite D. field. lra. }
  transitivity (sum (S n) (fun k => pc s n k * ((1 - INR k / P) * cosc (S k) m + INR k / P * cosc (pred k) m))).
  2:{ rewrite (sum_ext _ _ (fun k => (P + 1 + IZR m) / (2 * P) * (pc s n k * cosc k (m + 1)) + (P + 1 - IZR m) / (2 * P) * (pc s n k * cosc k (m - 1)))).
      - rewrite sum_plus, !sum_scal. unfold bz. field. lra.
      - intros k Hk. rewrite <- E. field. lra. }
  rewrite (sum_ext (S n) _ (fun k => (1 - INR k / P) * pc s n k * cosc (S k) m + INR k / P * pc s n k * cosc (pred k) m)) by (intros; ring).
  rewrite sum_plus.
  rewrite (bz_bound s (S n) (S n)) by lia.
  rewrite (sum_ext (S (S n)) _ (fun k => match k with O => 0 | S k' => (1 - INR k' / P) * pc s n k' end * cosc k m
      + INR (k + 1) / P * pc s n (k + 1) * cosc k m)).
  2:{ intros k Hk. cbn [pc]. fold P. ring. }
  rewrite sum_plus. f_equal.
  - rewrite (sum_S_l (S n)). rewrite Rmult_0_l, Rplus_0_l. reflexivity.
  - transitivity (sum n (fun k => INR (k + 1) / P * pc s n (k + 1) * cosc k m)).
    + cbn [sum]. rewrite (pc_out s n (n + 1)), (pc_out s n (S n + 1)) by lia. ring.
    + rewrite (sum_S_l n). cbn [INR pred]. unfold Rdiv at 2. rewrite !Rmult_0_l, Rplus_0_l.
      apply sum_ext. intros k Hk. replace (k + 1)%nat with (S k) by lia. reflexivity.
Qed.

(** The values of [ub] at the data points. *)
Lemma ub_bz (s : nat) (Hs : (s <= 1)%nat) n : forall j,
  ub (if (s =? 0)%nat then / 2 else 0) (n + s) j = bz s n (2 * Z.of_nat j + (1 - Z.of_nat s) - Z.of_nat (n + s) - 1).
Proof.
  induction n; intros j.
  - destruct s as [|[|]]; [| |lia]; cbn [Nat.add Nat.eqb].
    + cbn [ub]. unfold bz. cbn [sum pc cosc]. rewrite Rplus_0_l, Rmult_1_l.
      destruct (Z.eqb_spec (2 * Z.of_nat j + (1 - Z.of_nat 0) - Z.of_nat 0 - 1) 0); destruct j; auto; lia.
    + unfold bz. cbn [sum pc cosc]. rewrite Rplus_0_l, Rmult_1_l. cbn [ub].
      destruct j as [|[|j]]; cbn [Nat.add].
      * destruct (Z.eqb_spec (2 * Z.of_nat 0 + (1 - Z.of_nat 1) - Z.of_nat 1 - 1) 0); [lia|]. cbn [INR]. field.
      * destruct (Z.eqb_spec (2 * Z.of_nat 1 + (1 - Z.of_nat 1) - Z.of_nat 1 - 1) 0); [|lia]. cbn [INR]. field.
      * destruct (Z.eqb_spec (2 * Z.of_nat (S (S j)) + (1 - Z.of_nat 1) - Z.of_nat 1 - 1) 0); [lia|]. cbn [INR]. field.
  - cbn [Nat.add ub]. rewrite bz_step. rewrite IHn.
    set (m := (2 * Z.of_nat j + (1 - Z.of_nat s) - Z.of_nat (S (n + s)) - 1)%Z).
    replace (2 * Z.of_nat j + (1 - Z.of_nat s) - Z.of_nat (n + s) - 1)%Z with (m + 1)%Z by (unfold m; lia).
    assert (E : match j with O => 0 | S j' => ub (if (s =? 0)%nat then / 2 else 0) (n + s) j' end = bz s n (m - 1)).
    { destruct j as [|j].
      - symmetry. apply bz_out. unfold m. lia.
      - rewrite IHn. f_equal. unfold m. lia. }
    rewrite E.
    set (th := if (s =? 0)%nat then / 2 else 0).
    assert (EM : IZR m = 2 * INR j + 2 * th - INR (n + s + 2)).
    { assert (Et : 2 * th = IZR (1 - Z.of_nat s)). { unfold th. destruct s as [|[|]]; [| |lia]; cbn; lra. }
      rewrite Et, !INR_IZR_INZ. replace 2 with (IZR 2) by reflexivity. rewrite <- mult_IZR, <- plus_IZR, <- minus_IZR. f_equal. unfold m. lia. }
    rewrite EM. pose proof (inr_pos (n + s)).
    replace (INR (S (n + s))) with (INR (n + s + 1)) by (f_equal; lia).
    replace (INR (S (S (n + s)))) with (INR (n + s + 2)) by (f_equal; lia).
    field. lra.
Qed.

(** ** Averaging neighbours on the half-integer lattice *)
Definition half (U : Z -> R) (x : Z) : R := (U (x + 1)%Z + U (x - 1)%Z) / 2.
Fixpoint hiter (k : nat) (U : Z -> R) : Z -> R := match k with O => U | S k => half (hiter k U) end.

Lemma hiter_ext k U V : (forall x, U x = V x) -> forall x, hiter k U x = hiter k V x.
Proof. intros H. induction k; intros x; cbn [hiter]; auto. unfold half. rewrite !IHk. auto. Qed.
Lemma hiter_comm k U : forall x, hiter k (half U) x = half (hiter k U) x.
Proof. induction k; intros x; cbn [hiter]; auto. unfold half at 1. rewrite !IHk. reflexivity. Qed.

(** Convolution with the coefficients. *)
Lemma conv_hiter (M : nat) (U : Z -> R) k : (k <= M)%nat -> forall x,
  sum (2 * M + 1) (fun e => cosc k (Z.of_nat e - Z.of_nat M) * U (x - (Z.of_nat e - Z.of_nat M))%Z) = hiter k U x.
Proof.
  induction k; intros Hk x.
  - rewrite (sum_single (2 * M + 1) M); [|lia|].
    + replace (Z.of_nat M - Z.of_nat M)%Z with 0%Z by lia. cbn. rewrite Rmult_1_l. f_equal. lia.
    + intros e He Hne. cbn [cosc]. destruct (Z.eqb_spec (Z.of_nat e - Z.of_nat M) 0); [lia|ring].
  - cbn [hiter]. unfold half. rewrite <- !IHk by lia.
    set (g := fun (y : Z) (e : nat) => cosc k (Z.of_nat e - Z.of_nat M) * U (y - (Z.of_nat e - Z.of_nat M))%Z).
    assert (S1 : sum (2 * M + 1) (fun e => cosc k (Z.of_nat e - Z.of_nat M + 1) * U (x - (Z.of_nat e - Z.of_nat M))%Z) = sum (2 * M + 1) (g (x + 1)%Z)).
    { transitivity (sum (2 * M + 1) (fun e => g (x + 1)%Z (S e))).
      - apply sum_ext. intros e He. unfold g. f_equal; f_equal; lia.
      - enough (sum (S (2 * M + 1)) (g (x + 1)%Z) = sum (2 * M + 1) (g (x + 1)%Z)).
        { rewrite sum_S_l in H. replace (g (x + 1)%Z 0%nat) with 0 in H; [lra|]. unfold g. rewrite cosc_out by lia. ring. }
        cbn [sum]. replace (g (x + 1)%Z (2 * M + 1)%nat) with 0; [ring|]. unfold g. rewrite cosc_out by lia. ring. }
    assert (S2 : sum (2 * M + 1) (fun e => cosc k (Z.of_nat e - Z.of_nat M - 1) * U (x - (Z.of_nat e - Z.of_nat M))%Z) = sum (2 * M + 1) (g (x - 1)%Z)).
    { replace (2 * M + 1)%nat with (S (2 * M)) by lia. rewrite sum_S_l. rewrite cosc_out by lia. rewrite Rmult_0_l, Rplus_0_l.
      cbn [sum]. replace (g (x - 1)%Z (2 * M)%nat) with 0; [rewrite Rplus_0_r|unfold g; rewrite cosc_out by lia; ring].
      apply sum_ext. intros e He. unfold g. f_equal; f_equal; lia. }
    fold (g (x + 1)%Z). fold (g (x - 1)%Z). rewrite <- S1, <- S2, <- sum_plus. unfold Rdiv. rewrite <- sum_scal_r. apply sum_ext.
    intros e He. cbn [cosc]. field.
Qed.

Section Period.
Variable L : nat.
Definition periodic_fn (U : Z -> R) : Prop := forall x, U (x + Z.of_nat L)%Z = U x.
Definition ip (U V : Z -> R) : R := sum L (fun i => U (Z.of_nat i) * V (Z.of_nat i)).

Lemma shift_sum g : periodic_fn g -> sum L (fun i => g (Z.of_nat i + 1)%Z) = sum L (fun i => g (Z.of_nat i)).
Proof.
  intros H. enough (E : sum (S L) (fun i => g (Z.of_nat i)) = g 0%Z + sum L (fun i => g (Z.of_nat i + 1)%Z)).
  { cbn [sum] in E. rewrite <- (H 0%Z) in E. rewrite Z.add_0_l in E. lra. }
  rewrite sum_S_l. f_equal. apply sum_ext. intros i Hi. f_equal. lia.
Qed.
Lemma half_periodic U : periodic_fn U -> periodic_fn (half U).
Proof.
  intros H x. unfold half. rewrite <- (H (x + 1)%Z), <- (H (x - 1)%Z). do 2 f_equal; f_equal; lia.
Qed.
Lemma hiter_periodic k U : periodic_fn U -> periodic_fn (hiter k U).
Proof. induction k; intros H; cbn [hiter]; auto. apply half_periodic; auto. Qed.

Lemma ip_half U V : periodic_fn U -> periodic_fn V -> ip (half U) V = ip U (half V).
Proof.
  intros HU HV. unfold ip, half.
  rewrite (sum_ext L _ (fun i => / 2 * (U (Z.of_nat i + 1)%Z * V (Z.of_nat i)) + / 2 * (U (Z.of_nat i - 1)%Z * V (Z.of_nat i)))) by (intros; field).
  rewrite (sum_ext L (fun i => _ * (_ / 2)) (fun i => / 2 * (U (Z.of_nat i) * V (Z.of_nat i + 1)%Z) + / 2 * (U (Z.of_nat i) * V (Z.of_nat i - 1)%Z))) by (intros; field).
  rewrite !sum_plus, !sum_scal.
  assert (E1 : sum L (fun i => U (Z.of_nat i) * V (Z.of_nat i - 1)%Z) = sum L (fun i => U (Z.of_nat i + 1)%Z * V (Z.of_nat i))).
  { rewrite <- (shift_sum (fun x => U x * V (x - 1)%Z)).
    - apply sum_ext. intros. do 2 f_equal. lia.
    - intros x. rewrite HU. rewrite <- (HV (x - 1)%Z). do 2 f_equal. lia. }
  assert (E2 : sum L (fun i => U (Z.of_nat i - 1)%Z * V (Z.of_nat i)) = sum L (fun i => U (Z.of_nat i) * V (Z.of_nat i + 1)%Z)).
  { rewrite <- (shift_sum (fun x => U (x - 1)%Z * V x)).
    - apply sum_ext. intros. do 2 f_equal. lia.
    - intros x. rewrite HV. rewrite <- (HU (x - 1)%Z). do 2 f_equal. lia. }
  rewrite E1, E2. ring.
Qed.
Lemma ip_ext U V U' V' : (forall x, U x = U' x) -> (forall x, V x = V' x) -> ip U V = ip U' V'.
Proof. intros H1 H2. apply sum_ext. intros. rewrite H1, H2. auto. Qed.
Lemma ip_hiter U a b : forall V, periodic_fn U -> periodic_fn V -> ip (hiter (b + a) U) V = ip (hiter a U) (hiter b V).
Proof.
  induction b; intros V HU HV; cbn [Nat.add hiter]; auto.
  rewrite ip_half by auto using hiter_periodic. rewrite IHb by auto using half_periodic.
  apply ip_ext; auto. apply hiter_comm.
Qed.
Lemma ip_square U k : periodic_fn U -> 0 <= ip (hiter (k + k) U) U.
Proof. intros H. rewrite ip_hiter by auto. apply sum_pos. intros. nra. Qed.
End Period.

Lemma sum_even n f : (forall e, (e < 2 * n)%nat -> Nat.even e = false -> f e = 0) -> sum (2 * n) f = sum n (fun j => f (2 * j)%nat).
Proof.
  induction n; intros H; auto. replace (2 * S n)%nat with (S (S (2 * n))) by lia. cbn [sum]. rewrite IHn.
  - rewrite (H (S (2 * n))); [ring|lia|]. rewrite Nat.even_succ, <- Nat.negb_even, Nat.even_mul. reflexivity.
  - intros e He. apply H. lia.
Qed.
Lemma sum_flip n : forall f, sum (S n) f = sum (S n) (fun j => f (n - j)%nat).
Proof.
  induction n; intros f; auto. rewrite sum_S_l. rewrite (IHn (fun i => f (S i))).
  remember (S n) as m. cbn [sum]. replace (m - m)%nat with 0%nat by lia. rewrite Rplus_comm. f_equal.
  subst m. apply sum_ext. intros j Hj. f_equal. lia.
Qed.

(** ** The coefficient matrix *)
Section Circulant.
Variables (p N : nat) (c : nat -> R).
Hypothesis HN : (p + 1 <= N)%nat.
Let s : nat := (p mod 2)%nat.
Let h : nat := (p / 2)%nat.
Let n : nat := (2 * h)%nat.
Let th : R := if Nat.even p then / 2 else 0.
Definition lattice (x : Z) : R := if Z.even x then c (Z.to_nat ((x / 2) mod Z.of_nat N)) else 0.

Lemma lattice_even j : lattice (2 * Z.of_nat j) = c (j mod N)%nat.
Proof using HN.
  unfold lattice. rewrite Z.even_mul. cbn [Z.even orb]. f_equal. rewrite (Z.mul_comm 2), Z.div_mul by lia.
  rewrite <- Nat2Z.inj_mod, Nat2Z.id. auto.
Qed.
Lemma lattice_odd x : Z.even x = false -> lattice x = 0.
Proof. intros H. unfold lattice. rewrite H. auto. Qed.
Lemma lattice_periodic : periodic_fn (2 * N) lattice.
Proof using HN.
  intros x. unfold lattice. replace (x + Z.of_nat (2 * N))%Z with (x + 2 * Z.of_nat N)%Z by lia.
  replace (Z.even (x + 2 * Z.of_nat N)) with (Z.even x).
  2:{ rewrite Z.even_add, Z.even_mul. destruct (Z.even x); auto. }
  destruct (Z.even x); auto. do 2 f_equal. rewrite (Z.mul_comm 2), Z.div_add by lia.
  rewrite <- (Z.mul_1_l (Z.of_nat N)) at 1. apply Z.mod_add. lia.
Qed.

Lemma parts : (p = n + s /\ s <= 1)%nat /\ th = (if (s =? 0)%nat then / 2 else 0).
Proof using HN.
  unfold n, s, h, th. pose proof (half_cases p) as HC. split; [lia|].
  rewrite <- Nat.negb_odd. pose proof (Nat.div_mod p 2 ltac:(lia)). destruct HC as [(A & _ & B)|(A & _ & B)]; rewrite B.
  - replace p with (2 * (p / 2))%nat by lia. rewrite Nat.odd_mul. reflexivity.
  - replace p with (S (2 * (p / 2)))%nat by lia. rewrite Nat.odd_succ, Nat.even_mul. reflexivity.
Qed.

Definition symbol (x : Z) : R := sum (S n) (fun k => pc s n k * hiter k lattice x).

Lemma symbol_periodic : periodic_fn (2 * N) symbol.
Proof using HN. intros x. unfold symbol. apply sum_ext. intros k Hk. f_equal. apply hiter_periodic. exact lattice_periodic. Qed.

Lemma row_symbol i : sum (p + 1) (fun a => ub th p (p - a) * c ((i + a) mod N)%nat) = symbol (2 * Z.of_nat (i + h)).
Proof using HN.
  destruct parts as [[Ep Hs] Et]. assert (En : n = (2 * h)%nat) by reflexivity. set (x := (2 * Z.of_nat (i + h))%Z).
  transitivity (sum (2 * n + 1) (fun e => bz s n (Z.of_nat e - Z.of_nat n) * lattice (x - (Z.of_nat e - Z.of_nat n)))).
  2:{ unfold symbol. rewrite (sum_ext (S n) _ (fun k => sum (2 * n + 1) (fun e => pc s n k * cosc k (Z.of_nat e - Z.of_nat n) * lattice (x - (Z.of_nat e - Z.of_nat n))))).
      - rewrite sum_swap. apply sum_ext. intros e He. unfold bz. rewrite <- sum_scal_r. auto.
      - intros k Hk. rewrite <- (conv_hiter n lattice k) by lia. rewrite <- sum_scal. apply sum_ext. intros; ring. }
  assert (X1 : sum (2 * n + 1) (fun e => bz s n (Z.of_nat e - Z.of_nat n) * lattice (x - (Z.of_nat e - Z.of_nat n)))
    = sum (S n) (fun a => bz s n (Z.of_nat (2 * (n - a)) - Z.of_nat n) * lattice (x - (Z.of_nat (2 * (n - a)) - Z.of_nat n)))).
  { rewrite <- (sum_flip n (fun a => bz s n (Z.of_nat (2 * a) - Z.of_nat n) * lattice (x - (Z.of_nat (2 * a) - Z.of_nat n)))).
    rewrite Nat.add_1_r. cbn [sum]. rewrite sum_even; auto.
    intros e He Hod. rewrite lattice_odd; [ring|]. unfold x, n.
    replace (2 * Z.of_nat (i + h) - (Z.of_nat e - Z.of_nat (2 * h)))%Z with (Z.of_nat e + 2 * (Z.of_nat (i + h) - Z.of_nat e + Z.of_nat h))%Z by lia.
    rewrite Z.even_add, Z.even_mul. cbn [Z.even orb]. 
    assert (Ee : Z.even (Z.of_nat e) = false).
    { rewrite <- Z.negb_odd. rewrite <- Nat.negb_odd in Hod. apply negb_false_iff in Hod. apply Nat.odd_spec in Hod as (q & ->).
      replace (Z.of_nat (2 * q + 1)) with (1 + 2 * Z.of_nat q)%Z by lia. rewrite Z.odd_add_mul_2. reflexivity. }
    rewrite Ee. reflexivity. }
  rewrite X1.
  assert (X2 : forall a, (a <= n)%nat -> ub th p (p - a) * c ((i + a) mod N)%nat
     = bz s n (Z.of_nat (2 * (n - a)) - Z.of_nat n) * lattice (x - (Z.of_nat (2 * (n - a)) - Z.of_nat n))).
  { intros a Ha. rewrite Ep at 1. rewrite Et, ub_bz by auto. rewrite <- lattice_even. unfold x. f_equal; f_equal; lia. }
  destruct s as [|[|]] eqn:Es; [| |lia].
  - replace (p + 1)%nat with (S n) by lia. apply sum_ext. intros a Ha. rewrite <- X2 by lia. auto.
  - replace (p + 1)%nat with (S (S n)) by lia. cbn [sum]. rewrite <- (X2 n) by lia.
    replace (ub th p (p - S n)) with 0.
    + rewrite Rmult_0_l, Rplus_0_r. f_equal. apply sum_ext. intros a Ha. apply X2; lia.
    + rewrite Ep at 1. rewrite Et, ub_bz by auto. symmetry. apply bz_out. lia.
Qed.

Lemma symbol_form : sum N (fun r => c r * symbol (2 * Z.of_nat r)) >= pc s n 0 * sum N (fun r => c r * c r).
Proof using HN.
  assert (X1 : forall W, sum N (fun r => c r * W (2 * Z.of_nat r)%Z) = ip (2 * N) W lattice).
  { intros W. unfold ip. rewrite sum_even.
    - apply sum_ext. intros r Hr. rewrite Nat2Z.inj_mul. change (Z.of_nat 2) with 2%Z. rewrite lattice_even, Nat.mod_small by lia. ring.
    - intros e He Hod. rewrite lattice_odd; [ring|]. rewrite <- Z.negb_odd. rewrite <- Nat.negb_odd in Hod.
      apply negb_false_iff in Hod. apply Nat.odd_spec in Hod as (q & ->).
      replace (Z.of_nat (2 * q + 1)) with (1 + 2 * Z.of_nat q)%Z by lia. rewrite Z.odd_add_mul_2. reflexivity. }
  assert (X2 : sum N (fun r => c r * symbol (2 * Z.of_nat r)) = sum (S n) (fun k => pc s n k * ip (2 * N) (hiter k lattice) lattice)).
  { rewrite (sum_ext (S n) _ (fun k => sum N (fun r => pc s n k * (c r * hiter k lattice (2 * Z.of_nat r)%Z)))).
    - rewrite sum_swap. apply sum_ext. intros r Hr. unfold symbol. rewrite <- sum_scal. apply sum_ext. intros; ring.
    - intros k Hk. rewrite sum_scal, <- X1. auto. }
  rewrite X2, sum_S_l. change (hiter 0 lattice) with lattice. rewrite <- X1.
  rewrite (sum_ext N (fun r => c r * lattice _) (fun r => c r * c r)).
  2:{ intros r Hr. rewrite lattice_even, Nat.mod_small by lia. auto. }
  enough (0 <= sum n (fun i => pc s n (S i) * ip (2 * N) (hiter (S i) lattice) lattice)) by lra.
  apply sum_pos. intros i Hi. destruct (Nat.even (S i)) eqn:Ev.
  - apply Nat.even_spec in Ev as (q & Eq). rewrite Eq. replace (2 * q)%nat with (q + q)%nat by lia.
    apply Rmult_le_pos; [apply pc_nonneg|]. apply ip_square. exact lattice_periodic.
  - rewrite pc_parity; [lra|]. unfold n. rewrite Nat.even_add, Nat.even_mul, Ev. reflexivity.
Qed.
End Circulant.

Lemma uniform_posdef p N a b A : (p + 1 <= N)%nat -> a < b ->
  col_good p true N (grid_of (Uniform a b) (N + 1)) A -> posdef N A.
Proof.
  intros Hp Hab HC y Hy. set (x := grid_of (Uniform a b) (N + 1)) in *.
  assert (Hx : increasing (N + 1) x) by (apply uniform_increasing; auto; lia).
  assert (HN : 0 < INR N) by (apply lt_0_INR; lia).
  set (hh := (b - a) / INR N).
  assert (Hh : hh <> 0). { unfold hh. apply Rgt_not_eq. apply Rdiv_lt_0_compat; lra. }
  set (th := if Nat.even p then / 2 else 0).
  set (c := a - (INR p + th) * hh).
  pose proof (half_cases p) as HHC.
  assert (EP : x N - x 0%nat = b - a).
  { unfold x, grid_of. replace (N + 1 - 1)%nat with N by lia. simpl (INR 0). field. lra. }
  assert (Row : forall r, (r < N)%nat -> mv N A y r = symbol p N y (2 * Z.of_nat r)).
  { intros r Hr. destruct (rowof_onto p N r Hp Hr) as (i & Hi & Er).
    destruct (HC i Hi) as (k & Hk & EA). apply row_seg in Hk; auto. subst k. rewrite Er in EA.
    transitivity (symbol p N y (2 * Z.of_nat (i + p / 2))).
    - rewrite <- (row_symbol p N y Hp i). fold th. unfold mv.
      rewrite (sum_ext N _ (fun j => sum (p + 1) (fun e => if ((i + e) mod N =? j)%nat then ub th p (p - e) * y j else 0))).
      + rewrite sum_swap. apply sum_ext. intros e He.
        rewrite (sum_single N ((i + e) mod N) (fun j => if ((i + e) mod N =? j)%nat then _ else 0)).
        * rewrite Nat.eqb_refl. reflexivity.
        * apply Nat.mod_upper_bound; lia.
        * intros j Hj Hne. destruct (Nat.eqb_spec ((i + e) mod N) j); auto; congruence.
      + intros j Hj. rewrite EA by auto. unfold Bmat. rewrite <- sum_scal_r. apply sum_ext. intros e He.
        replace (i + p - p + e)%nat with (i + e)%nat by lia. destruct (_ =? _)%nat; [|ring]. f_equal.
        rewrite (piece_ext (kn (knots_for p true N x)) (fun i => c + INR i * hh)).
        * replace (x i) with (c + INR (i + p) * hh + th * hh).
          -- rewrite uniform_piece by (auto; lia). f_equal. lia.
          -- unfold x, grid_of, c. replace (N + 1 - 1)%nat with N by lia. fold hh. rewrite plus_INR. ring.
        * intros i' Hi'. rewrite pk_at by lia. rewrite EP. unfold x. rewrite per_uniform by auto. fold hh th. unfold c. ring.
    - unfold rowof in Er. pose proof (Nat.div_mod (i + p / 2) N ltac:(lia)) as DM. rewrite Er in DM.
      assert (G : forall q, symbol p N y (2 * Z.of_nat (r + q * N)) = symbol p N y (2 * Z.of_nat r)).
      { induction q; [do 3 f_equal; lia|]. rewrite <- IHq.
        rewrite <- (symbol_periodic p N y Hp (2 * Z.of_nat (r + q * N))%Z). f_equal. lia. }
      rewrite DM. rewrite <- (G ((i + p / 2) / N)%nat). do 3 f_equal. lia. }
  rewrite (sum_ext N _ (fun r => y r * symbol p N y (2 * Z.of_nat r))) in Hy by (intros; rewrite Row; auto).
  pose proof (symbol_form p N y Hp) as F. pose proof (pc_first (p mod 2) (p / 2)) as P0.
  assert (Z : sum N (fun r => y r * y r) <= 0).
  { destruct (Rle_or_lt (sum N (fun r => y r * y r)) 0); auto. exfalso.
    assert (0 < pc (p mod 2) (2 * (p / 2)) 0 * sum N (fun r => y r * y r)) by (apply Rmult_lt_0_compat; auto). lra. }
  intros i Hi.
  assert (E : y i * y i = 0).
  { apply (sum_pos_zero N (fun r => y r * y r)); auto.
    - intros. nra.
    - apply Rle_antisym; auto. apply sum_pos. intros. nra. }
  apply Rmult_integral in E. tauto.
Qed.

Lemma per_pivots_uniform p N a b A : (p + 1 <= N)%nat -> a < b ->
  col_good p true N (grid_of (Uniform a b) (N + 1)) A -> pivots_ok A N.
Proof. intros. apply posdef_pivots. eapply uniform_posdef; eauto. Qed.
