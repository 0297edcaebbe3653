(** Rows of the coefficient matrices for equally spaced points without a
    period, orders 2 and 3. *)
From Coq Require Import List Arith Lia Bool ZArith Reals Lra.
From Verif Require Import Base Num InterpM SpecBand SpecSpline SplineProofs SumR DenseLU BasisProofs BetaProofs MulProofs
  SpecInterp KnotProofs KnotShape CoefProofs SolverProofs BuildProofs PerDom SpecStab StabProofs TameProofs.
Import ListNotations.
Open Scope R_scope.

Lemma ap_len p n x : length (knots_for p false n x) = (n + p + 1)%nat.
Proof. unfold knots_for. rewrite map_length, seq_length. auto. Qed.
Lemma ap_at p n x i : (i < n + p + 1)%nat -> kn (knots_for p false n x) i = ap_knot p n x i.
Proof. intros H. unfold knots_for, kn. rewrite (nth_indep _ 0 (ap_knot p n x 0)) by (rewrite map_length, seq_length; auto). rewrite map_nth, seq_nth by auto. f_equal. Qed.

(** One row, from the values of the basis functions on its segment. *)
Section Row.
Variables (p n : nat) (x : nat -> R) (A : mat).
Hypothesis Hn : (p + 1 <= n)%nat.
Hypothesis H2 : (2 <= n)%nat.
Hypothesis Hx : increasing n x.
Hypothesis HC : col_good p false n x A.
Notation K := (ap_knot p n x).

Lemma ap_row i j (w : nat -> R) W : (i < n)%nat -> (j + p < n)%nat -> (j <= i <= j + p)%nat ->
  (j = 0%nat \/ K (j + p)%nat <= x i) -> ((j + p + 1)%nat = n \/ x i < K (j + p + 1)%nat) ->
  K (j + p)%nat <= x i <= K (j + p + 1)%nat ->
  0 < w i <= W ->
  sum (p + 1) (fun e => piece K (j + p) p (j + e) (x i) * w (j + e)%nat) <= 2 * (piece K (j + p) p i (x i) * w i) - 1 ->
  0 < w i <= W /\ (forall c, (c < n)%nat -> 0 <= A i c) /\ sum n (fun c => A i c * w c) <= 2 * (A i i * w i) - 1.
Proof.
  intros Hi Hj Hij S1 S2 S3 Hw HS. split; auto.
  destruct (HC i Hi) as (k & Hk & EA). cbn [rowof] in EA. rewrite ap_len in Hk.
  assert (ND : nondecreasing (knots_for p false n x)).
  { intros u v Huv. rewrite ap_len in Huv. rewrite !ap_at by lia. apply ap_mono; auto. lia. }
  assert (ST : K (j + p)%nat < K (j + p + 1)%nat) by (apply ap_strict; auto; lia).
  assert (k = (j + p)%nat).
  { apply (segment_unique (knots_for p false n x) p (n + p + 1 - p - 2) (x i)); auto; [rewrite ap_len; lia|].
    split; [lia|]. rewrite !ap_at by lia. split; auto. split; [destruct S1; [left; lia|right; auto]|destruct S2; [left; lia|right; auto]]. }
  subst k.
  assert (EB : forall c, (c < n)%nat -> A i c = sum (p + 1) (fun e => if (j + e =? c)%nat then piece K (j + p) p (j + e) (x i) else 0)).
  { intros c Hc. rewrite EA by auto. unfold Bmat. apply sum_ext. intros e He. replace (j + p - p + e)%nat with (j + e)%nat by lia.
    rewrite Nat.mod_small by lia. destruct (j + e =? c)%nat; auto. apply piece_ext. intros v Hv. apply ap_at. lia. }
  split.
  - intros c Hc. rewrite EB by auto. apply sum_pos. intros e He. destruct (j + e =? c)%nat; [|lra].
    apply (piece_nonneg K (n + p + 1) (j + p)); try lia; auto. intros u v Huv. apply ap_mono; auto. lia.
  - rewrite (sum_ext n _ (fun c => sum (p + 1) (fun e => (if (j + e =? c)%nat then piece K (j + p) p (j + e) (x i) else 0) * w c))).
    2:{ intros c Hc. rewrite EB by auto. rewrite sum_scal_r. reflexivity. }
    rewrite sum_swap. rewrite (sum_ext (p + 1) _ (fun e => piece K (j + p) p (j + e) (x i) * w (j + e)%nat)).
    2:{ intros e He. rewrite (sum_single n (j + e) (fun c => (if (j + e =? c)%nat then piece K (j + p) p (j + e) (x i) else 0) * w c)); [rewrite Nat.eqb_refl; auto|lia|]. intros c Hc Hne. destruct (Nat.eqb_spec (j + e) c); [lia|ring]. }
    rewrite (EB i) by auto. rewrite (sum_single (p + 1) (i - j) (fun e => if (j + e =? i)%nat then piece K (j + p) p (j + e) (x i) else 0)).
    + replace (j + (i - j))%nat with i by lia. rewrite Nat.eqb_refl. exact HS.
    + lia.
    + intros e He Hne. destruct (Nat.eqb_spec (j + e) i); [lia|auto].
Qed.
End Row.

(** ** Equally spaced points *)
Section Uniform.
Variables (n : nat) (a h : R) (x : nat -> R).
Hypothesis Hh : 0 < h.
Hypothesis Ex : forall i, x i = a + INR i * h.

Lemma u_incr : increasing n x.
Proof. intros i j Hij. rewrite !Ex. apply Rplus_lt_compat_l, Rmult_lt_compat_r; auto. apply lt_INR. lia. Qed.
Hypothesis Hn2 : (2 <= n)%nat.
Lemma u_lo p i : (p < n)%nat -> (i <= p)%nat -> ap_knot p n x i = a.
Proof. intros H H'. rewrite ap_lo by lia. rewrite Ex. simpl (INR 0). ring. Qed.
Lemma u_hi p i : (p < n)%nat -> (n <= i)%nat -> ap_knot p n x i = a + (INR n - 1) * h.
Proof. intros H H'. rewrite ap_hi by lia. rewrite Ex, minus_INR by lia. reflexivity. Qed.
Lemma u_mid p i : (1 <= p)%nat -> (p < i < n)%nat -> ap_knot p n x i = a + (INR i - (INR p + 1) / 2) * h.
Proof.
  intros H H'. rewrite ap_mid by lia. rewrite (mean_ext _ _ (fun j => (a + INR (i - p) * h) + INR j * h)).
  2:{ intros j Hj. rewrite Ex, plus_INR. ring. }
  rewrite mean_affine by lia. rewrite minus_INR by lia. field.
Qed.

(** The values on a segment, from the distances of the knots to the point. *)
Lemma vals2 t j y d1 d2 d3 d4 : d1 <= d2 < d3 -> d3 <= d4 ->
  t (j + 1)%nat = y + d1 * h -> t (j + 2)%nat = y + d2 * h -> t (j + 3)%nat = y + d3 * h -> t (j + 4)%nat = y + d4 * h ->
  piece t (j + 2) 2 j y = d3 ^ 2 / ((d3 - d2) * (d3 - d1)) /\ piece t (j + 2) 2 (j + 2) y = d2 ^ 2 / ((d3 - d2) * (d4 - d2)) /\
  piece t (j + 2) 2 (j + 1) y = 1 - d3 ^ 2 / ((d3 - d2) * (d3 - d1)) - d2 ^ 2 / ((d3 - d2) * (d4 - d2)).
Proof.
  intros Hl Hr T1 T2 T3 T4. destruct (local2 t j y) as (E1 & E2 & E3); try (rewrite ?T1, ?T2, ?T3, ?T4; nra).
  rewrite T1, T2, T3, T4 in *. rewrite E1, E2, E3. split; [|split]; field; repeat split; nra.
Qed.

Lemma vals3 t j y d1 d2 d3 d4 d5 d6 : d1 <= d2 <= d3 -> d3 < d4 <= d5 -> d5 <= d6 ->
  t (j + 1)%nat = y + d1 * h -> t (j + 2)%nat = y + d2 * h -> t (j + 3)%nat = y + d3 * h -> t (j + 4)%nat = y + d4 * h -> t (j + 5)%nat = y + d5 * h ->
  t (j + 6)%nat = y + d6 * h ->
  let b1 := d4 ^ 2 / ((d4 - d3) * (d4 - d2)) in
  let b2 := - d2 * d4 / ((d4 - d3) * (d4 - d2)) - d5 * d3 / ((d4 - d3) * (d5 - d3)) in
  let b3 := d3 ^ 2 / ((d4 - d3) * (d5 - d3)) in
  piece t (j + 3) 3 j y = d4 / (d4 - d1) * b1 /\
  piece t (j + 3) 3 (j + 1) y = - d1 / (d4 - d1) * b1 + d5 / (d5 - d2) * b2 /\
  piece t (j + 3) 3 (j + 2) y = - d2 / (d5 - d2) * b2 + d6 / (d6 - d3) * b3 /\
  piece t (j + 3) 3 (j + 3) y = - d3 / (d6 - d3) * b3.
Proof.
  intros Hl Hr Hr' T1 T2 T3 T4 T5 T6 b1 b2 b3. destruct (local3 t j y) as (E1 & E2 & E3 & E4); try (rewrite ?T1, ?T2, ?T3, ?T4, ?T5, ?T6 in *; nra).
  rewrite T1, T2, T3, T4, T5, T6 in *. unfold b1, b2, b3.
  rewrite E1, E2, E3, E4. split; [|split; [|split]]; field; repeat split; nra.
Qed.

Variable A : mat.
Definition w2 i : R := match Nat.min i (n - 1 - i) with 0%nat => 1 | 1%nat => 45 / 16 | _ => 2 end.
Definition w3 i : R := match Nat.min i (n - 1 - i) with 0%nat => 1 | 1%nat => 6 | 2%nat => 5 | _ => 3 end.

Ltac wt W v := replace W with v by (unfold w2, w3; match goal with |- _ = match ?m with _ => _ end => let E := fresh in first
  [assert (E : m = 0%nat) by lia | assert (E : m = 1%nat) by lia | assert (E : m = 2%nat) by lia | assert (E : exists q, m = S (S (S q))) by (exists (m - 3)%nat; lia); destruct E as [? E] | assert (E : exists q, m = S (S q)) by (exists (m - 2)%nat; lia); destruct E as [? E]]; rewrite E; reflexivity end).
Ltac knot := first [rewrite u_lo by lia | rewrite u_hi by lia | rewrite u_mid by lia]; rewrite ?Ex, ?plus_INR; simpl; field.
Ltac knotn EN := first [rewrite u_lo by lia | rewrite u_hi by lia | rewrite u_mid by lia]; rewrite ?Ex, ?plus_INR, ?EN; simpl; field.

Lemma row2 i j d1 d2 d3 d4 : (j + 2 < n)%nat -> (j <= i <= j + 2)%nat -> (i < n)%nat -> col_good 2 false n x A ->
  (j = 0%nat \/ d2 <= 0) -> ((j + 2 + 1)%nat = n \/ 0 < d3) -> d1 <= d2 < d3 -> d2 <= 0 <= d3 -> d3 <= d4 ->
  ap_knot 2 n x (j + 1)%nat = x i + d1 * h -> ap_knot 2 n x (j + 2)%nat = x i + d2 * h ->
  ap_knot 2 n x (j + 3)%nat = x i + d3 * h -> ap_knot 2 n x (j + 4)%nat = x i + d4 * h ->
  let v0 := d3 ^ 2 / ((d3 - d2) * (d3 - d1)) in let v2 := d2 ^ 2 / ((d3 - d2) * (d4 - d2)) in
  v0 * w2 j + (1 - v0 - v2) * w2 (j + 1) + v2 * w2 (j + 2) <= 2 * (match (i - j)%nat with 0%nat => v0 | 1%nat => 1 - v0 - v2 | _ => v2 end * w2 i) - 1 ->
  0 < w2 i <= 45 / 16 /\ (forall c, (c < n)%nat -> 0 <= A i c) /\ sum n (fun c => A i c * w2 c) <= 2 * (A i i * w2 i) - 1.
Proof.
  intros Hj Hij Hi HC S1 S2 D1 D0 D2 T1 T2 T3 T4 v0 v2 HS.
  destruct (vals2 (ap_knot 2 n x) j (x i) d1 d2 d3 d4 D1 D2 T1 T2 T3 T4) as (E0 & E2 & E1). fold v0 v2 in E0, E1, E2.
  apply (ap_row 2 n x A ltac:(lia) Hn2 u_incr HC i j); auto.
  - destruct S1; [left; auto|right]. rewrite T2. nra.
  - destruct S2; [left; auto|right]. replace (j + 2 + 1)%nat with (j + 3)%nat by lia. rewrite T3. nra.
  - replace (j + 2 + 1)%nat with (j + 3)%nat by lia. rewrite T2, T3. nra.
  - unfold w2; destruct (Nat.min i (n - 1 - i)) as [|[|]]; lra.
  - change (2 + 1)%nat with 3%nat. cbn [sum]. rewrite Nat.add_0_r. rewrite E0, E1, E2.
    assert (Q : i = j \/ i = (j + 1)%nat \/ i = (j + 2)%nat) by lia. destruct Q as [->|[->| ->]].
    + rewrite Nat.sub_diag in HS. rewrite E0. lra.
    + replace (j + 1 - j)%nat with 1%nat in HS by lia. rewrite E1. lra.
    + replace (j + 2 - j)%nat with 2%nat in HS by lia. rewrite E2. lra.
Qed.

(** Order 2. *)
Lemma rows2 : (5 <= n)%nat -> col_good 2 false n x A -> forall r, (r < n)%nat ->
  0 < w2 r <= 45 / 16 /\ (forall c, (c < n)%nat -> 0 <= A r c) /\ sum n (fun c => A r c * w2 c) <= 2 * (A r r * w2 r) - 1.
Proof.
  intros H5 HC i Hi.
  destruct (Nat.eq_dec i 0) as [I0|I0]; [|destruct (Nat.eq_dec (i + 1) n) as [I1|I1]].
  - subst i. apply (row2 0 0 0 0 (3/2) (5/2)); auto; try lia; try lra; try knot.
    cbv zeta. cbn [Nat.sub Nat.add]. wt (w2 0) 1. wt (w2 1) (45/16). wt (w2 2) 2. lra.
  - assert (EJ : exists j, i = (j + 2)%nat) by (exists (i - 2)%nat; lia). destruct EJ as [j ->].
    assert (EN : INR n = INR j + 3) by (rewrite <- I1, !plus_INR; simpl; ring).
    apply (row2 (j + 2) j (-5/2) (-3/2) 0 0); auto; try lia; try lra; try knotn EN.
    cbv zeta. replace (j + 2 - j)%nat with 2%nat by lia. wt (w2 j) 2. wt (w2 (j + 1)) (45/16). wt (w2 (j + 2)) 1. lra.
  - assert (EJ : exists j, i = (j + 1)%nat) by (exists (i - 1)%nat; lia). destruct EJ as [j ->].
    destruct (Nat.eq_dec j 0) as [->|J0]; [|destruct (Nat.eq_dec (j + 3) n) as [J1|J1]; [assert (EN : INR n = INR j + 3) by (rewrite <- J1, !plus_INR; simpl; ring)|]].
    + apply (row2 (0 + 1) 0 (-1) (-1) (1/2) (3/2)); auto; try lia; try lra; try knot.
      cbv zeta. cbn [Nat.sub Nat.add]. wt (w2 0) 1. wt (w2 1) (45/16). wt (w2 2) 2. lra.
    + apply (row2 (j + 1) j (-3/2) (-1/2) 1 1); auto; try lia; try lra; try knotn EN.
      cbv zeta. replace (j + 1 - j)%nat with 1%nat by lia. wt (w2 j) 2. wt (w2 (j + 1)) (45/16). wt (w2 (j + 2)) 1. lra.
    + destruct (Nat.eq_dec j 1) as [->|K0]; [destruct (Nat.eq_dec 5 n) as [K1|K1]; [assert (EN : INR n = 5) by (rewrite <- K1; simpl; ring)|]
        |destruct (Nat.eq_dec (j + 4) n) as [K1|K1]; [assert (EN : INR n = INR j + 4) by (rewrite <- K1, !plus_INR; simpl; ring)|]].
      * apply (row2 (1 + 1) 1 (-2) (-1/2) (1/2) 2); auto; try lia; try lra; try knotn EN.
        cbv zeta. cbn [Nat.sub Nat.add]. wt (w2 1) (45/16). wt (w2 2) 2. wt (w2 3) (45/16). lra.
      * apply (row2 (1 + 1) 1 (-2) (-1/2) (1/2) (3/2)); auto; try lia; try lra; try knot.
        cbv zeta. cbn [Nat.sub Nat.add]. wt (w2 1) (45/16). wt (w2 2) 2. wt (w2 3) 2. lra.
      * apply (row2 (j + 1) j (-3/2) (-1/2) (1/2) 2); auto; try lia; try lra; try knotn EN.
        cbv zeta. replace (j + 1 - j)%nat with 1%nat by lia. wt (w2 j) 2. wt (w2 (j + 1)) 2. wt (w2 (j + 2)) (45/16). lra.
      * apply (row2 (j + 1) j (-3/2) (-1/2) (1/2) (3/2)); auto; try lia; try lra; try knot.
        cbv zeta. replace (j + 1 - j)%nat with 1%nat by lia. wt (w2 j) 2. wt (w2 (j + 1)) 2. wt (w2 (j + 2)) 2. lra.
Qed.

Lemma row3 i j d1 d2 d3 d4 d5 d6 : (j + 3 < n)%nat -> (j <= i <= j + 3)%nat -> (i < n)%nat -> col_good 3 false n x A ->
  (j = 0%nat \/ d3 <= 0) -> ((j + 3 + 1)%nat = n \/ 0 < d4) -> d1 <= d2 <= d3 -> d3 <= 0 <= d4 -> d3 < d4 <= d5 -> d5 <= d6 ->
  ap_knot 3 n x (j + 1)%nat = x i + d1 * h -> ap_knot 3 n x (j + 2)%nat = x i + d2 * h -> ap_knot 3 n x (j + 3)%nat = x i + d3 * h ->
  ap_knot 3 n x (j + 4)%nat = x i + d4 * h -> ap_knot 3 n x (j + 5)%nat = x i + d5 * h -> ap_knot 3 n x (j + 6)%nat = x i + d6 * h ->
  let b1 := d4 ^ 2 / ((d4 - d3) * (d4 - d2)) in
  let b2 := - d2 * d4 / ((d4 - d3) * (d4 - d2)) - d5 * d3 / ((d4 - d3) * (d5 - d3)) in
  let b3 := d3 ^ 2 / ((d4 - d3) * (d5 - d3)) in
  let v0 := d4 / (d4 - d1) * b1 in let v1 := - d1 / (d4 - d1) * b1 + d5 / (d5 - d2) * b2 in
  let v2 := - d2 / (d5 - d2) * b2 + d6 / (d6 - d3) * b3 in let v3 := - d3 / (d6 - d3) * b3 in
  v0 * w3 j + v1 * w3 (j + 1) + v2 * w3 (j + 2) + v3 * w3 (j + 3) <= 2 * (match (i - j)%nat with 0%nat => v0 | 1%nat => v1 | 2%nat => v2 | _ => v3 end * w3 i) - 1 ->
  0 < w3 i <= 6 /\ (forall c, (c < n)%nat -> 0 <= A i c) /\ sum n (fun c => A i c * w3 c) <= 2 * (A i i * w3 i) - 1.
Proof.
  intros Hj Hij Hi HC S1 S2 D1 D0 D2 D3 T1 T2 T3 T4 T5 T6 b1 b2 b3 v0 v1 v2 v3 HS.
  destruct (vals3 (ap_knot 3 n x) j (x i) d1 d2 d3 d4 d5 d6 D1 D2 D3 T1 T2 T3 T4 T5 T6) as (E0 & E1 & E2 & E3).
  fold b1 b2 b3 in E0, E1, E2, E3. fold v0 in E0. fold v1 in E1. fold v2 in E2. fold v3 in E3.
  apply (ap_row 3 n x A ltac:(lia) Hn2 u_incr HC i j); auto.
  - destruct S1; [left; auto|right]. rewrite T3. nra.
  - destruct S2; [left; auto|right]. replace (j + 3 + 1)%nat with (j + 4)%nat by lia. rewrite T4. nra.
  - replace (j + 3 + 1)%nat with (j + 4)%nat by lia. rewrite T3, T4. nra.
  - unfold w3; destruct (Nat.min i (n - 1 - i)) as [|[|[|]]]; lra.
  - change (3 + 1)%nat with 4%nat. cbn [sum]. rewrite Nat.add_0_r. rewrite E0, E1, E2, E3.
    assert (Q : i = j \/ i = (j + 1)%nat \/ i = (j + 2)%nat \/ i = (j + 3)%nat) by lia. destruct Q as [->|[->|[->| ->]]].
    + rewrite Nat.sub_diag in HS. rewrite E0. lra.
    + replace (j + 1 - j)%nat with 1%nat in HS by lia. rewrite E1. lra.
    + replace (j + 2 - j)%nat with 2%nat in HS by lia. rewrite E2. lra.
    + replace (j + 3 - j)%nat with 3%nat in HS by lia. rewrite E3. lra.
Qed.

(** Rows whose point is a knot. *)
Lemma row3k j d1 d2 d4 d5 : (j + 3 < n)%nat -> col_good 3 false n x A -> d1 <= d2 -> d2 < 0 < d4 -> d4 <= d5 ->
  ap_knot 3 n x (j + 1)%nat = x (j + 1)%nat + d1 * h -> ap_knot 3 n x (j + 2)%nat = x (j + 1)%nat + d2 * h -> ap_knot 3 n x (j + 3)%nat = x (j + 1)%nat ->
  ap_knot 3 n x (j + 4)%nat = x (j + 1)%nat + d4 * h -> ap_knot 3 n x (j + 5)%nat = x (j + 1)%nat + d5 * h ->
  let v0 := d4 ^ 2 / ((d4 - d1) * (d4 - d2)) in let v2 := d2 ^ 2 / ((d4 - d2) * (d5 - d2)) in
  v0 * w3 j + (1 - v0 - v2) * w3 (j + 1) + v2 * w3 (j + 2) <= 2 * ((1 - v0 - v2) * w3 (j + 1)) - 1 ->
  0 < w3 (j + 1) <= 6 /\ (forall c, (c < n)%nat -> 0 <= A (j + 1)%nat c) /\ sum n (fun c => A (j + 1)%nat c * w3 c) <= 2 * (A (j + 1)%nat (j + 1)%nat * w3 (j + 1)) - 1.
Proof.
  intros Hj HC D1 D2 D3 T1 T2 T3 T4 T5 v0 v2 HS.
  set (d6 := (ap_knot 3 n x (j + 6) - x (j + 1)%nat) / h).
  assert (T6 : ap_knot 3 n x (j + 6)%nat = x (j + 1)%nat + d6 * h) by (unfold d6; field; lra).
  assert (D6 : d5 <= d6).
  { pose proof (ap_mono 3 n x u_incr ltac:(lia) Hn2 (j + 5) (j + 6) ltac:(lia)) as Q. rewrite T5, T6 in Q. nra. }
  apply (row3 (j + 1) j d1 d2 0 d4 d5 d6); auto; try lia; try lra.
  cbv zeta. replace (j + 1 - j)%nat with 1%nat by lia.
  replace (- d1 / (d4 - d1) * (d4 ^ 2 / ((d4 - 0) * (d4 - d2))) + d5 / (d5 - d2) * (- d2 * d4 / ((d4 - 0) * (d4 - d2)) - d5 * 0 / ((d4 - 0) * (d5 - 0)))) with (1 - v0 - v2) by (unfold v0, v2; field; lra).
  replace (d4 / (d4 - d1) * (d4 ^ 2 / ((d4 - 0) * (d4 - d2)))) with v0 by (unfold v0; field; lra).
  replace (- d2 / (d5 - d2) * (- d2 * d4 / ((d4 - 0) * (d4 - d2)) - d5 * 0 / ((d4 - 0) * (d5 - 0))) + d6 / (d6 - 0) * (0 ^ 2 / ((d4 - 0) * (d5 - 0)))) with v2 by (unfold v2; field; lra).
  replace (- 0 / (d6 - 0) * (0 ^ 2 / ((d4 - 0) * (d5 - 0)))) with 0 by (field; lra).
  lra.
Qed.

(** Order 3. *)
Lemma rows3 : (7 <= n)%nat -> col_good 3 false n x A -> forall r, (r < n)%nat ->
  0 < w3 r <= 6 /\ (forall c, (c < n)%nat -> 0 <= A r c) /\ sum n (fun c => A r c * w3 c) <= 2 * (A r r * w3 r) - 1.
Proof.
  intros H7 HC i Hi.
  destruct (Nat.eq_dec i 0) as [->|I0]; [|destruct (Nat.eq_dec i 1) as [->|I1]; [|destruct (Nat.eq_dec (i + 1) n) as [I2|I2]; [|destruct (Nat.eq_dec (i + 2) n) as [I3|I3]]]].
  - apply (row3 0 0 0 0 0 2 3 4); auto; try lia; try lra; try knot.
    cbv zeta. cbn [Nat.sub Nat.add]. wt (w3 0) 1. wt (w3 1) 6. wt (w3 2) 5. wt (w3 3) 3. lra.
  - apply (row3 1 0 (-1) (-1) (-1) 1 2 3); auto; try lia; try lra; try knot.
    cbv zeta. cbn [Nat.sub Nat.add]. wt (w3 0) 1. wt (w3 1) 6. wt (w3 2) 5. wt (w3 3) 3. lra.
  - assert (EJ : exists j, i = (j + 3)%nat) by (exists (i - 3)%nat; lia). destruct EJ as [j ->].
    assert (EN : INR n = INR j + 4) by (rewrite <- I2, !plus_INR; simpl; ring).
    apply (row3 (j + 3) j (-4) (-3) (-2) 0 0 0); auto; try lia; try lra; try knotn EN.
    cbv zeta. replace (j + 3 - j)%nat with 3%nat by lia. wt (w3 j) 3. wt (w3 (j + 1)) 5. wt (w3 (j + 2)) 6. wt (w3 (j + 3)) 1. lra.
  - assert (EJ : exists j, i = (j + 2)%nat) by (exists (i - 2)%nat; lia). destruct EJ as [j ->].
    assert (EN : INR n = INR j + 4) by (rewrite <- I3, !plus_INR; simpl; ring).
    apply (row3 (j + 2) j (-3) (-2) (-1) 1 1 1); auto; try lia; try lra; try knotn EN.
    cbv zeta. replace (j + 2 - j)%nat with 2%nat by lia. wt (w3 j) 3. wt (w3 (j + 1)) 5. wt (w3 (j + 2)) 6. wt (w3 (j + 3)) 1. lra.
  - assert (EJ : exists j, i = (j + 1)%nat) by (exists (i - 1)%nat; lia). destruct EJ as [j ->].
    destruct (Nat.eq_dec j 1) as [->|J0]; [|destruct (Nat.eq_dec j 2) as [->|J1]].
    + apply (row3k 1 (-2) (-2) 1 2); auto; try lia; try lra; try knot.
      cbv zeta. cbn [Nat.sub Nat.add]. wt (w3 1) 6. wt (w3 2) 5. wt (w3 3) 3. lra.
    + destruct (Nat.eq_dec 7 n) as [K1|K1].
      * assert (EN : INR n = 7) by (rewrite <- K1; simpl; ring).
        apply (row3k 2 (-3) (-1) 1 3); auto; try lia; try lra; try knotn EN.
        cbv zeta. cbn [Nat.sub Nat.add]. wt (w3 2) 5. wt (w3 3) 3. wt (w3 4) 5. lra.
      * apply (row3k 2 (-3) (-1) 1 2); auto; try lia; try lra; try knot.
        cbv zeta. cbn [Nat.sub Nat.add]. wt (w3 2) 5. wt (w3 3) 3. wt (w3 4) 3. lra.
    + destruct (Nat.eq_dec (j + 4) n) as [K1|K1]; [|destruct (Nat.eq_dec (j + 5) n) as [K2|K2]].
      * assert (EN : INR n = INR j + 4) by (rewrite <- K1, !plus_INR; simpl; ring).
        apply (row3k j (-2) (-1) 2 2); auto; try lia; try lra; try knotn EN.
        cbv zeta. wt (w3 j) 3. wt (w3 (j + 1)) 5. wt (w3 (j + 2)) 6. lra.
      * assert (EN : INR n = INR j + 5) by (rewrite <- K2, !plus_INR; simpl; ring).
        apply (row3k j (-2) (-1) 1 3); auto; try lia; try lra; try knotn EN.
        cbv zeta. wt (w3 j) 3. wt (w3 (j + 1)) 3. wt (w3 (j + 2)) 5. lra.
      * apply (row3k j (-2) (-1) 1 2); auto; try lia; try lra; try knot.
        cbv zeta. wt (w3 j) 3. wt (w3 (j + 1)) 3. wt (w3 (j + 2)) 3. lra.
Qed.
End Uniform.
