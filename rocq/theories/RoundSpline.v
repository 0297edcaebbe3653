(** Basis functions in rounded arithmetic. *)
From Coq Require Import List Arith Lia Bool ZArith Reals Lra Psatz.
From Verif Require Import Base Num MeshM SplineM SpecMesh SpecBand SpecSpline SpecSplineObj SpecRound MeshProofs SumR SplineProofs BasisProofs.
Import ListNotations.
Local Open Scope R_scope.

Lemma Rabs_bounds x e : Rabs x <= e -> - e <= x <= e.
Proof. intros H. unfold Rabs in H. destruct (Rcase_abs x); lra. Qed.
Lemma bounds_Rabs x e : - e <= x <= e -> Rabs x <= e.
Proof. intros H. unfold Rabs. destruct (Rcase_abs x); lra. Qed.
(** Errors as factors and summands. *)
Lemma err_form a b u e : 0 <= u -> 0 <= e -> Rabs (a - b) <= u * Rabs b + e ->
  exists d h, Rabs d <= u /\ Rabs h <= e /\ a = b * (1 + d) + h.
Proof.
  intros Hu He H. destruct (Rle_or_lt (Rabs (a - b)) e) as [L|L].
  - exists 0, (a - b). rewrite Rabs_R0. split; [lra|]. split; [lra|ring].
  - assert (b <> 0) as Nb. { intros ->. rewrite Rabs_R0 in H. lra. }
    assert (0 < Rabs b) as Pb by (apply Rabs_pos_lt; auto).
    apply Rabs_bounds in H. destruct (Rle_or_lt 0 (a - b)) as [P|P].
    + rewrite Rabs_pos_eq in L by lra. exists ((a - b - e) / b), e. split; [|split; [rewrite Rabs_pos_eq; lra|field; auto]].
      unfold Rdiv. rewrite Rabs_mult, Rabs_inv, Rabs_pos_eq by lra. apply Rmult_le_reg_r with (Rabs b); auto. rewrite Rmult_assoc, Rinv_l by lra. lra.
    + rewrite Rabs_left in L by lra. exists ((a - b + e) / b), (- e). split; [|split; [rewrite Rabs_Ropp, Rabs_pos_eq; lra|field; auto]].
      unfold Rdiv. rewrite Rabs_mult, Rabs_inv, Rabs_left by lra. apply Rmult_le_reg_r with (Rabs b); auto. rewrite Rmult_assoc, Rinv_l by lra. lra.
Qed.
Lemma rel_form a b u : 0 <= u -> Rabs (a - b) <= u * Rabs b -> exists d, Rabs d <= u /\ a = b * (1 + d).
Proof.
  intros Hu H. destruct (err_form a b u 0) as (d & h & Hd & Hh & E); try lra. exists d. split; auto.
  apply Rabs_bounds in Hh. rewrite E. replace h with 0 by lra. ring.
Qed.
Lemma theta_bound u d1 d2 d3 d4 : 0 <= u <= / 16 -> Rabs d1 <= u -> Rabs d2 <= u -> Rabs d3 <= u -> Rabs d4 <= u ->
  Rabs ((1 + d1) * (1 + d3) * (1 + d4) / (1 + d2) - 1) <= 5 * u.
Proof.
  intros Hu H1 H2 H3 H4. apply Rabs_bounds in H1. apply Rabs_bounds in H2. apply Rabs_bounds in H3. apply Rabs_bounds in H4.
  assert (0 < 1 + d2) as P by lra.
  assert (U1 : (1 + d1) * (1 + d3) <= (1 + u) * (1 + u)) by (apply Rmult_le_compat; lra).
  assert (U2 : (1 + d1) * (1 + d3) * (1 + d4) <= (1 + u) * (1 + u) * (1 + u)) by (apply Rmult_le_compat; try lra; apply Rmult_le_pos; lra).
  assert (L1 : (1 - u) * (1 - u) <= (1 + d1) * (1 + d3)) by (apply Rmult_le_compat; lra).
  assert (L2 : (1 - u) * (1 - u) * (1 - u) <= (1 + d1) * (1 + d3) * (1 + d4)) by (apply Rmult_le_compat; try lra; apply Rmult_le_pos; lra).
  set (m := (1 + d1) * (1 + d3) * (1 + d4)) in *. clearbody m.
  assert (X : (1 - 5 * u) * (1 + d2) <= m <= (1 + 5 * u) * (1 + d2)).
  { split.
    - apply Rle_trans with ((1 - 5 * u) * (1 + u)); [apply Rmult_le_compat_l; lra|]. nra.
    - apply Rle_trans with ((1 + 5 * u) * (1 - u)); [|apply Rmult_le_compat_l; lra]. nra. }
  apply bounds_Rabs. assert (Q : 1 - 5 * u <= m / (1 + d2) <= 1 + 5 * u); [|lra].
  split; apply Rmult_le_reg_r with (1 + d2); auto; unfold Rdiv; rewrite Rmult_assoc, Rinv_l, Rmult_1_r by lra; lra.
Qed.

Section Round.
Context {T : Type} (o : ops T) (val : T -> R) (good : T -> Prop) (u eta big : R).
Context (RD : rounding o val good u eta big).

(** [fl(fl(b*fl(x-l))/fl(r-l))] against [p*w], [w = (x-l)/(r-l)]. *)
Lemma term_round b num den p w n d g :
  good b -> good num -> good den ->
  0 <= n <= d -> w = n / d -> 0 < g -> g <= d ->
  Rabs (val num - n) <= u * Rabs n -> Rabs (val den - d) <= u * Rabs d -> 0 <= p ->
  Rabs (val b) <= 2 -> d <= big / 4 -> eta <= g ->
  exists c, odiv o (omul o b num) den = Ok c /\ good c /\
    Rabs (val c - w * p) <= (1 + 5 * u) * (w * Rabs (val b - p)) + 5 * u * (w * p) + (eta * (17/15) / g + eta).
Proof using RD.
  intros Gb Gn Gd Hn Ew Hg Hgd En Ed Hp Hb Hd He.
  destruct RD as [[u0 u1] e0 B16 _ _ _ _ RM RV _ _].
  assert (Hw : 0 <= w <= 1). { rewrite Ew. split; [apply Rmult_le_pos; [lra|apply Rlt_le, Rinv_0_lt_compat; lra]|].
    apply Rmult_le_reg_r with d; [lra|]. unfold Rdiv. rewrite Rmult_assoc, Rinv_l by lra. lra. }
  apply rel_form in En as (d1 & H1 & En); auto. apply rel_form in Ed as (d2 & H2 & Ed); auto.
  pose proof (Rabs_bounds _ _ H1) as I1. pose proof (Rabs_bounds _ _ H2) as I2. pose proof (Rabs_bounds _ _ Hb) as Ib.
  assert (Dp : 0 < val den) by (rewrite Ed; apply Rmult_lt_0_compat; lra).
  assert (M : Rabs (val b * val num) <= 2 * ((1 + u) * (big / 4))).
  { rewrite Rabs_mult. apply Rmult_le_compat; auto using Rabs_pos. rewrite En, Rabs_mult, (Rabs_pos_eq n), (Rabs_pos_eq (1 + d1)) by lra. rewrite Rmult_comm. apply Rmult_le_compat; lra. }
  destruct (RM b num Gb Gn) as [Gm Em]; [nra|].
  apply err_form in Em as (d3 & h3 & H3 & K3 & Em); auto.
  pose proof (Rabs_bounds _ _ H3) as I3. pose proof (Rabs_bounds _ _ K3) as J3.
  assert (Q : val (omul o b num) / val den = val b * w * ((1 + d1) * (1 + d3) / (1 + d2)) + h3 / (d * (1 + d2))).
  { rewrite Em, En, Ed, Ew. field. lra. }
  assert (Hh : Rabs (h3 / (d * (1 + d2))) <= eta * (16/15) / g).
  { unfold Rdiv. rewrite Rabs_mult, Rabs_inv, (Rabs_pos_eq (d * (1 + d2))) by nra. rewrite Rmult_assoc. apply Rmult_le_compat; auto using Rabs_pos.
    - apply Rlt_le, Rinv_0_lt_compat. nra.
    - replace (16 * / 15 * / g) with (/ ((15/16) * g)) by (field; lra). apply Rinv_le_contravar; nra. }
  assert (Hh1 : eta * (16/15) / g <= 16/15).
  { apply Rmult_le_reg_r with g; auto. unfold Rdiv. rewrite Rmult_assoc, Rinv_l by lra. nra. }
  assert (T1 : Rabs ((1 + d1) * (1 + d3) / (1 + d2)) <= 1 + 5 * u).
  { pose proof (theta_bound u d1 d2 d3 0 (conj u0 u1) H1 H2 H3 ltac:(rewrite Rabs_R0; lra)) as B. rewrite Rplus_0_r, Rmult_1_r in B. apply Rabs_bounds in B. apply bounds_Rabs. lra. }
  destruct (RV (omul o b num) den Gm Gd) as (c & Ec & Gc & Vc); [lra| |].
  { rewrite Q. eapply Rle_trans; [apply Rabs_triang|]. rewrite !Rabs_mult, (Rabs_pos_eq w) by lra.
    assert (Rabs (val b) * w <= 2 * 1) by (apply Rmult_le_compat; auto using Rabs_pos; lra).
    assert (Rabs (val b) * w * Rabs ((1 + d1) * (1 + d3) / (1 + d2)) <= 2 * 1 * (1 + 5 * u)) by (apply Rmult_le_compat; auto using Rabs_pos; apply Rmult_le_pos; [apply Rabs_pos|lra]).
    lra. }
  exists c. split; auto. split; auto.
  apply err_form in Vc as (d4 & h4 & H4 & K4 & Vc); auto.
  pose proof (Rabs_bounds _ _ H4) as I4.
  set (th := (1 + d1) * (1 + d3) * (1 + d4) / (1 + d2) - 1).
  pose proof (theta_bound u d1 d2 d3 d4 (conj u0 u1) H1 H2 H3 H4) as TH. fold th in TH.
  replace (val c - w * p) with (w * (val b - p) * (1 + th) + w * p * th + (h3 / (d * (1 + d2)) * (1 + d4) + h4)).
  2:{ rewrite Vc, Q. unfold th. field. lra. }
  eapply Rle_trans; [apply Rabs_triang|]. apply Rplus_le_compat.
  - eapply Rle_trans; [apply Rabs_triang|]. apply Rplus_le_compat.
    + rewrite !Rabs_mult, (Rabs_pos_eq w), Rmult_comm by lra. apply Rmult_le_compat_r; [apply Rmult_le_pos; [lra|apply Rabs_pos]|]. apply Rabs_bounds in TH. apply bounds_Rabs. lra.
    + rewrite Rabs_mult, Rmult_comm, (Rabs_pos_eq (w * p)) by (apply Rmult_le_pos; lra). apply Rmult_le_compat_r; [apply Rmult_le_pos; lra|]. auto.
  - eapply Rle_trans; [apply Rabs_triang|]. apply Rplus_le_compat; auto. rewrite Rabs_mult.
    replace (eta * (17/15) / g) with (eta * (16/15) / g * (17/16)) by (field; lra). apply Rmult_le_compat; auto using Rabs_pos. apply bounds_Rabs. lra.
Qed.

Lemma sum_round l r pl pr el er : good l -> good r ->
  Rabs (val l - pl) <= el -> Rabs (val r - pr) <= er -> 0 <= pl -> 0 <= pr -> pl + pr + el + er <= 16 ->
  good (oadd o l r) /\ Rabs (val (oadd o l r) - (pl + pr)) <= (1 + u) * (el + er) + u * (pl + pr).
Proof using RD.
  intros Gl Gr El Er Pl Pr Hs. destruct RD as [[u0 u1] e0 B16 _ _ RA _ _ _ _ _].
  apply Rabs_bounds in El. apply Rabs_bounds in Er.
  assert (L : Rabs (val l + val r) <= pl + pr + el + er) by (apply bounds_Rabs; lra).
  destruct (RA l r Gl Gr) as [G E]; [lra|]. split; auto.
  apply Rabs_bounds in E. set (z := Rabs (val l + val r)) in *. assert (0 <= z) by apply Rabs_pos.
  apply bounds_Rabs. assert (u * z <= u * (pl + pr + el + er)) by (apply Rmult_le_compat_l; auto). nra.
Qed.

Section Basis.
Variables (order : nat) (knots : list T) (k : nat) (x : T) (g : R).
Let z := o0 o.
Let t := kn (map val knots).
Hypothesis Hgk : forall i, (i < length knots)%nat -> good (nth i knots z).
Hypothesis Hnd : nondecreasing (map val knots).
Hypothesis Hko : (order <= k)%nat.
Hypothesis Hlen : (k + order + 1 < length knots)%nat.
Hypothesis Hg0 : 0 < g.
Hypothesis Hg : g <= t (k + 1)%nat - t k.
Hypothesis Hwide : t (k + order + 1)%nat - t (k - order)%nat <= big / 4.
Hypothesis Hx : good x.
Hypothesis Hin : t k <= val x <= t (k + 1)%nat.
Hypothesis Heta : eta <= g.

Definition hstep : R := 2 * (1 + u) * (eta * (17/15) / g + eta).
Definition grow (i : nat) : R := (1 + 7 * u) ^ i * (1 + INR i * (INR (order + 1) * hstep)).
Hypothesis Hgrow : grow order <= 2.

Lemma t_val i : t i = val (nth i knots z).
Proof using All. unfold t, kn. destruct (rd_0 _ _ _ _ _ _ RD) as [_ E]. fold z in E. rewrite <- E. apply map_nth. Qed.
Lemma t_le i j : (i <= j < length knots)%nat -> t i <= t j.
Proof using All. intros. apply Hnd. rewrite map_length. lia. Qed.
Lemma hstep_pos : 0 <= hstep.
Proof using All.
  destruct RD as [[u0 u1] e0 _ _ _ _ _ _ _ _ _]. unfold hstep. apply Rmult_le_pos; [lra|]. 
  apply Rplus_le_le_0_compat; auto. apply Rmult_le_pos; [lra|apply Rlt_le, Rinv_0_lt_compat; auto].
Qed.
Lemma H_pos : 0 <= INR (order + 1) * hstep.
Proof using All. apply Rmult_le_pos; [apply pos_INR|apply hstep_pos]. Qed.
Lemma qpow1 i : 1 <= (1 + 7 * u) ^ i.
Proof using All. destruct RD as [[u0 u1] _ _ _ _ _ _ _ _ _ _]. apply pow_R1_Rle. lra. Qed.
Lemma grow_step i : (1 + 7 * u) * grow i + INR (order + 1) * hstep <= grow (S i).
Proof using All.
  pose proof H_pos as HP. unfold grow. rewrite S_INR. set (H := INR (order + 1) * hstep) in *. cbn [pow].
  pose proof (qpow1 (S i)) as Q. cbn [pow] in Q. set (r := (1 + 7 * u) * (1 + 7 * u) ^ i) in *.
  replace ((1 + 7 * u) * ((1 + 7 * u) ^ i * (1 + INR i * H))) with (r * (1 + INR i * H)) by (unfold r; ring). nra.
Qed.
Lemma grow_pos i : 1 <= grow i.
Proof using All. unfold grow. pose proof (qpow1 i). pose proof H_pos. pose proof (pos_INR i). assert (0 <= INR i * (INR (order + 1) * hstep)) by (apply Rmult_le_pos; auto). nra. Qed.
Lemma grow_mono i : grow i <= grow (S i).
Proof using All. pose proof (grow_step i). pose proof (grow_pos i). pose proof H_pos. destruct RD as [[u0 u1] _ _ _ _ _ _ _ _ _ _]. assert (0 <= u * grow i) by (apply Rmult_le_pos; lra). lra. Qed.
Lemma grow_le i : (i <= order)%nat -> grow i <= 2.
Proof using All.
  intros Hi. apply Rle_trans with (grow order); auto. assert (forall n, (i <= n)%nat -> grow i <= grow n) as X; [|apply X; auto].
  intros n Hn. induction Hn; [lra|]. eapply Rle_trans; [apply IHHn|apply grow_mono].
Qed.

Definition P (i j : nat) : R := piece t k i (k - i + j)%nat (val x).
Lemma P_nonneg i j : (i <= order)%nat -> (j <= i)%nat -> 0 <= P i j.
Proof using All.
  intros. unfold P. apply (piece_nonneg t (length knots)); try lia; auto.
  - intros; apply t_le; auto.
  - lra.
Qed.
Lemma P_unity i : (i <= order)%nat -> sum (i + 1) (P i) = 1.
Proof using All.
  intros. unfold P. apply (piece_unity t (length knots)); try lia; auto.
  - intros; apply t_le; auto.
  - lra.
Qed.
Lemma P_le1 i j : (i <= order)%nat -> (j <= i)%nat -> P i j <= 1.
Proof using All.
  intros Hi Hj. rewrite <- (P_unity i Hi). 
  assert (forall n, (n <= i + 1)%nat -> (j < n)%nat -> P i j <= sum n (P i)) as X.
  { induction n; intros Hn Hjn; [lia|]. cbn [sum]. destruct (Nat.eq_dec j n).
    - subst. assert (0 <= sum n (P i)); [|lra]. apply sum_pos. intros. apply P_nonneg; lia.
    - assert (0 <= P i n) by (apply P_nonneg; lia). specialize (IHn ltac:(lia) ltac:(lia)). lra. }
  apply X; lia.
Qed.

(** Weights of level [i] (1-based position [j]). *)
Definition W (i j : nat) : R := (val x - t (k - i + j)%nat) / (t (k + j)%nat - t (k - i + j)%nat).
Lemma W_gap i j : (i <= order)%nat -> (1 <= j <= i)%nat ->
  0 <= val x - t (k - i + j)%nat <= t (k + j)%nat - t (k - i + j)%nat /\ g <= t (k + j)%nat - t (k - i + j)%nat <= big / 4.
Proof using All.
  intros Hi Hj. assert (t (k - i + j)%nat <= t k) by (apply t_le; lia). assert (t (k + 1)%nat <= t (k + j)%nat) by (apply t_le; lia).
  assert (t (k - order)%nat <= t (k - i + j)%nat) by (apply t_le; lia). assert (t (k + j)%nat <= t (k + order + 1)%nat) by (apply t_le; lia).
  lra.
Qed.
Lemma W_range i j : (i <= order)%nat -> (1 <= j <= i)%nat -> 0 <= W i j <= 1.
Proof using All.
  intros Hi Hj. destruct (W_gap i j Hi Hj). unfold W. split.
  - apply Rmult_le_pos; [lra|apply Rlt_le, Rinv_0_lt_compat; lra].
  - apply Rmult_le_reg_r with (t (k + j)%nat - t (k - i + j)%nat); [lra|]. unfold Rdiv. rewrite Rmult_assoc, Rinv_l by lra. lra.
Qed.
Lemma P_rec i j : (S i <= order)%nat -> (j <= S i)%nat ->
  P (S i) j = (if (j =? 0)%nat then 0 else W (S i) j * P i (j - 1)) + (if (j =? S i)%nat then 0 else (1 - W (S i) (j + 1)) * P i j).
Proof using All.
  intros Hi Hj. unfold P. rewrite (piece_rec t (length knots)); try lia.
  2:{ intros; apply t_le; auto. } 2:{ lra. }
  f_equal.
  - destruct (Nat.eqb_spec j 0).
    + rewrite piece_support by lia. ring.
    + replace (k - i + (j - 1))%nat with (k - S i + j)%nat by lia. f_equal. unfold wgt, W. replace (k - S i + j + S i)%nat with (k + j)%nat by lia. apply frac_ok.
      assert (t (k - S i + j)%nat <= t k) by (apply t_le; lia). assert (t (k + 1)%nat <= t (k + j)%nat) by (apply t_le; lia). lra.
  - destruct (Nat.eqb_spec j (S i)).
    + rewrite piece_support by lia. ring.
    + replace (k - i + j)%nat with (k - S i + j + 1)%nat by lia. f_equal. f_equal. unfold wgt, W. replace (k - S i + j + 1 + S i)%nat with (k + (j + 1))%nat by lia.
      replace (k - S i + j + 1)%nat with (k - S i + (j + 1))%nat by lia. apply frac_ok.
      assert (t (k - S i + (j + 1))%nat <= t k) by (apply t_le; lia). assert (t (k + 1)%nat <= t (k + (j + 1))%nat) by (apply t_le; lia). lra.
Qed.
(** Recombination of a level. *)
Lemma level_sum i (a : nat -> R) :
  sum (S i + 1) (fun j => (if (j =? 0)%nat then 0 else W (S i) j * a (j - 1)%nat) + (if (j =? S i)%nat then 0 else (1 - W (S i) (j + 1)) * a j)) = sum (i + 1) a.
Proof using All.
  rewrite sum_plus. replace (S i + 1)%nat with (S (S i)) by lia. replace (i + 1)%nat with (S i) by lia. rewrite sum_S_l.
  set (f := fun j => if (j =? S i)%nat then 0 else (1 - W (S i) (j + 1)) * a j).
  change (sum (S (S i)) f) with (sum (S i) f + f (S i)). unfold f at 2. rewrite !Nat.eqb_refl, Rplus_0_l, Rplus_0_r, <- sum_plus.
  apply sum_ext. intros j Hj. unfold f. destruct (Nat.eqb_spec j (S i)); [lia|]. destruct (Nat.eqb_spec (S j) 0); [lia|]. replace (S j - 1)%nat with j by lia. replace (j + 1)%nat with (S j) by lia. ring.
Qed.

Definition rlevel (i : nat) (b : list T) : Prop :=
  length b = (order + 1)%nat /\ (forall j, (j < order + 1)%nat -> good (nth j b z)) /\
  sum (i + 1) (fun j => Rabs (val (nth (order - i + j) b z) - P i j)) <= grow i - 1.

Lemma rlevel_elem i b j : (i <= order)%nat -> rlevel i b -> (j <= i)%nat -> Rabs (val (nth (order - i + j) b z) - P i j) <= 1.
Proof using All.
  intros Hi (_ & _ & Hs) Hj. pose proof (grow_le i Hi). apply Rle_trans with (sum (i + 1) (fun j => Rabs (val (nth (order - i + j) b z) - P i j))); [|lra].
  set (f := fun j => Rabs (val (nth (order - i + j) b z) - P i j)). change (f j <= sum (i + 1) f).
  assert (forall n, (j < n)%nat -> f j <= sum n f) as X; [|apply X; lia].
  induction n; intros Hn; [lia|]. cbn [sum]. destruct (Nat.eq_dec j n).
  - subst. assert (0 <= sum n f); [|lra]. apply sum_pos. intros. apply Rabs_pos.
  - specialize (IHn ltac:(lia)). assert (0 <= f n) by apply Rabs_pos. lra.
Qed.

(** One of the two terms. *)
Lemma left_term i j b : (S i <= order)%nat -> (1 <= j <= S i)%nat -> good b -> Rabs (val b - P i (j - 1)) <= 1 ->
  exists c, (tl <- kget knots (k + j) (S i) ;; tr <- kget knots (k + j) 0 ;; odiv o (omul o b (osub o x tl)) (osub o tr tl)) = Ok c /\ good c /\
    Rabs (val c - W (S i) j * P i (j - 1)) <= (1 + 5 * u) * (W (S i) j * Rabs (val b - P i (j - 1))) + 5 * u * (W (S i) j * P i (j - 1)) + (eta * (17/15) / g + eta).
Proof using All.
  intros Hi Hj Gb Hb. unfold kget. destruct (Nat.leb_spec (S i) (k + j)); [|lia]. destruct (Nat.leb_spec 0 (k + j)); [|lia].
  rewrite (vget_ok knots (k + j - S i) z) by lia. cbn [bind]. rewrite Nat.sub_0_r, (vget_ok knots (k + j) z) by lia. cbn [bind].
  replace (k + j - S i)%nat with (k - S i + j)%nat by lia.
  destruct (W_gap (S i) j Hi Hj) as [G1 G2]. pose proof (t_val (k - S i + j)) as V1. pose proof (t_val (k + j)) as V2.
  assert (0 <= P i (j - 1) <= 1) as Pb by (split; [apply P_nonneg|apply P_le1]; lia).
  pose proof (rd_sub _ _ _ _ _ _ RD) as RS. pose proof (rd_big _ _ _ _ _ _ RD).
  destruct (RS x (nth (k - S i + j) knots z) Hx) as [Gn En]. { apply Hgk. lia. } { rewrite <- V1. apply bounds_Rabs. lra. }
  destruct (RS (nth (k + j) knots z) (nth (k - S i + j) knots z)) as [Gd Ed]. { apply Hgk. lia. } { apply Hgk. lia. } { rewrite <- V1, <- V2. apply bounds_Rabs. lra. }
  rewrite <- V1, <- ?V2 in *.
  apply (term_round b _ _ (P i (j - 1)) (W (S i) j) (val x - t (k - S i + j)%nat) (t (k + j)%nat - t (k - S i + j)%nat) g); auto; try lra.
  apply Rabs_bounds in Hb. apply bounds_Rabs. lra.
Qed.
Lemma right_term i j b : (S i <= order)%nat -> (j <= i)%nat -> good b -> Rabs (val b - P i j) <= 1 ->
  exists c, (tr <- kget knots (k + j + 1) 0 ;; tl <- kget knots (k + j + 1) (S i) ;; odiv o (omul o b (osub o tr x)) (osub o tr tl)) = Ok c /\ good c /\
    Rabs (val c - (1 - W (S i) (j + 1)) * P i j) <= (1 + 5 * u) * ((1 - W (S i) (j + 1)) * Rabs (val b - P i j)) + 5 * u * ((1 - W (S i) (j + 1)) * P i j) + (eta * (17/15) / g + eta).
Proof using All.
  intros Hi Hj Gb Hb. unfold kget. destruct (Nat.leb_spec (S i) (k + j + 1)); [|lia]. destruct (Nat.leb_spec 0 (k + j + 1)); [|lia].
  rewrite Nat.sub_0_r, (vget_ok knots (k + j + 1) z) by lia. cbn [bind]. rewrite (vget_ok knots (k + j + 1 - S i) z) by lia. cbn [bind].
  replace (k + j + 1 - S i)%nat with (k - S i + (j + 1))%nat by lia. replace (k + j + 1)%nat with (k + (j + 1))%nat by lia.
  destruct (W_gap (S i) (j + 1) Hi ltac:(lia)) as [G1 G2]. pose proof (t_val (k - S i + (j + 1))) as V1. pose proof (t_val (k + (j + 1))) as V2.
  assert (0 <= P i j <= 1) as Pb by (split; [apply P_nonneg|apply P_le1]; lia).
  pose proof (rd_sub _ _ _ _ _ _ RD) as RS. pose proof (rd_big _ _ _ _ _ _ RD).
  destruct (RS (nth (k + (j + 1)) knots z) x) as [Gn En]; auto. { apply Hgk. lia. } { rewrite <- V2. apply bounds_Rabs. lra. }
  destruct (RS (nth (k + (j + 1)) knots z) (nth (k - S i + (j + 1)) knots z)) as [Gd Ed]. { apply Hgk. lia. } { apply Hgk. lia. } { rewrite <- V1, <- V2. apply bounds_Rabs. lra. }
  rewrite <- ?V1, <- ?V2 in *.
  apply (term_round b _ _ (P i j) (1 - W (S i) (j + 1)) (t (k + (j + 1))%nat - val x) (t (k + (j + 1))%nat - t (k - S i + (j + 1))%nat) g); auto; try lra.
  - unfold W. field. lra.
  - apply Rabs_bounds in Hb. apply bounds_Rabs. lra.
Qed.

Lemma level_round i b : (S i <= order)%nat -> rlevel i b ->
  exists b', for_ 0 (S i + 1) b (fun b j =>
      l <- (if j =? 0 then Ok (o0 o)
            else bj <- vget b (order - S i + j) ;;
                 tl <- kget knots (k + j) (S i) ;;
                 tr <- kget knots (k + j) 0 ;;
                 odiv o (omul o bj (osub o x tl)) (osub o tr tl)) ;;
      r <- (if order - S i + j =? order then Ok (o0 o)
            else bj <- vget b (order - S i + j + 1) ;;
                 tr <- kget knots (k + j + 1) 0 ;;
                 tl <- kget knots (k + j + 1) (S i) ;;
                 odiv o (omul o bj (osub o tr x)) (osub o tr tl)) ;;
      vset b (order - S i + j) (oadd o l r))%nat = Ok b' /\ rlevel (S i) b'.
Proof using All.
  intros Hi HL. pose proof HL as (Hl & Hgb & Hs).
  set (e := eta * (17/15) / g + eta).
  assert (He : 0 <= e <= / 2).
  { pose proof hstep_pos as H0. pose proof (grow_le (S i) Hi) as H1. pose proof (grow_step i) as H2. pose proof (grow_pos i) as H3.
    destruct RD as [[u0 u1] e0 _ _ _ _ _ _ _ _ _]. assert (1 <= INR (order + 1)) by (apply (le_INR 1); lia).
    unfold hstep in *. fold e in H0, H2.
    assert (0 <= e) by (unfold e; apply Rplus_le_le_0_compat; auto; apply Rmult_le_pos; [lra|apply Rlt_le, Rinv_0_lt_compat; auto]).
    assert (0 <= u * grow i) by (apply Rmult_le_pos; lra).
    assert (INR (order + 1) * (2 * (1 + u) * e) <= 1) by lra. split; auto.
    assert (2 * e <= 2 * (1 + u) * e) by (assert (0 <= u * e) by (apply Rmult_le_pos; auto); lra).
    assert (1 * (2 * (1 + u) * e) <= INR (order + 1) * (2 * (1 + u) * e)) by (apply Rmult_le_compat_r; lra). lra. }
  set (a := fun j => Rabs (val (nth (order - i + j) b z) - P i j)).
  set (D := fun j => (1 + 7 * u) * ((if (j =? 0)%nat then 0 else W (S i) j * a (j - 1)%nat) + (if (j =? S i)%nat then 0 else (1 - W (S i) (j + 1)) * a j))
     + 7 * u * ((if (j =? 0)%nat then 0 else W (S i) j * P i (j - 1)%nat) + (if (j =? S i)%nat then 0 else (1 - W (S i) (j + 1)) * P i j)) + hstep).
  match goal with |- context[for_ 0 ?hi ?s0 ?f] =>
    destruct (for_inv (fun j b' => length b' = (order + 1)%nat /\ (forall m, (m < order + 1)%nat -> good (nth m b' z)) /\
      (forall m, (m < j)%nat -> Rabs (val (nth (order - S i + m) b' z) - P (S i) m) <= D m) /\
      (forall m, (j <= m <= S i)%nat -> nth (order - S i + m) b' z = nth (order - S i + m) b z)) 0 hi s0 f)
      as (b' & E & Hl' & Hg' & Hd' & _) end.
  - lia.
  - split; auto. split; auto. split; auto. intros; lia.
  - intros j b1 Hj (Hl1 & Hg1 & Hd1 & Ho1).
    destruct RD as [[u0 u1] e0 B16 [G0 V0] _ _ _ _ _ _ _]. fold z in G0, V0.
    assert (EL : exists l pl el, (if (j =? 0)%nat then Ok (o0 o)
            else bj <- vget b1 (order - S i + j) ;;
                 tl <- kget knots (k + j) (S i) ;;
                 tr <- kget knots (k + j) 0 ;;
                 odiv o (omul o bj (osub o x tl)) (osub o tr tl)) = Ok l /\ good l /\
            pl = (if (j =? 0)%nat then 0 else W (S i) j * P i (j - 1)%nat) /\ 0 <= pl <= 1 /\
            el = (1 + 5 * u) * (if (j =? 0)%nat then 0 else W (S i) j * a (j - 1)%nat) + 5 * u * pl + e /\ el <= 3 /\
            Rabs (val l - pl) <= el).
    { destruct (Nat.eqb_spec j 0).
      - exists z, 0, e. split; auto. split; auto. split; auto. split; [lra|]. split; [ring|]. split; [lra|]. rewrite V0. replace (0 - 0) with 0 by ring. rewrite Rabs_R0. lra.
      - rewrite (vget_ok b1 (order - S i + j) z) by lia. cbn [bind]. rewrite (Ho1 j) by lia.
        replace (order - S i + j)%nat with (order - i + (j - 1))%nat by lia.
        pose proof (rlevel_elem i b (j - 1) ltac:(lia) HL ltac:(lia)) as A1.
        destruct (left_term i j (nth (order - i + (j - 1)) b z)) as (c & Ec & Gc & Vc); auto; try lia. { apply Hgb. lia. }
        fold e in Vc. fold (a (j - 1)%nat) in Vc, A1.
        pose proof (W_range (S i) j Hi ltac:(lia)) as Wr. pose proof (P_nonneg i (j - 1) ltac:(lia) ltac:(lia)). pose proof (P_le1 i (j - 1) ltac:(lia) ltac:(lia)).
        assert (0 <= a (j - 1)%nat) by apply Rabs_pos.
        assert (0 <= W (S i) j * P i (j - 1) <= 1) by nra. assert (0 <= W (S i) j * a (j - 1)%nat <= 1) by nra.
        exists c. do 2 eexists. split; [exact Ec|]. split; auto. split; [reflexivity|]. split; auto. split; [reflexivity|]. split; [|exact Vc]. nra. }
    assert (ER : exists r pr er, (if (order - S i + j =? order)%nat then Ok (o0 o)
            else bj <- vget b1 (order - S i + j + 1) ;;
                 tr <- kget knots (k + j + 1) 0 ;;
                 tl <- kget knots (k + j + 1) (S i) ;;
                 odiv o (omul o bj (osub o tr x)) (osub o tr tl)) = Ok r /\ good r /\
            pr = (if (j =? S i)%nat then 0 else (1 - W (S i) (j + 1)) * P i j) /\ 0 <= pr <= 1 /\
            er = (1 + 5 * u) * (if (j =? S i)%nat then 0 else (1 - W (S i) (j + 1)) * a j) + 5 * u * pr + e /\ er <= 3 /\
            Rabs (val r - pr) <= er).
    { replace (order - S i + j =? order)%nat with (j =? S i)%nat by (destruct (Nat.eqb_spec j (S i)), (Nat.eqb_spec (order - S i + j) order); auto; lia).
      destruct (Nat.eqb_spec j (S i)).
      - exists z, 0, e. split; auto. split; auto. split; auto. split; [lra|]. split; [ring|]. split; [lra|]. rewrite V0. replace (0 - 0) with 0 by ring. rewrite Rabs_R0. lra.
      - rewrite (vget_ok b1 (order - S i + j + 1) z) by lia. cbn [bind]. replace (order - S i + j + 1)%nat with (order - S i + (j + 1))%nat by lia. rewrite (Ho1 (j + 1)%nat) by lia.
        replace (order - S i + (j + 1))%nat with (order - i + j)%nat by lia.
        pose proof (rlevel_elem i b j ltac:(lia) HL ltac:(lia)) as A1.
        destruct (right_term i j (nth (order - i + j) b z)) as (c & Ec & Gc & Vc); auto; try lia. { apply Hgb. lia. }
        fold e in Vc. fold (a j) in Vc, A1.
        pose proof (W_range (S i) (j + 1) Hi ltac:(lia)) as Wr. pose proof (P_nonneg i j ltac:(lia) ltac:(lia)). pose proof (P_le1 i j ltac:(lia) ltac:(lia)).
        assert (0 <= a j) by apply Rabs_pos.
        assert (0 <= (1 - W (S i) (j + 1)) * P i j <= 1) by nra. assert (0 <= (1 - W (S i) (j + 1)) * a j <= 1) by nra.
        exists c. do 2 eexists. split; [exact Ec|]. split; auto. split; [reflexivity|]. split; auto. split; [reflexivity|]. split; [|exact Vc]. nra. }
    destruct EL as (l & pl & el & EL & Gl & Epl & Bpl & Eel & Bel & Vl). destruct ER as (r & pr & er & ER & Gr & Epr & Bpr & Eer & Ber & Vr).
    rewrite EL. cbn [bind]. rewrite ER. cbn [bind]. rewrite vset_ok by lia. eexists; split; [reflexivity|]. rewrite upd_length.
    destruct (sum_round l r pl pr el er) as [Gs Vs]; auto; try lra.
    split; auto. split; [|split].
    + intros m Hm. destruct (Nat.eq_dec m (order - S i + j)); [subst; rewrite nth_upd_same by lia; auto|rewrite nth_upd_other by lia; auto].
    + intros m Hm. destruct (Nat.eq_dec m j).
      * subst m. rewrite nth_upd_same by lia. rewrite P_rec by lia. rewrite <- Epl, <- Epr. eapply Rle_trans; [apply Vs|].
        unfold D. rewrite <- Epl, <- Epr. set (al := if (j =? 0)%nat then 0 else W (S i) j * a (j - 1)%nat) in *. set (ar := if (j =? S i)%nat then 0 else (1 - W (S i) (j + 1)) * a j) in *.
        assert (0 <= al). { unfold al. destruct (Nat.eqb_spec j 0); [lra|]. apply Rmult_le_pos; [apply W_range; lia|apply Rabs_pos]. }
        assert (0 <= ar). { unfold ar. destruct (Nat.eqb_spec j (S i)); [lra|]. apply Rmult_le_pos; [|apply Rabs_pos]. pose proof (W_range (S i) (j + 1) Hi ltac:(lia)). lra. }
        unfold hstep. fold e. rewrite Eel, Eer. clear - H H0 u0 u1 Bpl Bpr. 
        assert (0 <= u * (al + ar)) by (apply Rmult_le_pos; lra). assert (0 <= u * (pl + pr)) by (apply Rmult_le_pos; lra).
        assert (u * (u * (al + ar)) <= / 16 * (u * (al + ar))) by (apply Rmult_le_compat_r; auto). assert (u * (u * (pl + pr)) <= / 16 * (u * (pl + pr))) by (apply Rmult_le_compat_r; auto). lra.
      * rewrite nth_upd_other by lia. apply Hd1. lia.
    + intros m Hm. rewrite nth_upd_other by lia. apply Ho1. lia.
  - exists b'. split; auto. split; auto. split; auto.
    apply Rle_trans with (sum (S i + 1) D).
    + apply sum_le. intros. apply Hd'. lia.
    + unfold D. rewrite !sum_plus, !sum_scal, sum_const. rewrite (level_sum i a), (level_sum i (P i)), P_unity by lia. fold a in Hs.
      pose proof (grow_step i) as GS. destruct RD as [[u0 u1] _ _ _ _ _ _ _ _ _ _].
      assert ((1 + 7 * u) * sum (i + 1) a <= (1 + 7 * u) * (grow i - 1)) by (apply Rmult_le_compat_l; lra).
      assert (INR (S i + 1) * hstep <= INR (order + 1) * hstep) by (apply Rmult_le_compat_r; [apply hstep_pos|apply le_INR; lia]). lra.
Qed.

Lemma basis_round : exists b, base_spline_value o order knots k x order = Ok b /\ rlevel order b.
Proof using All.
  unfold base_spline_value. rewrite vset_ok by (rewrite repeat_length; lia). cbn [bind].
  match goal with |- context[for_ 1 ?hi ?s0 ?f] => destruct (for_inv (fun i b => rlevel (i - 1) b) 1 hi s0 f) as (b & E & H) end.
  - lia.
  - unfold rlevel. rewrite upd_length, repeat_length. split; auto.
    destruct RD as [_ _ _ [G0 V0] [G1 V1] _ _ _ _ _ _]. split.
    + intros j Hj. destruct (Nat.eq_dec j order); [subst; rewrite nth_upd_same by (rewrite repeat_length; lia); auto|rewrite nth_upd_other by lia].
      destruct (nth_in_or_default j (repeat (o0 o) (order + 1)) z) as [I|I]; [apply repeat_spec in I; rewrite I; auto|rewrite I; auto].
    + replace (1 - 1)%nat with 0%nat by lia. cbn [Nat.add sum]. replace (order - 0 + 0)%nat with order by lia. rewrite nth_upd_same by (rewrite repeat_length; lia).
      rewrite V1. unfold P, piece, grow. cbn [cox pow INR]. replace (k - 0 + 0)%nat with k by lia. rewrite Nat.eqb_refl. replace (1 - 1) with 0 by ring. rewrite Rabs_R0. lra.
  - intros i b Hi HL. rewrite usub_ok by lia. cbn [bind]. destruct (level_round (i - 1) b) as (b' & E & HL'); [lia|auto|].
    replace (S (i - 1)) with i in * by lia. exists b'. split; auto. replace (i + 1 - 1)%nat with i by lia. auto.
  - exists b. split; auto. replace (order + 1 - 1)%nat with order in H by lia. auto.
Qed.
End Basis.
End Round.
