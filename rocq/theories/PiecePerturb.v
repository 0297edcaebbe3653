(** How the values of basis functions change with the knots and the
    coordinate. *)
From Coq Require Import List Arith Lia Bool ZArith Reals Lra Psatz.
From Verif Require Import Base Num SpecBand SpecSpline SumR SplineProofs BetaProofs BasisProofs SWProofs CoefProofs.
Import ListNotations.
Local Open Scope R_scope.

(** A ratio l / (l + r) of nonnegative numbers. *)
Lemma ratio_near l r l' r' e g : 0 <= l -> 0 <= r -> 0 < l + r -> 0 < g -> g <= l' + r' -> Rabs (l - l') <= e -> Rabs (r - r') <= e ->
  Rabs (l / (l + r) - l' / (l' + r')) <= e / g.
Proof.
  intros L R S G Hg Hl Hr. assert (E0 : 0 <= e) by (pose proof (Rabs_pos (l - l')); lra).
  replace (l / (l + r) - l' / (l' + r')) with ((l * (r' - r) + r * (l - l')) / (l + r) * / (l' + r')) by (field; lra).
  rewrite Rabs_mult, (Rabs_inv (l' + r')), (Rabs_pos_eq (l' + r')) by lra.
  unfold Rdiv at 2. apply Rmult_le_compat; [apply Rabs_pos|left; apply Rinv_0_lt_compat; lra| |apply Rinv_le_contravar; lra].
  unfold Rdiv. rewrite Rabs_mult, (Rabs_inv (l + r)), (Rabs_pos_eq (l + r)) by lra.
  apply Rmult_le_reg_r with (l + r); [lra|]. rewrite Rmult_assoc, Rinv_l, Rmult_1_r by lra.
  eapply Rle_trans; [apply Rabs_triang|]. rewrite !Rabs_mult, (Rabs_pos_eq l), (Rabs_pos_eq r) by lra.
  rewrite (Rabs_minus_sym r' r). pose proof (Rmult_le_compat_l l _ _ L Hr). pose proof (Rmult_le_compat_l r _ _ R Hl). lra.
Qed.

Section Perturb.
Context (t t' : nat -> R) (k k' n n' p : nat) (x x' e g : R).
Hypothesis M : forall i j, (i <= j < n)%nat -> t i <= t j.
Hypothesis M' : forall i j, (i <= j < n')%nat -> t' i <= t' j.
Hypothesis Hk : (p <= k)%nat.
Hypothesis Hk' : (p <= k')%nat.
Hypothesis Hn : (k + 1 < n)%nat.
Hypothesis Hn' : (k' + 1 < n')%nat.
Hypothesis Hnp : (k + p < n)%nat.
Hypothesis Hnp' : (k' + p < n')%nat.
Hypothesis Hx : t k <= x <= t (k + 1)%nat.
Hypothesis Hx' : t' k' <= x' <= t' (k' + 1)%nat.
Hypothesis Hs : t k < t (k + 1)%nat.
Hypothesis Hg : 0 < g.
Hypothesis Hs' : g <= t' (k' + 1)%nat - t' k'.
Hypothesis He : 0 <= e.
Hypothesis Hl : forall r, (r < p)%nat -> Rabs ((x - t (k - r)%nat) - (x' - t' (k' - r)%nat)) <= e.
Hypothesis Hr : forall r, (r < p)%nat -> Rabs ((t (k + 1 + r)%nat - x) - (t' (k' + 1 + r)%nat - x')) <= e.

Lemma wgt_near q j : (q < p)%nat -> (j <= q)%nat ->
  0 <= wgt t (S q) (k - q + j) x <= 1 /\
  Rabs (wgt t (S q) (k - q + j) x - wgt t' (S q) (k' - q + j) x') <= e / g.
Proof using All.
  intros Hq Hj. unfold wgt. replace (k - q + j + S q)%nat with (k + 1 + j)%nat by lia. replace (k' - q + j + S q)%nat with (k' + 1 + j)%nat by lia.
  replace (k - q + j)%nat with (k - (q - j))%nat by lia. replace (k' - q + j)%nat with (k' - (q - j))%nat by lia.
  pose proof (Hl (q - j) ltac:(lia)) as A. pose proof (Hr j ltac:(lia)) as B.
  pose proof (M (k - (q - j)) k ltac:(lia)) as M1. pose proof (M (k + 1) (k + 1 + j) ltac:(lia)) as M2.
  pose proof (M' (k' - (q - j)) k' ltac:(lia)) as M3. pose proof (M' (k' + 1) (k' + 1 + j) ltac:(lia)) as M4.
  set (a := t (k - (q - j))%nat) in *. set (b := t (k + 1 + j)%nat) in *. set (a' := t' (k' - (q - j))%nat) in *. set (b' := t' (k' + 1 + j)%nat) in *.
  rewrite !frac_ok by lra.
  replace (b - a) with ((x - a) + (b - x)) by ring. replace (b' - a') with ((x' - a') + (b' - x')) by ring.
  split; [|apply ratio_near; lra].
  split.
  - apply Rmult_le_pos; [lra|]. left. apply Rinv_0_lt_compat. lra.
  - apply Rmult_le_reg_r with (x - a + (b - x)); [lra|]. unfold Rdiv. rewrite Rmult_assoc, Rinv_l by lra. lra.
Qed.

Lemma piece_near q : (q <= p)%nat ->
  sum (q + 1) (fun j => Rabs (piece t k q (k - q + j) x - piece t' k' q (k' - q + j) x')) <= 2 * INR q * (e / g).
Proof using All.
  induction q as [|q IH]; intros Hq.
  - cbn [sum INR Nat.add]. unfold piece; cbn [cox]. replace (k - 0 + 0)%nat with k by lia. replace (k' - 0 + 0)%nat with k' by lia. rewrite !Nat.eqb_refl, Rminus_eq_0, Rabs_R0. lra.
  - specialize (IH ltac:(lia)).
    set (P := fun j => piece t k q (k - q + j) x) in *. set (P' := fun j => piece t' k' q (k' - q + j) x') in *.
    set (w := fun j => wgt t (S q) (k - q + j) x). set (w' := fun j => wgt t' (S q) (k' - q + j) x').
    replace (S q + 1)%nat with (S (q + 1)) by lia.
    set (A := fun j => match j with O => 0 | S i => Rabs (w i * P i - w' i * P' i) end).
    set (B := fun j => if (j <? q + 1)%nat then Rabs ((1 - w j) * P j - (1 - w' j) * P' j) else 0).
    apply Rle_trans with (sum (S (q + 1)) (fun j => A j + B j)).
    + apply sum_le. intros j Hj.
      assert (E : forall T K X, (q < K)%nat -> piece T K (S q) (K - S q + j) X =
        (match j with O => 0 | S i => wgt T (S q) (K - q + i) X * piece T K q (K - q + i) X end) +
        (if (j <? q + 1)%nat then (frac (T (K - S q + j + S q + 1)%nat - X) (T (K - S q + j + S q + 1)%nat - T (K - q + j)%nat)) * piece T K q (K - q + j) X else 0)).
      { intros T K X HK. rewrite piece_S. f_equal.
        - destruct j; [rewrite piece_support by lia; ring|]. unfold wgt. replace (K - S q + S j)%nat with (K - q + j)%nat by lia. reflexivity.
        - replace (K - S q + j + 1)%nat with (K - q + j)%nat by lia. destruct (Nat.ltb_spec j (q + 1)); auto.
          rewrite (piece_support T K q (K - q + j)) by lia. ring. }
      assert (F : (j < q + 1)%nat -> frac (t (k - S q + j + S q + 1)%nat - x) (t (k - S q + j + S q + 1)%nat - t (k - q + j)%nat) = 1 - w j /\
         frac (t' (k' - S q + j + S q + 1)%nat - x') (t' (k' - S q + j + S q + 1)%nat - t' (k' - q + j)%nat) = 1 - w' j).
      { intros Hj'. unfold w, w', wgt. replace (k - S q + j + S q + 1)%nat with (k - q + j + S q)%nat by lia. replace (k' - S q + j + S q + 1)%nat with (k' - q + j + S q)%nat by lia.
        pose proof (gap t n k M Hn Hs (k - q + j) (k - q + j + S q) ltac:(lia) ltac:(lia)).
        pose proof (gap t' n' k' M' Hn' ltac:(lra) (k' - q + j) (k' - q + j + S q) ltac:(lia) ltac:(lia)).
        rewrite !frac_ok by lra. split; field; lra. }
      rewrite (E t k x ltac:(lia)), (E t' k' x' ltac:(lia)). unfold A, B. fold (P j) (P' j).
      destruct (Nat.ltb_spec j (q + 1)) as [Hj'|Hj'].
      * destruct (F Hj') as [-> ->]. destruct j; [rewrite !Rplus_0_l; lra|]. fold (w j) (w' j) (P j) (P' j).
        match goal with |- Rabs (?a + ?b - (?c + ?d)) <= _ => replace (a + b - (c + d)) with ((a - c) + (b - d)) by ring end. apply Rabs_triang.
      * destruct j; [lia|]. fold (w j) (w' j) (P j) (P' j). rewrite !Rplus_0_r. lra.
    + rewrite sum_plus. rewrite sum_S_l. cbn [A]. rewrite Rplus_0_l.
      assert (EB : sum (S (q + 1)) B = sum (q + 1) B).
      { change (sum (S (q + 1)) B) with (sum (q + 1) B + B (q + 1)%nat). unfold B at 2. rewrite Nat.ltb_irrefl. ring. }
      rewrite EB. clear EB.
      rewrite <- sum_plus.
      assert (U : sum (q + 1) P' = 1) by (apply (piece_unity t' n' k' M' Hn' ltac:(lra)); lia).
      apply Rle_trans with (sum (q + 1) (fun j => Rabs (P j - P' j) + 2 * (e / g) * P' j)).
      * apply sum_le. intros j Hj. unfold B. destruct (Nat.ltb_spec j (q + 1)); [|lia].
        destruct (wgt_near q j ltac:(lia) ltac:(lia)) as [[W0 W1] W2]. fold (w j) (w' j) in *.
        assert (P0 : 0 <= P' j) by (apply (piece_nonneg t' n' k' M' Hn' ltac:(lra)); auto; lia).
        replace ((1 - w j) * P j - (1 - w' j) * P' j) with ((1 - w j) * (P j - P' j) - (w j - w' j) * P' j) by ring.
        pose proof (Rabs_triang (w j * (P j - P' j)) ((w j - w' j) * P' j)) as T1.
        assert (T2 : Rabs ((1 - w j) * (P j - P' j) - (w j - w' j) * P' j) <= Rabs ((1 - w j) * (P j - P' j)) + Rabs ((w j - w' j) * P' j)).
        { unfold Rminus at 1. eapply Rle_trans; [apply Rabs_triang|]. rewrite Rabs_Ropp. lra. }
        rewrite (Rabs_mult (w j) (P j - P' j)), (Rabs_mult (w j - w' j)), (Rabs_pos_eq (w j)), (Rabs_pos_eq (P' j)) in T1 by lra.
        rewrite (Rabs_mult (1 - w j) (P j - P' j)), (Rabs_mult (w j - w' j)), (Rabs_pos_eq (1 - w j)), (Rabs_pos_eq (P' j)) in T2 by lra.
        pose proof (Rmult_le_compat_r _ _ _ P0 W2). unfold A. 
        replace (w j * P j - w' j * P' j) with (w j * (P j - P' j) + (w j - w' j) * P' j) by ring. lra.
      * rewrite sum_plus, sum_scal, U. rewrite S_INR. change (sum (q + 1) (fun j => Rabs (P j - P' j)) <= 2 * INR q * (e / g)) in IH. lra.
Qed.
End Perturb.

Lemma right_end_zero t k q : (S q <= k)%nat -> piece t k (S q) (k - S q) (t (k + 1)%nat) = 0.
Proof.
  intros Hq. rewrite piece_S. rewrite (piece_support t k q (k - S q)) by lia. replace (k - S q + S q + 1)%nat with (k + 1)%nat by lia.
  unfold frac. destruct (Req_EM_T _ _); destruct (Req_EM_T _ _); try field; auto.
Qed.

(** A row of a collocation matrix: the values [q] at the places from [c] on. *)
Definition placed (p n c : nat) (q : nat -> R) (j : nat) : R :=
  sum (p + 1) (fun a => if ((c + a) mod n =? j)%nat then q a else 0).

Lemma placed_Bmat t p n k x j : Bmat t p n k x j = placed p n (k - p) (fun a => piece t k p (k - p + a) x) j.
Proof. reflexivity. Qed.

Lemma placed_near p n c q q' : (0 < n)%nat ->
  sum n (fun j => Rabs (placed p n c q j - placed p n c q' j)) <= sum (p + 1) (fun a => Rabs (q a - q' a)).
Proof.
  intros Hn. apply Rle_trans with (sum n (fun j => sum (p + 1) (fun a => if ((c + a) mod n =? j)%nat then Rabs (q a - q' a) else 0))).
  - apply sum_le. intros j Hj. unfold placed. rewrite <- sum_minus. eapply Rle_trans; [apply sum_Rabs|]. apply sum_le. intros a Ha.
    destruct (Nat.eqb _ _); [lra|]. rewrite Rminus_eq_0, Rabs_R0. lra.
  - rewrite sum_swap. apply sum_le. intros a Ha. pose proof (Nat.mod_upper_bound (c + a) n ltac:(lia)) as B.
    rewrite (sum_single _ ((c + a) mod n) (fun j => if ((c + a) mod n =? j)%nat then Rabs (q a - q' a) else 0)); auto.
    + rewrite Nat.eqb_refl. lra.
    + intros j Hj Hne. destruct (Nat.eqb_spec ((c + a) mod n) j); [congruence|auto].
Qed.

Section Transfer.
Context (t : nat -> R) (len p n k k0 : nat) (x0 y e g : R).
Hypothesis M : forall i j, (i <= j < len)%nat -> t i <= t j.
Hypothesis Hn : (0 < n)%nat.
Hypothesis Hk : (p <= k)%nat.
Hypothesis Hk0 : (p <= k0)%nat.
Hypothesis Hl : (k + p + 1 < len)%nat.
Hypothesis Hl0 : (k0 + p + 1 < len)%nat.
Hypothesis Hg : 0 < g.
Hypothesis He : 0 <= e.
Hypothesis Hc : forall r, (r <= 2 * p)%nat -> Rabs ((t (k0 - p + r)%nat - x0) - (t (k - p + r)%nat - y)) <= e.
Hypothesis Hx0 : t k0 <= x0 <= t (k0 + 1)%nat.
Hypothesis Hs0 : t k0 < t (k0 + 1)%nat.
Let row := placed p n (k - p) (fun a => piece t k0 p (k0 - p + a) x0).

(** The coordinate in the same segment. *)
Lemma transfer_same : t k <= y <= t (k + 1)%nat -> g <= t (k + 1)%nat - t k ->
  sum n (fun j => Rabs (row j - Bmat t p n k y j)) <= 2 * INR p * (e / g).
Proof using All.
  intros Hy Hgk. eapply Rle_trans; [apply (placed_near p n (k - p) _ (fun a => piece t k p (k - p + a) y) Hn)|].
  apply (piece_near t t k0 k len len p x0 y e g); auto; try lia.
  - intros r Hr. pose proof (Hc (p - r) ltac:(lia)) as H. replace (k0 - p + (p - r))%nat with (k0 - r)%nat in H by lia. replace (k - p + (p - r))%nat with (k - r)%nat in H by lia.
    rewrite <- Rabs_Ropp. replace (- _) with (t (k0 - r)%nat - x0 - (t (k - r)%nat - y)) by ring. auto.
  - intros r Hr. pose proof (Hc (p + 1 + r) ltac:(lia)) as H. replace (k0 - p + (p + 1 + r))%nat with (k0 + 1 + r)%nat in H by lia. replace (k - p + (p + 1 + r))%nat with (k + 1 + r)%nat in H by lia. auto.
Qed.

(** The coordinate on the other side of the knot [t k]. *)
Lemma transfer_left : (1 <= p)%nat -> (p + 1 <= k)%nat -> (p + 1 <= k0)%nat -> x0 = t k0 -> t (k0 - 1)%nat < t k0 ->
  t (k - 1)%nat <= y <= t k -> g <= t k - t (k - 1)%nat ->
  sum n (fun j => Rabs (row j - Bmat t p n (k - 1) y j)) <= 2 * INR p * (e / g).
Proof using All.
  intros P1 K1 K2 Ex Hs1 Hy Hgk.
  set (F := fun a => piece t (k0 - 1) p (k0 - 1 - p + a) x0).
  assert (E1 : forall a, piece t k0 p (k0 - p + a) x0 = F (S a)).
  { intros a. unfold F. replace (k0 - 1 - p + S a)%nat with (k0 - p + a)%nat by lia. rewrite Ex.
    pose proof (piece_glue t (k0 - 1) p (k0 - p + a) P1) as G. replace (k0 - 1 + 1)%nat with k0 in G by lia. replace (k0 - 1 + 2)%nat with (k0 + 1)%nat in G by lia.
    symmetry. apply G; auto. }
  assert (Z0 : F 0%nat = 0).
  { unfold F. rewrite Ex. pose proof (right_end_zero t (k0 - 1) (p - 1)) as G. replace (S (p - 1)) with p in G by lia.
    replace (k0 - 1 + 1)%nat with k0 in G by lia. rewrite Nat.add_0_r. apply G. lia. }
  assert (Z1 : F (S p) = 0) by (unfold F; apply piece_support; lia).
  assert (ER : forall j, row j = placed p n (k - 1 - p) F j).
  { intros j. unfold row, placed.
    transitivity (sum (p + 1) (fun a => if ((k - 1 - p + S a) mod n =? j)%nat then F (S a) else 0)).
    - apply sum_ext. intros a Ha. rewrite E1. replace (k - 1 - p + S a)%nat with (k - p + a)%nat by lia. reflexivity.
    - set (H := fun a => if ((k - 1 - p + a) mod n =? j)%nat then F a else 0).
      change (sum (p + 1) (fun a => H (S a)) = sum (p + 1) H).
      pose proof (sum_S_l (p + 1) H) as S1. change (sum (S (p + 1)) H) with (sum (p + 1) H + H (p + 1)%nat) in S1.
      assert (H0 : H 0%nat = 0) by (unfold H; rewrite Z0; destruct (Nat.eqb _ _); auto).
      assert (H1 : H (p + 1)%nat = 0) by (unfold H; rewrite Nat.add_1_r, Z1; destruct (Nat.eqb _ _); auto). lra. }
  rewrite (sum_ext n _ (fun j => Rabs (placed p n (k - 1 - p) F j - Bmat t p n (k - 1) y j))) by (intros j _; rewrite ER; auto).
  eapply Rle_trans; [apply (placed_near p n (k - 1 - p) F (fun a => piece t (k - 1) p (k - 1 - p + a) y) Hn)|]. unfold F.
  apply (piece_near t t (k0 - 1) (k - 1) len len p x0 y e g); auto; try lia.
  - replace (k0 - 1 + 1)%nat with k0 by lia. lra.
  - replace (k - 1 + 1)%nat with k by lia. lra.
  - replace (k0 - 1 + 1)%nat with k0 by lia. auto.
  - replace (k - 1 + 1)%nat with k by lia. auto.
  - intros r Hr. pose proof (Hc (p - 1 - r) ltac:(lia)) as H. replace (k0 - p + (p - 1 - r))%nat with (k0 - 1 - r)%nat in H by lia. replace (k - p + (p - 1 - r))%nat with (k - 1 - r)%nat in H by lia.
    rewrite <- Rabs_Ropp. replace (- _) with (t (k0 - 1 - r)%nat - x0 - (t (k - 1 - r)%nat - y)) by ring. auto.
  - intros r Hr. pose proof (Hc (p + r) ltac:(lia)) as H. replace (k0 - p + (p + r))%nat with (k0 - 1 + 1 + r)%nat in H by lia. replace (k - p + (p + r))%nat with (k - 1 + 1 + r)%nat in H by lia. auto.
Qed.
End Transfer.

(** ** Moving the coordinate *)
Section Lipschitz.
Context (t : nat -> R) (len p n last : nat) (g : R).
Hypothesis M : forall i j, (i <= j < len)%nat -> t i <= t j.
Hypothesis Hn : (0 < n)%nat.
Hypothesis P1 : (1 <= p)%nat.
Hypothesis Hlast : (last + p + 1 < len)%nat.
Hypothesis Hg : 0 < g.
Hypothesis Hgap : forall k, (p <= k <= last)%nat -> g <= t (k + 1)%nat - t k.
Local Notation dist k x k' y := (sum n (fun j => Rabs (Bmat t p n k x j - Bmat t p n k' y j))).

Lemma dist_sym k x k' y : dist k x k' y = dist k' y k x.
Proof using Type. apply sum_ext. intros j _. apply Rabs_minus_sym. Qed.
Lemma dist_triangle k1 x1 k2 x2 k3 x3 : dist k1 x1 k3 x3 <= dist k1 x1 k2 x2 + dist k2 x2 k3 x3.
Proof using Type.
  rewrite <- sum_plus. apply sum_le. intros j _.
  replace (Bmat t p n k1 x1 j - Bmat t p n k3 x3 j) with ((Bmat t p n k1 x1 j - Bmat t p n k2 x2 j) + (Bmat t p n k2 x2 j - Bmat t p n k3 x3 j)) by ring. apply Rabs_triang.
Qed.
Lemma dist_same k x y : (p <= k <= last)%nat -> t k <= x <= t (k + 1)%nat -> t k <= y <= t (k + 1)%nat -> dist k x k y <= 2 * INR p * (Rabs (y - x) / g).
Proof using All.
  intros Hk Hx Hy. pose proof (Hgap k Hk) as G.
  apply (transfer_same t len p n k k x y (Rabs (y - x)) g); auto; try lia; try lra; [apply Rabs_pos|].
  intros r _. right. f_equal. ring.
Qed.
Lemma dist_knot k : (p <= k)%nat -> (k + 1 <= last)%nat -> dist k (t (k + 1)%nat) (k + 1) (t (k + 1)%nat) <= 0.
Proof using All.
  intros Hk Hk'. pose proof (Hgap k ltac:(lia)) as G1. pose proof (Hgap (k + 1)%nat ltac:(lia)) as G2. rewrite dist_sym.
  pose proof (transfer_left t len p n (k + 1) (k + 1) (t (k + 1)%nat) (t (k + 1)%nat) 0 g M Hn ltac:(lia) ltac:(lia) ltac:(lia) ltac:(lia) Hg ltac:(lra)) as H.
  replace (k + 1 - 1)%nat with k in H by lia. replace (2 * INR p * (0 / g)) with 0 in H by (field; lra).
  apply H; auto; try lia; try lra. intros r _. rewrite Rminus_eq_0, Rabs_R0. lra.
Qed.
Lemma dist_up d : forall k x y, (p <= k)%nat -> (k + d <= last)%nat -> t k <= x <= t (k + 1)%nat -> t (k + d)%nat <= y <= t (k + d + 1)%nat ->
  dist k x (k + d) y <= 2 * INR p * (Rabs (y - x) / g).
Proof using All.
  induction d as [|d IH]; intros k x y Hk Hd Hx Hy.
  - replace (k + 0)%nat with k in * by lia. apply dist_same; [lia|exact Hx|exact Hy].
  - set (c := t (k + 1)%nat). eapply Rle_trans; [apply (dist_triangle k x k c)|].
    eapply Rle_trans; [apply Rplus_le_compat_l, (dist_triangle k c (k + 1) c)|].
    pose proof (dist_same k x c ltac:(lia) Hx) as H1. pose proof (dist_knot k Hk ltac:(lia)) as H2. fold c in H2.
    pose proof (Hgap k ltac:(lia)) as G1. pose proof (Hgap (k + 1)%nat ltac:(lia)) as G2. fold c in G1, G2.
    replace (k + S d)%nat with (k + 1 + d)%nat in * by lia.
    pose proof (IH (k + 1)%nat c y ltac:(lia) Hd) as H3. fold c in H3.
    assert (cy : c <= y) by (pose proof (M (k + 1)%nat (k + 1 + d)%nat ltac:(lia)) as Q; fold c in Q; lra).
    assert (xc : x <= c) by (unfold c; lra).
    rewrite (Rabs_pos_eq (c - x)) in H1 by lra. rewrite (Rabs_pos_eq (y - c)) in H3 by lra. rewrite (Rabs_pos_eq (y - x)) by lra.
    specialize (H1 ltac:(unfold c in *; lra)). specialize (H3 ltac:(lra) Hy).
    replace (2 * INR p * ((y - x) / g)) with (2 * INR p * ((c - x) / g) + 2 * INR p * ((y - c) / g)) by (field; lra). lra.
Qed.
(** The values of the basis functions change with the coordinate at most this
    fast. *)
Lemma Bmat_lipschitz k x k' y : (p <= k <= last)%nat -> (p <= k' <= last)%nat -> t k <= x <= t (k + 1)%nat -> t k' <= y <= t (k' + 1)%nat ->
  dist k x k' y <= 2 * INR p * (Rabs (y - x) / g).
Proof using All.
  intros Hk Hk' Hx Hy. destruct (Nat.le_gt_cases k k').
  - pose proof (dist_up (k' - k) k x y) as Q. replace (k + (k' - k))%nat with k' in Q by lia. apply Q; auto; lia.
  - rewrite dist_sym, Rabs_minus_sym. pose proof (dist_up (k - k') k' y x) as Q. replace (k' + (k - k'))%nat with k in Q by lia. apply Q; auto; lia.
Qed.
End Lipschitz.

(** Every coordinate in the domain has a segment. *)
Lemma segment_exists (t : nat -> R) p last y : (forall k, (p <= k <= last)%nat -> t k < t (k + 1)%nat) -> (p <= last)%nat -> t p <= y <= t (last + 1)%nat ->
  exists k, segment t p last y k /\ t k <= y <= t (k + 1)%nat.
Proof.
  intros Hs Hl [H1 H2].
  assert (X : forall d, (p + d <= last)%nat -> (exists k, (p <= k < p + d)%nat /\ t k <= y < t (k + 1)%nat) \/ t (p + d)%nat <= y).
  { induction d as [|d IH]; intros Hd; [right; rewrite Nat.add_0_r; auto|]. destruct (IH ltac:(lia)) as [(k & Hk & K)|K].
    - left. exists k. split; [lia|auto].
    - destruct (Rle_dec (t (p + S d)%nat) y) as [L|L]; [right; auto|]. left. exists (p + d)%nat. split; [lia|]. replace (p + d + 1)%nat with (p + S d)%nat by lia. lra. }
  destruct (X (last - p)%nat ltac:(lia)) as [(k & Hk & K)|K].
  - exists k. split; [|lra]. split; [lia|]. split; [apply Hs; lia|]. lra.
  - replace (p + (last - p))%nat with last in K by lia. exists last. split; [|lra]. split; [lia|]. split; [apply Hs; lia|]. auto.
Qed.
