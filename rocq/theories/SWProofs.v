(** Counting zeros of splines and the Schoenberg-Whitney theorem: a spline
    that vanishes at suitably placed points has zero coefficients. *)
From Coq Require Import List Arith Lia Bool ZArith Reals Lra Classical.
From Coquelicot Require Import Coquelicot.
From Verif Require Import Base SpecBand SpecSpline SplineProofs SumR BasisProofs BetaProofs.
Import ListNotations.
Open Scope R_scope.

(** ** Rolle's theorem for oscillations *)

(** [f] is non-zero at the points y :: l and not of one sign between
    neighbours. *)
Fixpoint osc (f : R -> R) (y : R) (l : list R) : Prop :=
  f y <> 0 /\
  match l with
  | [] => True
  | y' :: l' => y < y' /\ (exists w, y <= w <= y' /\ f w * f y <= 0) /\ osc f y' l'
  end.

Definition within (A B : R) (z : R) : Prop := A < z < B.

Section Rolle.
Variables (f g : R -> R) (A B : R).
Hypothesis ivt : forall x y, A <= x -> x < y -> y <= B -> f x * f y <= 0 -> exists z, x <= z <= y /\ f z = 0.
Hypothesis mvp : forall x y, A <= x -> x < y -> y <= B -> f x < f y -> exists z, x < z < y /\ 0 < g z.
Hypothesis mvn : forall x y, A <= x -> x < y -> y <= B -> f y < f x -> exists z, x < z < y /\ g z < 0.
Variable fB : bool.
Hypothesis HB : fB = true -> f B = 0.

Lemma leave_zero z y : A <= z -> f z = 0 -> z < y -> y <= B -> f y <> 0 ->
  exists u, z < u < y /\ 0 < g u * f y.
Proof.
  intros Hz Fz Hzy HyB Hy. destruct (Rlt_dec 0 (f y)).
  - destruct (mvp z y) as (u & Hu & Gu); auto; try lra. exists u. split; auto. apply Rmult_lt_0_compat; auto.
  - destruct (mvn z y) as (u & Hu & Gu); auto; try lra. exists u. split; auto.
    replace (g u * f y) with ((- g u) * (- f y)) by ring. apply Rmult_lt_0_compat; lra.
Qed.

Lemma reach_zero z y : A <= y -> f z = 0 -> y < z -> z <= B -> f y <> 0 ->
  exists v, y < v < z /\ g v * f y < 0.
Proof.
  intros Hz Fz Hzy HyB Hy. destruct (Rlt_dec 0 (f y)).
  - destruct (mvn y z) as (u & Hu & Gu); auto; try lra. exists u. split; auto.
    replace (g u * f y) with (- ((- g u) * f y)) by ring. apply Ropp_lt_gt_0_contravar, Rmult_lt_0_compat; lra.
  - destruct (mvp y z) as (u & Hu & Gu); auto; try lra. exists u. split; auto.
    replace (g u * f y) with (- (g u * (- f y))) by ring. apply Ropp_lt_gt_0_contravar, Rmult_lt_0_compat; lra.
Qed.

Lemma opp_sign a b c : 0 < a * c -> b * c < 0 -> b * a <= 0.
Proof.
  intros H1 H2. destruct (Rlt_dec 0 c).
  - assert (0 < a) by (apply (Rmult_lt_reg_r c); lra). assert (b < 0) by (apply (Rmult_lt_reg_r c); lra).
    apply Rlt_le. rewrite <- (Rmult_0_l a). apply Rmult_lt_compat_r; auto.
  - assert (c <> 0) by (intros ->; lra). assert (0 < - c) by lra.
    assert (a < 0). { apply (Rmult_lt_reg_r (-c)); auto. lra. }
    assert (0 < b). { apply (Rmult_lt_reg_r (-c)); auto. lra. }
    apply Rlt_le. replace 0 with (b * 0) by ring. apply Rmult_lt_compat_l; auto.
Qed.

Lemma nz_of_pos a c : 0 < a * c -> a <> 0.
Proof. intros H ->. lra. Qed.
Lemma nz_of_neg a c : a * c < 0 -> a <> 0.
Proof. intros H ->. lra. Qed.

(** A zero between two points of an oscillation. *)
Lemma zero_between y y' : A <= y -> y' <= B -> f y <> 0 -> f y' <> 0 ->
  (exists w, y <= w <= y' /\ f w * f y <= 0) -> exists z, y < z < y' /\ f z = 0.
Proof.
  intros HA HB' Hy Hy' (w & Hw & Fw).
  assert (y < w).
  { destruct (Rle_lt_or_eq_dec y w); [lra|auto|]. subst w. exfalso.
    assert (0 < f y * f y) by (apply Rsqr_pos_lt; auto). lra. }
  destruct (ivt y w) as (z & Hz & Fz); try lra.
  exists z. split; auto. split.
  - destruct (Rle_lt_or_eq_dec y z); [lra|auto|]. subst z. congruence.
  - destruct (Rle_lt_or_eq_dec z y'); [lra|auto|]. subst z. congruence.
Qed.

Lemma rolle_from l : forall y z, A <= z -> f z = 0 -> z < y -> osc f y l ->
  List.Forall (within A B) (y :: l) ->
  exists u l', z < u < y /\ 0 < g u * f y /\ osc g u l' /\ List.Forall (within A B) (u :: l') /\
    length l' = (length l + (if fB then 1 else 0))%nat.
Proof.
  induction l as [|y' l IH]; intros y z Hz Fz Hzy Ho Hin.
  - inversion_clear Hin as [|? ? Hy _]. unfold within in Hy. destruct Ho as [Fy _].
    destruct (leave_zero z y) as (u & Hu & Gu); auto; try lra.
    destruct fB eqn:EB.
    + destruct (reach_zero B y) as (v & Hv & Gv); auto; try lra.
      exists u, [v]. split; [lra|]. split; [auto|]. split; [|split; [|simpl; lia]].
      * simpl. split; [eapply nz_of_pos; eauto|]. split; [lra|]. split.
        -- exists v. split; [lra|]. eapply opp_sign; eauto.
        -- split; auto. eapply nz_of_neg; eauto.
      * constructor; [unfold within; lra|]. constructor; auto. unfold within; lra.
    + exists u, []. split; [lra|]. split; [auto|]. split; [|split; [|simpl; lia]].
      * simpl. split; auto. eapply nz_of_pos; eauto.
      * constructor; auto. unfold within; lra.
  - inversion_clear Hin as [|? ? Hy Hin']. unfold within in Hy.
    destruct Ho as (Fy & Hyy & Hw & Ho).
    assert (Hy' : within A B y') by (inversion Hin'; auto). unfold within in Hy'.
    assert (Fy' : f y' <> 0) by (destruct l; simpl in Ho; tauto).
    destruct (zero_between y y') as (z' & Hz' & Fz'); auto; try lra.
    destruct (IH y' z') as (u' & l' & Hu' & Gu' & Ho' & Hin2 & Hl); auto; try lra.
    destruct (leave_zero z y) as (u & Hu & Gu); auto; try lra.
    destruct (reach_zero z' y) as (v & Hv & Gv); auto; try lra.
    exists u, (u' :: l'). split; [lra|]. split; auto. split; [|split].
    + simpl. split; [eapply nz_of_pos; eauto|]. split; [lra|]. split; auto.
      exists v. split; [lra|]. eapply opp_sign; eauto.
    + constructor; auto. unfold within; lra.
    + simpl. rewrite Hl. lia.
Qed.

End Rolle.

(** ** Splines on the segments P, ..., H *)
Section Spl.
Variables (t : nat -> R) (N P H : nat).
Hypothesis Hmono : forall i j, (i <= j < N)%nat -> t i <= t j.
Hypothesis HPH : (P <= H)%nat.
Hypothesis HN : (H + P + 1 < N)%nat.
Hypothesis Hstrict : forall i, (P <= i <= H)%nat -> t i < t (i + 1)%nat.

Lemma knots_lt i j : (P <= i)%nat -> (i < j)%nat -> (j <= H + 1)%nat -> t i < t j.
Proof.
  intros Hi Hij Hj. apply Rlt_le_trans with (t (i + 1)%nat); [apply Hstrict; lia|apply Hmono; lia].
Qed.

Fixpoint sidx (h : nat) (x : R) : nat :=
  match h with
  | O => P
  | S h' => if Rle_dec (t (P + h)%nat) x then (P + h)%nat else sidx h' x
  end.

Lemma sidx_range h x : (P <= sidx h x <= P + h)%nat.
Proof. induction h; simpl; [lia|]. destruct (Rle_dec _ _); lia. Qed.

Lemma sidx_val h x k : (P <= k <= P + h)%nat -> (P + h <= H)%nat ->
  (k = P \/ t k <= x) -> (k = (P + h)%nat \/ x < t (k + 1)%nat) -> sidx h x = k.
Proof.
  induction h; intros Hk Hh H1 H2; cbn [sidx]; [lia|].
  destruct (Rle_dec (t (P + S h)%nat) x) as [L|L].
  - destruct (Nat.eq_dec k (P + S h)); auto. destruct H2 as [H2|H2]; [lia|]. exfalso.
    assert (t (k + 1)%nat <= t (P + S h)%nat) by (apply Hmono; lia). lra.
  - destruct (Nat.eq_dec k (P + S h)).
    { subst k. destruct H1; [lia|]. lra. }
    apply IHh; auto; try lia. destruct H2; [lia|auto].
Qed.

(** The spline of degree [q] with coefficients [c]. *)
Definition F (q : nat) (c : nat -> R) (x : R) : R := comb t (sidx (H - P) x) q c x.

Lemma comb_ext k q c c' x : (q <= k)%nat -> (forall j, (k - q <= j <= k)%nat -> c j = c' j) ->
  comb t k q c x = comb t k q c' x.
Proof. intros Hq Hc. unfold comb. apply sum_ext. intros j Hj. rewrite Hc by lia. reflexivity. Qed.

Lemma comb_zero k q c x : (q <= k)%nat -> (forall j, (k - q <= j <= k)%nat -> c j * piece t k q j x = 0) ->
  comb t k q c x = 0.
Proof. intros Hq Hc. unfold comb. apply sum_0. intros j Hj. apply Hc. lia. Qed.

Lemma comb_glue k q c : (1 <= q)%nat -> (q <= k)%nat -> t k < t (k + 1)%nat -> t (k + 1)%nat < t (k + 2)%nat ->
  comb t k q c (t (k + 1)%nat) = comb t (k + 1) q c (t (k + 1)%nat).
Proof.
  intros Hq Hqk H1 H2. unfold comb.
  transitivity (sum (S (q + 1)) (fun j => c (k - q + j)%nat * piece t k q (k - q + j) (t (k + 1)%nat))).
  { cbn [sum]. rewrite (piece_support t k q (k - q + (q + 1))) by lia. ring. }
  rewrite sum_S_l.
  rewrite (piece_glue t k q (k - q + 0)) by auto. rewrite (piece_support t (k + 1) q (k - q + 0)) by lia.
  rewrite Rmult_0_r, Rplus_0_l. apply sum_ext. intros j Hj.
  replace (k + 1 - q + j)%nat with (k - q + S j)%nat by lia. rewrite piece_glue by auto. reflexivity.
Qed.

Lemma F_val q c x k : (q <= P)%nat -> (P <= k <= H)%nat -> t k <= x <= t (k + 1)%nat ->
  (1 <= q)%nat \/ x < t (k + 1)%nat \/ k = H -> F q c x = comb t k q c x.
Proof.
  intros Hq Hk Hx Hc. unfold F.
  destruct (Rlt_dec x (t (k + 1)%nat)) as [L|L].
  - rewrite (sidx_val (H - P) x k); auto; try lia; intuition.
  - destruct (Nat.eq_dec k H) as [->|Ne].
    + rewrite (sidx_val (H - P) x H); auto; try lia. right; lra.
    + assert (Ex : x = t (k + 1)%nat) by lra.
      rewrite (sidx_val (H - P) x (k + 1)%nat); try lia.
      * assert (1 <= q)%nat by (destruct Hc as [Hc|[Hc|Hc]]; [auto|lra|lia]).
        subst x. symmetry. apply comb_glue; try lia.
        -- apply Hstrict; lia.
        -- replace (k + 2)%nat with (k + 1 + 1)%nat by lia. apply Hstrict; lia.
      * right; lra.
      * destruct (Nat.eq_dec (k + 1) H); [left; lia|]. right.
        subst x. apply Hstrict; lia.
Qed.

Lemma seg_of x : t P <= x <= t (H + 1)%nat ->
  exists k, (P <= k <= H)%nat /\ t k <= x <= t (k + 1)%nat /\ (x < t (k + 1)%nat \/ k = H).
Proof.
  intros Hx. assert (G : forall h, (P + h <= H)%nat -> (x < t (P + h + 1)%nat \/ (P + h = H)%nat) ->
    exists k, (P <= k <= H)%nat /\ t k <= x <= t (k + 1)%nat /\ (x < t (k + 1)%nat \/ k = H)).
  { induction h; intros Hh Hc.
    - exists (P + 0)%nat. replace (P + 0)%nat with P in * by lia. split; [lia|]. split.
      + destruct Hc as [Hc|Hc]; [lra|]. subst H. lra.
      + auto.
    - destruct (Rle_dec (t (P + S h)%nat) x).
      + exists (P + S h)%nat. split; [lia|]. split; auto. split; auto.
        destruct Hc as [Hc|Hc]; [lra|]. rewrite Hc. lra.
      + apply IHh; [lia|]. left. replace (P + h + 1)%nat with (P + S h)%nat by lia. lra. }
  apply (G (H - P)%nat); [lia|]. right. lia.
Qed.

(** Intermediate values, segment by segment. *)
Lemma comb_continuity k q c : (q <= P)%nat -> (P <= k <= H)%nat -> continuity (comb t k q c).
Proof.
  intros Hq Hk x. destruct q.
  - unfold comb. simpl. unfold piece; simpl. apply continuity_pt_ext with (fun _ => c (k - 0 + 0)%nat * (if (k - 0 + 0 =? k)%nat then 1 else 0)).
    + intros y. ring.
    + apply continuity_pt_const. intros a b. reflexivity.
  - apply derivable_continuous_pt. eexists. apply is_derive_Reals.
    apply (comb_derive t N k); auto; lia.
Qed.

Lemma F_ivt q c : (1 <= q <= P)%nat -> forall x y, t P <= x -> x < y -> y <= t (H + 1)%nat ->
  F q c x * F q c y <= 0 -> exists z, x <= z <= y /\ F q c z = 0.
Proof.
  intros Hq x y Hx Hxy Hy Hs.
  destruct (seg_of x) as (a & Ha & Hax & Hac); [lra|].
  destruct (seg_of y) as (b & Hb & Hby & Hbc); [lra|].
  assert (Hab : (a <= b)%nat).
  { destruct (Nat.le_gt_cases a b); auto. assert (t (b + 1)%nat <= t a) by (apply Hmono; lia). lra. }
  remember (b - a)%nat as m eqn:Em.
  revert x a Hx Hxy Hs Ha Hax Hac Hab Em. induction m; intros.
  - assert (a = b) by lia. subst a.
    rewrite (F_val q c x b), (F_val q c y b) in Hs by (auto; lia || lra).
    destruct (IVT_cor (comb t b q c) x y) as (z & Hz & Fz); auto; try lra.
    { apply comb_continuity; lia. }
    exists z. split; auto. rewrite (F_val q c z b); auto; try lia; lra.
  - set (u := t (a + 1)%nat) in *.
    assert (Hau : (a + 1 <= H)%nat) by lia.
    assert (Hxu : x < u) by (destruct Hac; [auto|lia]).
    destruct (Rle_dec (F q c x * F q c u) 0) as [L|L].
    + rewrite (F_val q c x a), (F_val q c u a) in L by (auto; unfold u in *; try lia; try lra; left; lia).
      destruct (IVT_cor (comb t a q c) x u) as (z & Hz & Fz); auto; try lra.
      { apply comb_continuity; lia. }
      assert (u <= y). { apply Rle_trans with (t b); [apply Hmono; lia|lra]. }
      exists z. split; [lra|]. rewrite (F_val q c z a); auto; try lia; unfold u in *; lra.
    + destruct (Rle_lt_or_eq_dec u y) as [L2|L2].
      { apply Rle_trans with (t b); [apply Hmono; lia|lra]. }
      * destruct (IHm u (a + 1)%nat) as (z & Hz & Fz); auto; try lia.
        -- lra.
        -- assert (0 < F q c x * F q c u) by lra.
           destruct (Rlt_dec 0 (F q c x)).
           ++ assert (0 < F q c u) by (apply (Rmult_lt_reg_l (F q c x)); lra).
              assert (F q c y <= 0). { destruct (Rle_dec (F q c y) 0); auto. assert (0 < F q c x * F q c y) by (apply Rmult_lt_0_compat; lra). lra. }
              rewrite <- (Rmult_0_r (F q c u)). apply Rmult_le_compat_l; lra.
           ++ assert (F q c x <> 0) by (intros E; rewrite E in *; lra).
              assert (F q c u < 0). { destruct (Rlt_dec (F q c u) 0); auto. assert (F q c x * F q c u <= F q c x * 0) by (apply Rmult_le_compat_neg_l; lra). lra. }
              assert (0 <= F q c y). { destruct (Rle_dec 0 (F q c y)); auto. assert (0 < (- F q c x) * (- F q c y)) by (apply Rmult_lt_0_compat; lra). lra. }
              replace 0 with (F q c u * 0) by ring. apply Rmult_le_compat_neg_l; lra.
        -- unfold u. split; [lra|]. apply Rlt_le. apply Hstrict. lia.
        -- destruct (Nat.eq_dec (a + 1) H); auto. left. apply Hstrict. lia.
        -- exists z. split; auto. lra.
      * (* y = u *) subst y. exfalso. lra.
Qed.

(** Mean values, segment by segment. *)
Lemma seg_mvt k q c x y : (S q <= P)%nat -> (P <= k <= H)%nat -> t k <= x -> x < y -> y <= t (k + 1)%nat ->
  exists z, x < z < y /\ comb t k (S q) c y - comb t k (S q) c x = F q (dcoef t (S q) c) z * (y - x).
Proof.
  intros Hq Hk Hx Hxy Hy.
  destruct (MVT_cor2 (comb t k (S q) c) (comb t k q (dcoef t (S q) c)) x y Hxy) as (z & Ez & Hz).
  { intros w Hw. apply is_derive_Reals. apply (comb_derive t N k); auto; lia. }
  exists z. split; auto. rewrite Ez. f_equal. symmetry. apply F_val; auto; try lia; lra.
Qed.

Lemma F_mv (sg : R) q c : (S q <= P)%nat -> forall x y, t P <= x -> x < y -> y <= t (H + 1)%nat ->
  0 < sg * (F (S q) c y - F (S q) c x) -> exists z, x < z < y /\ 0 < sg * F q (dcoef t (S q) c) z.
Proof.
  intros Hq x y Hx Hxy Hy Hs.
  destruct (seg_of x) as (a & Ha & Hax & Hac); [lra|].
  destruct (seg_of y) as (b & Hb & Hby & Hbc); [lra|].
  assert (Hab : (a <= b)%nat).
  { destruct (Nat.le_gt_cases a b); auto. assert (t (b + 1)%nat <= t a) by (apply Hmono; lia). lra. }
  remember (b - a)%nat as m eqn:Em.
  revert x a Hx Hxy Hs Ha Hax Hac Hab Em. induction m; intros.
  - assert (a = b) by lia. subst a.
    rewrite (F_val (S q) c x b), (F_val (S q) c y b) in Hs by (auto; lia || lra).
    destruct (seg_mvt b q c x y) as (z & Hz & E); auto; try lra.
    rewrite E in Hs. exists z. split; auto. apply (Rmult_lt_reg_r (y - x)); lra.
  - set (u := t (a + 1)%nat) in *.
    assert (Hau : (a + 1 <= H)%nat) by lia.
    assert (Hxu : x < u) by (destruct Hac; [auto|lia]).
    assert (Huy : u <= y). { apply Rle_trans with (t b); [apply Hmono; lia|lra]. }
    destruct (Rlt_dec 0 (sg * (F (S q) c u - F (S q) c x))) as [L|L].
    + rewrite (F_val (S q) c x a), (F_val (S q) c u a) in L by (auto; unfold u in *; try lia; try lra; left; lia).
      destruct (seg_mvt a q c x u) as (z & Hz & E); auto; try lia; try (unfold u; lra).
      rewrite E in L. exists z. split; [lra|]. apply (Rmult_lt_reg_r (u - x)); lra.
    + destruct (Rle_lt_or_eq_dec u y Huy) as [L2|L2].
      * destruct (IHm u (a + 1)%nat) as (z & Hz & Fz); auto; try lia; try lra.
        -- unfold u. split; [lra|]. apply Rlt_le. apply Hstrict. lia.
        -- destruct (Nat.eq_dec (a + 1) H); auto. left. apply Hstrict. lia.
        -- exists z. split; auto. lra.
      * subst y. exfalso. lra.
Qed.

(** ** The bound on oscillations *)
Definition clamped_left : Prop := forall i, (i <= P)%nat -> t i = t P.
Definition clamped_right : Prop := forall i, (H + 1 <= i <= H + P + 1)%nat -> t i = t (H + 1)%nat.

Lemma frac_0 b : frac 0 b = 0.
Proof. unfold frac. destruct (Req_EM_T b 0); unfold Rdiv; ring. Qed.

Lemma piece_clamped_left q j : clamped_left -> (q <= P)%nat -> (P - q < j)%nat -> piece t P q j (t P) = 0.
Proof.
  intros Hc. revert j; induction q; intros j Hq Hj.
  - apply piece_support. lia.
  - rewrite piece_S. rewrite (IHq (j + 1)%nat) by lia. rewrite Rmult_0_r, Rplus_0_r.
    destruct (Nat.le_gt_cases j P) as [L|L].
    + rewrite (Hc j L). replace (t P - t P) with 0 by ring.
      rewrite frac_0. ring.
    + rewrite (piece_support t P q j) by lia. ring.
Qed.

Lemma piece_clamped_right q j : clamped_right -> (q <= P)%nat -> (j < H)%nat -> piece t H q j (t (H + 1)%nat) = 0.
Proof.
  intros Hc. revert j; induction q; intros j Hq Hj.
  - unfold piece; simpl. destruct (Nat.eqb_spec j H); auto; lia.
  - rewrite piece_S. rewrite (IHq j) by lia. rewrite Rmult_0_r, Rplus_0_l.
    destruct (Nat.le_gt_cases H (j + S q)) as [L|L].
    + rewrite (Hc (j + S q + 1)%nat) by lia.
      replace (t (H + 1)%nat - t (H + 1)%nat) with 0 by ring.
      rewrite frac_0. ring.
    + rewrite (piece_support t H q (j + 1)) by lia. ring.
Qed.

Lemma piece_right_end k q : (S q <= k)%nat -> piece t k (S q) (k - S q) (t (k + 1)%nat) = 0.
Proof.
  intros Hq. rewrite piece_S. rewrite (piece_support t k q (k - S q)) by lia.
  replace (k - S q + S q + 1)%nat with (k + 1)%nat by lia.
  replace (t (k + 1)%nat - t (k + 1)%nat) with 0 by ring.
  rewrite frac_0. ring.
Qed.

Lemma osc_head f y l : osc f y l -> f y <> 0.
Proof. destruct l; simpl; tauto. Qed.

Lemma osc_bound_0 c r s l : (r <= s <= H)%nat ->
  (forall j, (P <= j <= H)%nat -> (j < r \/ s < j)%nat -> c j = 0) ->
  forall y, osc (F 0 c) y l -> List.Forall (within (t P) (t (H + 1)%nat)) (y :: l) ->
  (r <= sidx (H - P) y)%nat /\ (length l <= s - sidx (H - P) y)%nat /\ (sidx (H - P) y <= s)%nat.
Proof.
  intros Hrs Hc. assert (V : forall x, F 0 c x = c (sidx (H - P) x)).
  { intros x. unfold F, comb. simpl. rewrite Nat.sub_0_r, Nat.add_0_r. unfold piece; simpl.
    rewrite Nat.eqb_refl. ring. }
  induction l as [|y' l IH]; intros y Ho Hin.
  - apply osc_head in Ho. rewrite V in Ho. pose proof (sidx_range (H - P) y).
    assert (~ (sidx (H - P) y < r)%nat /\ ~ (s < sidx (H - P) y)%nat).
    { split; intros L; apply Ho, Hc; lia. }
    simpl. lia.
  - destruct Ho as (Fy & Hyy & (w & Hw & Fw) & Ho).
    inversion_clear Hin as [|? ? Hy Hin']. specialize (IH y' Ho Hin').
    assert (Hy' : within (t P) (t (H + 1)%nat) y') by (inversion Hin'; auto).
    unfold within in *.
    rewrite V in Fy. pose proof (sidx_range (H - P) y).
    assert (~ (sidx (H - P) y < r)%nat /\ ~ (s < sidx (H - P) y)%nat).
    { split; intros L; apply Fy, Hc; lia. }
    assert (sidx (H - P) y < sidx (H - P) y')%nat; [|simpl; lia].
    destruct (seg_of y) as (a & Ha & Hax & Hac); [lra|].
    destruct (seg_of y') as (b & Hb & Hby & Hbc); [lra|].
    assert (Sa : sidx (H - P) y = a) by (apply sidx_val; try lia; [right; lra|destruct Hac; [right; lra|left; lia]]).
    assert (Sb : sidx (H - P) y' = b) by (apply sidx_val; try lia; [right; lra|destruct Hbc; [right; lra|left; lia]]).
    rewrite Sa, Sb.
    destruct (Nat.lt_ge_cases a b); auto. exfalso.
    assert (a = b).
    { destruct (Nat.eq_dec a b); auto. assert (t (b + 1)%nat <= t a) by (apply Hmono; lia). lra. }
    clear Sb. subst b. assert (Sw : sidx (H - P) w = a).
    { apply sidx_val; try lia. right; lra. destruct Hbc; [right; lra|left; lia]. }
    rewrite !V, Sw, Sa in Fw. rewrite Sa in Fy. assert (0 < c a * c a) by (apply Rsqr_pos_lt; auto). lra.
Qed.

Lemma osc_bound q : (q <= P)%nat -> forall c r s, (P - q <= r)%nat -> (r <= s)%nat -> (s <= H)%nat ->
  (forall j, (P - q <= j <= H)%nat -> (j < r \/ s < j)%nat -> c j = 0) ->
  clamped_left \/ (P <= r)%nat -> clamped_right \/ (s + q <= H)%nat ->
  forall y l, osc (F q c) y l -> List.Forall (within (t P) (t (H + 1)%nat)) (y :: l) ->
  (length l <= s - r)%nat.
Proof.
  induction q; intros Hq c r s Hr Hrs Hs Hc HL HR y l Ho Hin.
  - destruct (osc_bound_0 c r s l ltac:(lia)) with (y := y) as (H1 & H2 & H3); auto; try lia.
    intros j Hj. apply Hc. lia.
  - set (d := dcoef t (S q) c).
    set (r' := if (r =? P - S q)%nat then (r + 1)%nat else r).
    set (s' := if (s =? H)%nat then H else (s + 1)%nat).
    assert (Hd : forall j, (P - q <= j <= H)%nat -> (j < r' \/ s' < j)%nat -> d j = 0).
    { intros j Hj Hj'. unfold d, dcoef.
      assert (c j = 0 /\ c (j - 1)%nat = 0) as [-> ->].
      { unfold r', s' in Hj'.
        destruct (Nat.eqb_spec r (P - S q)), (Nat.eqb_spec s H); split; apply Hc; lia. }
      unfold Rdiv. ring. }
    assert (Hr' : (P - q <= r')%nat) by (unfold r'; destruct (Nat.eqb_spec r (P - S q)); lia).
    assert (Hrs' : (r' <= s')%nat) by (unfold r', s'; destruct (Nat.eqb_spec r (P - S q)), (Nat.eqb_spec s H); lia).
    assert (Hs' : (s' <= H)%nat) by (unfold s'; destruct (Nat.eqb_spec s H); lia).
    assert (HL' : clamped_left \/ (P <= r')%nat) by (unfold r'; destruct HL; [auto|right; destruct (Nat.eqb_spec r (P - S q)); lia]).
    assert (HR' : clamped_right \/ (s' + q <= H)%nat) by (unfold s'; destruct HR; [auto|right; destruct (Nat.eqb_spec s H); lia]).
    pose proof (IHq ltac:(lia) d r' s' Hr' Hrs' Hs' Hd HL' HR') as IH. clear IHq.
    assert (HPs : t P < t (H + 1)%nat) by (apply knots_lt; lia).
    assert (ivt := F_ivt (S q) c ltac:(lia)).
    assert (mvp : forall x y, t P <= x -> x < y -> y <= t (H + 1)%nat -> F (S q) c x < F (S q) c y -> exists z, x < z < y /\ 0 < F q d z).
    { intros u v Hu Huv Hv HF. destruct (F_mv 1 q c ltac:(lia) u v) as (z & Hz & Gz); auto; try lra.
      exists z. split; auto. unfold d. lra. }
    assert (mvn : forall x y, t P <= x -> x < y -> y <= t (H + 1)%nat -> F (S q) c y < F (S q) c x -> exists z, x < z < y /\ F q d z < 0).
    { intros u v Hu Huv Hv HF. destruct (F_mv (-1) q c ltac:(lia) u v) as (z & Hz & Gz); auto; try lra.
      exists z. split; auto. unfold d. lra. }
    assert (HB : negb (s =? H)%nat = true -> F (S q) c (t (H + 1)%nat) = 0).
    { intros E. destruct (Nat.eqb_spec s H) as [|Ne]; [discriminate|].
      rewrite (F_val (S q) c _ H); try lia.
      - apply comb_zero; [lia|]. intros j Hj. destruct (Nat.le_gt_cases j s) as [L|L].
        2:{ rewrite (Hc j) by lia. ring. }
        destruct HR as [HR|HR].
        + rewrite piece_clamped_right; auto; try lia. ring.
        + assert (j = H - S q)%nat as -> by lia. rewrite piece_right_end by lia. ring.
      - split; [|lra]. apply Hmono; lia. }
    destruct (Nat.eqb_spec r (P - S q)) as [Er|Er].
    + (* no zero at the left end *)
      destruct l as [|y1 l1]; [simpl; lia|].
      destruct Ho as (Fy & Hyy & Hw & Ho).
      inversion_clear Hin as [|? ? Hy Hin']. unfold within in Hy.
      assert (Hy1 : within (t P) (t (H + 1)%nat) y1) by (inversion Hin'; auto). unfold within in Hy1.
      destruct (zero_between (F (S q) c) (t P) (t (H + 1)%nat) ivt y y1) as (z & Hz & Fz); auto; try lra.
      { eapply osc_head; eauto. }
      destruct (rolle_from _ _ _ _ ivt mvp mvn _ HB l1 y1 z) as (u & l' & _ & _ & Ho' & Hin2 & Hlen); auto; try lra.
      specialize (IH u l' Ho' Hin2). rewrite Hlen in IH. unfold r', s' in IH.
      simpl.
      destruct (Nat.eqb_spec s H); simpl in IH; lia.
    + assert (FA : F (S q) c (t P) = 0).
      { rewrite (F_val (S q) c _ P); try lia.
        - apply comb_zero; [lia|]. intros j Hj. destruct (Nat.le_gt_cases r j) as [L|L].
          2:{ rewrite (Hc j) by lia. ring. }
          destruct HL as [HL|HL].
          + rewrite piece_clamped_left; auto; try lia. ring.
          + assert (j = P) as -> by lia. rewrite piece_left_end by lia. ring.
        - split; [lra|]. apply Rlt_le, Hstrict; lia. }
      assert (t P < y) by (inversion_clear Hin as [|? ? Hy _]; unfold within in Hy; lra).
      destruct (rolle_from _ _ _ _ ivt mvp mvn _ HB l y (t P)) as (u & l' & _ & _ & Ho' & Hin2 & Hlen); auto; try lra.
      specialize (IH u l' Ho' Hin2). rewrite Hlen in IH. unfold r', s' in IH.
      destruct (Nat.eqb_spec s H); simpl in IH; lia.
Qed.

(** ** Local linear independence *)
Lemma comb_const k q a c x : (q <= k)%nat -> (k + q < N)%nat -> (k + 1 < N)%nat -> t k < t (k + 1)%nat ->
  (forall j, (k - q <= j <= k)%nat -> c j = a) -> comb t k q c x = a.
Proof.
  intros Hq Hk Hk1 Hseg Hc. unfold comb.
  rewrite (sum_ext _ _ (fun j => a * piece t k q (k - q + j) x)) by (intros; rewrite Hc by lia; reflexivity).
  rewrite sum_scal, (piece_unity t N k) by auto. ring.
Qed.

Lemma local_indep k q : (q <= k)%nat -> (k + q < N)%nat -> (k + 1 < N)%nat -> t k < t (k + 1)%nat ->
  forall c u v, u < v -> (forall x, u < x < v -> comb t k q c x = 0) ->
  forall j, (k - q <= j <= k)%nat -> c j = 0.
Proof.
  intros Hqk HkN Hk1 Hseg. revert Hqk HkN. induction q; intros Hqk HkN c u v Huv Hz j Hj.
  - assert (j = k) as -> by lia. specialize (Hz ((u + v) / 2) ltac:(lra)).
    rewrite (comb_const k 0 (c k)) in Hz; auto.
    intros i Hi. f_equal. lia.
  - assert (Hd : forall i, (k - q <= i <= k)%nat -> dcoef t (S q) c i = 0).
    { apply (IHq ltac:(lia) ltac:(lia) (dcoef t (S q) c) u v Huv).
      intros x Hx.
      assert (D := comb_derive t N k Hmono Hk1 Hseg q c x ltac:(lia) ltac:(lia)).
      assert (D0 : is_derive (comb t k (S q) c) x 0).
      { apply (is_derive_ext_loc (fun _ => 0)); [|apply @is_derive_const].
        assert (Hw : 0 < Rmin (x - u) (v - x)) by (apply Rmin_case; lra).
        exists (mkposreal _ Hw). intros y Hy. symmetry. apply Hz.
        unfold ball in Hy; simpl in Hy. unfold AbsRing_ball, abs, minus, plus, opp in Hy; simpl in Hy.
        pose proof (Rmin_l (x - u) (v - x)). pose proof (Rmin_r (x - u) (v - x)).
        apply Rabs_def2 in Hy. lra. }
      rewrite <- (is_derive_unique _ _ _ D). apply (is_derive_unique _ _ _ D0). }
    assert (Heq : forall i, (k - q <= i <= k)%nat -> c i = c (i - 1)%nat).
    { intros i Hi. specialize (Hd i Hi). unfold dcoef in Hd.
      assert (0 < t (i + S q)%nat - t i) by (apply (gap t N k); auto; lia).
      assert (0 < INR (S q)) by (apply lt_0_INR; lia).
      assert (E : INR (S q) * (c i - c (i - 1)%nat) = 0).
      { apply (Rmult_eq_reg_r (/ (t (i + S q)%nat - t i))); [|apply Rinv_neq_0_compat; lra].
        unfold Rdiv in Hd. rewrite Hd. ring. }
      apply Rmult_integral in E. destruct E; lra. }
    assert (Hall : forall m, (m <= S q)%nat -> c (k - S q + m)%nat = c (k - S q)%nat).
    { induction m; intros Hm; [f_equal; lia|].
      rewrite Heq by lia. rewrite <- IHm by lia. f_equal. lia. }
    specialize (Hz ((u + v) / 2) ltac:(lra)).
    rewrite (comb_const k (S q) (c (k - S q)%nat)) in Hz; auto; try lia.
    + replace j with (k - S q + (j - (k - S q)))%nat by lia. rewrite Hall by lia. auto.
    + intros i Hi. replace i with (k - S q + (i - (k - S q)))%nat by lia. apply Hall. lia.
Qed.

(** ** The Schoenberg-Whitney theorem *)
Lemma least_nonzero (c : nat -> R) n : (forall j, (j <= n)%nat -> c j = 0) \/
  exists r, (r <= n)%nat /\ c r <> 0 /\ forall j, (j < r)%nat -> c j = 0.
Proof.
  induction n.
  - destruct (Req_EM_T (c 0%nat) 0) as [E|E].
    + left. intros j Hj. assert (j = 0)%nat as -> by lia. auto.
    + right. exists 0%nat. repeat split; auto. intros j Hj. lia.
  - destruct IHn as [IH|(r & Hr & Hc & Hl)].
    + destruct (Req_EM_T (c (S n)) 0) as [E|E].
      * left. intros j Hj. destruct (Nat.eq_dec j (S n)); [subst; auto|apply IH; lia].
      * right. exists (S n). repeat split; auto. intros j Hj. apply IH; lia.
    + right. exists r. repeat split; auto.
Qed.

Lemma least_st (Q : nat -> Prop) r n : (r <= n)%nat -> Q n ->
  exists s, (r <= s <= n)%nat /\ Q s /\ forall j, (r <= j < s)%nat -> ~ Q j.
Proof.
  intros Hr HQ. remember (n - r)%nat as m eqn:Em. revert r Hr Em. induction m; intros.
  - exists n. split; [lia|]. split; auto. intros; lia.
  - destruct (classic (Q r)) as [L|L].
    + exists r. split; [lia|]. split; auto. intros; lia.
    + destruct (IHm (S r)) as (s & Hs & Qs & Hl); try lia.
      exists s. split; [lia|]. split; auto. intros j Hj.
      destruct (Nat.eq_dec j r); [subst; auto|apply Hl; lia].
Qed.

Theorem schoenberg_whitney (c x : nat -> R) lo hi :
  clamped_left \/ (P <= lo)%nat -> clamped_right \/ (hi + P <= H)%nat ->
  (hi <= H)%nat ->
  (forall j, (j <= H)%nat -> (j < lo \/ hi < j)%nat -> c j = 0) ->
  (forall j, (lo <= j <= hi)%nat -> t j < x j < t (j + P + 1)%nat) ->
  (forall j, (lo <= j <= hi)%nat -> t P < x j < t (H + 1)%nat) ->
  (forall i j, (lo <= i)%nat -> (i < j <= hi)%nat -> x i < x j) ->
  (forall j, (lo <= j <= hi)%nat -> F P c (x j) = 0) ->
  forall j, (j <= H)%nat -> c j = 0.
Proof.
  intros HL HR Hhi Hsup Hx Hxin Hxinc Hzero.
  destruct (least_nonzero c H) as [|(r & Hr & Hcr & Hrmin)]; auto. exfalso.
  assert (Hlor : (lo <= r <= hi)%nat).
  { split; apply Nat.nlt_ge; intros L; apply Hcr, Hsup; auto. }
  destruct (least_st (fun s => forall j, (s < j <= s + P + 1)%nat -> (j <= H)%nat -> c j = 0) r hi)
    as (s & Hs & Hsz & Hsmin); [lia|..].
  { intros j Hj Hj'. apply Hsup; lia. }
  set (c' := fun j => if (j <=? s)%nat then c j else 0).
  assert (Hc'1 : forall j, (j <= s)%nat -> c' j = c j).
  { intros j Hj. unfold c'. destruct (Nat.leb_spec j s); auto; lia. }
  assert (Hc'2 : forall j, (s < j)%nat -> c' j = 0).
  { intros j Hj. unfold c'. destruct (Nat.leb_spec j s); auto; lia. }
  set (b0 := Rmin (t (s + P + 1)%nat) (t (H + 1)%nat)).
  set (a0 := Rmax (t r) (t P)).
  assert (HPs : t P < t (H + 1)%nat) by (apply knots_lt; lia).
  assert (Hb0 : b0 <= t (s + P + 1)%nat /\ b0 <= t (H + 1)%nat) by (split; [apply Rmin_l|apply Rmin_r]).
  assert (Ha0 : t r <= a0 /\ t P <= a0) by (split; [apply Rmax_l|apply Rmax_r]).
  assert (Hxz : forall j, (r <= j <= s)%nat -> a0 < x j < b0 /\ F P c' (x j) = 0).
  { intros j Hj. pose proof (Hx j ltac:(lia)) as X1. pose proof (Hxin j ltac:(lia)) as X2.
    assert (t r <= t j) by (apply Hmono; lia).
    assert (t (j + P + 1)%nat <= t (s + P + 1)%nat) by (apply Hmono; lia).
    assert (Hab : a0 < x j < b0).
    { split; [unfold a0; apply Rmax_case; lra|unfold b0; apply Rmin_case; lra]. }
    split; auto. rewrite <- (Hzero j) by lia.
    destruct (seg_of (x j)) as (k & Hk & Hxk & Hkc); [lra|].
    rewrite !(F_val P _ (x j) k) by (auto; lia).
    apply comb_ext; [lia|]. intros i Hi.
    destruct (Nat.le_gt_cases i s); [apply Hc'1; auto|].
    rewrite Hc'2 by auto. symmetry. apply Hsz; [|lia]. split; auto.
    assert (k < s + P + 1)%nat; [|lia].
    apply Nat.nle_gt. intros L. assert (t (s + P + 1)%nat <= t k) by (apply Hmono; lia). lra. }
  assert (Hnv : forall u v, a0 <= u -> u < v -> v <= b0 -> exists y, u < y < v /\ F P c' y <> 0).
  { intros u v Hu Huv Hv. apply NNPP. intros Hno.
    assert (Hz : forall y, u < y < v -> F P c' y = 0).
    { intros y Hy. apply NNPP. intros Hne. apply Hno. exists y. auto. }
    destruct (seg_of u) as (k & Hk & Huk & Hkc); [lra|].
    assert (Huk1 : u < t (k + 1)%nat) by (destruct Hkc; [auto|subst k; lra]).
    assert (Hw : forall j, (k - P <= j <= k)%nat -> c' j = 0).
    { apply (local_indep k P ltac:(lia) ltac:(lia) ltac:(lia) ltac:(apply Hstrict; lia) c' u (Rmin v (t (k + 1)%nat))).
      - apply Rmin_case; lra.
      - intros y Hy. pose proof (Rmin_l v (t (k + 1)%nat)). pose proof (Rmin_r v (t (k + 1)%nat)).
        rewrite <- (F_val P c' y k); auto; try lia; try lra. apply Hz. lra. }
    assert (Hkr : (r <= k)%nat).
    { destruct (Nat.le_gt_cases r P); [lia|]. apply Nat.nlt_ge. intros L.
      assert (t (k + 1)%nat <= t r) by (apply Hmono; lia). lra. }
    assert (Hks : (k <= s + P)%nat).
    { apply Nat.nlt_ge. intros L. assert (t (s + P + 1)%nat <= t k) by (apply Hmono; lia). lra. }
    destruct (Nat.le_gt_cases (k - P) r) as [L|L].
    - apply Hcr. rewrite <- Hc'1 by lia. apply Hw. lia.
    - apply (Hsmin (k - P - 1)%nat); [lia|]. intros j Hj _.
      destruct (Nat.le_gt_cases j s).
      + rewrite <- Hc'1 by lia. apply Hw. lia.
      + apply Hsz; lia. }
  assert (Hbuild : forall m i y0, (i + m = s)%nat -> (r <= i)%nat -> a0 < y0 < x i -> F P c' y0 <> 0 ->
    exists l, length l = S m /\ osc (F P c') y0 l /\ List.Forall (within (t P) (t (H + 1)%nat)) (y0 :: l)).
  { induction m; intros i y0 Him Hri Hy0 Fy0.
    - assert (i = s) by lia. subst i. destruct (Hxz s) as [Xs Zs]; [lia|].
      destruct (Hnv (x s) b0) as (y1 & Hy1 & Fy1); try lra.
      exists [y1]. split; auto. split.
      + simpl. split; auto. split; [lra|]. split; [|auto].
        exists (x s). split; [lra|]. rewrite Zs. lra.
      + constructor; [unfold within; lra|]. constructor; [unfold within; lra|constructor].
    - destruct (Hxz i) as [Xi Zi]; [lia|]. destruct (Hxz (S i)) as [Xi1 Zi1]; [lia|].
      assert (x i < x (S i)) by (apply Hxinc; lia).
      destruct (Hnv (x i) (x (S i))) as (y1 & Hy1 & Fy1); try lra.
      destruct (IHm (S i) y1) as (l & Hl & Ho & Hin); auto; try lia; try lra.
      exists (y1 :: l). split; [simpl; lia|]. split.
      + simpl. split; auto. split; [lra|]. split; auto.
        exists (x i). split; [lra|]. rewrite Zi. lra.
      + constructor; auto. unfold within; lra. }
  destruct (Hxz r) as [Xr Zr]; [lia|].
  destruct (Hnv a0 (x r)) as (y0 & Hy0 & Fy0); try lra.
  destruct (Hbuild (s - r)%nat r y0) as (l & Hl & Ho & Hin); auto; try lia.
  (* the coefficients at indices at least 0, restricted to those of the segments *)
  assert (Hbound : (length l <= s - r)%nat); [|lia].
  apply (osc_bound P ltac:(lia) c' r s ltac:(lia) ltac:(lia) ltac:(lia)) with (y := y0); auto.
  - intros j Hj [L|L]; [rewrite Hc'1 by lia; auto|auto].
  - destruct HL; [auto|right; lia].
  - destruct HR; [auto|right; lia].
Qed.

End Spl.
