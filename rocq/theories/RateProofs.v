(** Splines near a smooth function: Taylor's formula and weights that reproduce
    polynomials. *)
From Coq Require Import List Arith Lia Bool ZArith Reals Lra FunctionalExtensionality.
From Coquelicot Require Import Coquelicot.
From Verif Require Import SumR SpecSpline SplineProofs BasisProofs MulProofs SmoothProofs PolyProofs SymBasis TensorR SpecSmooth DApproxProofs SpecPoly SpecRate.
Import ListNotations.
Open Scope R_scope.

(** ** Taylor's formula *)
Section Taylor.
Variables (D : nat -> R -> R) (n : nat).
Hypothesis HD : forall i t, (i < S n)%nat -> is_derive (D i) t (D (S i) t).

Lemma family_derive : forall k t, (k <= S n)%nat -> Derive_n (D 0%nat) k t = D k t.
Proof.
  induction k as [|k IH]; intros t Hk; [reflexivity|]. cbn [Derive_n].
  rewrite (Derive_ext _ (D k)) by (intros u; apply IH; lia). apply is_derive_unique. apply HD. lia.
Qed.
Lemma family_ex k t : (k <= S n)%nat -> ex_derive_n (D 0%nat) k t.
Proof.
  destruct k as [|k]; intros Hk; [exact I|]. cbn [ex_derive_n]. exists (D (S k) t).
  apply (is_derive_ext (D k)); [intros u; symmetry; apply family_derive; lia|apply HD; lia].
Qed.

Lemma sum_f_R0_sum (g : nat -> R) m : sum_f_R0 g m = sum (S m) g.
Proof. induction m as [|m IH]; [cbn; ring|]. rewrite tech5, IH. reflexivity. Qed.

Lemma taylor_right M y q : (forall t, Rabs (D (S n) t) <= M) -> y < q ->
  Rabs (D 0%nat q - sum (S n) (fun m => D m y / INR (fact m) * (q - y) ^ m)) <= M / INR (fact (S n)) * Rabs (q - y) ^ S n.
Proof.
  intros HM Hq. destruct (Taylor_Lagrange (D 0%nat) n y q Hq) as (z & _ & E).
  - intros t _ k Hk. apply family_ex. auto.
  - rewrite E, sum_f_R0_sum, family_derive by lia.
    rewrite (sum_ext _ _ (fun m => D m y / INR (fact m) * (q - y) ^ m)).
    2: { intros m Hm. rewrite family_derive by lia. pose proof (INR_fact_neq_0 m). field. auto. }
    match goal with |- Rabs ?a <= _ => replace a with ((q - y) ^ S n * (D (S n) z / INR (fact (S n)))) end.
    2: { pose proof (INR_fact_neq_0 (S n)). field. auto. }
    rewrite Rabs_mult, <- RPow_abs, Rmult_comm. apply Rmult_le_compat_r; [apply pow_le, Rabs_pos|].
    pose proof (INR_fact_lt_0 (S n)) as FP. unfold Rdiv. rewrite Rabs_mult, (Rabs_pos_eq (/ _)) by (left; apply Rinv_0_lt_compat; auto).
    apply Rmult_le_compat_r; [left; apply Rinv_0_lt_compat; auto|auto].
Qed.
End Taylor.

Lemma taylor_n (D : nat -> R -> R) n M y q : (forall i t, (i < S n)%nat -> is_derive (D i) t (D (S i) t)) ->
  (forall t, Rabs (D (S n) t) <= M) ->
  Rabs (D 0%nat q - sum (S n) (fun m => D m y / INR (fact m) * (q - y) ^ m)) <= M / INR (fact (S n)) * Rabs (q - y) ^ S n.
Proof.
  intros HD HM. destruct (Rtotal_order y q) as [H|[<-|H]].
  - apply taylor_right; auto.
  - rewrite sum_S_l. rewrite sum_0 by (intros i Hi; replace (y - y) with 0 by ring; rewrite pow_i by lia; ring).
    simpl fact at 1. simpl INR at 1. simpl pow at 1. replace (D 0%nat y - (D 0%nat y / 1 * 1 + 0)) with 0 by field. rewrite Rabs_R0.
    replace (Rabs (y - y)) with 0 by (replace (y - y) with 0 by ring; rewrite Rabs_R0; auto). rewrite pow_i by lia. lra.
  - pose proof (taylor_right (fun k t => (-1) ^ k * D k (- t)) n) as T. cbv beta in T.
    specialize (T ltac:(intros i t Hi; replace ((-1) ^ S i * D (S i) (- t)) with ((-1) ^ i * (-1 * D (S i) (- t))) by (simpl; ring);
      apply (is_derive_scal (fun t => D i (- t)) t ((-1) ^ i)); apply (is_derive_comp (D i) Ropp); [apply HD; auto|auto_derive; auto]) M (- y) (- q)).
    specialize (T ltac:(intros t; rewrite Rabs_mult, pow_1_abs, Rmult_1_l; auto) ltac:(lra)). rewrite !Ropp_involutive in T.
    replace (Rabs (- q - - y)) with (Rabs (q - y)) in T by (rewrite <- Rabs_Ropp; f_equal; ring).
    rewrite (sum_ext _ _ (fun m => (-1) ^ m * D m y / INR (fact m) * (- q - - y) ^ m)).
    + simpl pow at 1 in T. rewrite Rmult_1_l in T. exact T.
    + intros m Hm. replace (- q - - y) with ((-1) * (q - y)) by ring. rewrite Rpow_mult_distr.
      assert (E : (-1) ^ m * (-1) ^ m = 1) by (rewrite <- Rpow_mult_distr; replace (-1 * -1) with 1 by ring; apply pow1).
      transitivity ((-1) ^ m * (-1) ^ m * (D m y / INR (fact m) * (q - y) ^ m)); [rewrite E; ring|field; apply INR_fact_neq_0].
Qed.

(** ** Weights of values at neighbouring points *)
Definition qw (p l : nat) : R :=
  match p, l with
  | 0%nat, 0%nat | 1%nat, 0%nat => 1
  | 2%nat, 0%nat | 2%nat, 2%nat => -1 / 8
  | 2%nat, 1%nat => 5 / 4
  | 3%nat, 0%nat | 3%nat, 2%nat => -1 / 6
  | 3%nat, 1%nat => 4 / 3
  | 4%nat, 0%nat | 4%nat, 4%nat => 47 / 1152
  | 4%nat, 1%nat | 4%nat, 3%nat => -107 / 288
  | 4%nat, 2%nat => 319 / 192
  | 5%nat, 0%nat | 5%nat, 4%nat => 13 / 240
  | 5%nat, 1%nat | 5%nat, 3%nat => -7 / 15
  | 5%nat, 2%nat => 73 / 40
  | 6%nat, 0%nat | 6%nat, 6%nat => -2159 / 138240
  | 6%nat, 1%nat | 6%nat, 5%nat => 751 / 4608
  | 6%nat, 2%nat | 6%nat, 4%nat => -37003 / 46080
  | 6%nat, 3%nat => 79879 / 34560
  | _, _ => 0
  end.
Definition qn (p : nat) : nat := (2 * (p / 2) + 1)%nat.

Lemma qw_total p : (1 <= p <= 6)%nat -> sum (qn p) (fun l => Rabs (qw p l)) = spread p.
Proof.
  intros Hp. assert (A : forall x, 0 <= x -> Rabs x = x) by (intros; apply Rabs_pos_eq; auto).
  assert (B : forall x, x <= 0 -> Rabs x = - x) by (intros; apply Rabs_left1; auto).
  destruct p as [|[|[|[|[|[|[|p]]]]]]]; try lia; unfold qn; simpl Nat.div; cbn [Nat.mul Nat.add sum qw spread];
    repeat match goal with |- context [Rabs ?x] => first [rewrite (A x) by lra|rewrite (B x) by lra] end; field.
Qed.

Lemma qw_esym p m t j u h : (1 <= p <= 6)%nat -> (m <= p)%nat ->
  (forall l, (l < p)%nat -> t (j + l + 1)%nat = u + (INR l + 1 - (INR p + 1) / 2) * h) ->
  sum (qn p) (fun l => qw p l * (u + (INR l - INR (p / 2)) * h) ^ m) = esym t j p m / bin p m.
Proof.
  intros Hp Hm Ht.
  destruct p as [|[|[|[|[|[|[|p]]]]]]]; try lia; unfold qn; simpl Nat.div; cbn [Nat.mul Nat.add sum];
  destruct m as [|[|[|[|[|[|[|m]]]]]]]; try lia; cbn [esym Nat.eqb]; rewrite ?Ht by lia; cbn [bin Nat.eqb qw]; simpl INR; field.
Qed.

(** ** One dimension *)
Section One.
Variables (K : nat -> R) (k p a : nat) (y hh c M L : R) (D : nat -> R -> R) (w : nat -> R).
Hypothesis Hp : (1 <= p <= 6)%nat.
Hypothesis Ha : (a <= p)%nat.
Hypothesis Hk : (p <= k)%nat.
Hypothesis Hh : 0 < hh.
Hypothesis HK : forall i, K i = c + INR i * hh.
Hypothesis Hy : K k <= y <= K (k + 1)%nat.
Hypothesis HD : forall i t, (i < S p)%nat -> is_derive (D i) t (D (S i) t).
Hypothesis HM : forall t, Rabs (D (S p) t) <= M.
(** The weights take the [a]-th derivative at [y]. *)
Hypothesis Hw : forall m, (m <= p)%nat ->
  sum (p + 1) (fun e => esym (fun i => K i - y) (k - p + e) p m * w e) = bin p m * (if (m =? a)%nat then INR (fact a) else 0).
Hypothesis HL : sum (p + 1) (fun e => Rabs (w e)) <= L.
Definition xi (e : nat) : R := c + (INR (k - p + e) + (INR p + 1) / 2) * hh.
Definition pt (e l : nat) : R := xi e + (INR l - INR (p / 2)) * hh.

Lemma pt_near e l : (e < p + 1)%nat -> (l < qn p)%nat -> Rabs (pt e l - y) <= INR (2 * p + 1) / 2 * hh.
Proof.
  intros He Hl. unfold pt, xi. rewrite !HK in Hy. rewrite !plus_INR in *. rewrite mult_INR. simpl (INR 1) in *. simpl (INR 2). rewrite minus_INR by lia.
  assert (0 <= INR e <= INR p) by (split; [apply pos_INR|apply le_INR; lia]).
  assert (0 <= INR l <= 2 * INR (p / 2)). { split; [apply pos_INR|]. unfold qn in Hl. replace 2 with (INR 2) by (simpl; ring). rewrite <- mult_INR. apply le_INR. lia. }
  assert (2 * INR (p / 2) <= INR p).
  { pose proof (Nat.div_mod p 2 ltac:(lia)). replace 2 with (INR 2) by (simpl; ring). rewrite <- mult_INR. apply le_INR. lia. }
  apply Rabs_le. split; nra.
Qed.

Lemma rate_one : Rabs (sum (p + 1) (fun e => w e * sum (qn p) (fun l => qw p l * D 0%nat (pt e l))) - D a y)
  <= L * spread p * (M / INR (fact (p + 1)) * (INR (2 * p + 1) / 2 * hh) ^ (p + 1)).
Proof.
  set (T := fun q => sum (S p) (fun m => D m y / INR (fact m) * (q - y) ^ m)).
  set (E := M / INR (fact (p + 1)) * (INR (2 * p + 1) / 2 * hh) ^ (p + 1)).
  assert (HT : sum (p + 1) (fun e => w e * sum (qn p) (fun l => qw p l * T (pt e l))) = D a y).
  { transitivity (sum (S p) (fun m => D m y / INR (fact m) * (if (m =? a)%nat then INR (fact a) else 0))).
    - transitivity (sum (S p) (fun m => D m y / INR (fact m) * sum (p + 1) (fun e => w e * sum (qn p) (fun l => qw p l * (pt e l - y) ^ m)))).
      + rewrite (sum_ext (p + 1) _ (fun e => sum (S p) (fun m => D m y / INR (fact m) * (w e * sum (qn p) (fun l => qw p l * (pt e l - y) ^ m))))).
        * rewrite sum_swap. apply sum_ext. intros m Hm. rewrite sum_scal. reflexivity.
        * intros e He. rewrite (sum_ext (qn p) _ (fun l => sum (S p) (fun m => D m y / INR (fact m) * (qw p l * (pt e l - y) ^ m)))).
          -- rewrite sum_swap, <- sum_scal. apply sum_ext. intros m Hm. rewrite sum_scal. ring.
          -- intros l Hl. unfold T. rewrite <- sum_scal. apply sum_ext. intros m Hm. ring.
      + apply sum_ext. intros m Hm. f_equal.
        rewrite (sum_ext (p + 1) _ (fun e => / bin p m * (esym (fun i => K i - y) (k - p + e) p m * w e))).
        * rewrite sum_scal, Hw by lia. pose proof (bin_pos p m ltac:(lia)). field. lra.
        * intros e He. rewrite (sum_ext (qn p) _ (fun l => qw p l * ((xi e - y) + (INR l - INR (p / 2)) * hh) ^ m)).
          -- rewrite (qw_esym p m (fun i => K i - y) (k - p + e)); auto; [unfold Rdiv; ring|lia|].
             intros l Hl. rewrite HK. unfold xi. rewrite (plus_INR (k - p + e + l)), (plus_INR (k - p + e)). simpl (INR 1). field.
          -- intros l Hl. unfold pt. f_equal. f_equal. ring.
    - rewrite (sum_single (S p) a (fun m => D m y / INR (fact m) * (if (m =? a)%nat then INR (fact a) else 0))).
      + rewrite Nat.eqb_refl. field. apply INR_fact_neq_0.
      + lia.
      + intros m Hm Hne. destruct (Nat.eqb_spec m a); [congruence|]. ring. }
  rewrite <- HT at 1. rewrite <- sum_minus.
  assert (HE : forall e l, (e < p + 1)%nat -> (l < qn p)%nat -> Rabs (D 0%nat (pt e l) - T (pt e l)) <= E).
  { intros e l He Hl. eapply Rle_trans; [apply (taylor_n D p M y (pt e l)); auto|]. unfold E. rewrite Nat.add_1_r.
    apply Rmult_le_compat_l.
    - apply Rle_mult_inv_pos; [|apply INR_fact_lt_0]. eapply Rle_trans; [apply Rabs_pos|apply (HM 0)].
    - apply pow_incr. split; [apply Rabs_pos|apply pt_near; auto]. }
  rewrite (sum_ext (p + 1) _ (fun e => w e * sum (qn p) (fun l => qw p l * (D 0%nat (pt e l) - T (pt e l))))).
  2: { intros e He. rewrite <- Rmult_minus_distr_l, <- sum_minus. f_equal. apply sum_ext. intros. ring. }
  assert (E0 : 0 <= E) by (eapply Rle_trans; [apply Rabs_pos|apply (HE 0%nat 0%nat); [lia|unfold qn; lia]]).
  eapply Rle_trans; [apply sum_Rabs|].
  apply Rle_trans with (sum (p + 1) (fun e => Rabs (w e) * (spread p * E))).
  - apply sum_le. intros e He. rewrite Rabs_mult. apply Rmult_le_compat_l; [apply Rabs_pos|].
    rewrite <- qw_total by auto. rewrite <- sum_scal_r. eapply Rle_trans; [apply sum_Rabs|]. apply sum_le. intros l Hl.
    rewrite Rabs_mult. apply Rmult_le_compat_l; [apply Rabs_pos|auto].
  - rewrite sum_scal_r. rewrite Rmult_assoc. apply Rmult_le_compat_r; auto.
    apply Rmult_le_pos; auto. rewrite <- qw_total by auto. apply sum_pos. intros. apply Rabs_pos.
Qed.
End One.

(** ** One dimension after another *)
Fixpoint quasi (p : nat) (hs : list R) (F : list R -> R) (xs : list R) : R :=
  match hs, xs with
  | h :: hs, x :: xs => sum (qn p) (fun l => qw p l * quasi p hs (fun r => F (x + (INR l - INR (p / 2)) * h :: r)) xs)
  | _, _ => F xs
  end.

Fixpoint prodn (n : nat) (f : nat -> R) : R := match n with O => 1 | S n => prodn n f * f n end.

Lemma spread_ge p : 1 <= spread p.
Proof. unfold spread. do 6 (destruct p as [|p]; [lra|]). lra. Qed.

Lemma prod_ge (L : nat -> R) : forall n, (forall d, (d < n)%nat -> 1 <= L d) -> 1 <= prodn n L.
Proof. induction n as [|n IH]; intros H; cbn [prodn]; [lra|]. specialize (IH ltac:(auto)). specialize (H n ltac:(auto)). nra. Qed.
Lemma prodn_S_l n (L : nat -> R) : prodn (S n) L = L 0%nat * prodn n (fun d => L (S d)).
Proof. induction n as [|n IH]; [cbn [prodn]; ring|]. change (prodn (S (S n)) L) with (prodn (S n) L * L (S n)). rewrite IH. cbn [prodn]. ring. Qed.

(** [G d] is to be approached by the sum over the dimensions from [d] on of
    the values of [G n]. *)
Lemma tensor_rate p bs : (1 <= p <= 6)%nat -> forall (hs : list R) (pos : nat -> nat -> R) ys (e L : nat -> R) (G : nat -> list R -> R),
  length ys = length bs -> length hs = length bs ->
  (forall d, (d < length bs)%nat -> 0 <= e d /\ 1 <= L d /\
     sum (fst (nth d bs (0%nat, fun _ => 0))) (fun i => Rabs (snd (nth d bs (0%nat, fun _ => 0)) i)) <= L d) ->
  (forall d xs, (d < length bs)%nat -> length xs = length bs ->
     Rabs (sum (fst (nth d bs (0%nat, fun _ => 0))) (fun j => snd (nth d bs (0%nat, fun _ => 0)) j *
       sum (qn p) (fun l => qw p l * G (S d) (with_at xs d (pos d j + (INR l - INR (p / 2)) * nth d hs 0)))) - G d (with_at xs d (nth d ys 0))) <= L d * e d) ->
  Rabs (tensor bs (fun idx => quasi p hs (G (length bs)) (map (fun d => pos d (nth d idx 0%nat)) (seq 0 (length bs)))) - G 0%nat ys)
    <= spread p ^ length bs * prodn (length bs) L * sum (length bs) e.
Proof.
  intros Hp. pose proof (spread_ge p) as SG. induction bs as [|[n b] bs IH]; intros hs pos ys e L G Ly Lh Hb H.
  - destruct ys; [|discriminate]. destruct hs; [|discriminate]. cbn [tensor length seq map sum quasi]. replace (G 0%nat [] - G 0%nat []) with 0 by ring. rewrite Rabs_R0. lra.
  - destruct ys as [|y ys]; [discriminate|]. destruct hs as [|h hs]; [discriminate|]. cbn [tensor]. rewrite Rsum_sum.
    destruct (Hb 0%nat ltac:(simpl; lia)) as (E0 & L0 & B1). cbn [nth fst snd] in B1. cbn [length] in *.
    assert (E1 : forall d, (d < length bs)%nat -> 0 <= e (S d)) by (intros d Hd; apply (Hb (S d)); lia).
    assert (L1 : 1 <= prodn (length bs) (fun d => L (S d))) by (apply prod_ge; intros d Hd; apply (Hb (S d)); lia).
    rewrite sum_S_l, prodn_S_l. set (Q := fun k l => pos 0%nat k + (INR l - INR (p / 2)) * h).
    set (T := fun k l => tensor bs (fun idx => quasi p hs (fun r => G (S (length bs)) (Q k l :: r)) (map (fun d => pos (S d) (nth d idx 0%nat)) (seq 0 (length bs))))).
    rewrite (sum_ext n _ (fun k => b k * sum (qn p) (fun l => qw p l * T k l))).
    2:{ intros k Hk. f_equal. unfold T. 
        rewrite (tensor_ext bs _ (fun idx => sum (qn p) (fun l => qw p l * quasi p hs (fun r => G (S (length bs)) (Q k l :: r)) (map (fun d => pos (S d) (nth d idx 0%nat)) (seq 0 (length bs)))))).
        - generalize (qn p). intros q. induction q as [|q IHq]; cbn [sum].
          + transitivity (tensor bs (fun idx => 0 * 0)); [apply tensor_ext; intros; ring|]. rewrite tensor_scal. ring.
          + rewrite tensor_plus, tensor_scal, IHq. reflexivity.
        - intros idx V. cbn [seq map nth quasi]. rewrite <- seq_shift, map_map. reflexivity. }
    set (A := sum n (fun k => b k * sum (qn p) (fun l => qw p l * (T k l - G 1%nat (Q k l :: ys))))).
    set (B := sum n (fun k => b k * sum (qn p) (fun l => qw p l * G 1%nat (Q k l :: ys))) - G 0%nat (y :: ys)).
    assert (EQ : sum n (fun k => b k * sum (qn p) (fun l => qw p l * T k l)) - G 0%nat (y :: ys) = B + A).
    { unfold A, B. replace (sum n (fun k => b k * sum (qn p) (fun l => qw p l * T k l))) with
        (sum n (fun k => b k * sum (qn p) (fun l => qw p l * G 1%nat (Q k l :: ys))) + sum n (fun k => b k * sum (qn p) (fun l => qw p l * (T k l - G 1%nat (Q k l :: ys))))); [ring|].
      rewrite <- sum_plus. apply sum_ext. intros k Hk. rewrite <- Rmult_plus_distr_l, <- sum_plus. f_equal. apply sum_ext. intros l Hl. ring. }
    rewrite EQ. set (S1 := sum (length bs) (fun i => e (S i))) in *. assert (HS1 : 0 <= S1) by (apply sum_pos; auto).
    set (P1 := prodn (length bs) (fun d => L (S d))) in *.
    assert (PG : 1 <= spread p ^ length bs) by (apply pow_R1_Rle; auto).
    set (X := spread p * (spread p ^ length bs * P1 * S1)).
    assert (PP : 0 <= spread p ^ length bs * P1) by nra.
    assert (X0 : 0 <= X) by (unfold X; apply Rmult_le_pos; [lra|apply Rmult_le_pos; auto]).
    apply Rle_trans with (Rabs B + Rabs A); [apply Rabs_triang|].
    apply Rle_trans with (L 0%nat * e 0%nat + L 0%nat * X).
    + apply Rplus_le_compat.
      * apply (H 0%nat (y :: ys)); auto; lia.
      * unfold A. eapply Rle_trans; [apply sum_Rabs|].
        apply Rle_trans with (sum n (fun k => Rabs (b k) * X)).
        -- apply sum_le. intros k Hk. rewrite Rabs_mult. apply Rmult_le_compat_l; [apply Rabs_pos|]. unfold X.
           rewrite <- qw_total at 1 by auto. rewrite <- sum_scal_r. eapply Rle_trans; [apply sum_Rabs|]. apply sum_le. intros l Hl.
           rewrite Rabs_mult. apply Rmult_le_compat_l; [apply Rabs_pos|].
           unfold T, S1. apply (IH hs (fun d => pos (S d)) ys (fun d => e (S d)) (fun d => L (S d)) (fun d r => G (S d) (Q k l :: r))); auto.
           ++ intros d Hd. apply (Hb (S d)). lia.
           ++ intros d xs Hd Lx. apply (H (S d) (Q k l :: xs)); simpl; lia.
        -- rewrite sum_scal_r. apply Rmult_le_compat_r; auto.
    + unfold X. cbn [pow]. set (g := spread p ^ length bs) in *.
      replace (spread p * g * (L 0%nat * P1) * (e 0%nat + S1)) with (L 0%nat * (spread p * (g * P1 * S1)) + L 0%nat * e 0%nat * (spread p * (g * P1))) by ring.
      assert (1 <= g * P1) by nra. assert (1 <= spread p * (g * P1)) by nra. assert (0 <= L 0%nat * e 0%nat) by nra.
      assert (L 0%nat * e 0%nat <= L 0%nat * e 0%nat * (spread p * (g * P1))) by nra. lra.
Qed.

(** ** Pieces of equally spaced knots as weights *)
Lemma falling_small e k : (e < k)%nat -> falling e k = 0.
Proof.
  induction k as [|k IH]; intros H; [lia|]. cbn [falling]. destruct (Nat.eq_dec e k) as [->|]; [rewrite Nat.sub_diag; simpl; ring|]. rewrite IH by lia. ring.
Qed.
Lemma falling_fact e : falling e e = INR (fact e).
Proof.
  assert (H : forall k, (k <= e)%nat -> falling e k * INR (fact (e - k)) = INR (fact e)).
  { induction k as [|k IH]; intros Hk; [cbn [falling]; rewrite Nat.sub_0_r; ring|]. rewrite <- IH by lia. cbn [falling].
    replace (e - k)%nat with (S (e - S k)) at 2 by lia. rewrite fact_simpl, mult_INR. replace (S (e - S k)) with (e - k)%nat by lia. ring. }
  rewrite <- (H e) by lia. rewrite Nat.sub_diag. simpl. ring.
Qed.

Lemma piece_moments K k p a y hh c : (p <= k)%nat -> (a <= p)%nat -> 0 < hh -> (forall i, K i = c + INR i * hh) -> forall m, (m <= p)%nat ->
  sum (p + 1) (fun e => esym (fun i => K i - y) (k - p + e) p m * dp K k a p (k - p + e) y) = bin p m * (if (m =? a)%nat then INR (fact a) else 0).
Proof.
  intros Hk Ha Hh HK m Hm. set (t := fun i => K i - y). set (N := (k + p + 2)%nat).
  assert (M : forall i j, (i <= j < N)%nat -> t i <= t j).
  { intros i j H. unfold t. rewrite !HK. assert (INR i <= INR j) by (apply le_INR; lia). nra. }
  assert (S : t k < t (k + 1)%nat) by (unfold t; rewrite !HK, plus_INR; simpl; nra).
  assert (E : forall b x, (b <= p)%nat -> sum (p + 1) (fun e => esym t (k - p + e) p m * dp t k b p (k - p + e) x) = bin p m * Derive_n (fun x => x ^ m) b x).
  { induction b as [|b IH]; intros x Hb.
    - cbn [dp Derive_n]. apply (esym_sum t N k); auto; unfold N; lia.
    - cbn [Derive_n]. rewrite <- Derive_scal. symmetry. apply is_derive_unique.
      apply (is_derive_ext (fun x => sum (p + 1) (fun e => esym t (k - p + e) p m * dp t k b p (k - p + e) x))); [intros; apply IH; lia|].
      apply (is_derive_sum (p + 1) (fun e x => esym t (k - p + e) p m * dp t k b p (k - p + e) x)). intros e He.
      apply (is_derive_scal (fun x => dp t k b p (k - p + e) x)). apply (dp_derive t N); auto; unfold N; lia. }
  transitivity (sum (p + 1) (fun e => esym t (k - p + e) p m * dp t k a p (k - p + e) 0)).
  - apply sum_ext. intros e He. f_equal. replace y with (0 + y) at 1 by ring.
    pose proof (dp_shift t K k 0 y a p (k - p + e) 0) as Q. rewrite !Nat.add_0_r in Q. apply Q.
    intros i Hi. rewrite Nat.add_0_r. unfold t. ring.
  - rewrite E by auto. f_equal. rewrite Derive_n_monomial. destruct (Nat.eqb_spec m a) as [->|Ne].
    + rewrite Nat.sub_diag. cbn [pow]. rewrite Rmult_1_r. apply falling_fact.
    + destruct (Nat.lt_ge_cases m a) as [H|H]; [rewrite falling_small by auto; ring|]. rewrite pow_i by lia. ring.
Qed.

Lemma piece_total K k p y hh c : (p <= k)%nat -> 0 < hh -> (forall i, K i = c + INR i * hh) -> K k <= y <= K (k + 1)%nat ->
  forall a, (a <= p)%nat -> sum (k + 2) (fun i => Rabs (dp K k a p i y)) <= (2 / hh) ^ a.
Proof.
  intros Hp Hh HK Hy a. assert (M : forall i j, (i <= j)%nat -> K i <= K j).
  { intros i j H. rewrite !HK. assert (INR i <= INR j) by (apply le_INR; lia). nra. }
  assert (S1 : K k < K (k + 1)%nat) by (rewrite !HK, plus_INR; simpl; nra). revert p Hp. induction a as [|a IH]; intros p Hp Ha.
  - cbn [dp pow]. rewrite (sum_ext _ _ (fun i => piece K k p i y)).
    2: { intros i Hi. apply Rabs_pos_eq. apply (piece_nonneg K (i + k + p + 3)); auto; try lia; try lra. intros u v Huv. apply M. lia. }
    right. rewrite <- (piece_unity K (k + p + 2) k) with (p := p) (x := y); auto; try lia.
    2: { intros u v Huv. apply M. lia. }
    replace (k + 2)%nat with ((k - p) + ((p + 1) + 1))%nat by lia. rewrite sum_app, sum_app. cbn [sum].
    rewrite sum_0 by (intros i Hi; apply piece_support; lia). rewrite (piece_support K k p (k - p + (p + 1 + 0))) by lia. ring.
  - destruct p as [|q]; [lia|].
    rewrite (sum_ext _ _ (fun i => Rabs (dp K k a q i y - dp K k a q (i + 1) y) * / hh)).
    2: { intros i Hi. rewrite (dp_uniform K k 1 (k + 1) y hh) by (auto; try lia; intros i' q'; rewrite !HK, plus_INR; ring).
         unfold Rdiv. rewrite Rabs_mult, (Rabs_pos_eq (/ hh)) by (left; apply Rinv_0_lt_compat; auto). reflexivity. }
    rewrite sum_scal_r. specialize (IH q ltac:(lia) ltac:(lia)). set (S := sum (k + 2) (fun i => Rabs (dp K k a q i y))) in *.
    apply Rle_trans with (2 * S * / hh).
    + apply Rmult_le_compat_r; [left; apply Rinv_0_lt_compat; auto|].
      apply Rle_trans with (sum (k + 2) (fun i => Rabs (dp K k a q i y) + Rabs (dp K k a q (i + 1) y))).
      * apply sum_le. intros i Hi. unfold Rminus. eapply Rle_trans; [apply Rabs_triang|]. rewrite Rabs_Ropp. lra.
      * rewrite sum_plus. fold S.
        assert (E : sum (k + 2) (fun i => Rabs (dp K k a q (i + 1) y)) <= S).
        { unfold S. replace (k + 2)%nat with (Datatypes.S (k + 1)) by lia. rewrite (sum_S_l _ (fun i => Rabs (dp K k a q i y))). cbn [sum].
          rewrite (dp_support K k a q (k + 1 + 1)) by lia. rewrite Rabs_R0.
          rewrite (sum_ext (k + 1) _ (fun i => Rabs (dp K k a q (Datatypes.S i) y))) by (intros i Hi; do 2 f_equal; lia). pose proof (Rabs_pos (dp K k a q 0 y)). lra. }
        lra.
    + cbn [pow]. replace (2 * S * / hh) with (2 / hh * S) by (unfold Rdiv; ring). apply Rmult_le_compat_l; auto.
      apply Rle_mult_inv_pos; lra.
Qed.
