(** Basis functions of moved, mirrored and rotated knots. *)
From Coq Require Import List Arith Lia Bool ZArith Reals Lra.
From Verif Require Import Base Num SumR SpecBand SpecSpline SplineProofs BasisProofs BetaProofs SpecInterp KnotProofs KnotShape PerPD.
Import ListNotations.
Open Scope R_scope.

(** ** Single pieces *)
Lemma frac_scale a u v : a <> 0 -> frac (a * u) (a * v) = frac u v.
Proof.
  intros Ha. unfold frac. destruct (Req_EM_T v 0) as [->|E].
  - rewrite Rmult_0_r. destruct (Req_EM_T 0 0); auto; lra.
  - destruct (Req_EM_T (a * v) 0) as [F|F]; [apply Rmult_integral in F; lra|]. field. auto.
Qed.

Lemma piece_affine t a b k p : a <> 0 -> forall i x, piece (fun i => a * t i + b) k p i (a * x + b) = piece t k p i x.
Proof.
  intros Ha. induction p; intros i x; [reflexivity|]. rewrite !piece_S, !IHp. f_equal; f_equal.
  - rewrite <- (frac_scale a (x - t i)) by auto. f_equal; ring.
  - rewrite <- (frac_scale a (t (i + S p + 1)%nat - x)) by auto. f_equal; ring.
Qed.

Lemma piece_mirror t M k p : (k + 1 <= M)%nat -> forall i x, (i + p + 1 <= M)%nat ->
  piece (fun i => t (M - i)%nat) (M - 1 - k) p (M - 1 - p - i) x = piece t k p i x.
Proof.
  intros Hk. induction p; intros i x Hi.
  - unfold piece; cbn [cox]. destruct (Nat.eqb_spec (M - 1 - 0 - i) (M - 1 - k)), (Nat.eqb_spec i k); auto; lia.
  - rewrite !piece_S. replace (M - 1 - S p - i + 1)%nat with (M - 1 - p - i)%nat by lia.
    replace (M - 1 - S p - i)%nat with (M - 1 - p - (i + 1))%nat by lia. rewrite !IHp by lia.
    replace (M - (M - 1 - p - (i + 1)))%nat with (i + S p + 1)%nat by lia.
    replace (M - (M - 1 - p - (i + 1) + S p))%nat with (i + 1)%nat by lia.
    replace (M - (M - 1 - p - (i + 1) + S p + 1))%nat with i by lia.
    replace (M - (M - 1 - p - i))%nat with (i + S p)%nat by lia.
    rewrite Rplus_comm. f_equal; f_equal.
    + rewrite <- (frac_scale (-1) (x - t i)) by lra. f_equal; ring.
    + rewrite <- (frac_scale (-1) (t (i + S p + 1)%nat - x)) by lra. f_equal; ring.
Qed.

(** ** Wrapped basis functions over periodic knots *)
Section Wrapped.
Variables (K : nat -> R) (p N : nat) (P : R).
Hypothesis Hstep : forall i, K i < K (i + 1)%nat.
Hypothesis Hshift : forall i, K (i + N)%nat = K i + P.
Hypothesis HN : (p + 1 <= N)%nat.

Definition wbas (k j : nat) (y : R) : R :=
  sum (p + 1) (fun a => if ((k - p + a) mod N =? j)%nat then piece K k p (k - p + a) y else 0).

Lemma Kmono i j : (i <= j)%nat -> K i <= K j.
Proof. apply mono_steps. intros; left; apply Hstep. Qed.

Lemma wbas_shift k j y : (p <= k)%nat -> wbas (k + N) j (y + P) = wbas k j y.
Proof.
  intros Hk. unfold wbas. apply sum_ext. intros a Ha.
  replace (k + N - p + a)%nat with (k - p + a + 1 * N)%nat by lia. rewrite Nat.mod_add by lia.
  destruct ((k - p + a) mod N =? j)%nat; auto. replace (k - p + a + 1 * N)%nat with (k - p + a + N)%nat by lia. apply piece_shift. auto.
Qed.

Lemma wbas_shifts z k j y : (p <= k)%nat -> wbas (k + z * N) j (y + INR z * P) = wbas k j y.
Proof.
  intros Hk. induction z.
  - simpl. rewrite Nat.add_0_r, Rmult_0_l, Rplus_0_r. auto.
  - rewrite <- IHz, S_INR. rewrite <- (wbas_shift (k + z * N)) by lia. f_equal; [lia|ring].
Qed.

Lemma wbas_glue k j : (1 <= p)%nat -> (p <= k)%nat -> wbas k j (K (k + 1)%nat) = wbas (k + 1) j (K (k + 1)%nat).
Proof.
  intros Hp Hk. unfold wbas.
  transitivity (sum (S (p + 1)) (fun a => if ((k - p + a) mod N =? j)%nat then piece K k p (k - p + a) (K (k + 1)%nat) else 0)).
  { cbn [sum]. rewrite (piece_support K k p (k - p + (p + 1))) by lia. destruct (_ =? _)%nat; ring. }
  rewrite sum_S_l. rewrite (piece_glue K k p (k - p + 0)) by (auto; replace (k + 2)%nat with (k + 1 + 1)%nat by lia; auto).
  rewrite (piece_support K (k + 1) p (k - p + 0)) by lia.
  replace (if (_ =? j)%nat then 0 else 0) with 0 by (destruct (_ =? _)%nat; auto). rewrite Rplus_0_l.
  apply sum_ext. intros a Ha. replace (k - p + S a)%nat with (k + 1 - p + a)%nat by lia.
  rewrite (piece_glue K k p) by (auto; replace (k + 2)%nat with (k + 1 + 1)%nat by lia; auto). reflexivity.
Qed.

Lemma wbas_here k k' j y : (1 <= p)%nat -> (p <= k)%nat -> (p <= k')%nat ->
  K k <= y <= K (k + 1)%nat -> K k' <= y <= K (k' + 1)%nat -> wbas k j y = wbas k' j y.
Proof.
  intros Hp.
  assert (G : forall k k', (p <= k)%nat -> (k < k')%nat -> K k <= y <= K (k + 1)%nat -> K k' <= y <= K (k' + 1)%nat -> wbas k j y = wbas k' j y).
  { intros a b Ha Hab Ya Yb. pose proof (Kmono (a + 1) b ltac:(lia)).
    assert (E : y = K (a + 1)%nat) by lra.
    destruct (Nat.eq_dec b (a + 1)) as [->|Ne]; [rewrite E; apply wbas_glue; auto|].
    pose proof (Kmono (a + 1 + 1) b ltac:(lia)). pose proof (Hstep (a + 1)). lra. }
  intros Hk Hk' Yk Yk'. destruct (Nat.lt_trichotomy k k') as [L|[->|L]]; auto. symmetry. auto.
Qed.

Lemma wbas_any k k' j y y' (z : Z) : (1 <= p)%nat -> (p <= k)%nat -> (p <= k')%nat ->
  K k <= y <= K (k + 1)%nat -> K k' <= y' <= K (k' + 1)%nat -> y' = y + IZR z * P -> wbas k j y = wbas k' j y'.
Proof.
  intros Hp.
  assert (KS : forall z i, K (i + z * N)%nat = K i + INR z * P).
  { induction z0; intros i; [simpl; rewrite Nat.add_0_r; ring|]. rewrite S_INR.
    replace (i + S z0 * N)%nat with (i + z0 * N + N)%nat by lia. rewrite Hshift, IHz0. ring. }
  assert (G : forall n k k' y y', (p <= k)%nat -> (p <= k')%nat -> K k <= y <= K (k + 1)%nat -> K k' <= y' <= K (k' + 1)%nat ->
     y' = y + INR n * P -> wbas k j y = wbas k' j y').
  { intros n a b u v Ha Hb Ya Yb E. rewrite <- (wbas_shifts n a) by auto. rewrite <- E. apply wbas_here; auto; try lia.
    rewrite KS. replace (a + n * N + 1)%nat with (a + 1 + n * N)%nat by lia. rewrite KS. lra. }
  intros Hk Hk' Yk Yk' E. destruct (Z_le_gt_dec 0 z) as [L|L].
  - apply (G (Z.to_nat z)); auto. rewrite INR_IZR_INZ, Z2Nat.id by auto. auto.
  - symmetry. apply (G (Z.to_nat (- z))); auto. rewrite INR_IZR_INZ, Z2Nat.id by lia. rewrite opp_IZR. lra.
Qed.

(** Every number has a representative in a given window of [N] segments. *)
Lemma wbas_rep lo y : exists k (z : Z), (lo <= k < lo + N)%nat /\ K k <= y + IZR z * P < K (k + 1)%nat.
Proof.
  assert (HP : 0 < P). { pose proof (Hshift 0). pose proof (Hstep 0). pose proof (Kmono (0 + 1) (0 + N) ltac:(lia)). lra. }
  set (w := (K lo - y) / P). destruct (archimed w) as [A1 A2]. set (z := up w) in *.
  assert (D : K lo < y + IZR z * P <= K lo + P).
  { assert (E : K lo = y + w * P) by (unfold w; field; lra). rewrite E.
    assert (w * P < IZR z * P) by (apply Rmult_lt_compat_r; lra). assert (IZR z * P <= (w + 1) * P) by (apply Rmult_le_compat_r; lra). lra. }
  assert (E : exists v : Z, K lo <= y + IZR v * P < K (lo + N)%nat).
  { rewrite Hshift. destruct (Req_dec (y + IZR z * P) (K lo + P)) as [E|E].
    - exists (z - 1)%Z. rewrite minus_IZR. lra.
    - exists z. lra. }
  destruct E as (v & E).
  assert (G : forall n, y + IZR v * P < K (lo + n)%nat -> exists k, (lo <= k < lo + n)%nat /\ K k <= y + IZR v * P < K (k + 1)%nat).
  { induction n; intros H; [rewrite Nat.add_0_r in H; lra|].
    destruct (Rlt_dec (y + IZR v * P) (K (lo + n)%nat)) as [L|L].
    - destruct (IHn L) as (k & Hk & Hy). exists k. split; auto; lia.
    - exists (lo + n)%nat. split; [lia|]. replace (lo + n + 1)%nat with (lo + S n)%nat by lia. lra. }
  destruct (G N (proj2 E)) as (k & Hk & Hy). exists k, v. auto.
Qed.
End Wrapped.

Lemma mod_eq_iff N u v : (0 < N)%nat ->
  (u mod N = v mod N)%nat <-> exists z : Z, (Z.of_nat u = Z.of_nat v + z * Z.of_nat N)%Z.
Proof.
  intros HN. split.
  - intros H. exists (Z.of_nat (u / N) - Z.of_nat (v / N))%Z.
    pose proof (Nat.div_mod u N ltac:(lia)) as A. pose proof (Nat.div_mod v N ltac:(lia)) as B. rewrite H in A.
    apply (f_equal Z.of_nat) in A, B. rewrite Nat2Z.inj_add, Nat2Z.inj_mul in A, B. lia.
  - intros (z & H). apply Nat2Z.inj. rewrite !Nat2Z.inj_mod. rewrite H. apply Z.mod_add. lia.
Qed.

(** ** Two periodic knot sequences *)
Lemma wbas_moved K K' p N a b r k j y : a <> 0 -> (p + 1 <= N)%nat -> (p + r <= k)%nat -> (j < N)%nat ->
  (forall i, K' i = a * K (i + r)%nat + b) ->
  wbas K' p N (k - r) j (a * y + b) = wbas K p N k ((j + r) mod N) y.
Proof.
  intros Ha HN Hk Hj HK. unfold wbas. apply sum_ext. intros i Hi.
  replace (k - r - p + i)%nat with (k - p + i - r)%nat by lia. set (m := (k - p + i)%nat). assert (Hm : (r <= m)%nat) by (unfold m; lia).
  assert (E : ((m - r) mod N =? j)%nat = (m mod N =? (j + r) mod N)%nat).
  { rewrite <- (Nat.mod_small j N Hj) at 1. apply eq_true_iff_eq. rewrite !Nat.eqb_eq, !mod_eq_iff by lia.
    split; intros (z & H); exists z; lia. }
  rewrite E. clear E. match goal with |- context [if ?c then _ else _] => destruct c; auto end.
  rewrite <- (piece_affine K a b) by auto.
  pose proof (piece_shift K' (fun i => a * K i + b) r 0 (k - r) p (m - r) (a * y + b)) as F.
  replace (k - r + r)%nat with k in F by lia. replace (m - r + r)%nat with m in F by lia. rewrite Rplus_0_r in F.
  symmetry. apply F. intros i' _. rewrite HK. ring.
Qed.

Lemma wbas_mirrored K K' p N a b M B k j y : a <> 0 -> (p + 1 <= N)%nat -> (p <= k)%nat -> (M <= k - p + B)%nat -> (k + p < M)%nat -> (j < N)%nat ->
  (forall i, (i <= B)%nat -> K' i = a * K (M - i)%nat + b) ->
  wbas K' p N (M - 1 - k) j (a * y + b) = wbas K p N k ((M - 1 - p + N * M - j) mod N) y.
Proof.
  intros Ha HN Hk HB HM Hj HK. unfold wbas.
  replace (p + 1)%nat with (S p) by lia. rewrite sum_flip.
  apply sum_ext. intros i Hi. set (m := (k - p + i)%nat).
  replace (M - 1 - k - p + (p - i))%nat with (M - 1 - p - m)%nat by (unfold m; lia).
  assert (Hm : (p <= m + p < M)%nat) by (unfold m; lia).
  assert (E : ((M - 1 - p - m) mod N =? j)%nat = (m mod N =? (M - 1 - p + N * M - j) mod N)%nat).
  { rewrite <- (Nat.mod_small j N Hj) at 1. apply eq_true_iff_eq. rewrite !Nat.eqb_eq, !mod_eq_iff by lia.
    assert (HjM : (j <= N * M)%nat) by nia.
    split; intros (z & H); exists (- z - Z.of_nat M)%Z; rewrite ?Nat2Z.inj_sub, ?Nat2Z.inj_add, ?Nat2Z.inj_mul in * by lia; lia. }
  rewrite E. clear E. match goal with |- context [if ?c then _ else _] => destruct c; auto end.
  rewrite <- (piece_mirror K M k p) by lia. rewrite <- (piece_affine (fun i => K (M - i)%nat) a b) by auto.
  apply piece_ext. intros i' Hi'. apply HK. lia.
Qed.
