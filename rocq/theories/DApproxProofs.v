(** Derivatives of interpolations on equally spaced periodic points: one
    dimension, difference quotients. *)
From Coq Require Import List Arith Lia Bool ZArith Reals Lra FunctionalExtensionality.
From Coquelicot Require Import Coquelicot.
From Verif Require Import Base Num MeshM SpecMesh MeshProofs ProgM BandM LUM SplineM InterpM.
From Verif Require Import SumR DenseLU SpecBand BandProofs MulProofs LUProofs LUConv SpecSpline SpecSplineObj SplineProofs BasisProofs BetaProofs TensorR EvalProofs EvalR DerivProofs DerivLoops SplineTop SplineCalc SpecInterp KnotProofs KnotShape CoefProofs SolverProofs RoundProofs SolveProofs BuildProofs WeightProofs InterpProofs PerDom PerPD InterpTop InterpFinal PolyProofs SymBasis SymProofs SpecDims LinProofs RoundTensor RoundDerivLoops
  SpecCurve VecTop MonoTop SpecStab StabProofs StabTop SpecApprox ApproxProofs ApproxTop SpecSmooth SmoothProofs SmoothTop SpecDApprox.
Import ListNotations.
Open Scope R_scope.

(** ** The previous index *)
Definition prd (N j : nat) : nat := ((j + N - 1) mod N)%nat.

Lemma prd_lt N j : (0 < N)%nat -> (prd N j < N)%nat.
Proof. intros. apply Nat.mod_upper_bound. lia. Qed.
Lemma prd_mod N i : (0 < N)%nat -> prd N ((i + 1) mod N) = (i mod N)%nat.
Proof.
  intros H. unfold prd. replace ((i + 1) mod N + N - 1)%nat with ((i + 1) mod N + (N - 1))%nat by lia.
  rewrite Nat.add_mod_idemp_l by lia. replace (i + 1 + (N - 1))%nat with (i + 1 * N)%nat by lia. apply Nat.mod_add. lia.
Qed.
Lemma prd_add N r c : (0 < N)%nat -> ((prd N r + c) mod N = prd N ((r + c) mod N))%nat.
Proof.
  intros H. unfold prd. rewrite Nat.add_mod_idemp_l by lia.
  replace ((r + c) mod N + N - 1)%nat with ((r + c) mod N + (N - 1))%nat by lia. rewrite Nat.add_mod_idemp_l by lia. f_equal. lia.
Qed.

(** ** Basis functions of equally spaced knots *)
Section Line.
Variables (K : nat -> R) (k N M : nat) (y h : R).
Hypothesis HK : forall i q, K (i + q)%nat - K i = INR q * h.
Hypothesis Hh : 0 < h.
Hypothesis HN : (0 < N)%nat.
Hypothesis HkM : (k < M)%nat.

Definition gam (q a j : nat) : R := sum M (fun i => if (i mod N =? j)%nat then dp K k a q i y else 0).

Lemma gam_sum q a (v : nat -> R) : sum N (fun j => gam q a j * v j) = sum M (fun i => dp K k a q i y * v (i mod N)%nat).
Proof.
  unfold gam. rewrite (sum_ext N _ (fun j => sum M (fun i => if (i mod N =? j)%nat then dp K k a q i y * v j else 0))).
  - rewrite sum_swap. apply sum_ext. intros i Hi. rewrite (sum_single N (i mod N) (fun j => if (i mod N =? j)%nat then dp K k a q i y * v j else 0)).
    + rewrite Nat.eqb_refl. auto.
    + apply Nat.mod_upper_bound. lia.
    + intros j Hj Hne. destruct (Nat.eqb_spec (i mod N) j); auto; congruence.
  - intros j Hj. rewrite <- sum_scal_r. apply sum_ext. intros i Hi. destruct (_ =? _)%nat; ring.
Qed.

Lemma dp_uniform q a i : dp K k (S a) (S q) i y = (dp K k a q i y - dp K k a q (i + 1) y) / h.
Proof.
  cbn [dp]. replace (K (i + S q + 1)%nat - K (i + 1)%nat) with (INR (S q) * h) by (rewrite <- HK with (i := (i + 1)%nat); do 2 f_equal; lia).
  rewrite HK. assert (0 < INR (S q)) by (apply lt_0_INR; lia). assert (INR (S q) * h <> 0) by nra.
  rewrite !frac_ok by auto. field. split; lra.
Qed.

Lemma gam_step q a (u : nat -> R) : (q < k)%nat ->
  sum N (fun j => gam q a j * ((u j - u (prd N j)) / h)) = sum N (fun j => gam (S q) (S a) j * u j).
Proof.
  intros Hq. rewrite !gam_sum. assert (EM : exists m, M = S m) by (exists (M - 1)%nat; lia). destruct EM as (m & EM). rewrite EM.
  assert (E : sum (S m) (fun i => dp K k a q i y * u (prd N (i mod N))) = sum (S m) (fun i => dp K k a q (i + 1) y * u (i mod N)%nat)).
  { rewrite sum_S_l. rewrite (dp_support K k a q 0) by lia. cbn [sum]. rewrite (dp_support K k a q (m + 1)) by lia.
    rewrite !Rmult_0_l, Rplus_0_l, Rplus_0_r. apply sum_ext. intros i Hi. replace (S i) with (i + 1)%nat by lia. rewrite prd_mod by auto. reflexivity. }
  transitivity ((sum (S m) (fun i => dp K k a q i y * u (i mod N)%nat) - sum (S m) (fun i => dp K k a q i y * u (prd N (i mod N)))) / h).
  - unfold Rdiv. rewrite <- sum_minus, <- sum_scal_r. apply sum_ext. intros i Hi. ring.
  - rewrite E. unfold Rdiv. rewrite <- sum_minus, <- sum_scal_r. apply sum_ext. intros i Hi. rewrite dp_uniform. unfold Rdiv. ring.
Qed.

Lemma K_step i : K i < K (i + 1)%nat.
Proof. pose proof (HK i 1). simpl in H. lra. Qed.
Lemma K_mono i j : (i <= j)%nat -> K i <= K j.
Proof. apply mono_steps. intros. left. apply K_step. Qed.

Lemma gam_nonneg q j : K k <= y <= K (k + 1)%nat -> 0 <= gam q 0 j.
Proof.
  intros Hy. unfold gam. apply sum_pos. intros i Hi. destruct (_ =? _)%nat; [|lra].
  apply (piece_nonneg K (i + k + q + 3) k); auto; try lia.
  - intros u v Huv. apply K_mono. lia.
  - apply K_step.
Qed.

Lemma gam_total q : (q <= k)%nat -> sum N (gam q 0) = 1.
Proof.
  intros Hq. rewrite (sum_ext N _ (fun j => gam q 0 j * 1)) by (intros; ring). rewrite gam_sum.
  transitivity (sum (q + 1) (fun j => piece K k q (k - q + j) y)); [|apply (piece_unity K (k + q + 2) k); try lia].
  - replace M with ((k - q) + ((q + 1) + (M - k - 1)))%nat by lia. rewrite (sum_app (k - q)), (sum_app (q + 1)). rewrite (sum_0 (k - q)), (sum_0 (M - k - 1)).
    + rewrite Rplus_0_l, Rplus_0_r. apply sum_ext. intros. cbn [dp]. ring.
    + intros i Hi. cbn [dp]. rewrite piece_support by lia. ring.
    + intros i Hi. cbn [dp]. rewrite piece_support by lia. ring.
  - intros u v Huv. apply K_mono. lia.
  - apply K_step.
Qed.

Lemma sum_nonzero n f : sum n f <> 0 -> exists i, (i < n)%nat /\ f i <> 0.
Proof.
  induction n as [|n IH]; cbn [sum]; intros H; [lra|]. destruct (Req_dec (f n) 0) as [E|E].
  - destruct IH as (i & Hi & Q); [lra|]. exists i. split; auto.
  - exists n. auto.
Qed.

Lemma gam_support q j : K k <= y <= K (k + 1)%nat -> gam q 0 j <> 0 ->
  exists i, (i mod N = j)%nat /\ K i <= y <= K i + INR (q + 1) * h.
Proof.
  intros Hy H. apply sum_nonzero in H as (i & Hi & Q). exists i. destruct (Nat.eqb_spec (i mod N) j) as [E|E]; [|lra]. split; auto.
  destruct (Nat.lt_ge_cases k i); [rewrite dp_support in Q by lia; lra|].
  destruct (Nat.lt_ge_cases (i + q) k); [rewrite dp_support in Q by lia; lra|].
  pose proof (K_mono i k ltac:(lia)). pose proof (K_mono (k + 1) (i + (q + 1)) ltac:(lia)). pose proof (HK i (q + 1)). lra.
Qed.
End Line.

(** ** Rows of the matrices *)
Definition half (p : nat) : R := if Nat.even p then / 2 else 0.

Lemma uniform_circ p N a b A : (p + 1 <= N)%nat -> a < b ->
  col_good p true N (grid_of (Uniform a b) (N + 1)) A ->
  forall r j, (r < N)%nat -> (j < N)%nat ->
    A r j = sum (p + 1) (fun e => if ((r + (N - p / 2 + e)) mod N =? j)%nat then ub (half p) p (p - e) else 0).
Proof.
  intros Hp Hab HC r j Hr Hj. set (x := grid_of (Uniform a b) (N + 1)) in *.
  assert (Hx : increasing (N + 1) x) by (apply uniform_increasing; auto; lia).
  destruct (rowof_onto p N r Hp Hr) as (i & Hi & Er).
  destruct (HC i Hi) as (k & Hk & EA). apply row_seg in Hk; auto. subst k. rewrite Er in EA.
  set (K := knots_for p true N x) in *.
  pose proof (pk_len p N x) as LK. fold K in LK. pose proof (half_cases p) as HHC.
  assert (KA : forall i, (i < N + 2 * p + 1 + (1 - p mod 2))%nat -> kn K i = per_knot p N (x N - x 0%nat) x i) by (intros; apply pk_at; auto).
  assert (HN : 0 < INR N) by (apply lt_0_INR; lia).
  set (hh := (b - a) / INR N).
  assert (Hh : hh <> 0). { unfold hh. apply Rgt_not_eq. apply Rdiv_lt_0_compat; lra. }
  set (c := a - (INR p + half p) * hh).
  assert (EP : x N - x 0%nat = b - a).
  { unfold x, grid_of. replace (N + 1 - 1)%nat with N by lia. simpl (INR 0). field. lra. }
  rewrite EA by auto. unfold Bmat. apply sum_ext. intros e He. replace (i + p - p + e)%nat with (i + e)%nat by lia.
  replace ((r + (N - p / 2 + e)) mod N)%nat with ((i + e) mod N)%nat.
  - destruct (_ =? _)%nat; auto. rewrite (piece_ext (kn K) (fun i => c + INR i * hh)).
    + replace (x i) with (c + INR (i + p) * hh + half p * hh).
      * rewrite uniform_piece by (auto; lia). f_equal. lia.
      * unfold x, grid_of, c. replace (N + 1 - 1)%nat with N by lia. fold hh. rewrite plus_INR. ring.
    + intros i' Hi'. rewrite KA by lia. rewrite EP. unfold x. rewrite per_uniform by auto. fold hh. unfold c, half. ring.
  - rewrite <- Er. unfold rowof. rewrite Nat.add_mod_idemp_l by lia. replace (i + p / 2 + (N - p / 2 + e))%nat with (i + e + 1 * N)%nat by lia.
    rewrite Nat.mod_add by lia. reflexivity.
Qed.

(** Moving the indices commutes with the matrix. *)
Lemma circ_shift p N (A : mat) w c : (0 < N)%nat ->
  (forall r j, (r < N)%nat -> (j < N)%nat -> A r j = sum (p + 1) (fun e => if ((r + (c + e)) mod N =? j)%nat then w e else 0)) ->
  forall r (f : nat -> R), (r < N)%nat -> sum N (fun j => A r j * f (prd N j)) = sum N (fun j => A (prd N r) j * f j).
Proof.
  intros HN HA r f Hr.
  assert (G : forall r (v : nat -> R), (r < N)%nat -> sum N (fun j => A r j * v j) = sum (p + 1) (fun e => w e * v ((r + (c + e)) mod N)%nat)).
  { intros r' v Hr'. rewrite (sum_ext N _ (fun j => sum (p + 1) (fun e => if ((r' + (c + e)) mod N =? j)%nat then w e * v j else 0))).
    - rewrite sum_swap. apply sum_ext. intros e He.
      rewrite (sum_single N ((r' + (c + e)) mod N) (fun j => if ((r' + (c + e)) mod N =? j)%nat then w e * v j else 0)).
      + rewrite Nat.eqb_refl. auto.
      + apply Nat.mod_upper_bound. lia.
      + intros j Hj Hne. destruct (Nat.eqb_spec ((r' + (c + e)) mod N) j); auto; congruence.
    - intros j Hj. rewrite HA by auto. rewrite <- sum_scal_r. apply sum_ext. intros e He. destruct (_ =? _)%nat; ring. }
  rewrite (G r (fun j => f (prd N j))), G by (auto; apply prd_lt; auto). apply sum_ext. intros e He. rewrite prd_add by auto. reflexivity.
Qed.

(** ** Difference quotients of functions of several variables *)
Definition dq (h : nat -> R) (d : nat) (F : list R -> R) (xs : list R) : R :=
  (F xs - F (with_at xs d (nth d xs 0 - h d))) / h d.
Fixpoint dqs (h : nat -> R) (vars : list nat) (F : list R -> R) : list R -> R :=
  match vars with [] => F | d :: vars => dq h d (dqs h vars F) end.

Lemma with_with {A} (l : list A) d a b : (d < length l)%nat -> with_at (with_at l d a) d b = with_at l d b.
Proof.
  intros H. unfold with_at. assert (L : length (firstn d l) = d) by (rewrite firstn_length; lia).
  rewrite firstn_app, L, Nat.sub_diag, firstn_O, app_nil_r, firstn_firstn, Nat.min_id. f_equal. f_equal.
  rewrite skipn_app, L. rewrite (skipn_all2 (firstn d l)) by lia. replace (S d - d)%nat with 1%nat by lia. reflexivity.
Qed.
Lemma with_self (l : list R) d : (d < length l)%nat -> with_at l d (nth d l 0) = l.
Proof.
  intros H. apply (nth_ext _ _ 0 0); [apply with_length; auto|]. intros e He. rewrite with_nth by auto.
  destruct (Nat.eqb_spec e d) as [->|]; auto.
Qed.
Lemma with_comm (l : list R) d e a b : (d < length l)%nat -> (e < length l)%nat -> d <> e ->
  with_at (with_at l d a) e b = with_at (with_at l e b) d a.
Proof.
  intros Hd He Hne. apply (nth_ext _ _ 0 0); [rewrite !with_length; rewrite ?with_length; auto|].
  intros i Hi. rewrite !with_nth by (rewrite ?with_length; auto). destruct (Nat.eqb_spec i e), (Nat.eqb_spec i d); auto; congruence.
Qed.

(** Derivatives and difference quotients commute. *)
Lemma dq_derive n h e d (F F1 : list R -> R) : (d < n)%nat -> (e < n)%nat ->
  (forall xs : list R, length xs = n -> is_derive (fun t : R => F (with_at xs d t)) (nth d xs 0) (F1 xs)) ->
  forall xs : list R, length xs = n -> is_derive (fun t : R => dq h e F (with_at xs d t)) (nth d xs 0) (dq h e F1 xs).
Proof.
  intros Hd He HF xs Lx. unfold dq. unfold Rdiv.
  pose proof (HF xs Lx) as D1.
  assert (D2 : is_derive (fun t => F (with_at (with_at xs d t) e (nth e (with_at xs d t) 0 - h e))) (nth d xs 0) (F1 (with_at xs e (nth e xs 0 - h e)))).
  { destruct (Nat.eq_dec e d) as [->|Hne].
    - pose proof (HF (with_at xs d (nth d xs 0 - h d)) ltac:(rewrite with_length; auto; lia)) as D.
      rewrite with_nth, Nat.eqb_refl in D by lia.
      assert (D' : is_derive (fun t => F (with_at xs d (t - h d))) (nth d xs 0) (F1 (with_at xs d (nth d xs 0 - h d)))).
      { apply (is_derive_ext (fun t => (fun v => F (with_at (with_at xs d (nth d xs 0 - h d)) d v)) (t - h d))).
        - intros t. cbv beta. rewrite with_with by lia. reflexivity.
        - replace (F1 (with_at xs d (nth d xs 0 - h d))) with (scal 1 (F1 (with_at xs d (nth d xs 0 - h d)))) by apply (scal_one (K := R_Ring)).
          apply (is_derive_comp (fun v => F (with_at (with_at xs d (nth d xs 0 - h d)) d v)) (fun t => t - h d)); [exact D|].
          auto_derive; auto. }
      apply (is_derive_ext (fun t => F (with_at xs d (t - h d)))); auto.
      intros t. rewrite with_nth, Nat.eqb_refl, with_with by lia. reflexivity.
    - pose proof (HF (with_at xs e (nth e xs 0 - h e)) ltac:(rewrite with_length; auto; lia)) as D.
      rewrite with_nth in D by lia. destruct (Nat.eqb_spec d e); [congruence|].
      apply (is_derive_ext (fun t => F (with_at (with_at xs e (nth e xs 0 - h e)) d t))); auto.
      intros t. rewrite with_nth by lia. destruct (Nat.eqb_spec e d); [congruence|]. apply f_equal. apply with_comm; [lia|lia|congruence]. }
  pose proof (is_derive_minus _ _ _ _ _ D1 D2) as D3.
  pose proof (is_derive_scal _ _ (/ h e) _ D3) as D4.
  apply (is_derive_ext (fun t => / h e * minus (F (with_at xs d t)) (F (with_at (with_at xs d t) e (nth e (with_at xs d t) 0 - h e))))).
  - intros t. unfold minus, plus, opp. simpl. ring.
  - replace ((F1 xs - F1 (with_at xs e (nth e xs 0 - h e))) * / h e) with (/ h e * minus (F1 xs) (F1 (with_at xs e (nth e xs 0 - h e)))) by (unfold minus, plus, opp; simpl; ring).
    exact D4.
Qed.

Lemma dqs_derive n h vars d : (d < n)%nat -> (forall e, In e vars -> (e < n)%nat) -> forall (F F1 : list R -> R),
  (forall xs : list R, length xs = n -> is_derive (fun t : R => F (with_at xs d t)) (nth d xs 0) (F1 xs)) ->
  forall xs : list R, length xs = n -> is_derive (fun t : R => dqs h vars F (with_at xs d t)) (nth d xs 0) (dqs h vars F1 xs).
Proof.
  intros Hd. induction vars as [|e vars IH]; intros HV F F1 HF; [exact HF|]. cbn [dqs]. 
  apply dq_derive; auto. { apply HV. left. auto. } apply IH; auto. intros; apply HV; right; auto.
Qed.

(** A difference quotient is the derivative somewhere between. *)
Lemma dqs_mean n h vars : (forall d, (d < n)%nat -> 0 < h d) -> (forall e, In e vars -> (e < n)%nat) -> forall F G,
  differentiates n vars F G -> forall xs, length xs = n -> exists ys, length ys = n /\ dqs h vars F xs = G ys /\
    forall d, (d < n)%nat -> nth d xs 0 - INR (order_of vars d) * h d <= nth d ys 0 <= nth d xs 0.
Proof.
  intros Hh. induction vars as [|d vars IH]; intros HV F G HD xs Lx.
  - exists xs. split; auto. split; [apply HD; auto|]. intros d Hd. simpl. lra.
  - destruct HD as (F1 & H1 & H2). assert (Hd : (d < n)%nat) by (apply HV; left; auto). pose proof (Hh d Hd) as Hp.
    assert (HV' : forall e, In e vars -> (e < n)%nat) by (intros; apply HV; right; auto).
    pose proof (dqs_derive n h vars d Hd HV' F F1 H1) as D.
    set (x := nth d xs 0) in *. set (phi := fun t => dqs h vars F (with_at xs d t)).
    assert (DP : forall t, is_derive phi t (dqs h vars F1 (with_at xs d t))).
    { intros t. pose proof (D (with_at xs d t) ltac:(rewrite with_length; auto; lia)) as Q. rewrite with_nth, Nat.eqb_refl in Q by lia.
      apply (is_derive_ext (fun t0 => dqs h vars F (with_at (with_at xs d t) d t0))); auto. intros t0. rewrite with_with by lia. reflexivity. }
    destruct (MVT_gen phi (x - h d) x (fun t => dqs h vars F1 (with_at xs d t))) as (c & Hc & E).
    { intros; apply DP. }
    { intros t _. apply continuity_pt_filterlim. apply (ex_derive_continuous (V := R_NormedModule)). eexists. apply DP. }
    rewrite Rmin_left, Rmax_right in Hc by lra.
    destruct (IH HV' F1 G H2 (with_at xs d c)) as (ys & Ly & EG & B). { rewrite with_length; auto; lia. }
    exists ys. split; auto. split.
    + cbn [dqs]. unfold dq. fold x. rewrite <- EG. unfold phi in E. unfold x in E at 1. rewrite with_self in E by lia. rewrite E. field. lra.
    + intros e He. specialize (B e He). rewrite with_nth in B by lia. unfold order_of in *. cbn [count_occ].
      destruct (Nat.eq_dec d e) as [<-|Hne].
      * rewrite Nat.eqb_refl in B. rewrite S_INR. fold x. lra.
      * destruct (Nat.eqb_spec e d); [congruence|]. exact B.
Qed.
