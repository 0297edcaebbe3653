(** Factorising and solving for either kind of matrix; unisolvence of the
    non-periodic collocation systems. *)
From Coq Require Import List Arith Lia Bool ZArith Reals Lra.
From Verif Require Import Base Num MeshM SpecMesh MeshProofs ProgM BandM LUM SplineM InterpM.
From Verif Require Import SumR DenseLU SpecBand BandProofs LUProofs LUConv SpecSpline SplineProofs BetaProofs BasisProofs SpecInterp KnotProofs KnotShape SWProofs CoefProofs.
Import ListNotations.
Open Scope R_scope.

(** The stored factors of the n x n matrix [A]. *)
Definition lufac (sv : solver R) (n : nat) (A : mat) : Prop :=
  (exists per bw, sinv per n bw sv /\ (per = true -> 2 * bw <= n)%nat) /\ (0 < n)%nat /\
  forall i j, (i < n)%nat -> (j < n)%nat -> sabs sv i j = lu_iter A n i j.

(** Solving in place. *)
Definition solver_spec (on : bool) (n : nat) (A : mat) (sv : solver R) : Prop :=
  forall (iter : nat -> ProgM.loc) (m0 : mem R),
  (forall i j, (i < n)%nat -> (j < n)%nat -> iter i = iter j -> i = j) ->
  (forall i, (i < n)%nat -> mem_ok m0 (iter i)) ->
  exists m1 x, run (solver_solve Rops on sv iter) m0 = Ok (tt, m1) /\
    holds n iter m0 m1 x /\ forall i, (i < n)%nat -> mv n A x i = mval 0 m0 (iter i).

Lemma lufac_spec on sv n A : lufac sv n A -> pivots_ok A n -> solver_spec on n A sv.
Proof.
  intros ((per & bw & I & Hb) & Hn & HF) Hp iter m0 Hinj Hok.
  assert (D : forall j, (j < n)%nat -> sabs sv j j <> 0).
  { intros j Hj. rewrite HF by auto. apply pivots_diag; auto. }
  destruct sv as [b|e]; cbn [sinv sabs solver_solve] in *; destruct I as [-> Hw].
  - destruct (band_solve_ok on n bw bw b iter m0 (fun i => mval 0 m0 (iter i))) as (m1 & x & E & Hh & Hx); auto.
    exists m1, x. split; auto. split; auto. intros i Hi. rewrite <- Hx by auto. symmetry. apply mv_LU_ext; auto.
  - destruct (eband_solve_ok on n bw bw e iter m0 (fun i => mval 0 m0 (iter i))) as (m1 & x & E & Hh & Hx); auto.
    { specialize (Hb eq_refl). lia. }
    exists m1, x. split; auto. split; auto. intros i Hi. rewrite <- Hx by auto. symmetry. apply mv_LU_ext; auto.
Qed.

Lemma lufac_inv on sv n A iter m0 r : lufac sv n A -> run (solver_solve Rops on sv iter) m0 = Ok r -> pivots_ok A n.
Proof.
  intros ((per & bw & I & Hb) & Hn & HF) E. apply (diag_pivots A (sabs sv)); auto.
  destruct sv as [b|e]; cbn [sinv sabs solver_solve] in *; destruct I as [-> Hw].
  - eapply band_solve_inv; eauto.
  - eapply eband_solve_inv; eauto.
Qed.

Lemma lu_iter_eq A B n k : (forall i j, (i < n)%nat -> (j < n)%nat -> A i j = B i j) -> (k <= n)%nat ->
  forall i j, (i < n)%nat -> (j < n)%nat -> lu_iter A k i j = lu_iter B k i j.
Proof. intros H Hk i j Hi Hj. apply (lu_iter_ext A B n k H); auto. Qed.

Lemma factor_inv on per n bw m f A :
  sinv per n bw m -> (0 < n)%nat -> (per = true -> 2 * bw <= n)%nat ->
  (forall i j, (i < n)%nat -> (j < n)%nat -> sabs m i j = A i j) ->
  coef_factor Rops on m = Ok f -> lufac f n A.
Proof.
  intros I Hn Hb HA E. destruct m as [b|e]; cbn [sinv sabs coef_factor] in *; destruct I as [-> Hw];
    apply bind_Ok in E as (f' & E & E'); injection E' as <-.
  - destruct (band_lu_inv on n bw bw b f' Hw Hn E) as [W V]. split; [|split; auto].
    + exists false, bw. split; [split; auto|discriminate].
    + intros i j Hi Hj. cbn [sabs]. rewrite V by auto. apply (lu_iter_eq _ _ n); auto.
  - destruct (eband_lu_inv on n bw bw e f' Hw E) as [W V]. split; [|split; auto].
    + exists true, bw. split; [split; auto|auto].
    + intros i j Hi Hj. cbn [sabs]. rewrite V by auto. apply (lu_iter_eq _ _ n); auto.
Qed.

Lemma factor_ok on per n bw m A :
  sinv per n bw m -> (0 < n)%nat -> 
  (forall i j, (i < n)%nat -> (j < n)%nat -> sabs m i j = A i j) -> pivots_ok A n ->
  exists f, coef_factor Rops on m = Ok f.
Proof.
  intros I Hn HA Hp. destruct m as [b|e]; cbn [sinv sabs coef_factor] in *; destruct I as [-> Hw].
  - destruct (band_lu_ok on n bw bw b Hw Hn) as (f & E & _).
    { eapply pivots_ext; [|exact Hp]. intros; symmetry; auto. }
    rewrite E. cbn [bind]. eauto.
  - destruct (eband_lu_ok on n bw bw e Hw) as (f & E & _).
    { eapply pivots_ext; [|exact Hp]. intros; symmetry; auto. }
    rewrite E. cbn [bind]. eauto.
Qed.

(** ** Collocation matrices *)
Lemma Bmat_comb t p N k x c : (p <= k)%nat -> (k < N)%nat ->
  sum N (fun j => Bmat t p N k x j * c j) = comb t k p c x.
Proof.
  intros Hp Hk. unfold Bmat, comb.
  rewrite (sum_ext N _ (fun j => sum (p + 1) (fun a => if ((k - p + a) mod N =? j)%nat then piece t k p (k - p + a) x * c j else 0))).
  2:{ intros j Hj. rewrite <- sum_scal_r. apply sum_ext. intros a Ha. destruct (Nat.eqb _ _); ring. }
  rewrite sum_swap. apply sum_ext. intros a Ha.
  rewrite (sum_single N (k - p + a) (fun j => if ((k - p + a) mod N =? j)%nat then piece t k p (k - p + a) x * c j else 0)).
  - rewrite Nat.mod_small by lia. rewrite Nat.eqb_refl. ring.
  - lia.
  - intros j Hj Hne. rewrite Nat.mod_small by lia. destruct (Nat.eqb_spec (k - p + a) j); auto; lia.
Qed.

Section ApPivots.
Variables (p n : nat) (x : nat -> R) (A : mat).
Let t := ap_knot p n x.
Let K := map t (seq 0 (n + p + 1)).
Let TT := kn K.
Hypothesis Hx : increasing n x.
Hypothesis Hp : (p + 1 <= n)%nat.
Hypothesis Hn : (2 <= n)%nat.
Hypothesis HA : forall i, (i < n)%nat -> exists k, segment TT p (n - 1) (x i) k /\
  forall j, (j < n)%nat -> A i j = Bmat TT p n k (x i) j.

Lemma ap_pivots : pivots_ok A n.
Proof.
  apply leading_pivots. intros m c Hm Hz.
  set (c' := fun j => if (j <=? m)%nat then c j else 0).
  assert (Tm : forall i j, (i <= j < n + p + 1)%nat -> TT i <= TT j) by (intros; apply (ap_Tmono p n x); auto).
  assert (Ts : forall i, (p <= i <= n - 1)%nat -> TT i < TT (i + 1)%nat) by (intros; apply (ap_TTstrict p n x); auto; lia).
  assert (FZ : forall i, (i <= m)%nat -> F TT p (n - 1) p c' (x i) = 0).
  { intros i Hi. destruct (HA i ltac:(lia)) as (k & (S1 & S2 & S3 & S4) & HB).
    assert (X0 : TT p <= x i).
    { rewrite (ap_TT p n x) by lia. fold t. unfold t. rewrite ap_lo by lia. apply (x_le p n x Hx Hp Hn). lia. }
    assert (Xn : x i <= TT n).
    { rewrite (ap_TT p n x) by lia. unfold t. rewrite ap_hi by lia. apply (x_le p n x Hx Hp Hn). lia. }
    rewrite (F_val TT (n + p + 1) p (n - 1) Tm ltac:(lia) ltac:(lia) Ts p c' (x i) k); auto; try lia.
    - rewrite <- (Bmat_comb TT p n k (x i) c') by lia.
      rewrite <- (Hz i Hi). unfold mv.
      rewrite (sum_trunc (S m) n); [|lia|intros j Hj; unfold c'; destruct (Nat.leb_spec j m); [lia|ring]].
      apply sum_ext. intros j Hj. rewrite HB by lia. unfold c'. destruct (Nat.leb_spec j m); [ring|lia].
    - split; [destruct S3 as [->|]; auto|]. destruct S4 as [->|]; [|lra]. replace (n - 1 + 1)%nat with n by lia. auto.
    - tauto. }
  assert (C0 : c 0%nat = 0).
  { pose proof (Hz 0%nat ltac:(lia)) as Z0. destruct (HA 0%nat ltac:(lia)) as (k & Sk & HB).
    assert (k = p).
    { destruct (Nat.eq_dec k p); auto. destruct Sk as (S1 & _ & [S3|S3] & _); [lia|]. exfalso.
      assert (TT (p + 1)%nat <= TT k) by (apply Tm; lia). pose proof (Ts p ltac:(lia)).
      assert (TT p = x 0%nat) by (rewrite (ap_TT p n x) by lia; unfold t; apply ap_lo; lia). lra. }
    subst k. unfold mv in Z0. rewrite (sum_single (S m) 0 (fun j => A 0%nat j * c j)) in Z0.
    - rewrite HB in Z0 by lia. rewrite (Bmat_first p n x) in Z0 by (auto; lia). cbn [Nat.eqb] in Z0. lra.
    - lia.
    - intros j Hj Hne. rewrite HB by lia. rewrite (Bmat_first p n x) by (auto; lia). destruct (Nat.eqb_spec j 0); [lia|ring]. }
  assert (Cn : m = (n - 1)%nat -> c (n - 1)%nat = 0).
  { intros Em. pose proof (Hz (n - 1)%nat ltac:(lia)) as Z0. destruct (HA (n - 1)%nat ltac:(lia)) as (k & Sk & HB).
    assert (k = (n - 1)%nat).
    { destruct (Nat.eq_dec k (n - 1)); auto. destruct Sk as (S1 & _ & _ & [S3|S3]); [lia|]. exfalso.
      assert (TT (k + 1)%nat <= TT n) by (apply Tm; lia).
      assert (TT n = x (n - 1)%nat) by (rewrite (ap_TT p n x) by lia; unfold t; apply ap_hi; lia). lra. }
    subst k. unfold mv in Z0. rewrite (sum_single (S m) (n - 1) (fun j => A (n - 1)%nat j * c j)) in Z0.
    - rewrite HB in Z0 by lia. rewrite (Bmat_last p n x) in Z0 by (auto; lia). rewrite Nat.eqb_refl in Z0. lra.
    - lia.
    - intros j Hj Hne. rewrite HB by lia. rewrite (Bmat_last p n x) by (auto; lia). destruct (Nat.eqb_spec j (n - 1)); [lia|ring]. }
  assert (SW : forall j, (j <= n - 1)%nat -> c' j = 0).
  { apply (schoenberg_whitney TT (n + p + 1) p (n - 1) Tm ltac:(lia) ltac:(lia) Ts c' x 1 (Nat.min m (n - 2))).
    - left. apply (ap_clamped_left p n x); auto.
    - left. apply (ap_clamped_right p n x); auto.
    - lia.
    - intros j Hj Ho. unfold c'. destruct (Nat.leb_spec j m); auto.
      destruct (Nat.eq_dec j 0) as [->|]; auto. assert (j = n - 1 /\ m = n - 1)%nat as [-> Em] by lia. auto.
    - intros j Hj. rewrite !(ap_TT p n x) by lia. apply (ap_sw p n x Hx Hp Hn); lia.
    - intros j Hj. replace (n - 1 + 1)%nat with n by lia. rewrite !(ap_TT p n x) by lia. apply (x_range p n x Hx Hp Hn); lia.
    - intros i j Hi Hj. apply Hx. lia.
    - intros j Hj. apply FZ. lia. }
  intros i Hi. pose proof (SW i ltac:(lia)) as Q. unfold c' in Q. destruct (Nat.leb_spec i m); auto; lia.
Qed.
End ApPivots.
