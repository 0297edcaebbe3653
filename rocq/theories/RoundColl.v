(** The collocation matrices of grids of points in rounded arithmetic. *)
From Coq Require Import List Arith Lia Bool ZArith Reals Lra Psatz.
From Verif Require Import Base Num MeshM SpecMesh MeshProofs ProgM BandM LUM SplineM InterpM.
From Verif Require Import SpecBand SpecSpline SpecSplineObj SpecRound SumR BandProofs SplineProofs BetaProofs BasisProofs SpecInterp KnotProofs KnotShape SWProofs CoefProofs GenSolve.
From Verif Require Import RoundSpline RoundEval.
Import ListNotations.
Local Open Scope R_scope.

(** A row filled with [v] at the places of the basis functions of segment [k]
    differs from the row of exact values by as much as the values do. *)
Lemma place_near t p N k x (row v : nat -> R) s_num eps :
  (p + 1 <= N)%nat -> (s_num <= p + 1)%nat ->
  (forall a, (a < s_num)%nat -> row ((k - p + a) mod N)%nat = v a) ->
  (forall j, (forall a, (a < s_num)%nat -> j <> ((k - p + a) mod N)%nat) -> row j = 0) ->
  (forall a, (s_num <= a <= p)%nat -> piece t k p (k - p + a) x = 0) ->
  sum (p + 1) (fun a => Rabs (v a - piece t k p (k - p + a) x)) <= eps ->
  sum N (fun j => Rabs (row j - Bmat t p N k x j)) <= eps.
Proof.
  intros HN Hs H1 H2 Hz He.
  set (w := fun a => if (a <? s_num)%nat then v a else 0).
  set (c := fun a => ((k - p + a) mod N)%nat).
  set (pc := fun a => piece t k p (k - p + a) x).
  assert (Hrow : forall j, row j = sum (p + 1) (fun a => if (c a =? j)%nat then w a else 0)).
  { intros j.
    assert (D : (exists a, (a < s_num)%nat /\ j = c a) \/ (forall a, (a < s_num)%nat -> j <> c a)).
    { clear -s_num. induction s_num as [|s IH].
      - right. intros; lia.
      - destruct IH as [(a & Ha & E)|IH]; [left; exists a; split; auto|].
        destruct (Nat.eq_dec j (c s)); [left; exists s; split; auto|].
        right. intros a Ha. destruct (Nat.eq_dec a s); [subst; auto|apply IH; lia]. }
    destruct D as [(a & Ha & ->)|D].
    - unfold c at 1. rewrite H1 by auto. rewrite (sum_single _ a (fun a0 => if (c a0 =? c a)%nat then w a0 else 0)).
      + rewrite Nat.eqb_refl. unfold w. destruct (Nat.ltb_spec a s_num); [auto|lia].
      + lia.
      + intros b Hb Hne. destruct (Nat.eqb_spec (c b) (c a)) as [E|E]; auto. unfold c in E. apply mod_inj in E; lia.
    - rewrite H2 by auto. symmetry. apply sum_0. intros a Ha. destruct (Nat.eqb_spec (c a) j) as [E|E]; auto.
      unfold w. destruct (Nat.ltb_spec a s_num); auto. exfalso. apply (D a); auto. }
  apply Rle_trans with (sum N (fun j => sum (p + 1) (fun a => if (c a =? j)%nat then Rabs (w a - pc a) else 0))).
  - apply sum_le. intros j Hj. rewrite Hrow. unfold Bmat. rewrite <- sum_minus.
    eapply Rle_trans; [apply sum_Rabs|]. apply sum_le. intros a Ha. fold (c a). destruct (Nat.eqb_spec (c a) j); [unfold pc; lra|].
    rewrite Rminus_0_r, Rabs_R0. lra.
  - rewrite sum_swap. eapply Rle_trans; [|exact He]. apply sum_le. intros a Ha.
    rewrite (sum_single _ (c a) (fun j => if (c a =? j)%nat then Rabs (w a - pc a) else 0)).
    + rewrite Nat.eqb_refl. unfold w. destruct (Nat.ltb_spec a s_num); [unfold pc; lra|].
      unfold pc. rewrite Hz by lia. rewrite Rminus_0_r, Rabs_R0. apply Rabs_pos.
    + unfold c. apply Nat.mod_upper_bound. lia.
    + intros j Hj Hne. destruct (Nat.eqb_spec (c a) j); [congruence|auto].
Qed.

(** The first and last rows of clamped knots. *)
Section Clamped.
Variables (t : nat -> R) (p n : nat).
Hypothesis Hp : (p + 1 <= n)%nat.
Hypothesis Hmono : forall i j, (i <= j < n + p + 1)%nat -> t i <= t j.
Hypothesis Hstrict : forall i, (p <= i < n)%nat -> t i < t (i + 1)%nat.
Hypothesis Hlo : clamped_left t p.
Hypothesis Hhi : clamped_right t p (n - 1).

Lemma clamped_first j : (j < n)%nat -> Bmat t p n p (t p) j = if (j =? 0)%nat then 1 else 0.
Proof using All.
  intros Hj.
  assert (Z : forall a, (0 < a)%nat -> piece t p p a (t p) = 0).
  { intros a Ha. apply (piece_clamped_left t (n + p + 1) p (n - 1)); try lia. auto. }
  pose proof (piece_unity t (n + p + 1) p Hmono ltac:(lia) (Hstrict p ltac:(lia)) p (t p) ltac:(lia) ltac:(lia)) as U1.
  rewrite (sum_single _ 0 (fun j => piece t p p (p - p + j) (t p))) in U1; [|lia|intros; apply Z; lia].
  unfold Bmat. rewrite (sum_single _ 0 (fun a => if ((p - p + a) mod n =? j)%nat then piece t p p (p - p + a) (t p) else 0)); [|lia|].
  - rewrite U1. replace (p - p + 0)%nat with 0%nat by lia. rewrite Nat.mod_0_l by lia. rewrite Nat.eqb_sym. auto.
  - intros a Ha Hne. rewrite Z by lia. destruct (Nat.eqb _ _); auto.
Qed.
Lemma clamped_last j : (j < n)%nat -> Bmat t p n (n - 1) (t n) j = if (j =? n - 1)%nat then 1 else 0.
Proof using All.
  intros Hj. replace (t n) with (t (n - 1 + 1)%nat) by (f_equal; lia).
  assert (Z : forall a, (a < p)%nat -> piece t (n - 1) p (n - 1 - p + a) (t (n - 1 + 1)%nat) = 0).
  { intros a Ha. apply (piece_clamped_right t (n + p + 1) p (n - 1)); try lia. auto. }
  pose proof (piece_unity t (n + p + 1) (n - 1) Hmono ltac:(lia) (Hstrict (n - 1) ltac:(lia)) p (t (n - 1 + 1)%nat) ltac:(lia) ltac:(lia)) as U1.
  rewrite (sum_single _ p (fun j => piece t (n - 1) p (n - 1 - p + j) (t (n - 1 + 1)%nat))) in U1; [|lia|intros; apply Z; lia].
  unfold Bmat. rewrite (sum_single _ p (fun a => if ((n - 1 - p + a) mod n =? j)%nat then piece t (n - 1) p (n - 1 - p + a) (t (n - 1 + 1)%nat) else 0)); [|lia|].
  - rewrite U1. replace (n - 1 - p + p)%nat with (n - 1)%nat by lia. rewrite Nat.mod_small by lia. rewrite Nat.eqb_sym. auto.
  - intros a Ha Hne. rewrite Z by lia. destruct (Nat.eqb _ _); auto.
Qed.
End Clamped.

Lemma periodic_dom p n i a : (p + 1 <= n)%nat -> (i < n)%nat -> (a < p + (1 - p mod 2))%nat ->
  sdom true n (p / 2) ((i + p / 2) mod n) ((i + a) mod n).
Proof.
  intros Hp Hi Ha. pose proof (half_cases p) as HC. cbn [sdom]. unfold in_ext, in_band.
  assert (B : (2 * (p / 2) + 1 = p + (1 - p mod 2))%nat) by lia.
  assert (M : forall z, (z < 2 * n)%nat -> ((z mod n = z /\ z < n) \/ (z mod n = z - n /\ n <= z))%nat).
  { intros z Hz. destruct (Nat.lt_ge_cases z n).
    - left. rewrite Nat.mod_small by auto. auto.
    - right. split; auto. replace z with (z - n + 1 * n)%nat at 1 by lia. rewrite Nat.mod_add by lia. apply Nat.mod_small. lia. }
  destruct (M (i + p / 2)%nat ltac:(lia)), (M (i + a)%nat ltac:(lia)); lia.
Qed.

Section Coll.
Context {T : Type} (o : ops T) (val : T -> R) (good : T -> Prop) (u eta big : R).
Context (RD : rounding o val good u eta big).
Local Notation z := (o0 o).

(** The search without reduction. *)
Lemma search_val knots x order r rr hint last k :
  (forall a, In a knots -> good a) -> good x ->
  get_knot_iter_last Rops order false (map val knots) rr (val x) hint last = Ok (val x, k) ->
  get_knot_iter_last o order false knots r x hint last = Ok (x, k).
Proof using RD.
  intros Gk Gx. unfold get_knot_iter_last. cbn [wrap_coord bind].
  rewrite vget_map. destruct (vget knots hint) as [a| |] eqn:Ea; cbn [bind]; try discriminate.
  change (ole Rops) with Rleb. change (olt Rops) with Rltb. rewrite (ole_val o val good u eta big RD) by (auto; apply Gk; eapply vget_in; eauto).
  assert (Eh : (if Rleb (val a) (val x) then b <- vget (map val knots) (hint + 1) ;; Ok (Rltb (val x) b) else Ok false) =
               (if Rleb (val a) (val x) then b <- vget knots (hint + 1) ;; Ok (olt o x b) else Ok false)).
  { destruct (Rleb (val a) (val x)); auto. rewrite vget_map. destruct (vget knots (hint + 1)) as [b| |] eqn:Eb; cbn [bind]; auto.
    rewrite (olt_val o val good u eta big RD) by (auto; apply Gk; eapply vget_in; eauto). reflexivity. }
  rewrite Eh. match goal with |- (hit <- ?c ;; _) = _ -> _ => destruct c as [[|]| |]; cbn [bind]; try discriminate end.
  - intros H. injection H as <-. auto.
  - destruct (last <? order)%nat; [discriminate|]. rewrite (upper_bound_val o val good u eta big RD) by auto. destruct (upper_bound o knots x (last - order) (order + 1) (last - order)) as [w| |]; cbn [bind]; try discriminate.
    destruct (usub w 1) as [k'| |]; cbn [bind]; try discriminate. intros H. injection H as <-. auto.
Qed.

Section Dim.
Variables (on : bool) (s : spline T) (d p n : nat) (dx : T) (knots coords : list T) (rg : T * T) (g : R).
Let t := kn (map val knots).
Let x := fun i => val (nth i coords z).
Hypothesis Ep : sp_order s = p.
Hypothesis E2 : vget (sp_knots s) d = Ok knots.
Hypothesis E3 : vget (sp_range s) d = Ok rg.
Hypothesis Hp : (p + 1 <= n)%nat.
Hypothesis Gk : forall a, In a knots -> good a.
Hypothesis Gc : forall a, In a coords -> good a.
Hypothesis Hnd : nondecreasing (map val knots).
Hypothesis Hwide : forall a b, In a knots -> In b knots -> val b - val a <= big / 4.
Hypothesis Hg0 : 0 < g.
Hypothesis Heta : eta <= g.
Hypothesis Hgrow : basis_growth u eta g p <= 2.
Let beta := basis_growth u eta g p.

Lemma coll_val0 : val z = 0.
Proof using RD. apply (rd_0 _ _ _ _ _ _ RD). Qed.

Lemma coll_vals k y : (p <= k)%nat -> (k + p + 1 < length knots)%nat -> g <= t (k + 1)%nat - t k -> good y -> t k <= val y <= t (k + 1)%nat ->
  exists b, base_spline_value o p knots k y p = Ok b /\ length b = (p + 1)%nat /\
    sum (p + 1) (fun a => Rabs (val (nth a b z) - piece t k p (k - p + a) (val y))) <= beta - 1.
Proof using All.
  intros Hk Hl Hg Gy Hy.
  destruct (basis_round o val good u eta big RD p knots k y g) as (b & Eb & Hb1 & Hb2 & Hb3); auto.
  - intros i Hi. apply Gk, nth_In. auto.
  - unfold kn. rewrite <- coll_val0, !map_nth. apply Hwide; apply nth_In; lia.
  - exists b. split; auto. split; auto.
    erewrite sum_ext; [apply Hb3|]. intros a Ha. cbv beta. replace (p - p + a)%nat with a by lia. reflexivity.
Qed.
Lemma beta_pos : 0 <= beta - 1.
Proof using All.
  unfold beta, basis_growth. destruct RD as [[u0 u1] e0 _ _ _ _ _ _ _ _ _].
  pose proof (pow_R1_Rle (1 + 7 * u) p ltac:(lra)) as A.
  assert (B : 1 <= 1 + INR p * (INR (p + 1) * (2 * (1 + u) * (eta * (17 / 15) / g + eta)))).
  { assert (0 <= INR p * (INR (p + 1) * (2 * (1 + u) * (eta * (17 / 15) / g + eta)))); [|lra].
    apply Rmult_le_pos; [apply pos_INR|]. apply Rmult_le_pos; [apply pos_INR|]. apply Rmult_le_pos; [lra|].
    assert (0 <= eta * (17 / 15) / g); [|lra]. apply Rmult_le_pos; [lra|]. left. apply Rinv_0_lt_compat. auto. }
  assert (1 * 1 <= (1 + 7 * u) ^ p * (1 + INR p * (INR (p + 1) * (2 * (1 + u) * (eta * (17 / 15) / g + eta))))); [|lra].
  apply Rmult_le_compat; lra.
Qed.

(** Row [r] of the matrix is close to the exact row of a segment. *)
Definition near_row (sv : solver T) (r : nat) (last : nat) (y : R) : Prop :=
  exists k, segment t p last y k /\ t k <= y <= t (k + 1)%nat /\
    sum n (fun j => Rabs (val (gsabs o sv r j) - Bmat t p n k y j)) <= beta - 1.

Lemma near_row_ext sv sv' r last y : (forall j, gsabs o sv' r j = gsabs o sv r j) -> near_row sv r last y -> near_row sv' r last y.
Proof using Type. intros H (k & S & I & B). exists k. split; auto. split; auto. rewrite (sum_ext n _ (fun j => Rabs (val (gsabs o sv r j) - Bmat t p n k y j))); auto. intros j _. rewrite H. auto. Qed.

(** ** Aperiodic *)
Section Ap.
Hypothesis E1 : vget (sp_per s) d = Ok false.
Hypothesis P1 : (1 <= p)%nat.
Hypothesis Lk : length knots = (n + p + 1)%nat.
Hypothesis Lc : length coords = n.
Hypothesis Hlo : forall i, (i <= p)%nat -> t i = x 0%nat.
Hypothesis Hhi : forall i, (n <= i <= n + p)%nat -> t i = x (n - 1)%nat.
Hypothesis Hgap : forall i, (p <= i < n)%nat -> g <= t (i + 1)%nat - t i.
Hypothesis Hin : forall i, (1 <= i)%nat -> (i + 1 < n)%nat -> x 0%nat <= x i < x (n - 1)%nat.
Hypothesis Hone : p = 1%nat -> forall i, (1 <= i)%nat -> (i + 1 < n)%nat -> x i = t (i + 1)%nat.
Hypothesis Hmargin : (2 <= p)%nat -> forall i, (1 <= i)%nat -> (i + 1 < n)%nat -> t (i + 1)%nat <= x i < t (i + p)%nat.

Lemma ap_mono i j : (i <= j < n + p + 1)%nat -> t i <= t j.
Proof using Hnd Lk. intros H. apply Hnd. rewrite map_length, Lk. auto. Qed.
Lemma ap_str i : (p <= i < n)%nat -> t i < t (i + 1)%nat.
Proof using Hgap Hg0. intros H. specialize (Hgap i H). lra. Qed.

Lemma ap_search i : (1 <= i)%nat -> (i + 1 < n)%nat ->
  exists k, get_knot_iter_last o p false knots rg (nth i coords z) (i + 1) (Nat.min n (i + p)) = Ok (nth i coords z, k) /\
    segment t p (n - 1) (x i) k /\ t k <= x i < t (k + 1)%nat /\ (i + 1 <= k)%nat /\ (2 <= p -> k < i + p)%nat /\ (p = 1 -> k = i + 1)%nat.
Proof using All.
  intros H1 H2.
  assert (LK : length (map val knots) = (n + p + 1)%nat) by (rewrite map_length; auto).
  destruct (search_R p (map val knots) (0, 0) (x i) (i + 1) (Nat.min n (i + p))) as (k & E & S).
  - auto.
  - lia.
  - lia.
  - lia.
  - destruct (Nat.le_gt_cases p (i + 1)); [left; lia|right]. fold t. rewrite !Hlo by lia. auto.
  - exists k. split.
    { eapply search_val; [auto| |exact E]. apply Gc, nth_In. lia. }
    destruct S as (S1 & S2 & S3). cbn [ole olt Rops] in S2, S3. rewrite Rleb_true in S2. rewrite Rltb_true in S3.
    fold (kn (map val knots) k) in S2. fold (kn (map val knots) (k + 1)) in S3. fold t in S2, S3.
    destruct (Hin i H1 H2) as [I1 I2].
    assert (Tp : t p <= x i) by (rewrite Hlo by lia; auto).
    assert (S2' : t k <= x i) by (destruct S2 as [->|]; auto).
    destruct (Nat.eq_dec p 1) as [P1'|P1'].
    + assert (Ti : t (i + 1)%nat = x i) by (symmetry; apply Hone; auto).
      assert (k = (i + 1)%nat).
      { destruct (Nat.lt_trichotomy k (i + 1)) as [L|[L|L]]; auto; [|lia].
        destruct S3 as [S3|S3]; [lia|]. assert (t (k + 1)%nat <= t (i + 1)%nat) by (apply ap_mono; lia). lra. }
      subst k. pose proof (ap_str (i + 1) ltac:(lia)). split; [|split; [lra|lia]]. split; [lia|]. split; [lra|]. split; right; lra.
    + destruct (Hmargin ltac:(lia) i H1 H2) as [M1 M2].
      assert (Tn : x i < t n) by (rewrite Hhi by lia; auto).
      assert (Lk' : (k < Nat.min n (i + p))%nat).
      { destruct (Nat.le_gt_cases (Nat.min n (i + p)) k) as [L|L]; auto. exfalso.
        destruct (Nat.le_gt_cases n (i + p)).
        - assert (t n <= t k) by (apply ap_mono; lia). lra.
        - assert (t (i + p)%nat <= t k) by (apply ap_mono; lia). lra. }
      assert (S3' : x i < t (k + 1)%nat) by (destruct S3 as [->|]; auto; lia).
      split; [split; [lia|split; [apply ap_str; lia|split; right; auto]]|].
      split; [lra|].
      assert (i + 1 <= k)%nat; [|lia].
      destruct (Nat.le_gt_cases (i + 1) k); auto. exfalso.
      assert (t (k + 1)%nat <= t (i + 1)%nat) by (apply ap_mono; lia). lra.
Qed.

Definition ainv (i : nat) (st : solver T * list T) : Prop :=
  gsinv false n (bw_of p false) (fst st) /\
  (forall r, (r < i)%nat -> near_row (fst st) r (n - 1) (x r)) /\
  (forall r j, (i <= r < n)%nat -> gsabs o (fst st) r j = z).

Lemma ap_inner_row i st : (1 <= i)%nat -> (i + 1 < n)%nat -> ainv i st ->
  exists st', coef_row o on s d false dx coords n i st = Ok st' /\ ainv (i + 1) st'.
Proof using All.
  intros H1 H2 (I & G & Z). destruct st as [sv vals]. cbn [fst snd] in *. unfold coef_row.
  rewrite Ep, E1. cbn [bind]. rewrite E2. cbn [bind]. rewrite E3. cbn [bind]. rewrite usub_ok by lia. cbn [bind].
  destruct (Nat.eqb_spec i 0); [lia|]. destruct (Nat.eqb_spec i (n - 1)); [lia|]. cbn [negb andb orb].
  pose proof (half_cases p) as HC.
  set (int := ((p / 2 <? i) && (i <? n - p / 2 - 1))%nat).
  replace (if (p / 2 <? i)%nat then a <- usub n (p / 2) ;; a0 <- usub a 1 ;; Ok (i <? a0)%nat else Ok false) with (Ok int).
  2:{ unfold int. destruct (p / 2 <? i)%nat; auto. rewrite usub_ok by lia. cbn [bind]. rewrite usub_ok by lia. auto. }
  cbn [bind]. rewrite (vget_ok coords i z) by lia. cbn [bind].
  rewrite Lc. rewrite usub_ok by lia. cbn [bind]. destruct (Nat.eqb_spec i (n - 1)); [lia|].
  rewrite Lk.
  rewrite (usub_ok (n + p + 1) p) by lia. cbn [bind]. rewrite usub_ok by lia. cbn [bind].
  replace (n + p + 1 - p - 1)%nat with n by lia.
  destruct (ap_search i H1 H2) as (k & Ek & S & Hk & K1 & K2 & K3). rewrite Ek. cbn [bind snd].
  assert (Kr : (p <= k <= n - 1)%nat) by apply S.
  destruct (coll_vals k (nth i coords z)) as (b & Eb & Lb & Vb); try lia.
  { apply Hgap. lia. } { apply Gc, nth_In. lia. } { fold (x i). lra. }
  rewrite Eb. cbn [bind andb]. fold (x i) in Vb.
  set (s_num := if (p =? 1)%nat then 1%nat else (p + 1)%nat).
  assert (Sn : (s_num <= p + 1)%nat) by (unfold s_num; destruct (p =? 1)%nat; lia).
  destruct (gfill_row o on false n (bw_of p false) sv i (k - p) b s_num
    (fun m j => row <- umod (i + 0) n ;; c <- usub k p ;; col <- umod (c + j) n ;; v <- vget b j ;; coef_set on m row col v))
    as (sv' & E & I' & A & B & C); auto.
  - lia.
  - lia.
  - intros a Ha. cbn [sdom]. rewrite Nat.mod_small by lia. unfold in_band, bw_of. unfold s_num in Ha.
    destruct (Nat.eqb_spec p 0); [lia|]. destruct (Nat.eqb_spec p 1); lia.
  - intros m j Hj. rewrite (umod_ok (i + 0)) by lia. cbn [bind]. rewrite usub_ok by lia. cbn [bind].
    rewrite umod_ok by lia. cbn [bind]. rewrite (vget_ok _ _ z) by lia. cbn [bind].
    rewrite (Nat.mod_small (i + 0)) by lia. rewrite Nat.add_0_r. reflexivity.
  - rewrite E. cbn [bind]. eexists. split; [reflexivity|]. unfold ainv. cbn [fst snd]. split; auto. split.
    + intros r Hr. destruct (Nat.eq_dec r i) as [->|Ne].
      * exists k. split; auto. split; [lra|].
        apply (place_near t p n k (x i) (fun j => val (gsabs o sv' i j)) (fun a => val (nth a b z)) s_num); auto; try lia.
        { intros a Ha. rewrite B by auto. reflexivity. }
        { intros j Hj. rewrite C by auto. rewrite Z by lia. apply coll_val0. }
        { intros a Ha. unfold s_num in Ha. destruct (Nat.eqb_spec p 1) as [Q|Q]; [|lia].
          replace a with p by lia. replace (k - p + p)%nat with k by lia. rewrite (Hone Q i H1 H2). rewrite (K3 Q). apply piece_left_end. auto. }
      * apply (near_row_ext sv); [intros; apply A; auto|apply G; lia].
    + intros r j Hr. rewrite A by lia. apply Z. lia.
Qed.

Lemma ap_end_row i st : (i = 0 \/ i + 1 = n)%nat -> ainv i st ->
  exists st', coef_row o on s d false dx coords n i st = Ok st' /\ ainv (i + 1) st'.
Proof using All.
  intros H (I & G & Z). destruct st as [sv vals]. cbn [fst snd] in *. unfold coef_row.
  rewrite Ep, E1. cbn [bind]. rewrite E2. cbn [bind]. rewrite E3. cbn [bind]. rewrite usub_ok by lia. cbn [bind negb].
  replace ((i =? 0) || (i =? n - 1))%nat with true by (destruct (Nat.eqb_spec i 0), (Nat.eqb_spec i (n - 1)); cbn [orb]; auto; lia).
  cbn [andb].
  destruct (gcoef_set_ok o on false n (bw_of p false) sv i i (o1 o) I) as (sv' & E & I' & A).
  { cbn [sdom]. unfold in_band. lia. }
  rewrite E. cbn [bind]. eexists. split; [reflexivity|]. unfold ainv. cbn [fst snd]. split; auto.
  assert (CL : clamped_left t p) by (intros j Hj; rewrite !Hlo by lia; auto).
  assert (CR : clamped_right t p (n - 1)) by (intros j Hj; rewrite !Hhi by lia; auto).
  assert (V1 : val (o1 o) = 1) by apply (rd_1 _ _ _ _ _ _ RD).
  split.
  - intros r Hr. destruct (Nat.eq_dec r i) as [->|Ne].
    + destruct H as [->|H].
      * exists p. pose proof (ap_str p ltac:(lia)) as Q. assert (X0 : x 0%nat = t p) by (rewrite Hlo by lia; auto). rewrite X0. split.
        { split; [lia|]. split; auto. }
        split; [lra|]. rewrite sum_0; [apply beta_pos|].
        intros j Hj. rewrite clamped_first by (auto; try lia; intros; first [apply ap_mono | apply ap_str]; lia). rewrite A. cbn [Nat.eqb andb].
        destruct (Nat.eqb_spec j 0) as [->|Nj]; [rewrite V1|rewrite Z, coll_val0 by lia]; rewrite Rminus_eq_0, Rabs_R0; auto.
      * exists (n - 1)%nat. replace i with (n - 1)%nat in * by lia.
        pose proof (ap_str (n - 1) ltac:(lia)) as Q. replace (n - 1 + 1)%nat with n in * by lia.
        assert (X0 : x (n - 1)%nat = t n) by (rewrite Hhi by lia; auto). rewrite X0. split.
        { split; [lia|]. replace (n - 1 + 1)%nat with n by lia. split; auto. split; [right; lra|auto]. }
        split; [lra|]. rewrite sum_0; [apply beta_pos|].
        intros j Hj. rewrite clamped_last by (auto; try lia; intros; first [apply ap_mono | apply ap_str]; lia). rewrite A. rewrite Nat.eqb_refl. cbn [andb].
        destruct (Nat.eqb_spec j (n - 1)) as [->|Nj]; [rewrite V1|rewrite Z, coll_val0 by lia]; rewrite Rminus_eq_0, Rabs_R0; auto.
    + apply (near_row_ext sv); [|apply G; lia]. intros j. rewrite A. destruct (Nat.eqb_spec r i); [contradiction|]. auto.
  - intros r j Hr. rewrite A. destruct (Nat.eqb_spec r i); [lia|]. apply Z. lia.
Qed.

Lemma ap_coll sv cache : gsinv false n (bw_of p false) sv -> (forall i j, gsabs o sv i j = z) ->
  exists st, for_ 0 n (sv, cache) (fun st i => coef_row o on s d false dx coords n i st) = Ok st /\
  gsinv false n (bw_of p false) (fst st) /\ forall i, (i < n)%nat -> near_row (fst st) i (n - 1) (x i).
Proof using All.
  intros I Z.
  destruct (for_inv ainv 0 n (sv, cache) (fun st i => coef_row o on s d false dx coords n i st)) as (st & E & (I' & G & _)).
  - lia.
  - split; auto. split; [intros; lia|]. intros; apply Z.
  - intros i st Hi HI. replace (S i) with (i + 1)%nat by lia.
    destruct (Nat.eq_dec i 0); [apply ap_end_row; auto|]. destruct (Nat.eq_dec (i + 1) n); [apply ap_end_row; auto|].
    apply ap_inner_row; auto; lia.
  - exists st. auto.
Qed.
End Ap.

(** ** Periodic *)
Section Per.
Let bw := (p / 2)%nat.
Hypothesis E1 : vget (sp_per s) d = Ok true.
Hypothesis Lk : length knots = (n + 2 * p + 1 + (1 - p mod 2))%nat.
Hypothesis Lc : length coords = (n + 1)%nat.
Hypothesis Hgap : forall i, (p <= i < n + p)%nat -> g <= t (i + 1)%nat - t i.
Hypothesis Hrow : forall i, (i < n)%nat -> t (i + p)%nat <= x i < t (i + p + 1)%nat.
Hypothesis Hodd : (p mod 2 = 1)%nat -> forall i, (i < n)%nat -> x i = t (i + p)%nat.

Definition pinv (i : nat) (st : solver T * list T) : Prop :=
  gsinv true n bw (fst st) /\
  (forall r, (r < i)%nat -> near_row (fst st) ((r + bw) mod n) (n + p - 1 + (1 - p mod 2)) (x r)) /\
  (forall r j, (i <= r < n)%nat -> gsabs o (fst st) ((r + bw) mod n) j = z).

Lemma per_row_near i st : (i < n)%nat -> pinv i st ->
  exists st', coef_row o on s d false dx coords n i st = Ok st' /\ pinv (i + 1) st'.
Proof using All.
  intros Hi (I & G & Z). destruct st as [sv vals]. cbn [fst snd] in *. unfold coef_row.
  rewrite Ep, E1. cbn [bind]. rewrite E2. cbn [bind]. rewrite E3. cbn [bind]. rewrite usub_ok by lia. cbn [bind negb andb].
  pose proof (half_cases p) as HC.
  set (int := ((p / 2 <? i) && (i <? n - p / 2 - 1))%nat).
  replace (if (p / 2 <? i)%nat then a <- usub n (p / 2) ;; a0 <- usub a 1 ;; Ok (i <? a0)%nat else Ok false) with (Ok int).
  2:{ unfold int. destruct (p / 2 <? i)%nat; auto. rewrite usub_ok by lia. cbn [bind]. rewrite usub_ok by lia. auto. }
  cbn [bind]. rewrite (vget_ok coords i z) by lia. cbn [bind].
  destruct (Hrow i Hi) as [R1 R2].
  destruct (coll_vals (i + p) (nth i coords z)) as (b & Eb & Lb & Vb); try lia.
  { apply Hgap. lia. } { apply Gc, nth_In. lia. } { fold (x i). lra. }
  rewrite Eb. cbn [bind]. fold (x i) in Vb.
  set (s_num := (p + (1 - p mod 2))%nat).
  destruct (gfill_row o on true n bw sv ((i + bw) mod n) i b s_num
    (fun m j => row <- umod (i + p / 2) n ;; c <- usub (i + p) p ;; col <- umod (c + j) n ;; v <- vget b j ;; coef_set on m row col v))
    as (sv' & E & I' & A & B & C); auto.
  - unfold s_num. lia.
  - unfold s_num. lia.
  - intros a Ha. apply periodic_dom; auto.
  - intros m j Hj. rewrite umod_ok by lia. cbn [bind]. rewrite usub_ok by lia. cbn [bind].
    rewrite umod_ok by lia. cbn [bind]. rewrite (vget_ok _ _ z) by (unfold s_num in Hj; lia). cbn [bind].
    replace (i + p - p + j)%nat with (i + j)%nat by lia. reflexivity.
  - rewrite E. cbn [bind]. eexists. split; [reflexivity|]. unfold pinv. cbn [fst snd].
    assert (Ne : forall r, (r < n)%nat -> r <> i -> ((r + bw) mod n <> (i + bw) mod n)%nat).
    { intros r Hr Hne Em. rewrite (Nat.add_comm r), (Nat.add_comm i) in Em. apply mod_inj in Em; auto. }
    split; auto. split.
    + intros r Hr. destruct (Nat.eq_dec r i) as [->|Hne].
      * exists (i + p)%nat. split; [|split; [lra|]].
        { split; [lia|]. split; [lra|]. split; right; lra. }
        apply (place_near t p n (i + p) (x i) (fun j => val (gsabs o sv' ((i + bw) mod n) j)) (fun a => val (nth a b z)) s_num); auto; try (unfold s_num; lia).
        { intros a Ha. replace (i + p - p + a)%nat with (i + a)%nat by lia. rewrite B by auto. reflexivity. }
        { intros j Hj. rewrite C.
          - rewrite Z by lia. apply coll_val0.
          - intros a Ha. specialize (Hj a Ha). replace (i + p - p + a)%nat with (i + a)%nat in Hj by lia. auto. }
        { intros a Ha. unfold s_num in Ha.
          assert (a = p /\ (p mod 2 = 1)%nat /\ (1 <= p)%nat) as (-> & Ho & P1) by lia.
          replace (i + p - p + p)%nat with (i + p)%nat by lia. rewrite (Hodd Ho i Hi). apply piece_left_end; auto. }
      * apply (near_row_ext sv); [intros; apply A; apply Ne; lia|apply G; lia].
    + intros r j Hr. rewrite A by (apply Ne; lia). apply Z. lia.
Qed.

Lemma per_coll sv cache : gsinv true n bw sv -> (forall i j, gsabs o sv i j = z) ->
  exists st, for_ 0 n (sv, cache) (fun st i => coef_row o on s d false dx coords n i st) = Ok st /\
  gsinv true n bw (fst st) /\ forall i, (i < n)%nat -> near_row (fst st) ((i + bw) mod n) (n + p - 1 + (1 - p mod 2)) (x i).
Proof using All.
  intros I Z.
  destruct (for_inv pinv 0 n (sv, cache) (fun st i => coef_row o on s d false dx coords n i st)) as (st & E & (I' & G & _)).
  - lia.
  - split; auto. split; [intros; lia|]. intros; apply Z.
  - intros i st Hi HI. replace (S i) with (i + 1)%nat by lia. apply per_row_near; auto. lia.
  - exists st. auto.
Qed.
End Per.
End Dim.
End Coll.
