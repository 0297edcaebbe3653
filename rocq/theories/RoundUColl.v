(** The collocation matrices of uniform ranges in rounded arithmetic. *)
From Coq Require Import List Arith Lia Bool ZArith Reals Lra Psatz.
From Verif Require Import Base Num MeshM SpecMesh MeshProofs ProgM BandM LUM SplineM InterpM.
From Verif Require Import SpecBand SpecSpline SpecSplineObj SpecRound SumR BandProofs SplineProofs BetaProofs BasisProofs SpecInterp KnotProofs KnotShape SWProofs CoefProofs GenSolve.
From Verif Require Import RoundSpline RoundEval RoundColl PiecePerturb.
Import ListNotations.
Local Open Scope R_scope.

(** A row filled with [v] against a row of values [q]. *)
Lemma place_row p n c (row v q : nat -> R) s_num eps :
  (p + 1 <= n)%nat -> (s_num <= p + 1)%nat ->
  (forall a, (a < s_num)%nat -> row ((c + a) mod n)%nat = v a) ->
  (forall j, (forall a, (a < s_num)%nat -> j <> ((c + a) mod n)%nat) -> row j = 0) ->
  (forall a, (s_num <= a <= p)%nat -> q a = 0) ->
  sum (p + 1) (fun a => Rabs (v a - q a)) <= eps ->
  sum n (fun j => Rabs (row j - placed p n c q j)) <= eps.
Proof.
  intros HN Hs H1 H2 Hz He.
  set (w := fun a => if (a <? s_num)%nat then v a else 0).
  assert (Hrow : forall j, row j = placed p n c w j).
  { intros j. unfold placed.
    assert (D : (exists a, (a < s_num)%nat /\ j = ((c + a) mod n)%nat) \/ (forall a, (a < s_num)%nat -> j <> ((c + a) mod n)%nat)).
    { clear -s_num. induction s_num as [|s IH].
      - right. intros; lia.
      - destruct IH as [(a & Ha & E)|IH]; [left; exists a; split; auto|].
        destruct (Nat.eq_dec j ((c + s) mod n)%nat); [left; exists s; split; auto|].
        right. intros a Ha. destruct (Nat.eq_dec a s); [subst; auto|apply IH; lia]. }
    destruct D as [(a & Ha & ->)|D].
    - rewrite H1 by auto. rewrite (sum_single _ a (fun a0 => if ((c + a0) mod n =? (c + a) mod n)%nat then w a0 else 0)).
      + rewrite Nat.eqb_refl. unfold w. destruct (Nat.ltb_spec a s_num); [auto|lia].
      + lia.
      + intros b Hb Hne. destruct (Nat.eqb_spec ((c + b) mod n) ((c + a) mod n)) as [E|E]; auto. apply mod_inj in E; lia.
    - rewrite H2 by auto. symmetry. apply sum_0. intros a Ha. destruct (Nat.eqb_spec ((c + a) mod n) j) as [E|E]; auto.
      unfold w. destruct (Nat.ltb_spec a s_num); auto. exfalso. apply (D a); auto. }
  rewrite (sum_ext n _ (fun j => Rabs (placed p n c w j - placed p n c q j))) by (intros j _; rewrite Hrow; auto).
  eapply Rle_trans; [apply placed_near; lia|]. eapply Rle_trans; [|exact He]. apply sum_le. intros a Ha.
  unfold w. destruct (Nat.ltb_spec a s_num); [lra|]. rewrite Hz by lia. rewrite Rminus_0_r, Rabs_R0. apply Rabs_pos.
Qed.

(** The segment that the constructor assigns to row [i] of a uniform aperiodic
    dimension. *)
Definition useg (p n i : nat) : nat := Nat.min (n - 1) (if (p / 2 <? i)%nat then i + (p + 1) / 2 else p).
(** The last row whose values are computed before they are reused. *)
Definition ubase (p : nat) : nat := (2 * p + 1 - (p + 1) / 2)%nat.

Section UColl.
Context {T : Type} (o : ops T) (val : T -> R) (good : T -> Prop) (u eta big : R).
Context (RD : rounding o val good u eta big).
Local Notation z := (o0 o).

Section Dim.
Variables (on : bool) (s : spline T) (d p n : nat) (dx : T) (knots coords : list T) (rg : T * T) (g : R).
Let t := kn (map val knots).
Hypothesis Ep : sp_order s = p.
Hypothesis E2 : vget (sp_knots s) d = Ok knots.
Hypothesis E3 : vget (sp_range s) d = Ok rg.
Hypothesis Hp : (p + 1 <= n)%nat.
Hypothesis Gk : forall a, In a knots -> good a.
Hypothesis Hnd : nondecreasing (map val knots).
Hypothesis Hwide : forall a b, In a knots -> In b knots -> val b - val a <= big / 4.
Hypothesis Hg0 : 0 < g.
Hypothesis Heta : eta <= g.
Hypothesis Hgrow : basis_growth u eta g p <= 2.
Let beta := basis_growth u eta g p.

Definition upc (k0 : nat) (x0 : R) (a : nat) : R := piece t k0 p (k0 - p + a) x0.

(** Row [r] holds, from place [c] on, the values of segment [k0] at [x0] up to
    rounding. *)
Definition row_from (sv : solver T) (r c k0 : nat) (x0 : R) : Prop :=
  sum n (fun j => Rabs (val (gsabs o sv r j) - placed p n c (upc k0 x0) j)) <= beta - 1.
Definition vals_from (vals : list T) (k0 : nat) (x0 : R) : Prop :=
  length vals = (p + 1)%nat /\ sum (p + 1) (fun a => Rabs (val (nth a vals z) - upc k0 x0 a)) <= beta - 1.

Lemma row_from_ext sv sv' r c k0 x0 : (forall j, gsabs o sv' r j = gsabs o sv r j) -> row_from sv r c k0 x0 -> row_from sv' r c k0 x0.
Proof using Type. unfold row_from. intros H B. rewrite (sum_ext n _ (fun j => Rabs (val (gsabs o sv r j) - placed p n c (upc k0 x0) j))); auto. intros j _. rewrite H. auto. Qed.

Lemma vals_computed k y : (p <= k)%nat -> (k + p + 1 < length knots)%nat -> g <= t (k + 1)%nat - t k -> good y -> t k <= val y <= t (k + 1)%nat ->
  exists b, base_spline_value o p knots k y p = Ok b /\ vals_from b k (val y).
Proof using All.
  intros Hk Hl Hg Gy Hy.
  assert (V0 : val z = 0) by apply (rd_0 _ _ _ _ _ _ RD).
  destruct (basis_round o val good u eta big RD p knots k y g) as (b & Eb & Hb1 & Hb2 & Hb3); auto.
  - intros i Hi. apply Gk, nth_In. auto.
  - unfold kn. rewrite <- V0, !map_nth. apply Hwide; apply nth_In; lia.
  - exists b. split; auto. split; auto.
    erewrite sum_ext; [apply Hb3|]. intros a Ha. cbv beta. replace (p - p + a)%nat with a by lia. reflexivity.
Qed.

(** ** Aperiodic *)
Section Ap.
Local Notation uk := (useg p n).
Let xf := fun i => oadd o (fst rg) (omul o (onat o i) dx).
Hypothesis E1 : vget (sp_per s) d = Ok false.
Hypothesis Lk : length knots = (n + p + 1)%nat.
Hypothesis Hgap : forall i, (p <= i < n)%nat -> g <= t (i + 1)%nat - t i.
Hypothesis Gx : forall i, (1 <= i)%nat -> (i + 1 < n)%nat -> good (xf i).
Hypothesis Hseg : forall i, (1 <= i)%nat -> (i + 1 < n)%nat -> t (uk i) <= val (xf i) <= t (uk i + 1)%nat.
Hypothesis Hint : (p mod 2 = 1)%nat -> forall i, (p / 2 < i)%nat -> (i < n - p / 2 - 1)%nat -> val (xf i) = t (uk i).

(** Where the values of row [i] come from. *)
Definition source (i k0 : nat) (x0 : R) : Prop :=
  (k0 = uk i /\ x0 = val (xf i)) \/ (k0 = (2 * p + 1)%nat /\ x0 = val (xf (ubase p)) /\ (2 * p + 1 < uk i)%nat /\ (uk i < n - p - 1)%nat).

Definition uinv (i : nat) (st : solver T * list T) : Prop :=
  gsinv false n (bw_of p false) (fst st) /\
  (forall r, (r < i)%nat -> (1 <= r)%nat -> (r + 1 < n)%nat -> exists k0 x0, source r k0 x0 /\ row_from (fst st) r (uk r - p) k0 x0) /\
  (forall r, (r < i)%nat -> (r = 0 \/ r + 1 = n)%nat -> forall j, (j < n)%nat -> gsabs o (fst st) r j = if (j =? r)%nat then o1 o else z) /\
  (forall r j, (i <= r < n)%nat -> gsabs o (fst st) r j = z) /\
  ((2 <= i)%nat -> (2 * p + 1 <= uk (i - 1))%nat -> (uk (i - 1) < n - p - 1)%nat -> vals_from (snd st) (2 * p + 1) (val (xf (ubase p)))).

Lemma uk_range i : (1 <= i)%nat -> (i + 1 < n)%nat -> (p <= uk i <= n - 1)%nat /\ ((2 <= p)%nat -> (i + 1 <= uk i <= i + p - 1)%nat) /\ (p = 1%nat -> uk i = (i + 1)%nat) /\ (p = 0%nat -> uk i = i).
Proof using All. intros H1 H2. unfold useg. pose proof (half_cases p) as HC. destruct (Nat.ltb_spec (p / 2) i); lia. Qed.

Lemma u_inner_row i st : (1 <= i)%nat -> (i + 1 < n)%nat -> uinv i st ->
  exists st', coef_row o on s d true dx coords n i st = Ok st' /\ uinv (i + 1) st'.
Proof using All.
  intros H1 H2 (I & G & Ge & Z & V). destruct st as [sv vals]. cbn [fst snd] in *. unfold coef_row.
  rewrite Ep, E1. cbn [bind]. rewrite E2. cbn [bind]. rewrite E3. cbn [bind]. rewrite usub_ok by lia. cbn [bind].
  destruct (Nat.eqb_spec i 0); [lia|]. destruct (Nat.eqb_spec i (n - 1)); [lia|]. cbn [negb andb orb].
  pose proof (half_cases p) as HC.
  set (int := ((p / 2 <? i) && (i <? n - p / 2 - 1))%nat).
  replace (if (p / 2 <? i)%nat then a <- usub n (p / 2) ;; a0 <- usub a 1 ;; Ok (i <? a0)%nat else Ok false) with (Ok int).
  2:{ unfold int. destruct (p / 2 <? i)%nat; auto. rewrite usub_ok by lia. cbn [bind]. rewrite usub_ok by lia. auto. }
  cbn [bind]. rewrite Lk.
  rewrite (usub_ok (n + p + 1) p) by lia. cbn [bind]. rewrite usub_ok by lia. cbn [bind].
  replace (n + p + 1 - p - 2)%nat with (n - 1)%nat by lia.
  change (Nat.min (n - 1) (if (p / 2 <? i)%nat then (i + (p + 1) / 2)%nat else p)) with (uk i).
  destruct (uk_range i H1 H2) as (Kr & K2 & K1 & K0).
  set (k := uk i) in *. change (oadd o (fst rg) (omul o (onat o i) dx)) with (xf i).
  set (out := ((k <=? 2 * p + 1) || (n - p - 1 <=? k))%nat).
  replace (if (k <=? 2 * p + 1)%nat then Ok true else b <- usub (n + p + 1) (2 * p) ;; b0 <- usub b 2 ;; Ok (b0 <=? k)%nat) with (Ok out).
  2:{ unfold out. destruct (Nat.leb_spec k (2 * p + 1)); auto. rewrite usub_ok by lia. cbn [bind]. rewrite usub_ok by lia.
      cbn [bind orb]. do 2 f_equal. lia. }
  cbn [bind].
  assert (IB : forall j, (uk j = 2 * p + 1 -> 2 * p + 1 < n - 1 -> p / 2 < j -> j = ubase p)%nat).
  { intros j Hj Hj' Hj2. unfold useg, ubase in *. destruct (Nat.ltb_spec (p / 2) j); lia. }
  assert (W : exists vals' k0 x0, (if out then vals0 <- base_spline_value o p knots k (xf i) p ;; Ok (k, vals0) else Ok (k, vals)) = Ok (k, vals') /\ vals_from vals' k0 x0 /\ source i k0 x0 /\
     (int = true -> (p mod 2 = 1)%nat -> x0 = t k0) /\
     ((2 * p + 1 <= k)%nat -> (k < n - p - 1)%nat -> vals_from vals' (2 * p + 1) (val (xf (ubase p))))).
  { destruct (vals_computed k (xf i)) as (b & Eb & Vb); auto; try lia; [apply Hgap; lia|apply Hseg; auto|]. destruct out eqn:Eo.
    - rewrite Eb. cbn [bind]. exists b, k, (val (xf i)). split; auto. split; auto. split; [left; auto|]. split.
      + intros Ei Od. unfold int in Ei. apply andb_true_iff in Ei as [I1 I2]. apply Nat.ltb_lt in I1. apply Nat.ltb_lt in I2. apply Hint; auto.
      + intros L1 L2. unfold out in Eo. assert (Ek : k = (2 * p + 1)%nat).
        { apply orb_true_iff in Eo as [Eo|Eo]; apply Nat.leb_le in Eo; lia. }
        assert (p / 2 < i)%nat by (unfold k, useg in Ek; destruct (Nat.ltb_spec (p / 2) i); lia).
        rewrite <- (IB i ltac:(unfold k in Ek; auto) ltac:(lia) ltac:(auto)). rewrite <- Ek. exact Vb.
    - unfold out in Eo. apply orb_false_iff in Eo as [O1 O2]. apply Nat.leb_gt in O1. apply Nat.leb_gt in O2.
      assert (L : (p / 2 < i)%nat) by (unfold k, useg in O1; destruct (Nat.ltb_spec (p / 2) i); lia).
      assert (Ei : k = (i + (p + 1) / 2)%nat) by (unfold k, useg in *; destruct (Nat.ltb_spec (p / 2) i); lia).
      assert (L' : (p / 2 < i - 1)%nat) by lia.
      assert (Ek1 : uk (i - 1) = (k - 1)%nat) by (unfold useg; destruct (Nat.ltb_spec (p / 2) (i - 1)); lia).
      assert (VV : vals_from vals (2 * p + 1) (val (xf (ubase p)))) by (apply V; rewrite ?Ek1; lia).
      exists vals, (2 * p + 1)%nat, (val (xf (ubase p))). split; auto. split; auto. split; [right; auto|]. split; [|auto].
      intros _ Od. assert (Eu : uk (ubase p) = (2 * p + 1)%nat) by (unfold useg, ubase; destruct (Nat.ltb_spec (p / 2) (2 * p + 1 - (p + 1) / 2)); lia).
      rewrite (Hint Od (ubase p)) by (unfold ubase; lia). rewrite Eu. reflexivity. }
  destruct W as (vals' & k0 & x0 & -> & (Lv & Vv) & So & Hz & Vn). cbn [bind].
  set (s_num := if (p =? 1)%nat then 1%nat else if int then (p + (1 - p mod 2))%nat else (p + 1)%nat).
  assert (Sn : (s_num <= p + 1)%nat) by (unfold s_num; destruct (p =? 1)%nat; [lia|]; destruct int; cbn [andb]; lia).
  destruct (gfill_row o on false n (bw_of p false) sv i (k - p) vals' s_num
    (fun m j => row <- umod (i + 0) n ;; c <- usub k p ;; col <- umod (c + j) n ;; v <- vget vals' j ;; coef_set on m row col v))
    as (sv' & E & I' & A & B & C); auto.
  - lia.
  - lia.
  - intros a Ha. cbn [sdom]. rewrite Nat.mod_small by lia. unfold in_band, bw_of. unfold s_num in Ha.
    destruct (Nat.eqb_spec p 0); [lia|]. destruct (Nat.eqb_spec p 1); lia.
  - intros m j Hj. rewrite (umod_ok (i + 0)) by lia. cbn [bind]. rewrite usub_ok by lia. cbn [bind].
    rewrite umod_ok by lia. cbn [bind]. rewrite (vget_ok _ _ z) by lia. cbn [bind].
    rewrite (Nat.mod_small (i + 0)) by lia. rewrite Nat.add_0_r. reflexivity.
  - rewrite E. cbn [bind]. eexists. split; [reflexivity|]. unfold uinv. cbn [fst snd]. split; auto. split; [|split; [|split]].
    + intros r Hr Hr1 Hr2. destruct (Nat.eq_dec r i) as [->|Ne].
      * exists k0, x0. split; auto. unfold row_from. fold k.
        apply (place_row p n (k - p) (fun j => val (gsabs o sv' i j)) (fun a => val (nth a vals' z)) (upc k0 x0) s_num); auto; try lia.
        { intros a Ha. rewrite B by auto. reflexivity. }
        { intros j Hj. rewrite C by auto. rewrite Z by lia. apply (rd_0 _ _ _ _ _ _ RD). }
        { intros a Ha. assert (Q : a = p /\ (p mod 2 = 1)%nat /\ int = true).
          { unfold s_num in Ha. destruct (Nat.eqb_spec p 1) as [P1|P1].
            - assert (P2 : (p / 2 = 0)%nat) by (rewrite P1; reflexivity). split; [lia|]. split; [rewrite P1; reflexivity|]. unfold int. rewrite P2. destruct (Nat.ltb_spec 0 i), (Nat.ltb_spec i (n - 0 - 1)); auto; lia.
            - destruct int; cbn [andb] in Ha; [|lia]. split; [lia|]. split; [lia|auto]. }
          destruct Q as (-> & Od & Ei). unfold upc.
          assert (K0' : (p <= k0)%nat) by (destruct So as [[-> _]|[-> _]]; lia).
          replace (k0 - p + p)%nat with k0 by lia. rewrite (Hz Ei Od). apply piece_left_end. lia. }
      * destruct (G r ltac:(lia) Hr1 Hr2) as (k1 & x1 & S1 & R1). exists k1, x1. split; auto. apply (row_from_ext sv); auto.
    + intros r Hr He j Hj. rewrite A by lia. apply Ge; auto. lia.
    + intros r j Hr. rewrite A by lia. apply Z. lia.
    + intros _. replace (i + 1 - 1)%nat with i by lia. exact Vn.
Qed.

Lemma u_end_row i st : (i = 0 \/ i + 1 = n)%nat -> (i < n)%nat -> uinv i st ->
  exists st', coef_row o on s d true dx coords n i st = Ok st' /\ uinv (i + 1) st'.
Proof using All.
  intros H Hi (I & G & Ge & Z & V). destruct st as [sv vals]. cbn [fst snd] in *. unfold coef_row.
  rewrite Ep, E1. cbn [bind]. rewrite E2. cbn [bind]. rewrite E3. cbn [bind]. rewrite usub_ok by lia. cbn [bind negb].
  replace ((i =? 0) || (i =? n - 1))%nat with true by (destruct (Nat.eqb_spec i 0), (Nat.eqb_spec i (n - 1)); cbn [orb]; auto; lia).
  cbn [andb].
  destruct (gcoef_set_ok o on false n (bw_of p false) sv i i (o1 o) I) as (sv' & E & I' & A).
  { cbn [sdom]. unfold in_band. lia. }
  rewrite E. cbn [bind]. eexists. split; [reflexivity|]. unfold uinv. cbn [fst snd]. split; auto. split; [|split; [|split]].
  - intros r Hr Hr1 Hr2. destruct (G r ltac:(lia) Hr1 Hr2) as (k0 & x0 & S & R). exists k0, x0. split; auto. apply (row_from_ext sv); auto.
    intros j. rewrite A. destruct (Nat.eqb_spec r i); [lia|]. auto.
  - intros r Hr He j Hj. rewrite A. destruct (Nat.eq_dec r i) as [Er|Ne].
    + rewrite Er, Nat.eqb_refl. cbn [andb]. destruct (j =? i)%nat; [reflexivity|]. apply Z. lia.
    + replace (r =? i)%nat with false by (symmetry; apply Nat.eqb_neq; auto). cbn [andb]. apply Ge; auto. lia.
  - intros r j Hr. rewrite A. destruct (Nat.eqb_spec r i); [lia|]. apply Z. lia.
  - intros L. replace (i + 1 - 1)%nat with i by lia. intros Q1 Q2. exfalso. pose proof (half_cases p) as HC. unfold useg in Q1, Q2. destruct (Nat.ltb_spec (p / 2) i); lia.
Qed.

Lemma u_coll sv cache : gsinv false n (bw_of p false) sv -> (forall i j, gsabs o sv i j = z) ->
  exists st, for_ 0 n (sv, cache) (fun st i => coef_row o on s d true dx coords n i st) = Ok st /\
  gsinv false n (bw_of p false) (fst st) /\
  (forall i, (1 <= i)%nat -> (i + 1 < n)%nat -> exists k0 x0, source i k0 x0 /\ row_from (fst st) i (uk i - p) k0 x0) /\
  (forall i, (i = 0 \/ i + 1 = n)%nat -> forall j, (j < n)%nat -> gsabs o (fst st) i j = if (j =? i)%nat then o1 o else z).
Proof using All.
  intros I Z.
  destruct (for_inv uinv 0 n (sv, cache) (fun st i => coef_row o on s d true dx coords n i st)) as (st & E & (I' & G & Ge & _)).
  - lia.
  - split; auto. split; [intros; lia|]. split; [intros; lia|]. split; [intros; apply Z|]. intros; lia.
  - intros i st Hi HI.
    destruct (Nat.eq_dec i 0); [apply u_end_row; auto; lia|]. destruct (Nat.eq_dec (i + 1) n); [apply u_end_row; auto; lia|].
    apply u_inner_row; auto; lia.
  - exists st. split; auto. split; auto. split; [intros i Hi1 Hi2; apply G; auto; lia|]. intros i Hi. apply Ge; auto. lia.
Qed.
End Ap.

(** ** Periodic *)
Section Per.
Let bw := (p / 2)%nat.
Let xc := oadd o (nth p knots z) (omul o (omul o (onat o (1 - p mod 2)) dx) (ohalf o)).
Hypothesis E1 : vget (sp_per s) d = Ok true.
Hypothesis Lk : length knots = (n + 2 * p + 1 + (1 - p mod 2))%nat.
Hypothesis Hgap : g <= t (p + 1)%nat - t p.
Hypothesis Gx : good xc.
Hypothesis Hseg : t p <= val xc <= t (p + 1)%nat.
Hypothesis Hodd : (p mod 2 = 1)%nat -> val xc = t p.

Lemma u_cache : exists b, coef_cache o s d true dx = Ok b /\ vals_from b p (val xc).
Proof using All.
  unfold coef_cache. rewrite Ep, E1. cbn [bind andb]. rewrite E2. cbn [bind]. rewrite (vget_ok knots p z) by lia. cbn [bind]. fold xc.
  apply vals_computed; auto. pose proof (half_cases p). lia.
Qed.

Definition upinv (b : list T) (i : nat) (st : solver T * list T) : Prop :=
  gsinv true n bw (fst st) /\
  (forall r, (r < i)%nat -> row_from (fst st) ((r + bw) mod n) r p (val xc)) /\
  (forall r j, (i <= r < n)%nat -> gsabs o (fst st) ((r + bw) mod n) j = z) /\ snd st = b.

Lemma up_row b i st : vals_from b p (val xc) -> (i < n)%nat -> upinv b i st ->
  exists st', coef_row o on s d true dx coords n i st = Ok st' /\ upinv b (i + 1) st'.
Proof using All.
  intros (Lb & Vb) Hi (I & G & Z & Eb). destruct st as [sv vals]. cbn [fst snd] in *. subst vals. unfold coef_row.
  rewrite Ep, E1. cbn [bind]. rewrite E2. cbn [bind]. rewrite E3. cbn [bind]. rewrite usub_ok by lia. cbn [bind negb andb].
  pose proof (half_cases p) as HC.
  set (int := ((p / 2 <? i) && (i <? n - p / 2 - 1))%nat).
  replace (if (p / 2 <? i)%nat then a <- usub n (p / 2) ;; a0 <- usub a 1 ;; Ok (i <? a0)%nat else Ok false) with (Ok int).
  2:{ unfold int. destruct (p / 2 <? i)%nat; auto. rewrite usub_ok by lia. cbn [bind]. rewrite usub_ok by lia. auto. }
  cbn [bind].
  set (s_num := (p + (1 - p mod 2))%nat).
  destruct (gfill_row o on true n bw sv ((i + bw) mod n) i b s_num
    (fun m j => row <- umod (i + p / 2) n ;; c <- usub (i + p) p ;; col <- umod (c + j) n ;; v <- vget b j ;; coef_set on m row col v))
    as (sv' & E & I' & A & B & C); auto.
  - unfold s_num. lia.
  - unfold s_num. lia.
  - intros a Ha. apply periodic_dom; auto.
  - intros m j Hj. rewrite umod_ok by lia. cbn [bind]. rewrite usub_ok by lia. cbn [bind].
    rewrite umod_ok by lia. cbn [bind]. rewrite (vget_ok _ _ z) by (unfold s_num in Hj; lia). cbn [bind].
    replace (i + p - p + j)%nat with (i + j)%nat by lia. reflexivity.
  - rewrite E. cbn [bind]. eexists. split; [reflexivity|]. unfold upinv. cbn [fst snd].
    assert (Ne : forall r, (r < n)%nat -> r <> i -> ((r + bw) mod n <> (i + bw) mod n)%nat).
    { intros r Hr Hne Em. rewrite (Nat.add_comm r), (Nat.add_comm i) in Em. apply mod_inj in Em; auto. }
    split; auto. split; [|split; auto].
    + intros r Hr. destruct (Nat.eq_dec r i) as [->|Hne].
      * unfold row_from.
        apply (place_row p n i (fun j => val (gsabs o sv' ((i + bw) mod n) j)) (fun a => val (nth a b z)) (upc p (val xc)) s_num); auto; try (unfold s_num; lia).
        { intros a Ha. rewrite B by auto. reflexivity. }
        { intros j Hj. rewrite C by auto. rewrite Z by lia. apply (rd_0 _ _ _ _ _ _ RD). }
        { intros a Ha. unfold s_num in Ha.
          assert (a = p /\ (p mod 2 = 1)%nat /\ (1 <= p)%nat) as (-> & Ho & P1) by lia.
          unfold upc. replace (p - p + p)%nat with p by lia. rewrite (Hodd Ho). apply piece_left_end; auto. }
      * apply (row_from_ext sv); [intros; apply A; apply Ne; lia|apply G; lia].
    + intros r j Hr. rewrite A by (apply Ne; lia). apply Z. lia.
Qed.

Lemma up_coll sv : gsinv true n bw sv -> (forall i j, gsabs o sv i j = z) ->
  exists b st, coef_cache o s d true dx = Ok b /\ for_ 0 n (sv, b) (fun st i => coef_row o on s d true dx coords n i st) = Ok st /\
  gsinv true n bw (fst st) /\ forall i, (i < n)%nat -> row_from (fst st) ((i + bw) mod n) i p (val xc).
Proof using All.
  intros I Z. destruct u_cache as (b & Eb & Vb). exists b.
  destruct (for_inv (upinv b) 0 n (sv, b) (fun st i => coef_row o on s d true dx coords n i st)) as (st & E & (I' & G & _)).
  - lia.
  - split; auto. split; [intros; lia|]. split; [intros; apply Z|auto].
  - intros i st Hi HI. apply up_row; auto. lia.
  - exists st. auto.
Qed.
End Per.
End Dim.
End UColl.
