(** The coefficient matrices of interpolation templates are collocation
    matrices. *)
From Coq Require Import List Arith Lia Bool ZArith Reals Lra.
From Verif Require Import Base Num MeshM SpecMesh MeshProofs ProgM BandM LUM SplineM InterpM.
From Verif Require Import SumR SpecBand BandProofs SpecSpline SplineProofs BetaProofs BasisProofs SpecInterp KnotProofs KnotShape SWProofs.
Import ListNotations.
Open Scope R_scope.

(** ** Either kind of matrix *)
Definition sinv (per : bool) (N bw : nat) (sv : solver R) : Prop :=
  match sv with
  | Aperiodic b => per = false /\ wfb N bw bw b
  | Periodic e => per = true /\ wfe N bw bw e
  end.
Definition sabs (sv : solver R) (i j : nat) : R :=
  match sv with Aperiodic b => babs 0 b i j | Periodic e => eabs 0 e i j end.
Definition sdom (per : bool) (N bw i j : nat) : Prop :=
  if per then in_ext N bw bw i j else in_band N bw bw i j.

Lemma coef_set_ok on per N bw sv i j v : sinv per N bw sv -> sdom per N bw i j ->
  exists sv', coef_set on sv i j v = Ok sv' /\ sinv per N bw sv' /\
    forall i' j', sabs sv' i' j' = if ((i' =? i) && (j' =? j))%nat then v else sabs sv i' j'.
Proof.
  destruct sv as [b|e]; cbn [sinv]; intros [-> Hw] Hd; cbn [sdom] in Hd; unfold coef_set.
  - destruct (band_set_ok 0 on N bw bw b i j v Hw Hd) as (b' & -> & Hw' & Ha). cbn [bind].
    exists (Aperiodic b'). cbn [sinv sabs]. auto.
  - destruct (eb_set_ok 0 on N bw bw e i j v Hw Hd) as (e' & -> & Hw' & Ha). cbn [bind].
    exists (Periodic e'). cbn [sinv sabs]. auto.
Qed.

Lemma sabs_out per N bw sv i j : sinv per N bw sv -> ~ sdom per N bw i j -> sabs sv i j = 0.
Proof.
  destruct sv as [b|e]; cbn [sinv]; intros [-> Hw] Hd; cbn [sdom] in Hd; cbn [sabs].
  - apply (babs_out 0 N bw bw); auto.
  - apply (eabs_out 0 N bw bw); auto.
Qed.

Definition bw_of (p : nat) (per : bool) : nat :=
  if per then (p / 2)%nat else if (p =? 0)%nat then 0%nat else (p - 1)%nat.

Lemma classic_band N bw i j : in_band N bw bw i j \/ ~ in_band N bw bw i j.
Proof. unfold in_band. lia. Qed.
Lemma classic_ext N bw i j : in_ext N bw bw i j \/ ~ in_ext N bw bw i j.
Proof. unfold in_ext, in_band. lia. Qed.

Lemma coef_make_ok p per N : (per = true -> p / 2 < N)%nat ->
  exists sv, coef_make Rops p per N = Ok sv /\ sinv per N (bw_of p per) sv /\
    forall i j, sabs sv i j = 0.
Proof.
  intros H. unfold coef_make. change (if per then (p / 2)%nat else _) with (bw_of p per).
  destruct per.
  - specialize (H eq_refl). destruct (eband_make_ok Rops 0 N (bw_of p true) (bw_of p true)) as (m & -> & Hw & Ha).
    + unfold bw_of. lia.
    + unfold bw_of. lia.
    + cbn [bind]. exists (Periodic m). cbn [sinv sabs]. split; auto. split; auto.
      intros i j. destruct (classic_ext N (bw_of p true) i j) as [D|D].
      * apply (Ha i j D).
      * apply (eabs_out 0 N (bw_of p true) (bw_of p true)); auto.
  - exists (Aperiodic (band_make Rops N (bw_of p false) (bw_of p false))). cbn [sinv sabs]. split; auto.
    split. split; auto. apply band_make_wf.
    intros i j. destruct (classic_band N (bw_of p false) i j) as [D|D].
    + apply (band_make_abs Rops 0 _ _ _ _ _ D).
    + apply (babs_out 0 N (bw_of p false) (bw_of p false)); auto. apply band_make_wf.
Qed.

Lemma mod_inj N c a b : (a < N)%nat -> (b < N)%nat -> ((c + a) mod N = (c + b) mod N)%nat -> a = b.
Proof.
  intros Ha Hb E. pose proof (Nat.div_mod (c + a) N ltac:(lia)) as D1. pose proof (Nat.div_mod (c + b) N ltac:(lia)) as D2.
  rewrite E in D1. set (q1 := ((c + a) / N)%nat) in *. set (q2 := ((c + b) / N)%nat) in *.
  destruct (Nat.lt_trichotomy q1 q2) as [L|[L|L]].
  - assert (N * q1 + N <= N * q2)%nat by nia. lia.
  - rewrite L in D1. lia.
  - assert (N * q2 + N <= N * q1)%nat by nia. lia.
Qed.

Lemma umod_ok a b : (0 < b)%nat -> umod a b = Ok (a mod b)%nat.
Proof. intros. unfold umod. destruct b; [lia|]. reflexivity. Qed.

(** Entry (.., j) of the row with the values of the basis functions
    k-p, ..., k of segment [k] at [x], wrapped around modulo [N]. *)
Definition Bmat (t : nat -> R) (p N k : nat) (x : R) (j : nat) : R :=
  sum (p + 1) (fun a => if ((k - p + a) mod N =? j)%nat then piece t k p (k - p + a) x else 0).

Lemma fill_row on per N bw sv r c vals s_num (body : solver R -> nat -> res (solver R)) :
  sinv per N bw sv -> (s_num <= N)%nat -> (s_num <= length vals)%nat ->
  (forall a, (a < s_num)%nat -> sdom per N bw r ((c + a) mod N)) ->
  (forall m j, (j < s_num)%nat -> body m j = coef_set on m r ((c + j) mod N) (nth j vals 0)) ->
  exists sv', for_ 0 s_num sv body = Ok sv' /\ sinv per N bw sv' /\
    (forall i j, i <> r -> sabs sv' i j = sabs sv i j) /\
    (forall a, (a < s_num)%nat -> sabs sv' r ((c + a) mod N) = nth a vals 0) /\
    (forall j, (forall a, (a < s_num)%nat -> j <> ((c + a) mod N)%nat) -> sabs sv' r j = sabs sv r j).
Proof.
  intros Hi Hs Hv Hd Hb.
  destruct (for_inv (fun k m => sinv per N bw m /\
    (forall i j, i <> r -> sabs m i j = sabs sv i j) /\
    (forall a, (a < k)%nat -> sabs m r ((c + a) mod N) = nth a vals 0) /\
    (forall j, (forall a, (a < k)%nat -> j <> ((c + a) mod N)%nat) -> sabs m r j = sabs sv r j)) 0 s_num sv body) as (m & E & H).
  - lia.
  - split; auto. split; auto. split; auto. intros; lia.
  - intros k m Hk (I & A & B & C). rewrite Hb by lia.
    destruct (coef_set_ok on per N bw m r ((c + k) mod N) (nth k vals 0) I (Hd k ltac:(lia))) as (m' & E & I' & V).
    exists m'. split; auto. split; auto. split; [|split].
    + intros i j Hne. rewrite V. destruct (Nat.eqb_spec i r); [contradiction|]. apply A; auto.
    + intros a Ha. rewrite V. rewrite Nat.eqb_refl. cbn [andb].
      destruct (Nat.eqb_spec ((c + a) mod N) ((c + k) mod N)) as [Em|Em].
      * apply mod_inj in Em; try lia. subst; auto.
      * apply B. destruct (Nat.eq_dec a k); [congruence|lia].
    + intros j Hj. rewrite V. rewrite Nat.eqb_refl. cbn [andb].
      destruct (Nat.eqb_spec j ((c + k) mod N)) as [Em|Em].
      * exfalso. apply (Hj k); auto; lia.
      * apply C. intros a Ha. apply Hj. lia.
  - exists m. split; auto.
Qed.

(** A filled row is the row of basis function values. *)
Lemma row_Bmat t p N k x (row : nat -> R) vals s_num :
  (p + 1 <= N)%nat -> (s_num <= p + 1)%nat ->
  (forall a, (a <= p)%nat -> (a < s_num)%nat -> nth a vals 0 = piece t k p (k - p + a) x) ->
  (forall a, (s_num <= a <= p)%nat -> piece t k p (k - p + a) x = 0) ->
  (forall a, (a < s_num)%nat -> row ((k - p + a) mod N)%nat = nth a vals 0) ->
  (forall j, (forall a, (a < s_num)%nat -> j <> ((k - p + a) mod N)%nat) -> row j = 0) ->
  forall j, row j = Bmat t p N k x j.
Proof.
  intros HN Hs Hv Hz H1 H2 j. unfold Bmat.
  set (f := fun a => if ((k - p + a) mod N =? j)%nat then piece t k p (k - p + a) x else 0).
  assert (D : (exists a, (a < s_num)%nat /\ j = ((k - p + a) mod N)%nat) \/ (forall a, (a < s_num)%nat -> j <> ((k - p + a) mod N)%nat)).
  { clear -s_num. induction s_num as [|s IH].
    - right. intros; lia.
    - destruct IH as [(a & Ha & E)|IH]; [left; exists a; split; auto|].
      destruct (Nat.eq_dec j ((k - p + s) mod N)); [left; exists s; split; auto|].
      right. intros a Ha. destruct (Nat.eq_dec a s); [subst; auto|apply IH; lia]. }
  destruct D as [(a & Ha & ->)|D].
  - rewrite H1 by auto. rewrite (sum_single _ a f).
    + unfold f. rewrite Nat.eqb_refl. apply Hv; lia.
    + lia.
    + intros b Hb Hne. unfold f. destruct (Nat.eqb_spec ((k - p + b) mod N) ((k - p + a) mod N)) as [E|E]; auto.
      apply mod_inj in E; lia.
  - rewrite H2 by auto. symmetry. apply sum_0. intros a Ha. unfold f.
    destruct (Nat.eqb_spec ((k - p + a) mod N) j) as [E|E]; auto.
    apply Hz. split; [|lia]. destruct (Nat.le_gt_cases s_num a); auto. exfalso. apply (D a); auto.
Qed.

Lemma search_R order knots rg x hint last :
  nondecreasing knots -> (hint + 1 < length knots)%nat -> (last + 1 < length knots)%nat -> (order <= last)%nat ->
  ((order <= hint <= last)%nat \/ kn knots hint = kn knots (hint + 1)) ->
  exists k, get_knot_iter_last Rops order false knots rg x hint last = Ok (x, k) /\
            seg_in Rops 0 knots order last x k.
Proof.
  intros Hnd Hh Hl Ho C.
  assert (So : sorted_on Rops 0 knots order last) by (apply sorted_on_R; auto; lia).
  assert (DC : (order <= hint <= last \/ hint < order \/ last < hint)%nat) by lia.
  destruct DC as [L|L].
  - apply (get_knot_iter_last_ok Rops Rops_total); auto.
  - assert (Eq : kn knots hint = kn knots (hint + 1)) by (destruct C; auto; lia). clear C.
    unfold get_knot_iter_last. unfold wrap_coord. cbn [bind].
    rewrite (vget_ok _ _ 0) by lia. cbn [bind].
    assert (Hit : (if ole Rops (nth hint knots 0) x then b <- vget knots (hint + 1) ;; Ok (olt Rops x b) else Ok false) = Ok false).
    { destruct (ole Rops (nth hint knots 0) x) eqn:E; auto. rewrite (vget_ok _ _ 0) by lia. cbn [bind]. f_equal.
      destruct (olt Rops x (nth (hint + 1) knots 0)) eqn:E2; auto. apply Rleb_true in E. apply Rltb_true in E2.
      unfold kn in Eq. lra. }
    rewrite Hit. cbn [bind]. destruct (Nat.ltb_spec last order); [lia|].
    destruct (upper_bound_ok Rops Rops_total 0 knots x (last - order) (order + 1) (last - order)) as (u & Eu & Hu & H1 & H2); try lia.
    { intros. apply So; lia. }
    rewrite Eu. cbn [bind]. rewrite usub_ok by lia. cbn [bind].
    eexists; split; eauto. split; [lia|]. split.
    + destruct (Nat.eq_dec (u - 1) order); auto. right. apply H1. lia.
    + destruct (Nat.eq_dec (u - 1) last); auto. right. apply H2. lia.
Qed.

Lemma kn_map f m i : (i < m)%nat -> kn (map f (seq 0 m)) i = f i.
Proof.
  intros H. unfold kn. rewrite (nth_indep _ 0 (f 0%nat)) by (rewrite map_length, seq_length; auto).
  rewrite map_nth. rewrite seq_nth by auto. reflexivity.
Qed.

Lemma half_cases p : (p / 2 * 2 = p /\ (p + 1) / 2 = p / 2 /\ p mod 2 = 0 \/
                      p / 2 * 2 + 1 = p /\ (p + 1) / 2 = p / 2 + 1 /\ p mod 2 = 1)%nat.
Proof.
  pose proof (Nat.div_mod p 2 ltac:(lia)) as D1. pose proof (Nat.mod_upper_bound p 2 ltac:(lia)).
  pose proof (Nat.div_mod (p + 1) 2 ltac:(lia)) as D2. pose proof (Nat.mod_upper_bound (p + 1) 2 ltac:(lia)).
  lia.
Qed.

(** ** Non-periodic dimensions *)
Section ApCoef.
Variables (on : bool) (s : spline R) (d p n : nat) (x : nat -> R) (u : bool) (dx : R) (coords : list R) (rg : R * R).
Let t := ap_knot p n x.
Let K := map t (seq 0 (n + p + 1)).
Hypothesis Ep : sp_order s = p.
Hypothesis E1 : vget (sp_per s) d = Ok false.
Hypothesis E2 : vget (sp_knots s) d = Ok K.
Hypothesis E3 : vget (sp_range s) d = Ok rg.
Hypothesis Erg : fst rg = x 0%nat.
Hypothesis Hx : increasing n x.
Hypothesis Hp : (p + 1 <= n)%nat.
Hypothesis Hn : (2 <= n)%nat.
Hypothesis Hu : u = true -> 0 < dx /\ (forall i, x i = x 0%nat + INR i * dx) /\
  (forall i, (p < i < n)%nat -> t i = x 0%nat + (INR i - (INR p + 1) / 2) * dx).
Hypothesis Hnu : u = false -> (1 <= p)%nat /\ length coords = n /\ forall i, (i < n)%nat -> nth i coords 0 = x i.

Let TT := kn K.

Lemma ap_TT i : (i < n + p + 1)%nat -> TT i = t i.
Proof using Type. clear -TT. intros. unfold TT, K. apply kn_map. auto. Qed.
Lemma ap_Klen : length K = (n + p + 1)%nat.
Proof using Type. clear -TT. unfold K. rewrite map_length, seq_length. auto. Qed.
Lemma ap_Knd : nondecreasing K.
Proof using Hx Hp Hn. clear -Hx Hp Hn TT. intros i j Hij. rewrite ap_Klen in Hij. fold TT. rewrite !ap_TT by lia. apply ap_mono; auto; lia. Qed.
Lemma ap_TTstrict i : (p <= i < n)%nat -> TT i < TT (i + 1)%nat.
Proof using Hx Hp Hn. clear -Hx Hp Hn TT. intros. rewrite !ap_TT by lia. apply ap_strict; auto; lia. Qed.

(** The segment used for data point [i]. *)
Definition ukk (i : nat) : nat := Nat.min (n - 1) (if (p / 2 <? i)%nat then i + (p + 1) / 2 else p).

Definition row_seg (i k : nat) : Prop :=
  segment TT p (n - 1) (x i) k /\
  ((2 <= p)%nat -> (i + 1 <= k <= i + p - 1)%nat) /\ (p = 1%nat -> k = (i + 1)%nat) /\ (p = 0%nat -> k = i).

Lemma ukk_seg i : u = true -> (1 <= i)%nat -> (i + 1 < n)%nat -> row_seg i (ukk i).
Proof.
  intros U H1 H2. destruct (Hu U) as (Hdx & Xi & Ti). unfold ukk, row_seg.
  assert (Hlt : forall a b, (a < b)%nat -> INR a * dx < INR b * dx).
  { intros. apply Rmult_lt_compat_r; auto. apply lt_INR; auto. }
  assert (Tn : forall k, (p < k < n)%nat -> TT k = x i + (INR k - (INR i + (INR p + 1) / 2)) * dx).
  { intros k Hk. rewrite ap_TT by lia. rewrite Ti by auto. rewrite (Xi i). ring. }
  assert (Tp : TT p <= x i).
  { rewrite ap_TT by lia. unfold t. rewrite ap_lo by lia. left. apply Hx. lia. }
  pose proof (half_cases p) as HC.
  assert (RP : INR p = INR (p / 2) + INR (p / 2) + (if (p mod 2 =? 0)%nat then 0 else 1)).
  { rewrite <- plus_INR. destruct HC as [(A & B & C)|(A & B & C)]; rewrite C; cbn [Nat.eqb].
    - rewrite Rplus_0_r. f_equal. lia.
    - rewrite <- (plus_INR _ 1). f_equal. lia. }
  destruct (Nat.ltb_spec (p / 2) i) as [L|L].
  - destruct (Nat.le_gt_cases (i + (p + 1) / 2) (n - 1)) as [M|M].
    + rewrite Nat.min_r by lia. set (k := (i + (p + 1) / 2)%nat) in *.
      assert (RK : INR k = INR i + INR (p / 2) + (if (p mod 2 =? 0)%nat then 0 else 1)).
      { unfold k. rewrite plus_INR. destruct HC as [(A & B & C)|(A & B & C)]; rewrite C, B; cbn [Nat.eqb].
        - ring. - rewrite plus_INR. simpl. ring. }
      assert (Bk : (p < k)%nat) by lia.
      split; [split; [lia|split; [apply ap_TTstrict; lia|split]]|lia].
      * right. rewrite Tn by lia. rewrite RK, RP. destruct (p mod 2 =? 0)%nat; nra.
      * destruct (Nat.eq_dec k (n - 1)) as [->|Ne]; [auto|]. right. rewrite Tn by lia. rewrite plus_INR, RK, RP.
        simpl INR. destruct (p mod 2 =? 0)%nat; nra.
    + rewrite Nat.min_l by lia.
      split; [split; [lia|split; [apply ap_TTstrict; lia|split]]|lia].
      * destruct (Nat.eq_dec (n - 1) p) as [->|Ne]; [auto|]. right. rewrite Tn by lia.
        assert (G : INR (n - 1) + 1 <= INR i + INR ((p + 1) / 2)).
        { rewrite <- plus_INR. rewrite <- (plus_INR _ 1). apply le_INR. lia. }
        assert (G2 : INR ((p + 1) / 2) <= (INR p + 1) / 2).
        { assert (INR ((p + 1) / 2 + (p + 1) / 2) <= INR (p + 1)) by (apply le_INR; lia). rewrite !plus_INR in *. simpl in *. lra. }
        assert (0 <= ((INR i + (INR p + 1) / 2) - INR (n - 1)) * dx) by (apply Rmult_le_pos; lra). lra.
      * auto.
  - rewrite Nat.min_r by lia.
    split; [split; [lia|split; [apply ap_TTstrict; lia|split]]|lia].
    + auto.
    + destruct (Nat.eq_dec p (n - 1)) as [|Ne]; [auto|]. right. rewrite Tn by lia.
      assert (G : INR i + INR i <= INR p) by (rewrite <- plus_INR; apply le_INR; lia).
      rewrite plus_INR. simpl INR.
      assert (0 < ((INR p + 1) - (INR i + (INR p + 1) / 2)) * dx) by (apply Rmult_lt_0_compat; lra). lra.
Qed.

Lemma ukk_internal i : u = true -> (p / 2 < i)%nat -> (i < n - p / 2 - 1)%nat -> (p mod 2 = 1)%nat ->
  ukk i = (i + (p + 1) / 2)%nat /\ x i = TT (ukk i).
Proof.
  intros U H1 H2 Hodd. destruct (Hu U) as (Hdx & Xi & Ti).
  pose proof (half_cases p) as HC. unfold ukk. destruct (Nat.ltb_spec (p / 2) i); [|lia].
  rewrite Nat.min_r by lia. split; auto. rewrite ap_TT by lia. rewrite Ti by lia. rewrite (Xi i).
  assert (RP : INR p = INR (p / 2) + INR (p / 2) + 1).
  { rewrite <- plus_INR, <- (plus_INR _ 1). f_equal. lia. }
  replace ((p + 1) / 2)%nat with (p / 2 + 1)%nat by lia. rewrite !plus_INR, RP. simpl INR. field.
Qed.

Lemma nu_seg i : u = false -> (1 <= i)%nat -> (i + 1 < n)%nat ->
  exists k, get_knot_iter_last Rops p false K rg (x i) (i + 1) (Nat.min n (i + p)) = Ok (x i, k) /\ row_seg i k.
Proof.
  intros U H1 H2. destruct (Hnu U) as (P1 & Lc & Nc).
  destruct (search_R p K rg (x i) (i + 1) (Nat.min n (i + p))) as (k & E & S).
  - apply ap_Knd.
  - rewrite ap_Klen. lia.
  - rewrite ap_Klen. lia.
  - lia.
  - destruct (Nat.le_gt_cases p (i + 1)); [left; lia|right]. fold TT. rewrite !ap_TT by lia. unfold t. rewrite !ap_lo by lia. auto.
  - exists k. split; auto.
    destruct S as (S1 & S2 & S3). cbn [ole olt Rops] in S2, S3. rewrite Rleb_true in S2. rewrite Rltb_true in S3.
    fold (kn K k) in S2. fold (kn K (k + 1)) in S3. fold TT in S2, S3.
    assert (Tp : TT p <= x i).
    { rewrite ap_TT by lia. unfold t. rewrite ap_lo by lia. left. apply Hx. lia. }
    assert (S2' : TT k <= x i) by (destruct S2 as [->|]; auto).
    assert (Mo : forall a b, (a <= b < n + p + 1)%nat -> TT a <= TT b).
    { intros a b Hab. apply ap_Knd. rewrite ap_Klen. auto. }
    destruct (Nat.eq_dec p 1) as [P1'|P1'].
    + assert (Ti : TT (i + 1)%nat = x i) by (rewrite ap_TT by lia; apply ap_one; auto; lia).
      assert (k = (i + 1)%nat).
      { destruct (Nat.lt_trichotomy k (i + 1)) as [L|[L|L]]; auto; [|lia].
        destruct S3 as [S3|S3]; [lia|]. assert (TT (k + 1)%nat <= TT (i + 1)%nat) by (apply Mo; lia). lra. }
      subst k. split; [|lia]. split; [lia|]. split; [apply ap_TTstrict; lia|]. split; [lra|].
      right. rewrite <- Ti. apply ap_TTstrict. lia.
    + destruct (ap_inner p n x Hx Hp Hn i ltac:(lia) H1 H2) as [I1 I2]. fold t in I1, I2.
      assert (Tn : x i < TT n) by (rewrite ap_TT by lia; unfold t; rewrite ap_hi by lia; apply Hx; lia).
      rewrite <- ap_TT in I1, I2 by lia.
      assert (Lk : (k < Nat.min n (i + p))%nat).
      { destruct (Nat.le_gt_cases (Nat.min n (i + p)) k) as [L|L]; auto. exfalso.
        destruct (Nat.le_gt_cases n (i + p)).
        - assert (TT n <= TT k) by (apply Mo; lia). lra.
        - assert (TT (i + p)%nat <= TT k) by (apply Mo; lia). lra. }
      assert (S3' : x i < TT (k + 1)%nat) by (destruct S3 as [->|]; auto; lia).
      split; [split; [lia|split; [apply ap_TTstrict; lia|split; auto]]|].
      assert (i + 1 <= k)%nat; [|lia].
      destruct (Nat.le_gt_cases (i + 1) k); auto. exfalso.
      assert (TT (k + 1)%nat <= TT (i + 1)%nat) by (apply Mo; lia). lra.
Qed.

Lemma ap_clamped_left : clamped_left TT p.
Proof using Hp Hn. clear -Hp Hn TT. intros i Hi. rewrite !ap_TT by lia. unfold t. rewrite !ap_lo by lia. auto. Qed.
Lemma ap_clamped_right : clamped_right TT p (n - 1).
Proof using Hp Hn. clear -Hp Hn TT. intros i Hi. rewrite !ap_TT by lia. unfold t. rewrite !ap_hi by lia. auto. Qed.
Lemma ap_Tmono i j : (i <= j < n + p + 1)%nat -> TT i <= TT j.
Proof using Hx Hp Hn. clear -Hx Hp Hn TT. intros Hij. apply ap_Knd. rewrite ap_Klen. auto. Qed.

Lemma Bmat_first j : (j < n)%nat -> Bmat TT p n p (x 0%nat) j = if (j =? 0)%nat then 1 else 0.
Proof using Hx Hp Hn. clear -Hx Hp Hn TT.
  intros Hj. assert (X0 : x 0%nat = TT p) by (rewrite ap_TT by lia; unfold t; rewrite ap_lo by lia; auto).
  rewrite X0.
  assert (Z : forall a, (0 < a)%nat -> piece TT p p a (TT p) = 0).
  { intros a Ha. apply (piece_clamped_left TT (n + p + 1) p (n - 1)); try lia. apply ap_clamped_left. }
  pose proof (piece_unity TT (n + p + 1) p ap_Tmono ltac:(lia) (ap_TTstrict p ltac:(lia)) p (TT p) ltac:(lia) ltac:(lia)) as U1.
  rewrite (sum_single _ 0 (fun j => piece TT p p (p - p + j) (TT p))) in U1; [|lia|intros; apply Z; lia].
  unfold Bmat. rewrite (sum_single _ 0 (fun a => if ((p - p + a) mod n =? j)%nat then piece TT p p (p - p + a) (TT p) else 0)); [|lia|].
  - rewrite U1. replace (p - p + 0)%nat with 0%nat by lia. rewrite Nat.mod_0_l by lia. rewrite Nat.eqb_sym. auto.
  - intros a Ha Hne. rewrite Z by lia. destruct (Nat.eqb _ _); auto.
Qed.

Lemma Bmat_last j : (j < n)%nat -> Bmat TT p n (n - 1) (x (n - 1)%nat) j = if (j =? n - 1)%nat then 1 else 0.
Proof using Hx Hp Hn. clear -Hx Hp Hn TT.
  intros Hj. assert (X0 : x (n - 1)%nat = TT (n - 1 + 1)%nat) by (rewrite ap_TT by lia; unfold t; rewrite ap_hi by lia; auto).
  rewrite X0.
  assert (Z : forall a, (a < p)%nat -> piece TT (n - 1) p (n - 1 - p + a) (TT (n - 1 + 1)%nat) = 0).
  { intros a Ha. apply (piece_clamped_right TT (n + p + 1) p (n - 1)); try lia. apply ap_clamped_right. }
  pose proof (piece_unity TT (n + p + 1) (n - 1) ap_Tmono ltac:(lia) (ap_TTstrict (n - 1) ltac:(lia)) p (TT (n - 1 + 1)%nat) ltac:(lia) ltac:(lia)) as U1.
  rewrite (sum_single _ p (fun j => piece TT (n - 1) p (n - 1 - p + j) (TT (n - 1 + 1)%nat))) in U1; [|lia|intros; apply Z; lia].
  unfold Bmat. rewrite (sum_single _ p (fun a => if ((n - 1 - p + a) mod n =? j)%nat then piece TT (n - 1) p (n - 1 - p + a) (TT (n - 1 + 1)%nat) else 0)); [|lia|].
  - rewrite U1. replace (n - 1 - p + p)%nat with (n - 1)%nat by lia. rewrite Nat.mod_small by lia. rewrite Nat.eqb_sym. auto.
  - intros a Ha Hne. rewrite Z by lia. destruct (Nat.eqb _ _); auto.
Qed.

Definition row_good (sv : solver R) (i : nat) : Prop :=
  exists k, segment TT p (n - 1) (x i) k /\ forall j, (j < n)%nat -> sabs sv i j = Bmat TT p n k (x i) j.

Definition vals_at (vals : list R) (k : nat) (y : R) : Prop :=
  length vals = (p + 1)%nat /\ forall a, (a <= p)%nat -> nth a vals 0 = piece TT k p (k - p + a) y.

Definition Inv (i : nat) (st : solver R * list R) : Prop :=
  sinv false n (bw_of p false) (fst st) /\
  (forall r, (r < i)%nat -> row_good (fst st) r) /\
  (forall r j, (i <= r < n)%nat -> sabs (fst st) r j = 0) /\
  (u = true -> (2 <= i < n)%nat -> vals_at (snd st) (ukk (i - 1)) (x (i - 1)%nat)).

Lemma bsv_vals k y : (p <= k <= n - 1)%nat -> exists b, base_spline_value Rops p K k y p = Ok b /\ vals_at b k y.
Proof.
  intros Hk. destruct (base_spline_value_ok p K k ap_Knd ltac:(lia)) with (x := y) (so := p) as (b & E & L & _ & V).
  - rewrite ap_Klen. lia.
  - rewrite ap_Klen. lia.
  - fold TT. apply ap_TTstrict. lia.
  - lia.
  - exists b. split; auto. split; auto. intros a Ha. rewrite <- V by auto. f_equal. lia.
Qed.

(** The interior rows: segment, values and number of entries. *)
Lemma ap_fill i sv k vals s_num :
  (1 <= i)%nat -> (i + 1 < n)%nat -> sinv false n (bw_of p false) sv ->
  (forall j, sabs sv i j = 0) -> row_seg i k -> vals_at vals k (x i) ->
  (p = 1 -> s_num = 1)%nat -> (p <> 1 -> s_num = p + 1 \/ s_num = p)%nat -> (p <> 1 -> s_num = p -> x i = TT k /\ 1 <= p)%nat ->
  exists sv', for_ 0 s_num sv (fun m j =>
      row <- umod (i + 0) n ;; c <- usub k p ;; col <- umod (c + j) n ;; v <- vget vals j ;;
      coef_set on m row col v) = Ok sv' /\
  sinv false n (bw_of p false) sv' /\ row_good sv' i /\ (forall r j, r <> i -> sabs sv' r j = sabs sv r j).
Proof.
  intros H1 H2 I Z (S & B2 & B1 & B0) (Lv & V) N1 N2 N3.
  assert (Hk : (p <= k <= n - 1)%nat) by apply S.
  destruct (fill_row on false n (bw_of p false) sv i (k - p) vals s_num
    (fun m j => row <- umod (i + 0) n ;; c <- usub k p ;; col <- umod (c + j) n ;; v <- vget vals j ;; coef_set on m row col v))
    as (sv' & E & I' & A & B & C); auto.
  - lia.
  - lia.
  - intros a Ha. cbn [sdom]. rewrite Nat.mod_small by lia. unfold in_band, bw_of.
    destruct (Nat.eqb_spec p 0); lia.
  - intros m j Hj. rewrite (umod_ok (i + 0)) by lia. cbn [bind]. rewrite usub_ok by lia. cbn [bind].
    rewrite umod_ok by lia. cbn [bind]. rewrite (vget_ok _ _ 0) by lia. cbn [bind].
    rewrite (Nat.mod_small (i + 0)) by lia. rewrite Nat.add_0_r. reflexivity.
  - exists sv'. split; auto. split; auto. split; [|intros; apply A; auto].
    exists k. split; auto. intros j Hj.
    apply (row_Bmat TT p n k (x i) (sabs sv' i) vals s_num); auto; try lia.
    + intros a Ha.
      assert (a = p /\ (1 <= p)%nat /\ x i = TT k) as (-> & P1 & ->).
      { destruct (Nat.eq_dec p 1) as [E1'|E1'].
        - split; [lia|]. split; [lia|]. rewrite (B1 E1'). rewrite ap_TT by lia. symmetry. apply ap_one; auto; lia.
        - destruct (N2 E1') as [Es|Es]; [lia|]. destruct (N3 E1' Es). split; [lia|auto]. }
      replace (k - p + p)%nat with k by lia. apply piece_left_end. auto.
    + intros j' Hj'. rewrite C by auto. apply Z.
Qed.

Lemma vals_step i k vals : u = true -> (2 <= i)%nat -> (i + 1 < n)%nat -> k = ukk i ->
  (2 * p + 1 < k)%nat -> (k < n - p - 1)%nat ->
  vals_at vals (ukk (i - 1)) (x (i - 1)%nat) -> vals_at vals k (x i).
Proof.
  intros U H1 H2 Ek L1 L2 (Lv & V). destruct (Hu U) as (Hdx & Xi & Ti). pose proof (half_cases p) as HC.
  assert (Ei : k = (i + (p + 1) / 2)%nat).
  { unfold ukk in Ek. destruct (Nat.ltb_spec (p / 2) i); lia. }
  assert (Ek1 : ukk (i - 1) = (k - 1)%nat).
  { unfold ukk. destruct (Nat.ltb_spec (p / 2) (i - 1)); lia. }
  split; auto. intros a Ha. rewrite V by auto. rewrite Ek1.
  assert (Ex : x i = x (i - 1)%nat + dx).
  { rewrite (Xi i), (Xi (i - 1)%nat). rewrite minus_INR by lia. simpl. ring. }
  rewrite Ex. symmetry.
  replace k with (k - 1 + 1)%nat at 1 by lia. replace (k - p + a)%nat with (k - 1 - p + a + 1)%nat by lia.
  apply piece_shift. intros i' Hi'. rewrite !ap_TT by lia. rewrite !Ti by lia. rewrite plus_INR. simpl. ring.
Qed.

Lemma uniform_row i st (U : u = true) : (1 <= i)%nat -> (i + 1 < n)%nat -> Inv i st ->
  exists st', coef_row Rops on s d u dx coords n i st = Ok st' /\ Inv (i + 1) st'.
Proof.
  intros H1 H2 (I & G & Z & V). destruct st as [sv vals]. cbn [fst snd] in *. specialize (V U).
  destruct (Hu U) as (Hdx & Xi & Ti). unfold coef_row.
  rewrite Ep, E1. cbn [bind]. rewrite E2. cbn [bind]. rewrite E3. cbn [bind]. rewrite usub_ok by lia. cbn [bind].
  destruct (Nat.eqb_spec i 0); [lia|]. destruct (Nat.eqb_spec i (n - 1)); [lia|]. cbn [negb andb orb].
  pose proof (half_cases p) as HC.
  set (int := ((p / 2 <? i) && (i <? n - p / 2 - 1))%nat).
  replace (if (p / 2 <? i)%nat then a <- usub n (p / 2) ;; a0 <- usub a 1 ;; Ok (i <? a0)%nat else Ok false) with (Ok int).
  2:{ unfold int. destruct (p / 2 <? i)%nat; auto. rewrite usub_ok by lia. cbn [bind]. rewrite usub_ok by lia. auto. }
  cbn [bind]. rewrite U. rewrite ap_Klen.
  rewrite (usub_ok (n + p + 1) p) by lia. cbn [bind]. rewrite usub_ok by lia. cbn [bind].
  replace (n + p + 1 - p - 2)%nat with (n - 1)%nat by lia.
  change (Nat.min (n - 1) (if (p / 2 <? i)%nat then (i + (p + 1) / 2)%nat else p)) with (ukk i).
  pose proof (ukk_seg i U H1 H2) as RS.
  assert (Kr : (p <= ukk i <= n - 1)%nat) by apply RS.
  set (k := ukk i) in *.
  rewrite Erg. cbn [onat oadd omul Rops].
  replace (x 0%nat + INR i * dx) with (x i) by (rewrite (Xi i); auto).
  set (out := ((k <=? 2 * p + 1) || (n - p - 1 <=? k))%nat).
  replace (if (k <=? 2 * p + 1)%nat then Ok true else b <- usub (n + p + 1) (2 * p) ;; b0 <- usub b 2 ;; Ok (b0 <=? k)%nat) with (Ok out).
  2:{ unfold out. destruct (Nat.leb_spec k (2 * p + 1)); auto. rewrite usub_ok by lia. cbn [bind]. rewrite usub_ok by lia.
      cbn [bind orb]. do 2 f_equal. lia. }
  cbn [bind].
  assert (W : exists vals', (if out then vals0 <- base_spline_value Rops p K k (x i) p ;; Ok (k, vals0) else Ok (k, vals)) = Ok (k, vals') /\ vals_at vals' k (x i)).
  { destruct (bsv_vals k (x i) Kr) as (b & Eb & Vb). destruct out eqn:Eo.
    - rewrite Eb. cbn [bind]. eauto.
    - exists vals. split; auto. unfold out in Eo. apply orb_false_iff in Eo. destruct Eo as [O1 O2].
      apply Nat.leb_gt in O1. apply Nat.leb_gt in O2.
      assert (2 <= i)%nat.
      { unfold k, ukk in O1. destruct (Nat.ltb_spec (p / 2) i); lia. }
      apply (vals_step i); auto. apply V. lia. }
  destruct W as (vals' & -> & Vv). cbn [bind].
  set (s_num := if (p =? 1)%nat then 1%nat else if (true && int)%bool then (p + (1 - p mod 2))%nat else (p + 1)%nat).
  destruct (ap_fill i sv k vals' s_num) as (sv' & E & I' & G' & A); auto.
  - intros j. apply Z. lia.
  - unfold s_num. intros Q1. destruct (Nat.eqb_spec p 1); lia.
  - unfold s_num. intros. destruct (Nat.eqb_spec p 1); [lia|]. destruct int; cbn [andb]; lia.
  - unfold s_num. intros Np. destruct (Nat.eqb_spec p 1); [lia|]. destruct int eqn:Ei; cbn [andb]; [|lia].
    intros Es. unfold int in Ei. apply andb_true_iff in Ei. destruct Ei as [I1 I2].
    apply Nat.ltb_lt in I1. apply Nat.ltb_lt in I2.
    assert (p mod 2 = 1)%nat by lia.
    split; [apply ukk_internal; auto|lia].
  - rewrite E. cbn [bind]. eexists. split; [reflexivity|]. unfold Inv. cbn [fst snd].
    split; auto. split; [|split].
    + intros r Hr. destruct (Nat.eq_dec r i) as [->|Ne]; auto.
      destruct (G r ltac:(lia)) as (kr & Sr & Br). exists kr. split; auto. intros. rewrite A by auto. auto.
    + intros r j Hr. rewrite A by lia. apply Z. lia.
    + intros _ _. replace (i + 1 - 1)%nat with i by lia. auto.
Qed.

Lemma points_row i st (U : u = false) : (1 <= i)%nat -> (i + 1 < n)%nat -> Inv i st ->
  exists st', coef_row Rops on s d u dx coords n i st = Ok st' /\ Inv (i + 1) st'.
Proof.
  intros H1 H2 (I & G & Z & V). destruct st as [sv vals]. cbn [fst snd] in *.
  destruct (Hnu U) as (P1 & Lc & Nc). unfold coef_row.
  rewrite Ep, E1. cbn [bind]. rewrite E2. cbn [bind]. rewrite E3. cbn [bind]. rewrite usub_ok by lia. cbn [bind].
  destruct (Nat.eqb_spec i 0); [lia|]. destruct (Nat.eqb_spec i (n - 1)); [lia|]. cbn [negb andb orb].
  pose proof (half_cases p) as HC.
  set (int := ((p / 2 <? i) && (i <? n - p / 2 - 1))%nat).
  replace (if (p / 2 <? i)%nat then a <- usub n (p / 2) ;; a0 <- usub a 1 ;; Ok (i <? a0)%nat else Ok false) with (Ok int).
  2:{ unfold int. destruct (p / 2 <? i)%nat; auto. rewrite usub_ok by lia. cbn [bind]. rewrite usub_ok by lia. auto. }
  cbn [bind]. rewrite U. rewrite (vget_ok coords i 0) by lia. rewrite Nc by lia. cbn [bind].
  rewrite Lc. rewrite usub_ok by lia. cbn [bind]. destruct (Nat.eqb_spec i (n - 1)); [lia|].
  rewrite ap_Klen.
  rewrite (usub_ok (n + p + 1) p) by lia. cbn [bind]. rewrite usub_ok by lia. cbn [bind].
  replace (n + p + 1 - p - 1)%nat with n by lia.
  destruct (nu_seg i U H1 H2) as (k & Ek & RS). rewrite Ek. cbn [bind snd].
  assert (Kr : (p <= k <= n - 1)%nat) by apply RS.
  destruct (bsv_vals k (x i) Kr) as (b & Eb & Vb). rewrite Eb. cbn [bind andb].
  set (s_num := if (p =? 1)%nat then 1%nat else (p + 1)%nat).
  destruct (ap_fill i sv k b s_num) as (sv' & E & I' & G' & A); auto.
  - intros j. apply Z. lia.
  - unfold s_num. intros Q1. destruct (Nat.eqb_spec p 1); lia.
  - unfold s_num. intros. destruct (Nat.eqb_spec p 1); lia.
  - unfold s_num. intros Np. destruct (Nat.eqb_spec p 1); lia.
  - rewrite E. cbn [bind]. eexists. split; [reflexivity|]. unfold Inv. cbn [fst snd].
    split; auto. split; [|split].
    + intros r Hr. destruct (Nat.eq_dec r i) as [->|Ne]; auto.
      destruct (G r ltac:(lia)) as (kr & Sr & Br). exists kr. split; auto. intros. rewrite A by auto. auto.
    + intros r j Hr. rewrite A by lia. apply Z. lia.
    + rewrite U. discriminate.
Qed.

Lemma end_row i st : (i = 0 \/ i + 1 = n)%nat -> Inv i st ->
  exists st', coef_row Rops on s d u dx coords n i st = Ok st' /\ Inv (i + 1) st'.
Proof.
  intros H (I & G & Z & V). destruct st as [sv vals]. cbn [fst snd] in *. unfold coef_row.
  rewrite Ep, E1. cbn [bind]. rewrite E2. cbn [bind]. rewrite E3. cbn [bind]. rewrite usub_ok by lia. cbn [bind negb].
  replace ((i =? 0) || (i =? n - 1))%nat with true by (destruct (Nat.eqb_spec i 0), (Nat.eqb_spec i (n - 1)); cbn [orb]; auto; lia).
  cbn [andb].
  destruct (coef_set_ok on false n (bw_of p false) sv i i 1 I) as (sv' & E & I' & A).
  { cbn [sdom]. unfold in_band. lia. }
  change (o1 Rops) with 1. rewrite E. cbn [bind]. eexists. split; [reflexivity|]. unfold Inv. cbn [fst snd]. split; auto.
  split; [|split].
  - intros r Hr. destruct (Nat.eq_dec r i) as [->|Ne].
    + destruct H as [->|H].
      * exists p. split.
        { split; [lia|]. split; [apply ap_TTstrict; lia|]. split; auto.
          right. rewrite ap_TT by lia. fold t.
          replace (x 0%nat) with (t p) by (unfold t; rewrite ap_lo by lia; auto). rewrite <- !ap_TT by lia. apply ap_TTstrict. lia. }
        { intros j Hj. rewrite A, Bmat_first by auto. rewrite Nat.eqb_refl. cbn [andb].
          destruct (j =? 0)%nat; auto. apply Z. lia. }
      * exists (n - 1)%nat. replace i with (n - 1)%nat by lia. split.
        { split; [lia|]. split; [apply ap_TTstrict; lia|]. split; auto.
          right. replace (x (n - 1)%nat) with (t n) by (unfold t; rewrite ap_hi by lia; auto).
          rewrite <- ap_TT by lia. apply ap_Tmono. lia. }
        { intros j Hj. rewrite A, Bmat_last by auto. replace (n - 1 =? i)%nat with true by (symmetry; apply Nat.eqb_eq; lia).
          cbn [andb]. replace i with (n - 1)%nat by lia. destruct (j =? n - 1)%nat; auto. apply Z. lia. }
    + destruct (G r ltac:(lia)) as (kr & Sr & Br). exists kr. split; auto. intros. rewrite A.
      destruct (Nat.eqb_spec r i); [contradiction|]. cbn [andb]. auto.
  - intros r j Hr. rewrite A. destruct (Nat.eqb_spec r i); [lia|]. apply Z. lia.
  - intros U Hi. lia.
Qed.

Lemma ap_matrix sv cache : sinv false n (bw_of p false) sv -> (forall i j, sabs sv i j = 0) ->
  exists st, for_ 0 n (sv, cache) (fun st i => coef_row Rops on s d u dx coords n i st) = Ok st /\
  sinv false n (bw_of p false) (fst st) /\ forall i, (i < n)%nat -> row_good (fst st) i.
Proof.
  intros I Z.
  destruct (for_inv Inv 0 n (sv, cache) (fun st i => coef_row Rops on s d u dx coords n i st)) as (st & E & (I' & G & _)).
  - lia.
  - split; auto. split; [intros; lia|]. split; [intros; apply Z|]. intros; lia.
  - intros i st Hi HI. replace (S i) with (i + 1)%nat by lia.
    destruct (Nat.eq_dec i 0); [apply end_row; auto|]. destruct (Nat.eq_dec (i + 1) n); [apply end_row; auto|].
    destruct (Bool.bool_dec u true) as [U|U]; [apply uniform_row|apply points_row]; auto; try lia.
    destruct u; congruence.
  - exists st. auto.
Qed.
End ApCoef.

(** ** Periodic dimensions *)
Section PerCoef.
Variables (on : bool) (s : spline R) (d p n : nat) (x : nat -> R) (u : bool) (dx : R) (coords : list R) (rg : R * R).
Let P := x n - x 0%nat.
Let t := per_knot p n P x.
Let len := (n + 2 * p + 1 + (1 - p mod 2))%nat.
Let K := map t (seq 0 len).
Hypothesis Ep : sp_order s = p.
Hypothesis E1 : vget (sp_per s) d = Ok true.
Hypothesis E2 : vget (sp_knots s) d = Ok K.
Hypothesis E3 : vget (sp_range s) d = Ok rg.
Hypothesis Hx : increasing (n + 1) x.
Hypothesis Hp : (p + 1 <= n)%nat.
Hypothesis Hu : u = true -> 0 < dx /\ (forall i, x i = x 0%nat + INR i * dx) /\
  (forall i, t i = x 0%nat + (INR i - INR p - (if Nat.even p then / 2 else 0)) * dx).
Hypothesis Hnu : u = false -> length coords = (n + 1)%nat /\ forall i, (i < n)%nat -> nth i coords 0 = x i.

Let TT := kn K.
Let bw := (p / 2)%nat.

Lemma per_TT i : (i < len)%nat -> TT i = t i.
Proof using Type. clear -TT. intros. unfold TT, K. apply kn_map. auto. Qed.
Lemma per_Klen : length K = len.
Proof using Type. clear -TT. unfold K. rewrite map_length, seq_length. auto. Qed.
Lemma per_TTstrict i j : (i < j < len)%nat -> TT i < TT j.
Proof using Hx Hp. clear -Hx Hp TT bw. intros. rewrite !per_TT by lia. apply per_strict; auto; lia. Qed.
Lemma per_Knd : nondecreasing K.
Proof using Hx Hp. clear -Hx Hp TT bw.
  intros i j Hij. rewrite per_Klen in Hij. fold TT. destruct (Nat.eq_dec i j) as [->|]; [lra|].
  left. apply per_TTstrict. lia.
Qed.

Definition pvals_at (vals : list R) (i : nat) : Prop :=
  length vals = (p + 1)%nat /\ forall a, (a <= p)%nat -> nth a vals 0 = piece TT (i + p) p (i + p - p + a) (x i).

Lemma per_bsv i y : (i < n)%nat -> y = x i -> exists b, base_spline_value Rops p K (i + p) y p = Ok b /\ pvals_at b i.
Proof using Hx Hp. clear -Hx Hp TT bw.
  intros Hi ->. destruct (base_spline_value_ok p K (i + p) per_Knd ltac:(lia)) with (x := x i) (so := p) as (b & E & L & _ & V).
  - rewrite per_Klen. unfold len. lia.
  - rewrite per_Klen. unfold len. lia.
  - fold TT. apply per_TTstrict. unfold len. lia.
  - lia.
  - exists b. split; auto. split; auto. intros a Ha. rewrite <- V by auto. f_equal. lia.
Qed.

Lemma per_cache : exists cache, coef_cache Rops s d u dx = Ok cache /\
  (u = true -> pvals_at cache 0).
Proof.
  unfold coef_cache. rewrite Ep, E1. cbn [bind andb].
  destruct (Bool.bool_dec u true) as [U|U]; [rewrite U|apply not_true_is_false in U; rewrite U].
  - destruct (Hu U) as (Hdx & Xi & Ti). rewrite E2. cbn [bind].
    rewrite (vget_ok K p 0) by (rewrite per_Klen; unfold len; lia). cbn [bind].
    destruct (per_bsv 0 (oadd Rops (nth p K 0) (omul Rops (omul Rops (onat Rops (1 - p mod 2)) dx) (ohalf Rops)))) as (b & E & V).
    + lia.
    + fold (kn K p). fold TT. rewrite per_TT by (unfold len; lia). rewrite Ti.
      cbn [oadd omul onat ohalf Rops].
      rewrite even_mod2. destruct (half_cases p) as [(_ & _ & ->)|(_ & _ & ->)]; simpl; lra.
    + cbn [Nat.add] in E. rewrite E. eauto.
  - exists []. split; auto. discriminate.
Qed.

Lemma pvals_shift vals i : u = true -> (i < n)%nat -> pvals_at vals 0 -> pvals_at vals i.
Proof.
  intros U Hi (L & V). destruct (Hu U) as (Hdx & Xi & Ti). split; auto. intros a Ha. rewrite V by auto.
  replace (x i) with (x 0%nat + INR i * dx) by (rewrite (Xi i); auto). cbn [Nat.add]. rewrite (Nat.add_comm i p).
  replace (p + i - p + a)%nat with (p - p + a + i)%nat by lia. symmetry. apply piece_shift.
  intros i' Hi'. rewrite !per_TT by (unfold len; lia). rewrite !Ti. rewrite plus_INR. ring.
Qed.

Definition prow_good (sv : solver R) (i : nat) : Prop :=
  forall j, (j < n)%nat -> sabs sv ((i + bw) mod n) j = Bmat TT p n (i + p) (x i) j.

Lemma per_seg i : (i < n)%nat -> segment TT p (n + p - 1 + (1 - p mod 2)) (x i) (i + p).
Proof using Hx Hp. clear -Hx Hp TT bw.
  intros Hi. pose proof (per_at p n x Hx Hp i ltac:(lia)) as A. fold P t in A.
  unfold segment. rewrite !per_TT by (unfold len; lia). split; [lia|]. split; [lra|]. split; right; lra.
Qed.

Definition PInv (i : nat) (st : solver R * list R) : Prop :=
  sinv true n bw (fst st) /\
  (forall r, (r < i)%nat -> prow_good (fst st) r) /\
  (forall r j, (i <= r < n)%nat -> sabs (fst st) ((r + bw) mod n) j = 0) /\
  (u = true -> pvals_at (snd st) 0).

Lemma per_dom i a : (i < n)%nat -> (a < p + (1 - p mod 2))%nat ->
  sdom true n bw ((i + bw) mod n) ((i + a) mod n).
Proof.
  intros Hi Ha. pose proof (half_cases p) as HC. cbn [sdom]. unfold in_ext, in_band.
  assert (B : (2 * bw + 1 = p + (1 - p mod 2))%nat) by (unfold bw; lia).
  assert (M : forall z, (z < 2 * n)%nat -> ((z mod n = z /\ z < n) \/ (z mod n = z - n /\ n <= z))%nat).
  { intros z Hz. destruct (Nat.lt_ge_cases z n).
    - left. rewrite Nat.mod_small by auto. auto.
    - right. split; auto. replace z with (z - n + 1 * n)%nat at 1 by lia. rewrite Nat.mod_add by lia. apply Nat.mod_small. lia. }
  destruct (M (i + bw)%nat ltac:(lia)), (M (i + a)%nat ltac:(lia)); lia.
Qed.

Lemma per_row i st : (i < n)%nat -> PInv i st ->
  exists st', coef_row Rops on s d u dx coords n i st = Ok st' /\ PInv (i + 1) st'.
Proof.
  intros Hi (I & G & Z & V). destruct st as [sv vals]. cbn [fst snd] in *. unfold coef_row.
  rewrite Ep, E1. cbn [bind]. rewrite E2. cbn [bind]. rewrite E3. cbn [bind]. rewrite usub_ok by lia. cbn [bind negb andb].
  pose proof (half_cases p) as HC.
  set (int := ((p / 2 <? i) && (i <? n - p / 2 - 1))%nat).
  replace (if (p / 2 <? i)%nat then a <- usub n (p / 2) ;; a0 <- usub a 1 ;; Ok (i <? a0)%nat else Ok false) with (Ok int).
  2:{ unfold int. destruct (p / 2 <? i)%nat; auto. rewrite usub_ok by lia. cbn [bind]. rewrite usub_ok by lia. auto. }
  cbn [bind].
  set (X := if u then Ok (i + p, vals)%nat else _).
  assert (W : exists vals', X = Ok ((i + p)%nat, vals') /\ pvals_at vals' i /\ (u = true -> vals' = vals)).
  { unfold X. destruct (Bool.bool_dec u true) as [U|U]; [rewrite U|apply not_true_is_false in U; rewrite U].
    - exists vals. split; auto. split; auto. apply pvals_shift; auto.
    - destruct (Hnu U) as (Lc & Nc). rewrite (vget_ok coords i 0) by lia. rewrite Nc by lia. cbn [bind].
      destruct (per_bsv i (x i) Hi eq_refl) as (b & Eb & Vb). rewrite Eb. cbn [bind]. exists b. split; auto. split; auto. discriminate. }
  destruct W as (vals' & -> & (Lv & Vv) & Ev). cbn [bind].
  set (s_num := (p + (1 - p mod 2))%nat).
  destruct (fill_row on true n bw sv ((i + bw) mod n) i vals' s_num
    (fun m j => row <- umod (i + p / 2) n ;; c <- usub (i + p) p ;; col <- umod (c + j) n ;; v <- vget vals' j ;; coef_set on m row col v))
    as (sv' & E & I' & A & B & C); auto.
  - unfold s_num. lia.
  - unfold s_num. lia.
  - intros a Ha. apply per_dom; auto.
  - intros m j Hj. rewrite umod_ok by lia. cbn [bind]. rewrite usub_ok by lia. cbn [bind].
    rewrite umod_ok by lia. cbn [bind]. rewrite (vget_ok _ _ 0) by (unfold s_num in Hj; lia). cbn [bind].
    replace (i + p - p + j)%nat with (i + j)%nat by lia. reflexivity.
  - rewrite E. cbn [bind]. eexists. split; [reflexivity|]. unfold PInv. cbn [fst snd].
    assert (Ne : forall r, (r < n)%nat -> r <> i -> ((r + bw) mod n <> (i + bw) mod n)%nat).
    { intros r Hr Hne Em. rewrite (Nat.add_comm r), (Nat.add_comm i) in Em. apply mod_inj in Em; auto. }
    split; auto. split; [|split].
    + intros r Hr. destruct (Nat.eq_dec r i) as [->|Hne].
      * intros j Hj. apply (row_Bmat TT p n (i + p) (x i) (sabs sv' ((i + bw) mod n)) vals' s_num); auto; try lia.
        { intros a Ha. unfold s_num in Ha.
          assert (a = p /\ (p mod 2 = 1)%nat /\ (1 <= p)%nat) as (-> & Hodd & P1) by lia.
          replace (i + p - p + p)%nat with (i + p)%nat by lia.
          replace (x i) with (TT (i + p)%nat). apply piece_left_end; auto.
          rewrite per_TT by (unfold len; lia). unfold t, P. apply per_at_odd; auto; [|lia]. rewrite even_mod2, Hodd. auto. }
        { intros a Ha. replace (i + p - p + a)%nat with (i + a)%nat by lia. apply B. auto. }
        { intros j' Hj'. rewrite C.
          - apply Z. lia.
          - intros a Ha. specialize (Hj' a Ha). replace (i + p - p + a)%nat with (i + a)%nat in Hj' by lia. auto. }
      * intros j Hj. rewrite A by (apply Ne; lia). apply G; lia.
    + intros r j Hr. rewrite A by (apply Ne; lia). apply Z. lia.
    + intros U. rewrite (Ev U). auto.
Qed.

Lemma per_matrix sv cache : sinv true n bw sv -> (forall i j, sabs sv i j = 0) ->
  (u = true -> pvals_at cache 0) ->
  exists st, for_ 0 n (sv, cache) (fun st i => coef_row Rops on s d u dx coords n i st) = Ok st /\
    sinv true n bw (fst st) /\ forall i, (i < n)%nat -> prow_good (fst st) i.
Proof.
  intros I Z V.
  destruct (for_inv PInv 0 n (sv, cache) (fun st i => coef_row Rops on s d u dx coords n i st)) as (st & E & (I' & G & _)).
  - lia.
  - split; auto. split; [intros; lia|]. split; auto.
  - intros i st Hi HI. replace (S i) with (i + 1)%nat by lia. apply per_row; auto. lia.
  - exists st. auto.
Qed.
End PerCoef.
