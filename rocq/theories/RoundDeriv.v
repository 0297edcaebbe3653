(** Control points of a derivative in rounded arithmetic. *)
From Coq Require Import List Arith Lia Bool ZArith Reals Lra Psatz.
From Verif Require Import Base Num MeshM SplineM SpecMesh SpecBand SpecSpline SpecSplineObj SpecRound MeshProofs SumR MulProofs
  SplineProofs TensorR BasisProofs EvalProofs EvalR DerivProofs DerivLoops RoundSpline.
Import ListNotations.
Local Open Scope R_scope.

Lemma foldM_down {X} (I : nat -> X -> Prop) (f : X -> nat -> res X) lo n s :
  I (lo + n)%nat s ->
  (forall i s, (lo <= i < lo + n)%nat -> I (i + 1)%nat s -> exists s', f s i = Ok s' /\ I i s') ->
  exists s', foldM f (rev (seq lo n)) s = Ok s' /\ I lo s'.
Proof.
  revert s; induction n; intros s H0 Hst.
  - cbn [seq rev foldM]. rewrite Nat.add_0_r in H0. eauto.
  - rewrite seq_S, rev_app_distr. cbn [rev app foldM].
    destruct (Hst (lo + n)%nat s) as (s1 & E1 & H1); [lia| |].
    { replace (lo + n + 1)%nat with (lo + S n)%nat by lia. auto. }
    rewrite E1. cbn [bind]. apply IHn; auto. intros; apply Hst; auto; lia.
Qed.

Section Round.
Context {T : Type} (o : ops T) (val : T -> R) (good : T -> Prop) (u eta big : R).
Context (RD : rounding o val good u eta big).
Let z := o0 o.

(** [fl(fl(k*fl(a-b))/fl(r-l))] against [k*(A-B)/(r-l)]. *)
Lemma dterm_round a b kk tr tl Ea Eb B e k G L g :
  good a -> good b -> good kk -> good tr -> good tl -> val kk = INR k ->
  G = val tr - val tl -> 0 < g -> g <= G -> G <= big / 4 -> 2 * INR k <= L * G ->
  Rabs Ea <= B -> Rabs Eb <= B -> Rabs (val a - Ea) <= e -> Rabs (val b - Eb) <= e ->
  2 * (B + e) <= big -> INR k * (2 * (B + e) * (1 + u)) <= big ->
  (1 + 5 * u) * (L * (B + e)) + (eta * (17/15) / g + eta) <= big ->
  exists v, odiv o (omul o kk (osub o a b)) (osub o tr tl) = Ok v /\ good v /\
    Rabs (val v - INR k * (Ea - Eb) / G) <= (1 + 5 * u) * (L * e) + 5 * u * (L * B) + (eta * (17/15) / g + eta).
Proof using RD.
  intros Ga Gb Gk Gr Gl Vk EG Hg Hg1 Hg2 HL HA HB Hea Heb Hb1 Hb2 Hb3.
  pose proof RD as [[u0 u1] e0 B16 _ _ _ RS RM RV _ _].
  pose proof (pos_INR k) as Pk.
  assert (PB : 0 <= B) by (eapply Rle_trans; [apply Rabs_pos|apply HA]).
  assert (Pe : 0 <= e) by (eapply Rle_trans; [apply Rabs_pos|apply Hea]).
  assert (PL : 0 <= L). { apply Rmult_le_reg_r with G; lra. }
  pose proof (Rabs_bounds _ _ HA) as IA. pose proof (Rabs_bounds _ _ HB) as IB.
  pose proof (Rabs_bounds _ _ Hea) as Ja. pose proof (Rabs_bounds _ _ Heb) as Jb.
  assert (Hab : Rabs (val a - val b) <= 2 * (B + e)) by (apply bounds_Rabs; lra).
  destruct (RS a b Ga Gb) as [Gs Es]; [lra|]. apply rel_form in Es as (d1 & H1 & Es); auto.
  destruct (RS tr tl Gr Gl) as [Gd Ed]. { rewrite <- EG. apply bounds_Rabs. lra. }
  rewrite <- EG in Ed. apply rel_form in Ed as (d2 & H2 & Ed); auto.
  pose proof (Rabs_bounds _ _ H1) as I1. pose proof (Rabs_bounds _ _ H2) as I2.
  destruct (RM kk (osub o a b) Gk Gs) as [Gm Em].
  { rewrite Vk, Es, !Rabs_mult, (Rabs_pos_eq (INR k)), (Rabs_pos_eq (1 + d1)) by lra.
    eapply Rle_trans; [|apply Hb2]. apply Rmult_le_compat_l; auto. apply Rmult_le_compat; auto using Rabs_pos; lra. }
  apply err_form in Em as (d3 & h3 & H3 & K3 & Em); auto.
  pose proof (Rabs_bounds _ _ H3) as I3.
  assert (Dp : 0 < val (osub o tr tl)) by (rewrite Ed; apply Rmult_lt_0_compat; lra).
  set (x := INR k * (val a - val b) / G). set (y := INR k * (Ea - Eb) / G).
  assert (KG : 0 <= INR k / G /\ 2 * (INR k / G) <= L).
  { split; [apply Rmult_le_pos; auto; apply Rlt_le, Rinv_0_lt_compat; lra|]. apply Rmult_le_reg_r with G; [lra|].
    replace (2 * (INR k / G) * G) with (2 * INR k) by (field; lra). auto. }
  destruct KG as [KG0 KG].
  assert (Hy : Rabs y <= L * B).
  { unfold y. replace (INR k * (Ea - Eb) / G) with (INR k / G * (Ea - Eb)) by (field; lra). rewrite Rabs_mult, (Rabs_pos_eq _ KG0).
    apply Rle_trans with (INR k / G * (2 * B)); [apply Rmult_le_compat_l; auto; apply bounds_Rabs; lra|]. nra. }
  assert (Hxy : Rabs (x - y) <= L * e).
  { unfold x, y. replace (INR k * (val a - val b) / G - INR k * (Ea - Eb) / G) with (INR k / G * ((val a - Ea) - (val b - Eb))) by (field; lra). rewrite Rabs_mult, (Rabs_pos_eq _ KG0).
    apply Rle_trans with (INR k / G * (2 * e)); [apply Rmult_le_compat_l; auto; apply bounds_Rabs; lra|]. nra. }
  assert (Hx : Rabs x <= L * (B + e)).
  { replace x with (y + (x - y)) by ring. eapply Rle_trans; [apply Rabs_triang|]. lra. }
  assert (Q : val (omul o kk (osub o a b)) / val (osub o tr tl) = x * ((1 + d1) * (1 + d3) / (1 + d2)) + h3 / (G * (1 + d2))).
  { rewrite Em, Es, Ed, Vk. unfold x. field. lra. }
  assert (Hh : Rabs (h3 / (G * (1 + d2))) <= eta * (16/15) / g).
  { unfold Rdiv. rewrite Rabs_mult, Rabs_inv, (Rabs_pos_eq (G * (1 + d2))) by nra. rewrite Rmult_assoc. apply Rmult_le_compat; auto using Rabs_pos.
    - apply Rlt_le, Rinv_0_lt_compat. nra.
    - replace (16 * / 15 * / g) with (/ ((15/16) * g)) by (field; lra). apply Rinv_le_contravar; nra. }
  assert (Eg0 : 0 <= eta / g) by (apply Rmult_le_pos; auto; apply Rlt_le, Rinv_0_lt_compat; auto).
  assert (T1 : Rabs ((1 + d1) * (1 + d3) / (1 + d2)) <= 1 + 5 * u).
  { pose proof (theta_bound u d1 d2 d3 0 (conj u0 u1) H1 H2 H3 ltac:(rewrite Rabs_R0; lra)) as Bd. rewrite Rplus_0_r, Rmult_1_r in Bd. apply Rabs_bounds in Bd. apply bounds_Rabs. lra. }
  destruct (RV (omul o kk (osub o a b)) (osub o tr tl) Gm Gd) as (c & Ec & Gc & Vc); [lra| |].
  { rewrite Q. eapply Rle_trans; [apply Rabs_triang|]. rewrite Rabs_mult.
    assert (Rabs x * Rabs ((1 + d1) * (1 + d3) / (1 + d2)) <= L * (B + e) * (1 + 5 * u)) by (apply Rmult_le_compat; auto using Rabs_pos).
    replace (eta * (16/15) / g) with (16/15 * (eta / g)) in Hh by (unfold Rdiv; ring). replace (eta * (17/15) / g) with (17/15 * (eta / g)) in Hb3 by (unfold Rdiv; ring). lra. }
  exists c. split; auto. split; auto.
  apply err_form in Vc as (d4 & h4 & H4 & K4 & Vc); auto.
  pose proof (Rabs_bounds _ _ H4) as I4.
  set (th := (1 + d1) * (1 + d3) * (1 + d4) / (1 + d2) - 1).
  pose proof (theta_bound u d1 d2 d3 d4 (conj u0 u1) H1 H2 H3 H4) as TH. fold th in TH.
  fold y. replace (val c - y) with ((x - y) * (1 + th) + y * th + (h3 / (G * (1 + d2)) * (1 + d4) + h4)).
  2:{ rewrite Vc, Q. unfold th. field. split; lra. }
  assert (PLe : 0 <= L * e) by (apply Rmult_le_pos; auto). assert (PLB : 0 <= L * B) by (apply Rmult_le_pos; auto).
  eapply Rle_trans; [apply Rabs_triang|]. apply Rplus_le_compat.
  - eapply Rle_trans; [apply Rabs_triang|]. apply Rplus_le_compat.
    + rewrite Rabs_mult, Rmult_comm. apply Rmult_le_compat; auto using Rabs_pos. apply Rabs_bounds in TH. apply bounds_Rabs. lra.
    + rewrite Rabs_mult, Rmult_comm. apply Rmult_le_compat; auto using Rabs_pos.
  - eapply Rle_trans; [apply Rabs_triang|]. apply Rplus_le_compat; auto. rewrite Rabs_mult.
    replace (eta * (17/15) / g) with (eta * (16/15) / g * (17/16)) by (field; lra). apply Rmult_le_compat; auto using Rabs_pos. apply bounds_Rabs. lra.
Qed.

(** Errors after [a] levels: relative [gam a], absolute [omg a]. *)
Section Levels.
Variables (order : nat) (g Lam M : R).
Hypothesis Hg0 : 0 < g.
Hypothesis HLam : 1 <= Lam.
Definition hlev : R := eta * (17/15) / g + eta.
Definition gam (a : nat) : R := (1 + 5 * u) ^ a - 1.
Definition omg (a : nat) : R := INR a * hlev * ((1 + 5 * u) * Lam) ^ a.

Lemma hlev_pos : 0 <= hlev.
Proof using All.
  destruct RD as [[u0 u1] e0 _ _ _ _ _ _ _ _ _]. unfold hlev. apply Rplus_le_le_0_compat; auto. apply Rmult_le_pos; [lra|apply Rlt_le, Rinv_0_lt_compat; auto].
Qed.
Lemma gam_S a : 1 + gam (S a) = (1 + 5 * u) * (1 + gam a).
Proof. unfold gam. cbn [pow]. ring. Qed.
Lemma gam_pos a : 0 <= gam a.
Proof using All. destruct RD as [[u0 u1] _ _ _ _ _ _ _ _ _ _]. unfold gam. pose proof (pow_R1_Rle (1 + 5 * u) a ltac:(lra)). lra. Qed.
Lemma gam_le a : gam a <= gam (S a).
Proof using All. destruct RD as [[u0 u1] _ _ _ _ _ _ _ _ _ _]. pose proof (gam_S a). pose proof (gam_pos a). nra. Qed.
Lemma q_1 : 1 <= (1 + 5 * u) * Lam.
Proof using All. destruct RD as [[u0 u1] _ _ _ _ _ _ _ _ _ _]. nra. Qed.
Lemma omg_S a : Lam * ((1 + 5 * u) * omg a) + hlev <= omg (S a).
Proof using All.
  unfold omg. rewrite S_INR. cbn [pow]. pose proof hlev_pos. pose proof q_1 as Q. pose proof (pow_R1_Rle _ (S a) Q) as QS. cbn [pow] in QS.
  set (q := (1 + 5 * u) * Lam) in *. set (qa := q ^ a) in *.
  replace (Lam * ((1 + 5 * u) * (INR a * hlev * qa))) with (INR a * hlev * (q * qa)) by (unfold q; ring).
  assert (0 <= hlev * (q * qa - 1)) by (apply Rmult_le_pos; lra). lra.
Qed.
Lemma omg_pos a : 0 <= omg a.
Proof using All. unfold omg. pose proof q_1. apply Rmult_le_pos; [apply Rmult_le_pos; [apply pos_INR|apply hlev_pos]|apply pow_le; lra]. Qed.
Lemma omg_le a : omg a <= omg (S a).
Proof using All.
  pose proof (omg_S a). pose proof (omg_pos a). pose proof hlev_pos. destruct RD as [[u0 u1] _ _ _ _ _ _ _ _ _ _].
  assert (omg a <= Lam * ((1 + 5 * u) * omg a)); [|lra].
  assert (0 <= 5 * u * omg a) by (apply Rmult_le_pos; lra). assert (0 <= (Lam - 1) * ((1 + 5 * u) * omg a)) by (apply Rmult_le_pos; [lra|apply Rmult_le_pos; lra]). lra.
Qed.

(** One line. *)
Section Line.
Variables (knots : list T) (seg : nat) (L : R).
Let t := kn (map val knots).
Hypothesis Hnat : forall k, (k <= order)%nat -> good (onat o k) /\ val (onat o k) = INR k.
Hypothesis Hgk : forall i, (i < length knots)%nat -> good (nth i knots z).
Hypothesis Hnd : nondecreasing (map val knots).
Hypothesis Hko : (order <= seg)%nat.
Hypothesis Hlen : (seg + order + 1 < length knots)%nat.
Hypothesis Hg : g <= t (seg + 1)%nat - t seg.
Hypothesis HL : 2 * INR order <= L * (t (seg + 1)%nat - t seg).
Hypothesis HL0 : 0 <= L <= Lam.
Hypothesis Hwide : t (seg + order)%nat - t (seg - order)%nat <= big / 4.
Hypothesis HM : INR (order + 1) * (4 * M) <= big.

Lemma tl_val i : t i = val (nth i knots z).
Proof using RD. unfold t, kn. destruct (rd_0 _ _ _ _ _ _ RD) as [_ E]. fold z in E. rewrite <- E. apply map_nth. Qed.

(** A computed value within the bounds of [E] after [a] levels, [i] of them on this line at this position. *)
Definition near (a i : nat) (B : R) (v : T) (E : R) : Prop :=
  good v /\ Rabs E <= B * L ^ i /\ Rabs (val v - E) <= gam a * (B * L ^ i) + omg a.

Lemma near_mono a i B v E : 0 <= B -> near a i B v E -> near (S a) i B v E.
Proof using All.
  intros HB (A1 & A2 & A3). split; auto. split; auto. eapply Rle_trans; [apply A3|]. pose proof (gam_le a). pose proof (omg_le a).
  assert (0 <= B * L ^ i) by (apply Rmult_le_pos; auto; apply pow_le; lra).
  apply Rplus_le_compat; auto. apply Rmult_le_compat_r; auto.
Qed.

Lemma near_step a i B va vb Ea Eb k j : 0 <= B -> (1 <= j <= k)%nat -> (k <= order)%nat ->
  (1 + gam (S a)) * (B * L ^ (S i)) + omg (S a) <= M -> (1 + gam a) * (B * L ^ i) + omg a <= M ->
  near a i B va Ea -> near a i B vb Eb ->
  exists v, odiv o (omul o (onat o k) (osub o va vb)) (osub o (nth (seg + j) knots z) (nth (seg + j - k) knots z)) = Ok v /\
    near (S a) (S i) B v (INR k * (Ea - Eb) / (t (seg + j)%nat - t (seg + j - k)%nat)).
Proof using All.
  intros HB Hj Hk HM1 HM0 (A1 & A2 & A3) (B1 & B2 & B3). destruct (Hnat k Hk) as [Gk Vk].
  pose proof RD as [[u0 u1] e0 B16 _ _ _ _ _ _ _ _].
  assert (T1 : t (seg + j - k)%nat <= t seg) by (apply Hnd; rewrite map_length; lia).
  assert (T2 : t (seg + 1)%nat <= t (seg + j)%nat) by (apply Hnd; rewrite map_length; lia).
  assert (T3 : t (seg - order)%nat <= t (seg + j - k)%nat) by (apply Hnd; rewrite map_length; lia).
  assert (T4 : t (seg + j)%nat <= t (seg + order)%nat) by (apply Hnd; rewrite map_length; lia).
  assert (Ik : 1 <= INR k) by (apply (le_INR 1); lia). assert (Iko : INR k <= INR order) by (apply le_INR; auto).
  set (Bi := B * L ^ i) in *. assert (PBi : 0 <= Bi) by (apply Rmult_le_pos; auto; apply pow_le; lra).
  assert (EB : B * L ^ S i = L * Bi) by (unfold Bi; cbn [pow]; ring). rewrite EB in *.
  pose proof (gam_pos a) as Pg. pose proof (omg_pos a) as Po. set (e := gam a * Bi + omg a) in *.
  assert (Pe : 0 <= e) by (apply Rplus_le_le_0_compat; auto; apply Rmult_le_pos; auto).
  assert (EBe : Bi + e <= M) by (unfold e; lra).
  assert (I1 : INR order + 1 = INR (order + 1)) by (rewrite plus_INR; reflexivity).
  assert (PM : 0 <= M) by lra.
  assert (HMo : INR k * (4 * M) <= big). { eapply Rle_trans; [|apply HM]. apply Rmult_le_compat_r; lra. }
  assert (Pu : 0 <= u * (L * Bi)) by (apply Rmult_le_pos; [lra|apply Rmult_le_pos; lra]).
  assert (OS : L * ((1 + 5 * u) * omg a) + hlev <= omg (S a)).
  { eapply Rle_trans; [|apply omg_S]. apply Rplus_le_compat_r. apply Rmult_le_compat_r; [apply Rmult_le_pos; lra|lra]. }
  assert (Step : (1 + 5 * u) * (L * e) + 5 * u * (L * Bi) + hlev <= gam (S a) * (L * Bi) + omg (S a)).
  { pose proof (gam_S a) as GS. replace (gam (S a)) with ((1 + 5 * u) * (1 + gam a) - 1) by lra. unfold e. lra. }
  destruct (dterm_round va vb (onat o k) (nth (seg + j) knots z) (nth (seg + j - k) knots z) Ea Eb Bi e k
     (t (seg + j)%nat - t (seg + j - k)%nat) L g) as (v & Ev & Gv & Hv); auto.
  - apply Hgk. lia.
  - apply Hgk. lia.
  - rewrite !tl_val. reflexivity.
  - lra.
  - lra.
  - apply Rle_trans with (2 * INR order); [lra|]. eapply Rle_trans; [apply HL|]. apply Rmult_le_compat_l; lra.
  - assert (1 * (4 * M) <= INR k * (4 * M)) by (apply Rmult_le_compat_r; lra). lra.
  - eapply Rle_trans; [|apply HMo]. apply Rmult_le_compat_l; [lra|]. assert (2 * (Bi + e) * (1 + u) <= 2 * (Bi + e) * 2) by (apply Rmult_le_compat_l; lra). lra.
  - fold hlev. assert (1 * (4 * M) <= INR k * (4 * M)) by (apply Rmult_le_compat_r; lra). lra.
  - exists v. split; auto. split; auto. split.
    + rewrite EB. unfold Rdiv. rewrite !Rabs_mult, Rabs_inv, (Rabs_pos_eq (INR k)), (Rabs_pos_eq (t _ - _)) by lra.
      apply Rmult_le_reg_r with (t (seg + j)%nat - t (seg + j - k)%nat); [lra|]. rewrite Rmult_assoc, Rinv_l, Rmult_1_r by lra.
      apply Rle_trans with (INR k * (2 * Bi)).
      * apply Rmult_le_compat_l; [lra|]. apply Rabs_bounds in A2. apply Rabs_bounds in B2. apply bounds_Rabs. lra.
      * assert (2 * INR k <= L * (t (seg + j)%nat - t (seg + j - k)%nat)). { apply Rle_trans with (2 * INR order); [lra|]. eapply Rle_trans; [apply HL|]. apply Rmult_le_compat_l; lra. }
        assert (0 <= (L * (t (seg + j)%nat - t (seg + j - k)%nat) - 2 * INR k) * Bi) by (apply Rmult_le_pos; lra). lra.
    + rewrite EB. eapply Rle_trans; [apply Hv|]. fold hlev. apply Step.
Qed.

Variables (m : mesh T) (d : nat) (idx : list nat).
Hypothesis W : wf_mesh m.
Hypothesis Hd : (d < length (m_dims m))%nat.
Hypothesis Hv : valid (m_dims m) idx.
Hypothesis Hdim : nth d (m_dims m) 0%nat = (order + 1)%nat.
Let it := mkSkip (Z.of_nat (row_major (m_dims m) (set_nth idx d 0))) (Z.of_nat (prod (skipn (S d) (m_dims m)))).

(** [m'] differs from [m] only on the line, where it is near [f] after [i] levels on this line and [a] in all. *)
Definition line_near (a i : nat) (B : R) (m' : mesh T) (f : nat -> R) : Prop :=
  m_dims m' = m_dims m /\ wf_mesh m' /\
  (forall pos, (pos <= order)%nat -> near a (Nat.min i pos) B (mv z m' (set_nth idx d pos)) (f pos)) /\
  (forall idx', valid (m_dims m) idx' -> (forall pos, idx' <> set_nth idx d pos) -> mv z m' idx' = mv z m idx').

Lemma line_step a i B m0 f : 0 <= B -> (i < order)%nat ->
  (1 + gam (S a)) * (B * L ^ (S i)) + omg (S a) <= M -> (1 + gam a) * (B * L ^ i) + omg a <= M ->
  line_near a i B m0 f ->
  exists m', foldM (fun m j =>
      let pos := (Z.of_nat order + Z.of_nat j - Z.of_nat (order - i))%Z in
      a <- sk_at m it pos ;;
      b <- sk_at m it (pos - 1) ;;
      tr <- kget knots (seg + j) 0 ;;
      tl <- kget knots (seg + j) (order - i) ;;
      v <- odiv o (omul o (onat o (order - i)) (osub o a b)) (osub o tr tl) ;;
      sk_set m it pos v) (rev (seq 1 (order - i))) m0 = Ok m' /\
    line_near (S a) (S i) B m' (dstep order seg (map val knots) (order - i) f).
Proof using All.
  intros HB Hi HM1 HM0 L0. set (k := (order - i)%nat).
  match goal with |- context[foldM ?F _ _] =>
    destruct (foldM_down (fun j m' => m_dims m' = m_dims m /\ wf_mesh m' /\
      (forall pos, (pos <= order)%nat -> if (i + j <=? pos)%nat then near (S a) (S i) B (mv z m' (set_nth idx d pos)) (dstep order seg (map val knots) k f pos)
                                         else near a (Nat.min i pos) B (mv z m' (set_nth idx d pos)) (f pos)) /\
      (forall idx', valid (m_dims m) idx' -> (forall pos, idx' <> set_nth idx d pos) -> mv z m' idx' = mv z m idx')) F 1 k m0)
      as (m' & E & H) end.
  - destruct L0 as (A & Bq & Cq & Dq). split; auto. split; auto. split; auto.
    intros pos Hp. destruct (Nat.leb_spec (i + (1 + k)) pos); [unfold k in *; lia|]. auto.
  - intros j m1 Hj (A & Bq & Cq & Dq). cbv zeta.
    replace (Z.of_nat order + Z.of_nat j - Z.of_nat k)%Z with (Z.of_nat (i + j)) by (unfold k; lia).
    replace (Z.of_nat (i + j) - 1)%Z with (Z.of_nat (i + j - 1)) by lia.
    set (pos := (i + j)%nat) in *.
    assert (Hpo : (pos <= order)%nat) by (unfold pos, k in *; lia).
    assert (Eit : it = mkSkip (Z.of_nat (row_major (m_dims m1) (set_nth idx d 0))) (Z.of_nat (prod (skipn (S d) (m_dims m1)))))
      by (unfold it; rewrite A; reflexivity).
    rewrite Eit.
    assert (Hd1 : (d < length (m_dims m1))%nat) by (rewrite A; auto).
    assert (Hv1 : valid (m_dims m1) idx) by (rewrite A; auto).
    rewrite !(sk_at_line z m1 d idx) by (auto; rewrite A, Hdim; lia). cbn [bind].
    unfold kget. destruct (Nat.leb_spec 0 (seg + j)); [|lia]. destruct (Nat.leb_spec k (seg + j)); [|unfold k in *; lia].
    rewrite (vget_ok knots (seg + j - 0) z), (vget_ok knots (seg + j - k) z) by (unfold k in *; lia). cbn [bind].
    rewrite Nat.sub_0_r.
    pose proof (Cq pos Hpo) as N1. pose proof (Cq (pos - 1)%nat ltac:(lia)) as N2.
    destruct (Nat.leb_spec (i + (j + 1)) pos); [unfold pos in *; lia|]. destruct (Nat.leb_spec (i + (j + 1)) (pos - 1)); [unfold pos in *; lia|].
    replace (Nat.min i pos) with i in N1 by (unfold pos; lia). replace (Nat.min i (pos - 1)) with i in N2 by (unfold pos; lia).
    destruct (near_step a i B _ _ _ _ k j HB ltac:(lia) ltac:(unfold k; lia) HM1 HM0 N1 N2) as (v & Ev & Nv).
    rewrite Ev. cbn [bind].
    destruct (sk_set_line z m1 d idx Bq Hd1 Hv1 pos v) as (m2 & E2 & A2 & B2 & C2 & D2).
    { rewrite A, Hdim. lia. }
    rewrite E2. exists m2. split; auto. split; [congruence|]. split; auto. split.
    + intros p Hp. destruct (Nat.eq_dec p pos) as [->|Hne].
      * destruct (Nat.leb_spec pos pos); [|lia]. rewrite C2.
        replace (dstep order seg (map val knots) k f pos) with (INR k * (f pos - f (pos - 1)%nat) / (t (seg + j)%nat - t (seg + j - k)%nat)); auto.
        unfold dstep. destruct (Nat.leb_spec (order - k + 1) pos); [|unfold k, pos in *; lia]. destruct (Nat.leb_spec pos order); [|lia]. cbn [andb].
        replace (seg + pos + k - order)%nat with (seg + j)%nat by (unfold k, pos in *; lia).
        replace (seg + pos - order)%nat with (seg + j - k)%nat by (unfold k, pos in *; lia). reflexivity.
      * rewrite D2.
        -- specialize (Cq p Hp). destruct (Nat.leb_spec pos p), (Nat.leb_spec (i + (j + 1)) p); auto; unfold pos in *; lia.
        -- rewrite A. apply valid_set_nth; auto. rewrite Hdim. lia.
        -- intros E. apply Hne. eapply set_nth_inj; [|exact E]. rewrite (valid_length _ _ Hv). auto.
    + intros idx' Hv' Hn. rewrite D2; auto. rewrite A; auto.
  - exists m'. split; auto. destruct H as (A & Bq & Cq & Dq). split; auto. split; auto. split; auto.
    intros pos Hp. specialize (Cq pos Hp). destruct (Nat.leb_spec (i + 1) pos).
    + replace (Nat.min (S i) pos) with (S i) by lia. auto.
    + replace (Nat.min (S i) pos) with (Nat.min i pos) by lia. apply near_mono; auto.
      replace (dstep order seg (map val knots) k f pos) with (f pos); auto.
      unfold dstep. destruct (Nat.leb_spec (order - k + 1) pos); auto. unfold k in *; lia.
Qed.

Lemma derive_line_round a B so : 0 <= B -> (so <= order)%nat ->
  (forall i, (i <= order - so)%nat -> (1 + gam (a + i)) * (B * L ^ i) + omg (a + i) <= M) ->
  forall f, (forall pos, (pos <= order)%nat -> near a 0 B (mv z m (set_nth idx d pos)) (f pos)) ->
  exists m', derive_line o order knots seg so m it = Ok m' /\
    line_near (a + (order - so)) (order - so) B m' (dline order seg (map val knots) so f).
Proof using All.
  intros HB Hso HMi f H0. unfold derive_line, dline.
  assert (Hgen : forall n i m0 f, (i + n = order - so)%nat -> line_near (a + i) i B m0 f ->
    exists m', foldM (fun m k =>
    foldM (fun m j =>
      let pos := (Z.of_nat order + Z.of_nat j - Z.of_nat k)%Z in
      a <- sk_at m it pos ;;
      b <- sk_at m it (pos - 1) ;;
      tr <- kget knots (seg + j) 0 ;;
      tl <- kget knots (seg + j) k ;;
      v <- odiv o (omul o (onat o k) (osub o a b)) (osub o tr tl) ;;
      sk_set m it pos v) (rev (seq 1 k)) m) (rev (seq (so + 1) n)) m0 = Ok m' /\
     line_near (a + (order - so)) (order - so) B m' (fold_left (fun f k => dstep order seg (map val knots) k f) (rev (seq (so + 1) n)) f)).
  { induction n; intros i m0 f0 E Hn.
    - cbn [seq rev foldM fold_left]. rewrite Nat.add_0_r in E. subst i. eauto.
    - rewrite seq_S, rev_app_distr. cbn [rev app foldM fold_left].
      replace (so + 1 + n)%nat with (order - i)%nat by lia.
      destruct (line_step (a + i) i B m0 f0) as (m1 & E1 & L1); auto. lia.
      { replace (S (a + i)) with (a + S i)%nat by lia. apply HMi. lia. }
      { apply HMi. lia. }
      cbv zeta in E1 |- *. rewrite E1. cbn [bind]. apply (IHn (S i)); try lia. replace (a + S i)%nat with (S (a + i)) by lia. auto. }
  apply (Hgen (order - so)%nat 0%nat m f); [lia|].
  rewrite Nat.add_0_r. split; auto.
Qed.
End Line.
End Levels.
End Round.
