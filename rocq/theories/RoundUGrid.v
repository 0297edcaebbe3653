(** Uniform ranges in doubles: what the collocation matrices need. *)
From Coq Require Import List Arith Lia Bool ZArith Reals Floats Lra Psatz.
From Flocq Require Import Core BinarySingleNaN PrimFloat Relative Plus_error.
From Verif Require Import Base Num MeshM ProgM BandM LUM SplineM InterpM FloatM SpecBand SpecSpline SpecInterp SpecRound.
From Verif Require Import SumR BandProofs MulProofs KnotProofs CoefProofs FloatProofs RoundDouble RoundLU RoundLUTop GenKnots RoundKnots RoundUniform RoundKnotsTop RoundUColl RoundGrid.
Import ListNotations.
Local Open Scope R_scope.
Local Notation float := PrimFloat.float.

Lemma p48 : powerRZ 2 (-48) = 32 * Fu.
Proof. rewrite (proj1 Fu_val), <- !(bpow_powerRZ radix2). change (-48)%Z with (5 + -53)%Z. rewrite bpow_plus. reflexivity. Qed.

Section Place.
Context (a b : float) (m : nat) (X : R).
Context (Ha : double_finite a) (Hb : double_finite b).
Local Notation A := (double_val a).
Local Notation B := (double_val b).
Context (HA : Rabs A <= X) (HB : Rabs B <= X) (HX : X <= powerRZ 2 1000).
Context (HD : powerRZ 2 (-900) <= B - A).
Context (Hm1 : (1 <= m)%nat) (Hm2 : INR m <= powerRZ 2 40).
Local Notation D := (B - A).
Local Notation h := (D / INR m).
Local Notation st := (step a b m).

(** [a + c * step] *)
Lemma place_val c : double_finite c -> Rabs (double_val c) <= 2 * INR m ->
  double_finite (a + c * st)%float /\ double_val (a + c * st)%float = rnd (A + rnd (double_val c * double_val st)) /\
  Rabs (double_val (a + c * st)%float - (A + double_val c * h)) <= powerRZ 2 (-48) * X.
Proof using All.
  intros Gc Hc. set (r := double_val c) in *. pose proof (Rabs_pos r) as R0.
  destruct (D_facts a b m X HA HB HD Hm1) as (D0 & D1 & P & P1 & E) || destruct (D_facts a b m X) as (D0 & D1 & P & P1 & E); auto.
  destruct (step_ok a b m X Ha Hb HA HB HX HD Hm1 Hm2) as [Gs Vs].
  destruct u_facts as [[U0 U1] E0]. destruct (eta_small a b m X) as [S1 S2]; auto.
  set (s := double_val st) in *.
  assert (FD : 0 <= Fu * h <= h / 1000000) by (split; [apply Rmult_le_pos; lra|unfold Rdiv at 2; rewrite (Rmult_comm h); apply Rmult_le_compat_r; lra]).
  assert (FD' : 0 <= Fu * D <= D / 1000000) by (split; [apply Rmult_le_pos; lra|unfold Rdiv; rewrite (Rmult_comm D); apply Rmult_le_compat_r; lra]).
  assert (C0 : Rabs r * h <= 2 * D) by (apply Rle_trans with (2 * INR m * h); [apply Rmult_le_compat_r; lra|lra]).
  assert (C1 : Rabs (r * s) <= Rabs r * (h * (1 + / 1000))).
  { rewrite Rabs_mult. apply Rmult_le_compat_l; auto. replace s with ((s - h) + h) by ring. eapply Rle_trans; [apply Rabs_triang|]. rewrite (Rabs_pos_eq h) by lra. lra. }
  assert (C2 : Rabs (r * s) <= 3 * D) by lra.
  pose proof (Rabs_pos A) as A0.
  destruct (Fmul_val c st) as [Gp Vp]; auto. { fold r s. lra. } fold r s in Vp.
  pose proof (rnd_error (r * s)) as R.
  assert (Q1 : Rabs (rnd (r * s) - r * h) <= 11 * Fu * D).
  { replace (rnd (r * s) - r * h) with ((rnd (r * s) - r * s) + r * (s - h)) by ring. eapply Rle_trans; [apply Rabs_triang|]. rewrite (Rabs_mult r (s - h)).
    pose proof (Rmult_le_compat_l Fu _ _ (Rlt_le _ _ U0) C1) as W. pose proof (Rmult_le_compat_l _ _ _ R0 Vs) as W2.
    assert (W3 : Rabs r * (3 * Fu * h) <= 6 * (Fu * D)). { replace (Rabs r * (3 * Fu * h)) with (3 * (Fu * (Rabs r * h))) by ring. apply (Rmult_le_compat_l Fu) in C0; lra. }
    assert (W4 : Fu * (Rabs r * (h * (1 + / 1000))) <= 3 * (Fu * D)). { replace (Fu * (Rabs r * (h * (1 + / 1000)))) with ((1 + / 1000) * (Fu * (Rabs r * h))) by ring. apply (Rmult_le_compat_l Fu) in C0; lra. }
    assert (W5 : Fu * h <= Fu * D) by (apply Rmult_le_compat_l; lra). lra. }
  assert (C3 : Rabs (rnd (r * s)) <= 3 * D).
  { replace (rnd (r * s)) with ((rnd (r * s) - r * h) + r * h) by ring. eapply Rle_trans; [apply Rabs_triang|]. rewrite (Rabs_mult r h), (Rabs_pos_eq h) by lra. lra. }
  assert (C4 : Rabs (A + rnd (r * s)) <= X + 3 * D) by (eapply Rle_trans; [apply Rabs_triang|]; lra).
  destruct (Fadd_val a (c * st)%float) as [Gk Vk]; auto; rewrite Vp in *; [lra|].
  split; [exact Gk|]. split; [exact Vk|]. rewrite Vk.
  assert (Fp : generic_format radix2 fe (rnd (r * s))) by (rewrite <- Vp; apply val_format).
  pose proof (rnd_plus A (rnd (r * s)) (val_format a) Fp) as R'.
  pose proof (Rmult_le_compat_l Fu _ _ (Rlt_le _ _ U0) C4) as W. rewrite p48.
  replace (rnd (A + rnd (r * s)) - (A + r * h)) with ((rnd (A + rnd (r * s)) - (A + rnd (r * s))) + (rnd (r * s) - r * h)) by ring.
  eapply Rle_trans; [apply Rabs_triang|]. pose proof (Rmult_le_compat_l Fu _ _ (Rlt_le _ _ U0) D1). lra.
Qed.
End Place.

(** The numbers that [uniform_knots] computes. *)
Lemma uniform_ap_floats nd order n a b xs h : (2 <= n)%nat -> (order + 1 <= n)%nat -> uniform_knots Fops nd order false n a b = Ok (xs, h) ->
  h = step a b (n - 1) /\ forall k, (order < k < n)%nat -> nth k xs 0%float = knot a b (n - 1) (order + 1) k.
Proof.
  intros Hn Ho. set (m := (n - 1)%nat). unfold uniform_knots. rewrite andb_false_r, Nat.add_0_r. rewrite usub_ok by lia. cbn [bind]. fold m. cbn [odiv osub oadd omul onat ohalf Fops]. cbn [bind].
  fold (step a b m). rewrite repeat_length. rewrite (usub_ok (n + (order + 1)) order) by lia. cbn [bind].
  rewrite usub_ok by lia. cbn [bind].
  destruct (fill_loop 0%float (order + 1) (n + (order + 1) - order - 1) (repeat a (n + (order + 1))) (knot a b m (order + 1))) as (xs1 & E1 & L1 & N1).
  { rewrite repeat_length. lia. }
  unfold knot in E1. rewrite E1. cbn [bind]. rewrite repeat_length in L1.
  destruct (fill_loop 0%float (n + (order + 1) - order - 1) (length xs1) xs1 (fun _ => b)) as (xs2 & E2 & LL2 & N2); [lia|].
  rewrite E2. cbn [bind]. intros E. injection E as <- <-. split; auto.
  replace (n + (order + 1) - order - 1)%nat with n in * by lia.
  intros k Hk. rewrite N2, N1. destruct (Nat.leb_spec n k); [lia|]. cbn [andb]. destruct (Nat.leb_spec (order + 1) k); [|lia]. destruct (Nat.ltb_spec k n); [|lia]. reflexivity.
Qed.
Lemma uniform_per_floats (nd : bool) order m a b xs h : (order + 1 <= m)%nat -> uniform_knots Fops nd order true (m + (if nd then 0 else 1)) a b = Ok (xs, h) ->
  let extra := (2 * order + (1 - order mod 2))%nat in
  h = step a b m /\ forall k, (k < m + 1 + extra)%nat -> nth k xs 0%float = knot a b m extra k.
Proof.
  intros Ho. set (extra := (2 * order + (1 - order mod 2))%nat). cbv zeta. unfold uniform_knots. rewrite andb_true_r.
  replace (m + (if nd then 0 else 1) + (if nd then 1 else 0))%nat with (m + 1)%nat by (destruct nd; lia).
  rewrite usub_ok by lia. cbn [bind]. replace (m + 1 - 1)%nat with m by lia.
  cbn [odiv osub oadd omul onat ohalf Fops]. cbn [bind]. fold extra. fold (step a b m). rewrite repeat_length.
  destruct (fill_loop 0%float 0 (m + 1 + extra) (repeat a (m + 1 + extra)) (knot a b m extra)) as (xs1 & E1 & L1 & N1); [rewrite repeat_length; lia|].
  unfold knot in E1. rewrite E1. cbn [bind]. intros E. injection E as <- <-. split; auto.
  intros k Hk. rewrite N1. destruct (Nat.ltb_spec k (m + 1 + extra)); [|lia]. reflexivity.
Qed.

Lemma range_scale X h : 0 <= X -> X <= powerRZ 2 900 -> powerRZ 2 (-798) <= h -> powerRZ 2 (-44) * X <= h ->
  0 < h /\ 0 <= powerRZ 2 (-48) * X <= h / 16 /\ powerRZ 2 (-800) <= h / 4 /\ X <= powerRZ 2 1000 /\ powerRZ 2 (-900) <= h.
Proof.
  intros X0 X1 H1 H2. rewrite <- !(bpow_powerRZ radix2) in *. pose proof (bpow_gt_0 radix2 (-798)).
  assert (E1 : bpow radix2 (-44) = 16 * bpow radix2 (-48)) by (change (-44)%Z with (4 + -48)%Z; rewrite bpow_plus; reflexivity).
  assert (E2 : bpow radix2 (-798) = 4 * bpow radix2 (-800)) by (change (-798)%Z with (2 + -800)%Z; rewrite bpow_plus; reflexivity).
  assert (E3 : bpow radix2 900 <= bpow radix2 1000) by (apply bpow_le; lia).
  assert (E4 : bpow radix2 (-900) <= bpow radix2 (-798)) by (apply bpow_le; lia).
  assert (0 <= bpow radix2 (-48) * X) by (apply Rmult_le_pos; auto; apply bpow_ge_0).
  rewrite E1 in H2. lra.
Qed.

Section UAp.
Context (nd : bool) (a b : float) (n p : nat) (X : R) (K : list float) (dx : float).
Local Notation A := (double_val a).
Local Notation B := (double_val b).
Local Notation m := (n - 1)%nat.
Local Notation h := ((B - A) / INR m).
Local Notation de := (powerRZ 2 (-48) * X).
Local Notation t := (kn (map double_val K)).
Local Notation pos c := (A + c * h).
Hypothesis Ha : double_finite a.
Hypothesis Hb : double_finite b.
Hypothesis HA : Rabs A <= X.
Hypothesis HB : Rabs B <= X.
Hypothesis HX : X <= powerRZ 2 900.
Hypothesis P1 : (1 <= p)%nat.
Hypothesis Hp : (p + 1 <= n)%nat.
Hypothesis Hn : INR n <= powerRZ 2 40.
Hypothesis Hh : powerRZ 2 (-798) <= h.
Hypothesis Hx : powerRZ 2 (-44) * X <= h.
Hypothesis HK : uniform_knots Fops nd p false n a b = Ok (K, dx).

Lemma uap_scale : 0 <= X /\ 0 < h /\ 0 <= de <= h / 16 /\ powerRZ 2 (-800) <= h / 4 /\ X <= powerRZ 2 1000 /\ powerRZ 2 (-900) <= B - A /\ INR m * h = B - A /\ 1 <= INR m /\ INR m <= powerRZ 2 40.
Proof using All.
  assert (X0 : 0 <= X) by (pose proof (Rabs_pos A); lra). destruct (range_scale X h X0 HX Hh Hx) as (h0 & d0 & g0 & x1 & h1).
  assert (M1 : 1 <= INR m) by (apply (le_INR 1); lia). assert (E : INR m * h = B - A) by (field; lra).
  repeat split; try lra; auto.
  - assert (1 * h <= INR m * h) by (apply Rmult_le_compat_r; lra). lra.
  - eapply Rle_trans; [|exact Hn]. apply le_INR. lia.
Qed.
Lemma pos_mono c c' : c <= c' -> pos c <= pos c'.
Proof using All. intros H. destruct uap_scale as (_ & h0 & _). assert (c * h <= c' * h) by (apply Rmult_le_compat_r; lra). lra. Qed.
Lemma pos_gap c c' : c + 1 / 2 <= c' -> pos c + h / 2 <= pos c'.
Proof using All. intros H. apply pos_mono in H. lra. Qed.
Lemma pos_gap1 c c' : c + 1 <= c' -> pos c + h <= pos c'.
Proof using All. intros H. apply pos_mono in H. lra. Qed.
Lemma pos_end : pos (INR m) = B.
Proof using All. destruct uap_scale as (_ & _ & _ & _ & _ & _ & E & _). lra. Qed.

Lemma uap_knots : dx = step a b m /\ (forall k, (k <= p)%nat -> nth k K 0%float = a) /\ (forall k, (n <= k <= n + p)%nat -> nth k K 0%float = b) /\
  length K = (n + p + 1)%nat /\ (forall x, In x K -> double_finite x) /\ nondecreasing (map double_val K) /\
  (forall k, (k <= p)%nat -> t k = A) /\ (forall k, (n <= k <= n + p)%nat -> t k = B) /\
  (forall k, (p < k < n)%nat -> t k = rnd (A + rnd (mult (p + 1) k * double_val dx)) /\ Rabs (t k - pos (mult (p + 1) k)) <= de) /\
  double_finite dx /\ Rabs (double_val dx - h) <= powerRZ 2 (-51) * h.
Proof using All.
  destruct uap_scale as (X0 & h0 & d0 & g0 & x1 & D0 & E & M1 & M2).
  destruct (uniform_ap_double nd p n a b X) as (xs & h' & E' & Lk & Lo & Hi & Fn & Mo & Gd & Vd); auto; try lia.
  assert (xs = K /\ h' = dx) as [-> ->] by (split; congruence).
  destruct (uniform_ap_floats nd p n a b K dx) as [Edx Ek]; auto; try lia.
  assert (Tv : forall i, t i = double_val (nth i K 0%float)) by (intros; apply kn_vals).
  split; [exact Edx|]. split; [exact Lo|]. split; [intros k Hk; apply Hi; lia|]. split; [exact Lk|].
  split. { intros x Hin. apply (In_nth _ _ 0%float) in Hin as (k & Hk & <-). rewrite Lk in Hk. apply Fn. auto. }
  split. { intros i j Hij. rewrite map_length, Lk in Hij. rewrite !Tv. apply Mo. lia. }
  split. { intros k Hk. rewrite Tv, Lo by auto. auto. } split. { intros k Hk. rewrite Tv, Hi by lia. auto. }
  split; [|auto].
  intros k Hk. rewrite Tv. rewrite (Ek k Hk). unfold knot.
  assert (L2 : powerRZ 2 40 <= powerRZ 2 42 /\ powerRZ 2 40 <= powerRZ 2 43) by (rewrite <- !(bpow_powerRZ radix2); split; apply bpow_le; lia).
  assert (Hex : INR (p + 1) <= powerRZ 2 42) by (apply Rle_trans with (powerRZ 2 40); [|lra]; eapply Rle_trans; [apply le_INR|exact Hn]; lia).
  assert (Hk3 : INR k <= powerRZ 2 43) by (apply Rle_trans with (powerRZ 2 40); [|lra]; eapply Rle_trans; [apply le_INR|exact Hn]; lia).
  destruct (mult_ok m ltac:(lia) (p + 1) Hex k Hk3) as [Gm Vm].
  destruct (place_val a b m X Ha Hb HA HB x1 D0 ltac:(lia) M2 (Fnat k - 0.5 * Fnat (p + 1))%float Gm) as (_ & V1 & V2).
  { rewrite Vm. unfold mult. pose proof (le_INR k m ltac:(lia)). pose proof (le_INR (p + 1) k ltac:(lia)). pose proof (pos_INR (p + 1)). apply Rabs_le. lra. }
  rewrite Vm in V1, V2. rewrite Edx. split; auto.
Qed.

Lemma uap_gap i : (p <= i < n)%nat -> 7 * h / 8 <= t (i + 1)%nat - t i.
Proof using All.
  intros Hi. destruct uap_scale as (X0 & h0 & d0 & g0 & x1 & D0 & E & M1 & M2).
  destruct uap_knots as (_ & _ & _ & _ & _ & _ & Lo & Hi' & In1 & _).
  assert (Pp : 2 <= INR (p + 1)) by (apply (le_INR 2); lia).
  destruct (Nat.eq_dec i p) as [->|Np]; [rewrite (Lo p) by lia|destruct (Nat.eq_dec i m) as [->|Nm]].
  - destruct (Nat.eq_dec (p + 1) n) as [Ep|Ep].
    + rewrite Hi' by lia. assert (1 * h <= INR m * h) by (apply Rmult_le_compat_r; lra). lra.
    + destruct (In1 (p + 1)%nat ltac:(lia)) as [_ V]. apply Rabs_le_inv in V.
      pose proof (pos_gap1 0 (mult (p + 1) (p + 1))) as Q. unfold mult in Q at 1. specialize (Q ltac:(lra)). lra.
  - replace (m + 1)%nat with n by lia. rewrite Hi' by lia. destruct (In1 m ltac:(lia)) as [_ V]. apply Rabs_le_inv in V.
    pose proof (pos_gap1 (mult (p + 1) m) (INR m)) as Q. unfold mult in Q at 1. specialize (Q ltac:(lra)). rewrite pos_end in Q. lra.
  - destruct (In1 i ltac:(lia)) as [_ V]. destruct (In1 (i + 1)%nat ltac:(lia)) as [_ V']. apply Rabs_le_inv in V. apply Rabs_le_inv in V'.
    pose proof (pos_gap1 (mult (p + 1) i) (mult (p + 1) (i + 1))) as Q. unfold mult in Q at 1 2. rewrite (plus_INR i) in Q. change (INR 1) with 1 in Q. specialize (Q ltac:(lra)). lra.
Qed.

Lemma uap_wide x y : In x K -> In y K -> double_val y - double_val x <= Fbig / 4.
Proof using All.
  destruct uap_scale as (X0 & h0 & d0 & g0 & x1 & D0 & E & M1 & M2). destruct uap_knots as (_ & _ & _ & Lk & _ & Mo & Lo & Hi' & _).
  apply (fit_wide K X); auto. intros z Hz. apply (In_nth _ _ 0%float) in Hz as (k & Hk & <-). rewrite <- kn_vals. rewrite Lk in Hk.
  unfold nondecreasing in Mo. rewrite map_length, Lk in Mo. pose proof (Mo 0%nat k ltac:(lia)) as Q1. pose proof (Mo k (n + p)%nat ltac:(lia)) as Q2.
  rewrite (Lo 0%nat) in Q1 by lia. rewrite (Hi' (n + p)%nat) in Q2 by lia. apply Rabs_le_inv in HA. apply Rabs_le_inv in HB. apply Rabs_le. lra.
Qed.

(** The coordinates of the rows *)
Local Notation xf i := (nth p K 0 + Fnat i * dx)%float.
Lemma uap_xf i : (i < n)%nat -> double_finite (xf i) /\ double_val (xf i) = rnd (A + rnd (INR i * double_val dx)) /\ Rabs (double_val (xf i) - pos (INR i)) <= de.
Proof using All.
  intros Hi. destruct uap_scale as (X0 & h0 & d0 & g0 & x1 & D0 & E & M1 & M2). destruct uap_knots as (Edx & Lo & _). rewrite Lo by lia. rewrite Edx.
  assert (Hi2 : INR i <= INR m) by (apply le_INR; lia). pose proof (pos_INR i).
  destruct (Fnat_exact i) as [Gi Vi]. { pose proof (nat_small i 40 ltac:(lra) ltac:(lia)). lia. }
  destruct (place_val a b m X Ha Hb HA HB x1 D0 ltac:(lia) M2 (Fnat i) Gi) as (V0 & V1 & V2); rewrite Vi in *; auto.
  rewrite Rabs_pos_eq by lra. lra.
Qed.
Lemma uap_odd i : (p mod 2 = 1)%nat -> (p / 2 < i)%nat -> (i < n - p / 2 - 1)%nat -> double_val (xf i) = t (useg p n i).
Proof using All.
  intros Od H1 H2. pose proof (half_cases p) as HC. assert (Ek : useg p n i = (i + (p + 1) / 2)%nat) by (unfold useg; destruct (Nat.ltb_spec (p / 2) i); lia).
  destruct (uap_xf i ltac:(lia)) as (_ & -> & _). destruct uap_knots as (_ & _ & _ & _ & _ & _ & _ & _ & In1 & _).
  rewrite Ek. destruct (In1 (i + (p + 1) / 2)%nat ltac:(lia)) as [-> _]. do 3 f_equal. f_equal. unfold mult. rewrite plus_INR.
  assert (Q : INR (p + 1) = 2 * INR ((p + 1) / 2)) by (change 2 with (INR 2); rewrite <- mult_INR; f_equal; lia). lra.
Qed.
Lemma uap_seg i : (1 <= i)%nat -> (i + 1 < n)%nat -> t (useg p n i) <= double_val (xf i) <= t (useg p n i + 1)%nat.
Proof using All.
  intros H1 H2. pose proof (half_cases p) as HC. destruct uap_scale as (X0 & h0 & d0 & g0 & x1 & D0 & E & M1 & M2).
  destruct uap_knots as (_ & _ & _ & _ & _ & _ & Lo & Hi' & In1 & _). destruct (uap_xf i ltac:(lia)) as (_ & _ & Vx). apply Rabs_le_inv in Vx.
  assert (I1 : 1 <= INR i) by (apply (le_INR 1); lia). assert (I2 : INR i + 1 <= INR m) by (rewrite <- S_INR; apply le_INR; lia).
  pose proof (pos_gap1 0 (INR i) ltac:(lra)) as QA. pose proof (pos_gap1 (INR i) (INR m) ltac:(lra)) as QB. rewrite pos_end in QB.
  unfold mult in In1.
  assert (In2 : forall k, (p < k < n)%nat -> pos (INR k - INR (p + 1) / 2) - de <= t k <= pos (INR k - INR (p + 1) / 2) + de).
  { intros k Hk. destruct (In1 k Hk) as [_ V]. apply Rabs_le_inv in V. lra. }
  assert (Up : forall c, (c < n)%nat -> (p <= c)%nat -> ((c + 1 < n)%nat -> INR i + 1 / 2 <= INR (c + 1) - INR (p + 1) / 2) -> double_val (xf i) <= t (c + 1)%nat).
  { intros c Hc Hc' Hm. destruct (Nat.eq_dec (c + 1) n) as [->|Ne]; [rewrite Hi' by lia; lra|].
    pose proof (In2 (c + 1)%nat ltac:(lia)). pose proof (pos_gap _ _ (Hm ltac:(lia))). lra. }
  unfold useg. destruct (Nat.ltb_spec (p / 2) i) as [L|L].
  - destruct (Nat.le_gt_cases (i + (p + 1) / 2) (n - 1)) as [L2|L2].
    + rewrite Nat.min_r by lia. set (k := (i + (p + 1) / 2)%nat) in *. split.
      * destruct (Nat.eq_dec (p mod 2) 1) as [Od|Ev].
        { right. assert (Ek : useg p n i = k) by (unfold useg, k; destruct (Nat.ltb_spec (p / 2) i); lia). rewrite <- Ek. symmetry. apply uap_odd; auto. lia. }
        { pose proof (In2 k ltac:(lia)) as V. pose proof (pos_gap (INR k - INR (p + 1) / 2) (INR i)) as Q.
          assert (Ei : INR k - INR (p + 1) / 2 + 1 / 2 = INR i).
          { unfold k. rewrite plus_INR. assert (Q' : INR (p + 1) = 2 * INR ((p + 1) / 2) + 1) by (change 2 with (INR 2); rewrite <- mult_INR, <- S_INR; f_equal; lia). lra. }
          specialize (Q ltac:(lra)). lra. }
      * apply Up; try lia. intros Hc. rewrite !plus_INR. unfold k. rewrite plus_INR. change (INR 1) with 1.
        assert (Q' : INR p <= 2 * INR ((p + 1) / 2)) by (change 2 with (INR 2); rewrite <- mult_INR; apply le_INR; lia). lra.
    + rewrite Nat.min_l by lia. split; [|apply Up; lia].
      destruct (Nat.eq_dec (n - 1) p) as [Ep|Ep]; [rewrite Lo by lia; lra|].
      pose proof (In2 (n - 1)%nat ltac:(lia)) as V. pose proof (pos_gap (INR (n - 1) - INR (p + 1) / 2) (INR i)) as Q.
      assert (Q' : INR (n - 1) + 1 <= INR i + INR ((p + 1) / 2)) by (rewrite <- plus_INR, <- S_INR; apply le_INR; lia).
      assert (Q2 : 2 * INR ((p + 1) / 2) <= INR (p + 1)) by (change 2 with (INR 2); rewrite <- mult_INR; apply le_INR; lia).
      specialize (Q ltac:(lra)). lra.
  - rewrite Nat.min_r by lia. split; [rewrite Lo by lia; lra|]. apply Up; try lia. intros Hc. rewrite !plus_INR. change (INR 1) with 1.
    assert (Q' : 2 * INR i <= INR p) by (change 2 with (INR 2); rewrite <- mult_INR; apply le_INR; lia). lra.
Qed.
End UAp.

Section UPer.
Context (nd : bool) (a b : float) (m p : nat) (X : R) (K : list float) (dx : float).
Local Notation A := (double_val a).
Local Notation B := (double_val b).
Local Notation h := ((B - A) / INR m).
Local Notation de := (powerRZ 2 (-48) * X).
Local Notation t := (kn (map double_val K)).
Local Notation pos c := (A + c * h).
Local Notation extra := (2 * p + (1 - p mod 2))%nat.
Local Notation len := (m + 2 * p + 1 + (1 - p mod 2))%nat.
Hypothesis Ha : double_finite a.
Hypothesis Hb : double_finite b.
Hypothesis HA : Rabs A <= X.
Hypothesis HB : Rabs B <= X.
Hypothesis HX : X <= powerRZ 2 900.
Hypothesis P1 : (1 <= p)%nat.
Hypothesis Hp : (p + 1 <= m)%nat.
Hypothesis Hn : INR m <= powerRZ 2 40.
Hypothesis Hh : powerRZ 2 (-798) <= h.
Hypothesis Hx : powerRZ 2 (-44) * X <= h.
Hypothesis HK : uniform_knots Fops nd p true (m + (if nd then 0 else 1)) a b = Ok (K, dx).

Lemma upe_scale : 0 <= X /\ 0 < h /\ 0 <= de <= h / 16 /\ powerRZ 2 (-800) <= h / 4 /\ X <= powerRZ 2 1000 /\ powerRZ 2 (-900) <= B - A /\ INR m * h = B - A /\ 1 <= INR m /\ h <= 2 * X.
Proof using All.
  assert (X0 : 0 <= X) by (pose proof (Rabs_pos A); lra). destruct (range_scale X h X0 HX Hh Hx) as (h0 & d0 & g0 & x1 & h1).
  assert (M1 : 1 <= INR m) by (apply (le_INR 1); lia). assert (E : INR m * h = B - A) by (field; lra).
  assert (1 * h <= INR m * h) by (apply Rmult_le_compat_r; lra). apply Rabs_le_inv in HA. apply Rabs_le_inv in HB.
  repeat split; try lra; auto.
Qed.
Lemma per_mono c c' : c <= c' -> pos c <= pos c'.
Proof using All. intros H. destruct upe_scale as (_ & h0 & _). assert (c * h <= c' * h) by (apply Rmult_le_compat_r; lra). lra. Qed.

Lemma upe_knots : dx = step a b m /\ length K = len /\ (forall x, In x K -> double_finite x) /\ nondecreasing (map double_val K) /\
  (forall k, (k < len)%nat -> t k = rnd (A + rnd (mult extra k * double_val dx)) /\ Rabs (t k - pos (mult extra k)) <= de) /\
  double_finite dx /\ Rabs (double_val dx - h) <= powerRZ 2 (-51) * h.
Proof using All.
  destruct upe_scale as (X0 & h0 & d0 & g0 & x1 & D0 & E & M1 & HX2). pose proof (mod2_cases p) as MC.
  destruct (uniform_per_double nd p m a b X) as (xs & h' & E' & Lk & Fn & Mo & Gd & Vd); auto; try lia.
  assert (xs = K /\ h' = dx) as [-> ->] by (split; congruence).
  destruct (uniform_per_floats nd p m a b K dx) as [Edx Ek]; auto; try lia.
  assert (Tv : forall i, t i = double_val (nth i K 0%float)) by (intros; apply kn_vals).
  split; [exact Edx|]. split; [exact Lk|].
  split. { intros x Hin. apply (In_nth _ _ 0%float) in Hin as (k & Hk & <-). rewrite Lk in Hk. apply Fn. auto. }
  split. { intros i j Hij. rewrite map_length, Lk in Hij. rewrite !Tv. apply Mo. lia. }
  split; [|auto].
  intros k Hk. rewrite Tv. rewrite (Ek k ltac:(lia)). unfold knot.
  assert (L2 : powerRZ 2 40 * 4 = powerRZ 2 42 /\ powerRZ 2 40 * 8 = powerRZ 2 43).
  { rewrite <- !(bpow_powerRZ radix2). change 4 with (bpow radix2 2). change 8 with (bpow radix2 3). rewrite <- !bpow_plus. split; reflexivity. }
  assert (Oe : INR extra <= 2 * INR m) by (change 2 with (INR 2); rewrite <- mult_INR; apply le_INR; lia). pose proof (pos_INR extra) as E0.
  assert (Hex : INR extra <= powerRZ 2 42) by lra.
  assert (Kb : INR k <= INR m + INR extra) by (rewrite <- plus_INR; apply le_INR; lia). pose proof (pos_INR k) as K0.
  assert (Hk3 : INR k <= powerRZ 2 43) by lra.
  destruct (mult_ok m ltac:(lia) extra Hex k Hk3) as [Gm Vm].
  destruct (place_val a b m X Ha Hb HA HB x1 D0 ltac:(lia) Hn (Fnat k - 0.5 * Fnat extra)%float Gm) as (_ & V1 & V2).
  { rewrite Vm. unfold mult. apply Rabs_le. lra. }
  rewrite Vm in V1, V2. rewrite Edx. split; auto.
Qed.
Lemma upe_near k : (k < len)%nat -> pos (INR k - INR extra / 2) - de <= t k <= pos (INR k - INR extra / 2) + de.
Proof using All. intros Hk. destruct upe_knots as (_ & _ & _ & _ & In1 & _). destruct (In1 k Hk) as [_ V]. apply Rabs_le_inv in V. unfold mult in V. lra. Qed.
Lemma upe_gap i : (i + 1 < len)%nat -> 7 * h / 8 <= t (i + 1)%nat - t i.
Proof using All.
  intros Hi. destruct upe_scale as (X0 & h0 & d0 & g0 & x1 & D0 & E & M1 & HX2). pose proof (upe_near i ltac:(lia)). pose proof (upe_near (i + 1) ltac:(lia)) as Q.
  rewrite (plus_INR i) in Q. change (INR 1) with 1 in Q. lra.
Qed.
Lemma extra_half : INR extra / 2 = INR p + (if (p mod 2 =? 1)%nat then 0 else / 2).
Proof using Type.
  pose proof (mod2_cases p) as [E|E]; rewrite E; cbn [Nat.eqb Nat.sub]; rewrite plus_INR, mult_INR; simpl INR; lra.
Qed.
Lemma upe_first : if (p mod 2 =? 1)%nat then t p = A else pos (- (1 / 2)) - de <= t p <= pos (- (1 / 2)) + de.
Proof using All.
  pose proof (mod2_cases p) as MC. pose proof extra_half as EH. pose proof (upe_near p ltac:(lia)) as Q. destruct (Nat.eqb_spec (p mod 2) 1) as [Ev|Od].
  - destruct upe_knots as (_ & _ & _ & _ & In1 & _). destruct (In1 p ltac:(lia)) as [-> _]. unfold mult. rewrite EH.
    replace ((INR p - (INR p + 0)) * double_val dx) with 0 by ring. rewrite (rnd_exact 0) by apply generic_format_0. rewrite Rplus_0_r. apply rnd_exact, val_format.
  - rewrite EH in Q. lra.
Qed.
Lemma upe_wide x y : In x K -> In y K -> double_val y - double_val x <= Fbig / 4.
Proof using All.
  destruct upe_scale as (X0 & h0 & d0 & g0 & x1 & D0 & E & M1 & HX2). destruct upe_knots as (_ & Lk & _). pose proof (mod2_cases p) as MC.
  apply (fit_wide K X); auto. intros z Hz. apply (In_nth _ _ 0%float) in Hz as (k & Hk & <-). rewrite <- kn_vals. rewrite Lk in Hk.
  pose proof (upe_near k Hk) as Q. pose proof (pos_INR k) as K0. pose proof (pos_INR extra) as E0.
  assert (Oe : INR extra <= 2 * INR m) by (change 2 with (INR 2); rewrite <- mult_INR; apply le_INR; lia).
  assert (Kb : INR k <= INR m + INR extra) by (rewrite <- plus_INR; apply le_INR; lia).
  pose proof (per_mono (- INR m) (INR k - INR extra / 2) ltac:(lra)). pose proof (per_mono (INR k - INR extra / 2) (2 * INR m) ltac:(lra)).
  apply Rabs_le_inv in HA. apply Rabs_le_inv in HB. apply Rabs_le. lra.
Qed.

(** The coordinate of the cached row *)
Local Notation xc := (nth p K 0 + Fnat (1 - p mod 2) * dx * 0.5)%float.
Lemma upe_xc : double_finite xc /\ Rabs (double_val xc - A) <= 2 * de /\ ((p mod 2 = 1)%nat -> double_val xc = t p).
Proof using All.
  destruct upe_scale as (X0 & h0 & d0 & g0 & x1 & D0 & E & M1 & HX2). destruct upe_knots as (_ & Lk & Fn & _ & _ & Gd & Vd).
  pose proof (mod2_cases p) as MC. pose proof upe_first as F. pose proof (kn_vals K p) as Tp.
  assert (Gp : double_finite (nth p K 0%float)) by (apply Fn, nth_In; lia). destruct half_val as [Gh Vh].
  destruct Fu_val as [Eu [U0 U1]]. apply Rabs_le_inv in HA as HA'.
  assert (Big : X <= Fbig / 16).
  { unfold Fbig. change (/ 16) with (bpow radix2 (-4)). unfold Rdiv. change (/ 16) with (bpow radix2 (-4)). rewrite <- bpow_plus.
    eapply Rle_trans; [exact x1|]. rewrite <- (bpow_powerRZ radix2). apply bpow_le. lia. }
  assert (P51 : powerRZ 2 (-51) = 4 * Fu) by (rewrite (proj1 Fu_val), <- !(bpow_powerRZ radix2); change (-51)%Z with (2 + -53)%Z; rewrite bpow_plus; change (bpow radix2 2) with 4; reflexivity).
  rewrite P51 in Vd. set (s := double_val dx) in *. set (T := double_val (nth p K 0%float)) in *. rewrite Tp in *.
  assert (Fh : 0 <= Fu * h <= h / 1000000) by (split; [apply Rmult_le_pos; lra|unfold Rdiv at 2; rewrite (Rmult_comm h); apply Rmult_le_compat_r; lra]).
  assert (FX : Fu * h <= Fu * (2 * X)) by (apply Rmult_le_compat_l; lra).
  assert (F0 : 0 <= Fu * X) by (apply Rmult_le_pos; lra).
  apply Rabs_le_inv in Vd.
  destruct MC as [Ev|Od].
  - rewrite Ev in *. cbn [Nat.eqb Nat.sub] in *.
    destruct (Fnat_exact 1) as [G1 V1]; [lia|]. change (INR 1) with 1 in V1.
    destruct (Fmul_val (Fnat 1) dx G1 Gd) as [G2 V2]. { fold s. rewrite V1. apply Rabs_le. lra. }
    fold s in V2. rewrite V1, Rmult_1_l in V2. rewrite rnd_exact in V2 by apply val_format. fold s in V2.
    destruct (Fmul_val (Fnat 1 * dx)%float 0.5%float G2 Gh) as [G3 V3]. { rewrite V2, Vh. apply Rabs_le. lra. }
    rewrite V2, Vh in V3. pose proof (rnd_error (s * / 2)) as R1. rewrite (Rabs_pos_eq (s * / 2)) in R1 by lra.
    destruct (eta_small a b m X) as [S1 _]; auto; try lia. destruct u_facts as [_ E0]. set (w := rnd (s * / 2)) in *. apply Rabs_le_inv in R1.
    assert (Fs : Fu * (s * / 2) <= Fu * h) by (apply Rmult_le_compat_l; lra).
    assert (Bw : Rabs (T + w) <= 2 * X) by (apply Rabs_le; lra).
    destruct (Fadd_val (nth p K 0)%float (Fnat 1 * dx * 0.5)%float Gp G3) as [G4 V4]. { fold T. rewrite V3. lra. } fold T in V4. rewrite V3 in V4.
    assert (Fp : generic_format radix2 fe w) by (rewrite <- V3; apply val_format).
    pose proof (rnd_plus T w (val_format (nth p K 0%float)) Fp) as R2. rewrite <- V4 in R2. apply Rabs_le_inv in R2.
    pose proof (Rmult_le_compat_l Fu _ _ (Rlt_le _ _ U0) Bw) as W.
    split; [exact G4|]. split; [|intros; discriminate]. rewrite p48 in *. set (v := double_val (nth p K 0 + Fnat 1 * dx * 0.5)%float) in *. apply Rabs_le. lra.
  - rewrite Od in *. cbn [Nat.eqb Nat.sub] in *.
    destruct (Fnat_exact 0) as [G1 V1]; [lia|]. change (INR 0) with 0 in V1.
    destruct (Fmul_val (Fnat 0) dx G1 Gd) as [G2 V2]. { rewrite V1, Rmult_0_l, Rabs_R0. lra. }
    rewrite V1, Rmult_0_l in V2. rewrite rnd_exact in V2 by apply generic_format_0.
    destruct (Fmul_val (Fnat 0 * dx)%float 0.5%float G2 Gh) as [G3 V3]. { rewrite V2, Rmult_0_l, Rabs_R0. lra. }
    rewrite V2, Rmult_0_l in V3. rewrite rnd_exact in V3 by apply generic_format_0.
    destruct (Fadd_val (nth p K 0)%float (Fnat 0 * dx * 0.5)%float Gp G3) as [G4 V4]. { fold T. rewrite V3. apply Rabs_le. lra. }
    fold T in V4. rewrite V3, Rplus_0_r in V4. rewrite rnd_exact in V4 by apply val_format. fold T in V4.
    split; [exact G4|]. split; [|auto]. rewrite V4. apply Rabs_le. lra.
Qed.
Lemma upe_seg : t p <= double_val xc <= t (p + 1)%nat.
Proof using All.
  destruct upe_scale as (X0 & h0 & d0 & g0 & x1 & D0 & E & M1 & HX2). pose proof (mod2_cases p) as MC. pose proof upe_first as F.
  pose proof (upe_near (p + 1) ltac:(lia)) as Q. rewrite extra_half, (plus_INR p) in Q. change (INR 1) with 1 in Q.
  destruct upe_xc as (_ & V & O). apply Rabs_le_inv in V. destruct MC as [Ev|Od].
  - rewrite Ev in *. cbn [Nat.eqb] in *. lra.
  - rewrite O in * by auto. pose proof (upe_gap p ltac:(lia)). lra.
Qed.
(** A coordinate of the segment of row [i] near data point [i] *)
Lemma upe_row i : (i < m)%nat -> exists y0, t (i + p)%nat <= y0 <= t (i + p + 1)%nat /\ Rabs (y0 - pos (INR i)) <= de /\
  forall r, (r <= 2 * p)%nat -> Rabs ((t (p - p + r)%nat - double_val xc) - (t (i + p - p + r)%nat - y0)) <= 4 * de.
Proof using All.
  intros Hi. destruct upe_scale as (X0 & h0 & d0 & g0 & x1 & D0 & E & M1 & HX2). pose proof (mod2_cases p) as MC. pose proof upe_first as F. pose proof extra_half as EH.
  destruct upe_xc as (_ & V & O). apply Rabs_le_inv in V.
  pose proof (upe_near (i + p) ltac:(lia)) as Q1. pose proof (upe_near (i + p + 1) ltac:(lia)) as Q2. rewrite EH in Q1, Q2. rewrite (plus_INR (i + p) 1), (plus_INR i p) in Q2. rewrite (plus_INR i p) in Q1. change (INR 1) with 1 in Q2.
  assert (R : forall r, (r <= 2 * p)%nat -> Rabs (t (p - p + r)%nat - (t (i + p - p + r)%nat - INR i * h)) <= 2 * de).
  { intros r Hr. replace (p - p + r)%nat with r by lia. replace (i + p - p + r)%nat with (i + r)%nat by lia.
    pose proof (upe_near r ltac:(lia)) as S1. pose proof (upe_near (i + r) ltac:(lia)) as S2. rewrite plus_INR in S2. apply Rabs_le. lra. }
  destruct MC as [Ev|Od].
  - rewrite Ev in *. cbn [Nat.eqb] in *. exists (pos (INR i)). split; [lra|]. split; [rewrite Rminus_eq_0, Rabs_R0; lra|].
    intros r Hr. specialize (R r Hr). apply Rabs_le_inv in R. apply Rabs_le. lra.
  - rewrite Od in *. cbn [Nat.eqb] in *. exists (t (i + p)%nat). split; [pose proof (upe_gap (i + p) ltac:(lia)); lra|]. split; [apply Rabs_le; lra|].
    intros r Hr. specialize (R r Hr). apply Rabs_le_inv in R. rewrite (O eq_refl) in *. apply Rabs_le. lra.
Qed.
End UPer.
