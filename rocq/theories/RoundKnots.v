(** Rounding errors of the knot vectors of points given by iterators. *)
From Coq Require Import List Arith Lia Bool ZArith Reals Lra Psatz.
From Verif Require Import Base Num MeshM ProgM BandM LUM SplineM InterpM SpecBand SpecSpline SpecInterp SpecRound.
From Verif Require Import SumR BandProofs MulProofs LUTop KnotProofs RoundLU.
Import ListNotations.
Local Open Scope R_scope.

Lemma gfirstn_snoc {A} (d : A) (l : list A) k : (k < length l)%nat -> firstn k l ++ [nth k l d] = firstn (k + 1) l.
Proof.
  intros H. rewrite <- (firstn_skipn k l) at 3. rewrite firstn_app, firstn_firstn, firstn_length.
  replace (Nat.min (k + 1) k) with k by lia. replace (k + 1 - Nat.min k (length l))%nat with 1%nat by lia.
  f_equal. rewrite (MeshProofs.skipn_nth _ _ d) by auto. reflexivity.
Qed.
Lemma gvget_firstn {A} (d : A) (l : list A) k m : (k < m)%nat -> (m <= length l)%nat -> vget (firstn m l) k = Ok (nth k l d).
Proof.
  intros H1 H2. rewrite (vget_ok _ _ d) by (rewrite firstn_length; lia). f_equal.
  rewrite <- (firstn_skipn m l) at 2. rewrite app_nth1; auto. rewrite firstn_length; lia.
Qed.

Section Knots.
Context {T : Type} (o : ops T) (val : T -> R) (good : T -> Prop) (u eta big : R) (Hr : rounding o val good u eta big).
Context (l : list T) (X : R).
Local Notation n := (length l).
Local Notation z := (o0 o).
Local Notation vl := (fun i => val (nth i l z)).
Context (Hl : forall a, In a l -> good a /\ Rabs (val a) <= X).

Lemma l_good i : (i < n)%nat -> good (nth i l z) /\ Rabs (vl i) <= X.
Proof using All. intros H. apply Hl. apply nth_In. auto. Qed.
Lemma u_pos : 0 <= u.
Proof using All. apply (rd_u _ _ _ _ _ _ Hr). Qed.

Section Ap.
Context (order : nat) (Ho : (1 <= order)%nat) (Hn : (order + 1 <= n)%nat).
Context (Hord : good (onat o order) /\ val (onat o order) = INR order).
Context (Hbig : INR order * X * (1 + u) ^ (2 * n) <= big).
Local Notation M := (INR order * X).

Lemma X_pos : 0 <= X.
Proof using All. destruct (l_good 0 ltac:(lia)) as [_ H]. pose proof (Rabs_pos (val (nth 0 l z))). lra. Qed.
Lemma M_pos : X <= M.
Proof using All. pose proof X_pos. pose proof (le_INR 1 order Ho). cbn [INR] in *. nra. Qed.
Definition near (w : T) (W : R) (c : nat) : Prop := good w /\ Rabs (val w - W) <= ((1 + u) ^ c - 1) * M.
Lemma pow_big c : (c <= 2 * n)%nat -> 1 <= (1 + u) ^ c /\ (1 + u) ^ c * M <= big.
Proof using All.
  intros H. pose proof u_pos as U. split; [apply pow_ge1; auto|]. pose proof M_pos. pose proof X_pos.
  apply Rle_trans with ((1 + u) ^ (2 * n) * M); [|lra]. apply Rmult_le_compat_r; [lra|]. apply pow_mono; auto.
Qed.
Lemma near_abs w W c : near w W c -> Rabs W <= M -> Rabs (val w) <= (1 + u) ^ c * M.
Proof using All.
  intros [_ H] HW. replace (val w) with ((val w - W) + W) by ring. eapply Rle_trans; [apply Rabs_triang|]. lra.
Qed.
Lemma near_add w W c x vx : near w W c -> good x -> val x = vx -> Rabs (W + vx) <= M -> (c + 1 <= 2 * n)%nat -> near (oadd o w x) (W + vx) (c + 1).
Proof using All.
  intros [G E] Gx <- HW Hc. destruct (pow_big c ltac:(lia)) as [P1 P2]. pose proof u_pos as U.
  assert (A : Rabs (val w + val x) <= (1 + u) ^ c * M).
  { replace (val w + val x) with ((val w - W) + (W + val x)) by ring. eapply Rle_trans; [apply Rabs_triang|]. lra. }
  destruct (rd_add _ _ _ _ _ _ Hr w x G Gx ltac:(lra)) as [G' E']. split; auto.
  replace (val (oadd o w x) - (W + val x)) with ((val (oadd o w x) - (val w + val x)) + (val w - W)) by ring.
  eapply Rle_trans; [apply Rabs_triang|]. rewrite Nat.add_1_r. cbn [pow].
  assert (u * Rabs (val w + val x) <= u * ((1 + u) ^ c * M)) by (apply Rmult_le_compat_l; auto). lra.
Qed.
Lemma near_sub w W c x vx : near w W c -> good x -> val x = vx -> Rabs (W - vx) <= M -> (c + 1 <= 2 * n)%nat -> near (osub o w x) (W - vx) (c + 1).
Proof using All.
  intros [G E] Gx <- HW Hc. destruct (pow_big c ltac:(lia)) as [P1 P2]. pose proof u_pos as U.
  assert (A : Rabs (val w - val x) <= (1 + u) ^ c * M).
  { replace (val w - val x) with ((val w - W) + (W - val x)) by ring. eapply Rle_trans; [apply Rabs_triang|]. lra. }
  destruct (rd_sub _ _ _ _ _ _ Hr w x G Gx ltac:(lra)) as [G' E']. split; auto.
  replace (val (osub o w x) - (W - val x)) with ((val (osub o w x) - (val w - val x)) + (val w - W)) by ring.
  eapply Rle_trans; [apply Rabs_triang|]. rewrite Nat.add_1_r. cbn [pow].
  assert (u * Rabs (val w - val x) <= u * ((1 + u) ^ c * M)) by (apply Rmult_le_compat_l; auto). lra.
Qed.
Lemma near_div w W c : near w W c -> Rabs W <= M -> (c + 1 <= 2 * n)%nat ->
  exists q, odiv o w (onat o order) = Ok q /\ good q /\ Rabs (val q - W / INR order) <= ((1 + u) ^ (c + 1) - 1) * X + eta.
Proof using All.
  intros Hw HW Hc. pose proof Hw as [G E]. pose proof (near_abs w W c Hw HW) as A. destruct (pow_big c ltac:(lia)) as [P1 P2]. pose proof u_pos as U.
  pose proof X_pos as HX. pose proof M_pos as HM. pose proof (le_INR 1 order Ho) as O1. cbn [INR] in O1. destruct Hord as [Go Eo].
  assert (Q : Rabs (val w / INR order) <= (1 + u) ^ c * X).
  { unfold Rdiv. rewrite Rabs_mult, Rabs_inv, (Rabs_pos_eq (INR order)) by lra. apply Rmult_le_reg_r with (INR order); [lra|].
    rewrite Rmult_assoc, Rinv_l by lra. lra. }
  destruct (rd_div _ _ _ _ _ _ Hr w (onat o order)) as (q & Eq & Gq & Er); auto; rewrite ?Eo; try lra.
  { apply Rle_trans with ((1 + u) ^ c * X); auto. apply Rle_trans with ((1 + u) ^ c * M); auto. apply Rmult_le_compat_l; lra. }
  exists q. split; auto. split; auto. rewrite Eo in Er.
  replace (val q - W / INR order) with ((val q - val w / INR order) + (val w - W) / INR order) by (field; lra).
  eapply Rle_trans; [apply Rabs_triang|].
  assert (B : Rabs ((val w - W) / INR order) <= ((1 + u) ^ c - 1) * X).
  { unfold Rdiv. rewrite Rabs_mult, Rabs_inv, (Rabs_pos_eq (INR order)) by lra. apply Rmult_le_reg_r with (INR order); [lra|].
    rewrite Rmult_assoc, Rinv_l by lra. lra. }
  assert (u * Rabs (val w / INR order) <= u * ((1 + u) ^ c * X)) by (apply Rmult_le_compat_l; auto).
  rewrite Nat.add_1_r. cbn [pow]. lra.
Qed.
Lemma win_abs k i : (k <= order)%nat -> (i + k <= n)%nat -> Rabs (sum k (fun j => vl (i + j)%nat)) <= M.
Proof using All.
  intros Hk Hi. eapply Rle_trans; [apply sum_Rabs|]. apply Rle_trans with (sum k (fun _ => X)).
  - apply sum_le. intros j Hj. apply l_good. lia.
  - rewrite sum_const. apply Rmult_le_compat_r; [apply X_pos|]. apply le_INR. auto.
Qed.

Lemma knots_ap : exists xs,
  aperiodic_points o order l = Ok (xs, l) /\ length xs = (n + order + 1)%nat /\
  (forall k, (k <= order)%nat -> nth k xs z = nth 0 l z) /\
  (forall k, (n <= k < n + order + 1)%nat -> nth k xs z = nth (n - 1) l z) /\
  forall k, (k < n + order + 1)%nat -> good (nth k xs z) /\
    Rabs (val (nth k xs z) - ap_knot order n vl k) <= ((1 + u) ^ (2 * n) - 1) * X + eta.
Proof using All.
  unfold aperiodic_points. pose proof u_pos as U. pose proof X_pos as HX.
  rewrite (vget_ok l 0 z) by lia. cbn [bind]. set (x := fun i => nth i l z).
  change (nth 0 l z) with (x 0%nat).
  destruct (fill_loop z 0 (order + 1) (repeat z (n + order + 1)) (fun _ => x 0%nat)) as (xs1 & E1 & L1 & N1).
  { rewrite repeat_length. lia. }
  rewrite E1. cbn [bind]. rewrite repeat_length in L1.
  set (body1 := fun st i => let '(it, coord, window) := st in
      v <- vget l (it + 1) ;; let coord := coord ++ [v] in c <- vget coord i ;;
      Ok ((it + 1)%nat, coord, oadd o window c)).
  destruct (for_inv (fun i (st : nat * list T * T) => exists w, st = ((i - 1)%nat, firstn i l, w) /\ near w (sum (i - 1) (fun j => vl (1 + j)%nat)) (i - 1)) 1 order
    (0%nat, [x 0%nat], z) body1) as (st1 & E2 & w1 & -> & H2); [lia|..].
  - exists z. split.
    + unfold x. destruct l; [simpl in Hn; lia|]. reflexivity.
    + destruct (rd_0 _ _ _ _ _ _ Hr) as [G0 V0]. split; auto. cbn [sum Nat.sub pow]. rewrite V0, Rminus_0_r, Rabs_R0. lra.
  - intros i st Hi (w & -> & Hw). unfold body1. replace (i - 1 + 1)%nat with i by lia.
    rewrite (vget_ok l i z) by lia. cbn [bind]. rewrite gfirstn_snoc by lia.
    rewrite (gvget_firstn z) by lia. cbn [bind]. eexists; split; [reflexivity|].
    eexists. split; [f_equal; f_equal; lia|].
    replace (i + 1 - 1)%nat with (S (i - 1)) by lia. cbn [sum]. replace (S (i - 1)) with (i - 1 + 1)%nat by lia.
    apply near_add; [auto|apply l_good; lia|f_equal; f_equal; lia| |lia].
    change (Rabs (sum (S (i - 1)) (fun j => vl (1 + j)%nat)) <= M). apply win_abs; lia.
  - rewrite E2. cbn [bind].
    set (body2 := fun st i => let '(xs, it, coord, window) := st in
      v <- vget l (it + 1) ;; let coord := coord ++ [v] in
      c <- vget coord (i - 1) ;; let window := oadd o window c in
      k <- odiv o window (onat o order) ;; xs <- vset xs i k ;;
      c <- vget coord (i - order) ;; Ok (xs, (it + 1)%nat, coord, osub o window c)).
    destruct (for_inv (fun i (st : list T * nat * list T * T) => exists xs w,
       st = (xs, (i - 2)%nat, firstn (i - 1) l, w) /\
       near w (sum (order - 1) (fun j => vl (i - order + j)%nat)) (order - 1 + 2 * (i - (order + 1))) /\
       length xs = (n + order + 1)%nat /\
       (forall k, (order < k < i)%nat -> good (nth k xs z) /\ Rabs (val (nth k xs z) - ap_knot order n vl k) <= ((1 + u) ^ (2 * n) - 1) * X + eta) /\
       forall k, (k <= order \/ i <= k)%nat -> nth k xs z = nth k xs1 z)
       (order + 1) n (xs1, (order - 1)%nat, firstn order l, w1) body2) as (st2 & E3 & H3); [lia|..].
    + exists xs1, w1. split; [|split; [|split; [lia|split; [intros; lia|auto]]]].
      * replace (order + 1 - 2)%nat with (order - 1)%nat by lia. replace (order + 1 - 1)%nat with order by lia. reflexivity.
      * replace (order + 1 - order)%nat with 1%nat by lia. rewrite Nat.sub_diag, Nat.mul_0_r, Nat.add_0_r. exact H2.
    + intros i st Hi (xs & w & -> & Hw & Lx & Nx & Ox). unfold body2. replace (i - 2 + 1)%nat with (i - 1)%nat by lia.
      rewrite (vget_ok l (i - 1) z) by lia. cbn [bind]. rewrite gfirstn_snoc by lia.
      replace (i - 1 + 1)%nat with i by lia.
      rewrite (gvget_firstn z) by lia. cbn [bind].
      set (c := (order - 1 + 2 * (i - (order + 1)))%nat) in *.
      assert (W : sum (order - 1) (fun j => vl (i - order + j)%nat) + vl (i - 1)%nat = sum order (fun j => vl (i - order + j)%nat)).
      { apply (window_add vl); lia. }
      assert (W2 : sum order (fun j => vl (i - order + j)%nat) - vl (i - order)%nat = sum (order - 1) (fun j => vl (i + 1 - order + j)%nat)).
      { apply (window_sub vl); lia. }
      assert (H1 : near (oadd o w (nth (i - 1) l z)) (sum order (fun j => vl (i - order + j)%nat)) (c + 1)).
      { rewrite <- W. apply near_add; auto; [apply l_good; lia| |unfold c; lia]. rewrite W. apply win_abs; lia. }
      destruct (near_div _ _ _ H1) as (q & Eq & Gq & Eqq); [apply win_abs; lia|unfold c; lia|].
      rewrite Eq. cbn [bind].
      rewrite vset_ok by lia. cbn [bind]. rewrite (gvget_firstn z) by lia. cbn [bind].
      eexists; split; [reflexivity|]. eexists _, _; split; [|split; [|split; [|split]]].
      * f_equal; f_equal; [f_equal; lia|f_equal; lia].
      * rewrite <- W2. replace (order - 1 + 2 * (i + 1 - (order + 1)))%nat with (c + 1 + 1)%nat by (unfold c; lia).
        apply near_sub; auto; [apply l_good; lia| |unfold c; lia]. rewrite W2. apply win_abs; lia.
      * rewrite upd_length. auto.
      * intros k Hk. rewrite nth_upd, Lx. destruct (Nat.ltb_spec i (n + order + 1)); [|lia].
        destruct (Nat.eqb_spec k i) as [->|Ne]; cbn [andb]; [|apply Nx; lia]. split; auto.
        unfold ap_knot. destruct (Nat.leb_spec i order); [lia|]. destruct (Nat.ltb_spec i n); [|lia].
        destruct (Nat.eqb_spec order 0) as [Z0|Z0]; [lia|]. unfold mean. change Rsum with sum.
        eapply Rle_trans; [exact Eqq|]. apply Rplus_le_compat_r, Rmult_le_compat_r; auto.
        pose proof (pow_mono u (c + 1 + 1) (2 * n) U ltac:(unfold c; lia)). lra.
      * intros k Hk. rewrite nth_upd. destruct (Nat.eqb_spec k i) as [->|Ne]; [lia|]. rewrite andb_false_r || cbn [andb]. apply Ox. lia.
    + rewrite E3 || (unfold body2 in E3; rewrite E3). destruct H3 as (xs & w & -> & _ & Lx & Nx & Ox). cbn [bind].
      replace (n - 2 + 1)%nat with (n - 1)%nat by lia.
      rewrite (vget_ok l (n - 1) z) by lia. cbn [bind].
      destruct (fill_loop z n (n + order + 1) xs (fun _ => nth (n - 1) l z)) as (xs2 & E4 & L4 & N4); [lia|].
      rewrite E4. cbn [bind].
      assert (B0 : 0 <= ((1 + u) ^ (2 * n) - 1) * X + eta).
      { pose proof (rd_eta _ _ _ _ _ _ Hr). pose proof (pow_ge1 u (2 * n) U). assert (0 <= ((1 + u) ^ (2 * n) - 1) * X) by (apply Rmult_le_pos; lra). lra. }
      assert (Lo : forall k, (k <= order)%nat -> nth k xs2 z = nth 0 l z).
      { intros k Hk. rewrite N4. destruct (Nat.leb_spec n k); [lia|]. cbn [andb]. rewrite Ox by lia. rewrite N1. destruct (Nat.ltb_spec k (order + 1)); [|lia]. reflexivity. }
      assert (Hi : forall k, (n <= k < n + order + 1)%nat -> nth k xs2 z = nth (n - 1) l z).
      { intros k Hk. rewrite N4. destruct (Nat.leb_spec n k); [|lia]. destruct (Nat.ltb_spec k (n + order + 1)); [|lia]. reflexivity. }
      exists xs2. split; [|split; [lia|split; [exact Lo|split; [exact Hi|]]]].
      * f_equal. f_equal. rewrite gfirstn_snoc by lia. replace (n - 1 + 1)%nat with n by lia. apply firstn_all.
      * intros k Hk. destruct (Nat.le_gt_cases k order) as [K1|K1]; [|destruct (Nat.lt_ge_cases k n) as [K2|K2]].
        -- rewrite Lo by auto. split; [apply l_good; lia|]. unfold ap_knot. destruct (Nat.leb_spec k order); [|lia].
           rewrite Rminus_diag_eq, Rabs_R0 by reflexivity. exact B0.
        -- rewrite N4. destruct (Nat.leb_spec n k); [lia|]. cbn [andb]. apply Nx. lia.
        -- rewrite Hi by lia. split; [apply l_good; lia|]. unfold ap_knot. destruct (Nat.leb_spec k order); [lia|]. destruct (Nat.ltb_spec k n); [lia|].
           rewrite Rminus_diag_eq, Rabs_R0 by reflexivity. exact B0.
Qed.
End Ap.

Section Per.
Context (order : nat) (Hn : (order + 2 <= n)%nat).
Context (Hh : good (ohalf o) /\ val (ohalf o) = / 2).
Context (Hbig : 8 * X <= big) (Heta : eta <= 1).
Local Notation m := (n - 1)%nat.
Local Notation P := (vl m - vl 0%nat).
Local Notation K := (per_knot order m P vl).

Lemma Xp_pos : 0 <= X.
Proof using All. destruct (l_good 0 ltac:(lia)) as [_ H]. pose proof (Rabs_pos (val (nth 0 l z))). lra. Qed.
Definition close (w : T) (W e : R) : Prop := good w /\ Rabs (val w - W) <= e.
Lemma close_add a b A B ea eb : close a A ea -> close b B eb -> Rabs (A + B) + ea + eb <= big ->
  close (oadd o a b) (A + B) (ea + eb + u * (Rabs (A + B) + ea + eb)).
Proof using All.
  intros [Ga Ea] [Gb Eb] H. pose proof u_pos as U.
  assert (D : Rabs (val a + val b - (A + B)) <= ea + eb).
  { replace (val a + val b - (A + B)) with ((val a - A) + (val b - B)) by ring. eapply Rle_trans; [apply Rabs_triang|]. lra. }
  assert (S : Rabs (val a + val b) <= Rabs (A + B) + ea + eb).
  { replace (val a + val b) with ((A + B) + (val a + val b - (A + B))) by ring. eapply Rle_trans; [apply Rabs_triang|]. lra. }
  destruct (rd_add _ _ _ _ _ _ Hr a b Ga Gb ltac:(lra)) as [G E]. split; auto.
  replace (val (oadd o a b) - (A + B)) with ((val a + val b - (A + B)) + (val (oadd o a b) - (val a + val b))) by ring.
  eapply Rle_trans; [apply Rabs_triang|]. pose proof (Rmult_le_compat_l u _ _ U S). lra.
Qed.
Lemma close_sub a b A B ea eb : close a A ea -> close b B eb -> Rabs (A - B) + ea + eb <= big ->
  close (osub o a b) (A - B) (ea + eb + u * (Rabs (A - B) + ea + eb)).
Proof using All.
  intros [Ga Ea] [Gb Eb] H. pose proof u_pos as U.
  assert (D : Rabs (val a - val b - (A - B)) <= ea + eb).
  { replace (val a - val b - (A - B)) with ((val a - A) + - (val b - B)) by ring. eapply Rle_trans; [apply Rabs_triang|]. rewrite Rabs_Ropp. lra. }
  assert (S : Rabs (val a - val b) <= Rabs (A - B) + ea + eb).
  { replace (val a - val b) with ((A - B) + (val a - val b - (A - B))) by ring. eapply Rle_trans; [apply Rabs_triang|]. lra. }
  destruct (rd_sub _ _ _ _ _ _ Hr a b Ga Gb ltac:(lra)) as [G E]. split; auto.
  replace (val (osub o a b) - (A - B)) with ((val a - val b - (A - B)) + (val (osub o a b) - (val a - val b))) by ring.
  eapply Rle_trans; [apply Rabs_triang|]. pose proof (Rmult_le_compat_l u _ _ U S). lra.
Qed.
Lemma close_weak a A e e' : close a A e -> e <= e' -> close a A e'.
Proof using. intros [G E] H. split; auto. lra. Qed.
Lemma close_l i : (i < n)%nat -> close (nth i l z) (vl i) 0.
Proof using All. intros H. split; [apply l_good; auto|]. rewrite Rminus_diag_eq, Rabs_R0 by auto. lra. Qed.
Lemma vl_abs i : (i < n)%nat -> - X <= vl i <= X.
Proof using All. intros H. destruct (l_good i H) as [_ A]. cbn beta in *. revert A. unfold Rabs. destruct (Rcase_abs (val (nth i l z))); lra. Qed.
Lemma P_abs : - (2 * X) <= P <= 2 * X.
Proof using All. pose proof (vl_abs m ltac:(lia)). pose proof (vl_abs 0 ltac:(lia)). cbn beta in *. lra. Qed.
Lemma K_in i : (order + 1 <= i <= order + m)%nat -> - X <= K i <= X.
Proof using All.
  intros H. rewrite (per_knot_in order m vl) by lia. pose proof (vl_abs (i - order - 1) ltac:(lia)). pose proof (vl_abs (i - order) ltac:(lia)). cbn beta in *.
  destruct (Nat.even order); lra.
Qed.
Lemma K_add i : K (i + m) = K i + P.
Proof using All. apply (per_knot_add order m P vl). lia. Qed.
Local Notation E1 := (3 * u * X + eta).
Local Notation E2 := (9 * u * X + 2 * eta).
Local Notation E3 := (13 * u * X + 3 * eta).
Lemma E_facts : 0 <= eta /\ 0 <= u * X <= X / 16 /\ 0 <= u * (u * X) <= u * X / 16 /\ 0 <= u * eta <= eta / 16.
Proof using All.
  pose proof (rd_u _ _ _ _ _ _ Hr) as U. pose proof (rd_eta _ _ _ _ _ _ Hr) as He. pose proof Xp_pos as HX.
  assert (A : 0 <= u * X <= X / 16) by (split; [apply Rmult_le_pos|]; nra).
  split; auto. split; auto. split; split; nra.
Qed.
Lemma knot_mid i : (order + 1 <= i <= order + m)%nat ->
  close (if (order mod 2 =? 0)%nat then omul o (ohalf o) (oadd o (nth (i - order - 1) l z) (nth (i - order) l z)) else nth (i - order) l z) (K i) E1.
Proof using All.
  intros Hi. destruct E_facts as (F1 & F2 & F3 & F4). pose proof (rd_u _ _ _ _ _ _ Hr) as U. pose proof Xp_pos as HX.
  rewrite (per_knot_in order m vl) by lia. rewrite even_mod2.
  pose proof (vl_abs (i - order - 1) ltac:(lia)) as A1. pose proof (vl_abs (i - order) ltac:(lia)) as A2. cbn beta in *.
  destruct (order mod 2 =? 0)%nat.
  2:{ apply close_weak with 0; [apply (close_l (i - order)); lia|lra]. }
  set (x := nth (i - order - 1) l z) in *. set (y := nth (i - order) l z) in *.
  assert (S : Rabs (val x + val y) <= 2 * X) by (apply Rabs_le; lra).
  destruct (close_add x y (val x) (val y) 0 0) as [G E]; [apply (close_l (i - order - 1)); lia|apply (close_l (i - order)); lia|lra|].
  pose proof (Rmult_le_compat_l u _ _ (proj1 U) S) as US.
  assert (B : Rabs (val (oadd o x y)) <= 2 * X + 2 * u * X).
  { replace (val (oadd o x y)) with ((val (oadd o x y) - (val x + val y)) + (val x + val y)) by ring. eapply Rle_trans; [apply Rabs_triang|]. lra. }
  destruct Hh as [Gh Vh].
  assert (Bh : Rabs (/ 2 * val (oadd o x y)) <= X + u * X).
  { rewrite Rabs_mult, (Rabs_pos_eq (/ 2)) by lra. lra. }
  destruct (rd_mul _ _ _ _ _ _ Hr (ohalf o) (oadd o x y) Gh G) as [G2 E']; [rewrite Vh; lra|].
  rewrite Vh in E'. split; auto.
  replace (val (omul o (ohalf o) (oadd o x y)) - (val x + val y) / 2) with
    ((val (omul o (ohalf o) (oadd o x y)) - / 2 * val (oadd o x y)) + / 2 * (val (oadd o x y) - (val x + val y))) by field.
  eapply Rle_trans; [apply Rabs_triang|]. rewrite (Rabs_mult (/ 2)), (Rabs_pos_eq (/ 2)) by lra.
  pose proof (Rmult_le_compat_l u _ _ (proj1 U) Bh). lra.
Qed.

Lemma knots_per : exists xs,
  periodic_points o order l = Ok (xs, l) /\ length xs = (m + 2 * order + 1 + (1 - order mod 2))%nat /\
  forall k, (k < m + 2 * order + 1 + (1 - order mod 2))%nat -> good (nth k xs z) /\ Rabs (val (nth k xs z) - K k) <= E3.
Proof using All.
  unfold periodic_points.
  set (len := (n + 2 * order + (1 - order mod 2))%nat).
  destruct E_facts as (F1 & F2 & F3 & F4). pose proof (rd_u _ _ _ _ _ _ Hr) as U. pose proof Xp_pos as HX. pose proof P_abs as HP.
  pose proof (rd_big _ _ _ _ _ _ Hr) as B16.
  rewrite (vget_ok l 0 z) by lia. cbn [bind].
  set (body1 := fun (st : list T * list T) i => let '(xs, coord) := st in
      present <- vget l (i - order) ;; back <- vget coord (length coord - 1) ;;
      xs <- vset xs i (if (order mod 2 =? 0)%nat then omul o (ohalf o) (oadd o back present) else present) ;;
      Ok (xs, coord ++ [present])).
  destruct (for_inv (fun i (st : list T * list T) => exists xs, st = (xs, firstn (i - order) l) /\ length xs = len /\
      forall k, (order + 1 <= k < i)%nat -> close (nth k xs z) (K k) E1) (order + 1) (order + n) (repeat z len, [nth 0 l z]) body1)
    as (st1 & Q1 & xs1 & -> & L1 & N1); [lia|..].
  - exists (repeat z len). split; [|split].
    + f_equal. replace (order + 1 - order)%nat with 1%nat by lia. destruct l; [simpl in Hn; lia|]. reflexivity.
    + apply repeat_length.
    + intros; lia.
  - intros i st Hi (xs & -> & Lx & Nx). unfold body1.
    rewrite (vget_ok l (i - order) z) by lia. cbn [bind].
    rewrite firstn_length_le by lia. rewrite (gvget_firstn z) by lia. cbn [bind].
    rewrite vset_ok by (unfold len in *; lia). cbn [bind]. eexists; split; [reflexivity|].
    eexists; split; [|split].
    + f_equal. rewrite gfirstn_snoc by lia. f_equal. lia.
    + rewrite upd_length. auto.
    + intros k Hk. rewrite nth_upd, Lx. destruct (Nat.ltb_spec i len); [|unfold len in *; lia].
      destruct (Nat.eqb_spec k i) as [->|Ne]; cbn [andb]; [apply knot_mid; lia|apply Nx; lia].
  - rewrite Q1. cbn [bind]. replace (order + n - order)%nat with n by lia.
    rewrite !firstn_all.
    rewrite (vget_ok l (n - 1) z), (vget_ok l 0 z) by lia. cbn [bind].
    set (p := osub o (nth (n - 1) l z) (nth 0 l z)).
    assert (Hp : close p P (2 * u * X)).
    { eapply close_weak; [apply (close_sub _ _ (vl m) (vl 0%nat) 0 0); [apply (close_l m); lia|apply (close_l 0); lia|]|].
      - rewrite !Rplus_0_r. apply Rabs_le in HP. eapply Rle_trans; [exact HP|]. lra.
      - apply Rabs_le in HP. pose proof (Rmult_le_compat_l u _ _ (proj1 U) HP). cbn beta in *. lra. }
    set (body2 := fun xs i => k <- usub (n + i) 1 ;; v <- vget xs k ;; xs <- vset xs i (osub o v p) ;;
      a <- usub (length xs) i ;; a1 <- usub a 1 ;; an <- usub a n ;; w <- vget xs an ;; vset xs a1 (oadd o w p)).
    destruct (for_inv (fun i (xs : list T) => length xs = len /\
      (forall k, (k < i)%nat -> (k <= order)%nat -> close (nth k xs z) (K k) E2) /\
      (forall k, (order + 1 <= k <= order + m)%nat -> (k < len - i)%nat -> close (nth k xs z) (K k) E1) /\
      (forall k, (len - i <= k < len)%nat -> close (nth k xs z) (K k) E3)) 0 (order + 1) xs1 body2)
      as (xs2 & Q2 & L2 & N2 & M2 & O2); [lia|..].
    + split; auto. split; [intros; lia|]. split; [intros k Hk _; apply N1; lia|intros; lia].
    + intros i xs Hi (Lx & Nx & Mx & Ox). unfold body2. rewrite usub_ok by lia. cbn [bind].
      assert (Hlen : len = (m + 1 + 2 * order + (1 - order mod 2))%nat) by (unfold len; lia).
      assert (Hm2 : order mod 2 = 0%nat \/ order mod 2 = 1%nat) by apply mod2_cases.
      rewrite (vget_ok xs _ z) by lia. cbn [bind]. rewrite vset_ok by lia. cbn [bind]. rewrite upd_length, Lx.
      rewrite (usub_ok len i) by lia. cbn [bind]. rewrite (usub_ok (len - i) 1) by lia. cbn [bind].
      rewrite (usub_ok (len - i) n) by lia. cbn [bind].
      assert (V : close (osub o (nth (n + i - 1) xs z) p) (K i) E2).
      { replace (n + i - 1)%nat with (i + m)%nat by lia. pose proof (Mx (i + m)%nat ltac:(lia) ltac:(lia)) as C. pose proof (K_in (i + m) ltac:(lia)) as KI.
        assert (S : Rabs (K (i + m)%nat - P) <= 3 * X) by (apply Rabs_le; lra).
        replace (K i) with (K (i + m)%nat - P) by (rewrite K_add; ring).
        eapply close_weak; [apply (close_sub _ _ _ _ _ _ C Hp); lra|].
        pose proof (Rmult_le_compat_l u _ _ (proj1 U) S). lra. }
      set (v := osub o (nth (n + i - 1) xs z) p) in *.
      assert (Nx' : forall k, (k < i + 1)%nat -> (k <= order)%nat -> close (nth k (upd xs i v) z) (K k) E2).
      { intros k Hk Hk'. rewrite nth_upd, Lx. destruct (Nat.ltb_spec i len); [|lia].
        destruct (Nat.eqb_spec k i) as [->|Ne]; cbn [andb]; auto. apply Nx; auto. lia. }
      assert (Mx' : forall k, (order + 1 <= k <= order + m)%nat -> (k < len - i)%nat -> close (nth k (upd xs i v) z) (K k) E1).
      { intros k Hk Hk'. rewrite nth_upd. destruct (Nat.eqb_spec k i) as [->|Ne]; [lia|]. rewrite ?andb_false_r. cbn [andb]. apply Mx; auto. }
      assert (Ox' : forall k, (len - i <= k < len)%nat -> close (nth k (upd xs i v) z) (K k) E3).
      { intros k Hk. rewrite nth_upd. destruct (Nat.eqb_spec k i) as [->|Ne]; [lia|]. rewrite ?andb_false_r. cbn [andb]. apply Ox; auto. }
      rewrite (vget_ok _ _ z) by (rewrite upd_length; lia). cbn [bind].
      rewrite vset_ok by (rewrite upd_length; lia). eexists; split; [reflexivity|].
      assert (W : close (oadd o (nth (len - i - n) (upd xs i v) z) p) (K (len - i - 1)%nat) E3).
      { assert (EK : K (len - i - 1)%nat = K (len - i - n)%nat + P) by (rewrite <- K_add; f_equal; lia).
        rewrite EK. destruct (Nat.le_gt_cases (order + 1) (len - i - n)) as [Ge|Lt].
        - pose proof (Mx' (len - i - n)%nat ltac:(lia) ltac:(lia)) as C. pose proof (K_in (len - i - n) ltac:(lia)) as KI.
          assert (S : Rabs (K (len - i - n)%nat + P) <= 3 * X) by (apply Rabs_le; lra).
          eapply close_weak; [apply (close_add _ _ _ _ _ _ C Hp); lra|].
          pose proof (Rmult_le_compat_l u _ _ (proj1 U) S). lra.
        - pose proof (Nx' (len - i - n)%nat ltac:(lia) ltac:(lia)) as C. pose proof (K_in (len - i - 1) ltac:(lia)) as KI.
          assert (S : Rabs (K (len - i - n)%nat + P) <= X) by (rewrite <- EK; apply Rabs_le; lra).
          eapply close_weak; [apply (close_add _ _ _ _ _ _ C Hp); lra|].
          pose proof (Rmult_le_compat_l u _ _ (proj1 U) S). lra. }
      set (w := oadd o (nth (len - i - n) (upd xs i v) z) p) in *.
      split; [rewrite !upd_length; auto|]. split; [|split]; intros k Hk.
      * intros Hk'. rewrite nth_upd. destruct (Nat.eqb_spec k (len - i - 1)) as [Ek|Ne]; [lia|]. rewrite ?andb_false_r. cbn [andb]. apply Nx'; auto.
      * intros Hk'. rewrite nth_upd. destruct (Nat.eqb_spec k (len - i - 1)) as [Ek|Ne]; [lia|]. rewrite ?andb_false_r. cbn [andb]. apply Mx'; auto. lia.
      * rewrite nth_upd, upd_length, Lx. destruct (Nat.ltb_spec (len - i - 1) len); [|lia].
        destruct (Nat.eqb_spec k (len - i - 1)) as [->|Ne]; cbn [andb]; [exact W|apply Ox'; lia].
    + fold body2. rewrite Q2. cbn [bind]. exists xs2. split; auto. split; [lia|].
      intros k Hk. destruct (Nat.le_gt_cases (len - (order + 1)) k) as [K1|K1]; [|destruct (Nat.le_gt_cases k order) as [K2|K2]].
      * apply O2. lia.
      * apply close_weak with E2; [apply N2; lia|lra].
      * apply close_weak with E1; [apply M2; try lia; pose proof (mod2_cases order); lia|lra].
Qed.
End Per.
End Knots.
