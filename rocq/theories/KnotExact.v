(** Knots computed without rounding. *)
From Coq Require Import List Arith Lia Bool ZArith Reals Floats Lra Psatz.
From Flocq Require Import Core BinarySingleNaN PrimFloat.
From Verif Require Import Base Num MeshM ProgM BandM LUM SplineM InterpM FloatM SpecBand SpecSpline SpecInterp SpecRound SpecNear.
From Verif Require Import SumR BandProofs MulProofs KnotProofs FloatProofs RoundLU RoundKnots RoundUniform.
Import ListNotations.
Local Open Scope R_scope.
Local Notation float := PrimFloat.float.

Section Exact.
Context (e : Z) (He : (-1000 <= e <= 900)%Z).
Local Notation b := (powerRZ 2 e).
Local Notation big := (powerRZ 2 (53 + e)).
Definition isv (w : float) (v : R) : Prop := double_finite w /\ double_val w = v.

Lemma multiple_add u v : multiple e u -> multiple e v -> multiple e (u + v).
Proof using. intros [y ->] [z ->]. exists (y + z)%Z. rewrite plus_IZR. ring. Qed.
Lemma multiple_sub u v : multiple e u -> multiple e v -> multiple e (u - v).
Proof using. intros [y ->] [z ->]. exists (y - z)%Z. rewrite minus_IZR. ring. Qed.
Lemma multiple_0 : multiple e 0.
Proof using. exists 0%Z. ring. Qed.
Lemma multiple_sum n x : (forall i, (i < n)%nat -> multiple e (x i)) -> multiple e (sum n x).
Proof using.
  induction n as [|n IH]; intros H; [apply multiple_0|]. cbn [sum]. apply multiple_add; [apply IH; intros; apply H; lia|apply H; lia].
Qed.
Lemma exact_num v : multiple e v -> Rabs v <= big -> rnd v = v /\ Rabs v <= Fbig.
Proof using All.
  intros [z ->] H. split.
  - apply round_generic; [apply valid_rnd_N|]. rewrite <- (bpow_powerRZ radix2). apply small_format; [|lia].
    apply le_IZR. rewrite abs_IZR. rewrite powerRZ_add in H by lra. rewrite Rabs_mult, (Rabs_pos_eq b) in H by (apply powerRZ_le; lra).
    apply Rmult_le_reg_r in H; [|apply powerRZ_lt; lra]. eapply Rle_trans; [exact H|]. right. rewrite <- (bpow_powerRZ radix2). reflexivity.
  - eapply Rle_trans; [exact H|]. rewrite <- (bpow_powerRZ radix2). apply bpow_le. lia.
Qed.
Lemma is_add a c u v : isv a u -> isv c v -> multiple e (u + v) -> Rabs (u + v) <= big -> isv (a + c)%float (u + v).
Proof using All.
  intros [Fa Va] [Fc Vc] M B. destruct (exact_num _ M B) as [E1 E2]. subst u v. destruct (Fadd_val a c Fa Fc E2) as [G V]. split; auto. congruence.
Qed.
Lemma is_sub a c u v : isv a u -> isv c v -> multiple e (u - v) -> Rabs (u - v) <= big -> isv (a - c)%float (u - v).
Proof using All.
  intros [Fa Va] [Fc Vc] M B. destruct (exact_num _ M B) as [E1 E2]. subst u v. destruct (Fsub_val a c Fa Fc E2) as [G V]. split; auto. congruence.
Qed.
Lemma is_mul a c u v : isv a u -> isv c v -> multiple e (u * v) -> Rabs (u * v) <= big -> isv (a * c)%float (u * v).
Proof using All.
  intros [Fa Va] [Fc Vc] M B. destruct (exact_num _ M B) as [E1 E2]. subst u v. destruct (Fmul_val a c Fa Fc E2) as [G V]. split; auto. congruence.
Qed.
Lemma is_div a c u v : isv a u -> isv c v -> v <> 0 -> multiple e (u / v) -> Rabs (u / v) <= big -> isv (a / c)%float (u / v).
Proof using All.
  intros [Fa Va] [Fc Vc] N M B. destruct (exact_num _ M B) as [E1 E2]. subst u v. destruct (Fdiv_val a c Fa Fc N E2) as [G V]. split; auto. congruence.
Qed.

Context (l : list float) (X : R).
Local Notation n := (length l).
Local Notation vl := (fun i => double_val (nth i l 0%float)).
Context (Hl : forall a, In a l -> double_finite a /\ Rabs (double_val a) <= X).
Context (Hm : forall i, (i < n)%nat -> multiple e (vl i)).

Lemma is_l i : (i < n)%nat -> isv (nth i l 0%float) (vl i).
Proof using Hl. intros H. split; auto. apply Hl, nth_In. auto. Qed.
Lemma abs_l i : (i < n)%nat -> Rabs (vl i) <= X.
Proof using Hl. intros H. apply Hl, nth_In. auto. Qed.

Section Ap.
Context (order : nat) (Ho : (1 <= order)%nat) (Hn : (order + 1 <= n)%nat) (HX : (INR order + 8) * X <= big).
Context (Hk : forall k, (k < n + 2 * order + 1)%nat -> multiple e (ap_knot order n vl k)).
Context (Hs : (Z.of_nat order <= 2 ^ 53)%Z).

Lemma eX_pos : 0 <= X.
Proof using All. pose proof (abs_l 0 ltac:(lia)) as H. pose proof (Rabs_pos (vl 0%nat)). cbn beta in *. lra. Qed.
Lemma ewin k i : (k <= order)%nat -> (i + k <= n)%nat ->
  multiple e (sum k (fun j => vl (i + j)%nat)) /\ Rabs (sum k (fun j => vl (i + j)%nat)) <= big.
Proof using All.
  intros H1 Hi. split; [apply multiple_sum; intros j Hj; apply (Hm (i + j)); lia|].
  pose proof eX_pos as X0. eapply Rle_trans; [apply sum_Rabs|]. apply Rle_trans with (sum k (fun _ => X)).
  - apply sum_le. intros j Hj. apply (abs_l (i + j)). lia.
  - rewrite sum_const. apply Rle_trans with (INR order * X); [|lra]. apply Rmult_le_compat_r; auto. apply le_INR. auto.
Qed.

Lemma eknots_ap : exists xs,
  aperiodic_points Fops order l = Ok (xs, l) /\ length xs = (n + order + 1)%nat /\
  forall k, (k < n + order + 1)%nat -> isv (nth k xs 0%float) (ap_knot order n vl k).
Proof using All.
  unfold aperiodic_points. pose proof eX_pos as X0. change (o0 Fops) with 0%float.
  rewrite (vget_ok l 0 0%float) by lia. cbn [bind]. set (x := fun i => nth i l 0%float).
  change (nth 0 l 0%float) with (x 0%nat).
  destruct (fill_loop 0%float 0 (order + 1) (repeat 0%float (n + order + 1)) (fun _ => x 0%nat)) as (xs1 & E1 & L1 & N1).
  { rewrite repeat_length. lia. }
  rewrite E1. cbn [bind]. rewrite repeat_length in L1.
  set (body1 := fun st i => let '(it, coord, window) := st in
      v <- vget l (it + 1) ;; let coord := coord ++ [v] in c <- vget coord i ;;
      Ok ((it + 1)%nat, coord, oadd Fops window c)).
  destruct (for_inv (fun i (st : nat * list float * float) => exists w, st = ((i - 1)%nat, firstn i l, w) /\ isv w (sum (i - 1) (fun j => vl (1 + j)%nat))) 1 order
    (0%nat, [x 0%nat], 0%float) body1) as (st1 & E2 & w1 & -> & H2); [lia|..].
  - exists 0%float. split.
    + unfold x. destruct l; [simpl in Hn; lia|]. reflexivity.
    + split; [exact I|reflexivity].
  - intros i st Hi (w & -> & Hw). unfold body1. replace (i - 1 + 1)%nat with i by lia.
    rewrite (vget_ok l i 0%float) by lia. cbn [bind]. rewrite gfirstn_snoc by lia.
    rewrite (gvget_firstn 0%float) by lia. cbn [bind]. eexists; split; [reflexivity|].
    eexists. split; [f_equal; f_equal; lia|].
    destruct (ewin (S (i - 1)) 1 ltac:(lia) ltac:(lia)) as [M B].
    replace (i + 1 - 1)%nat with (S (i - 1)) by lia. cbn [sum] in *. 
    apply is_add; auto. replace (1 + (i - 1))%nat with i by lia. apply (is_l i). lia.
  - rewrite E2. cbn [bind].
    set (body2 := fun st i => let '(xs, it, coord, window) := st in
      v <- vget l (it + 1) ;; let coord := coord ++ [v] in
      c <- vget coord (i - 1) ;; let window := oadd Fops window c in
      k <- odiv Fops window (onat Fops order) ;; xs <- vset xs i k ;;
      c <- vget coord (i - order) ;; Ok (xs, (it + 1)%nat, coord, osub Fops window c)).
    destruct (for_inv (fun i (st : list float * nat * list float * float) => exists xs w,
       st = (xs, (i - 2)%nat, firstn (i - 1) l, w) /\
       isv w (sum (order - 1) (fun j => vl (i - order + j)%nat)) /\
       length xs = (n + order + 1)%nat /\
       (forall k, (order < k < i)%nat -> isv (nth k xs 0%float) (ap_knot order n vl k)) /\
       forall k, (k <= order \/ i <= k)%nat -> nth k xs 0%float = nth k xs1 0%float)
       (order + 1) n (xs1, (order - 1)%nat, firstn order l, w1) body2) as (st2 & E3 & H3); [lia|..].
    + exists xs1, w1. split; [|split; [|split; [lia|split; [intros; lia|auto]]]].
      * replace (order + 1 - 2)%nat with (order - 1)%nat by lia. replace (order + 1 - 1)%nat with order by lia. reflexivity.
      * replace (order + 1 - order)%nat with 1%nat by lia. exact H2.
    + intros i st Hi (xs & w & -> & Hw & Lx & Nx & Ox). unfold body2. replace (i - 2 + 1)%nat with (i - 1)%nat by lia.
      rewrite (vget_ok l (i - 1) 0%float) by lia. cbn [bind]. rewrite gfirstn_snoc by lia.
      replace (i - 1 + 1)%nat with i by lia.
      rewrite (gvget_firstn 0%float) by lia. cbn [bind].
      assert (W : sum (order - 1) (fun j => vl (i - order + j)%nat) + vl (i - 1)%nat = sum order (fun j => vl (i - order + j)%nat)).
      { apply (window_add vl); lia. }
      assert (W2 : sum order (fun j => vl (i - order + j)%nat) - vl (i - order)%nat = sum (order - 1) (fun j => vl (i + 1 - order + j)%nat)).
      { apply (window_sub vl); lia. }
      destruct (ewin order (i - order) ltac:(lia) ltac:(lia)) as [M1 B1].
      destruct (ewin (order - 1) (i + 1 - order) ltac:(lia) ltac:(lia)) as [M2 B2].
      assert (H1 : isv (oadd Fops w (nth (i - 1) l 0%float)) (sum order (fun j => vl (i - order + j)%nat))).
      { rewrite <- W. apply is_add; auto; [apply (is_l (i - 1)); lia| |]; rewrite W; auto. }
      assert (EK : ap_knot order n vl i = sum order (fun j => vl (i - order + j)%nat) / INR order).
      { unfold ap_knot. destruct (Nat.leb_spec i order); [lia|]. destruct (Nat.ltb_spec i n); [|lia].
        destruct (Nat.eqb_spec order 0) as [Z0|Z0]; [lia|]. reflexivity. }
      pose proof (le_INR 1 order Ho) as O1. change (INR 1) with 1 in O1.
      assert (Q : isv (oadd Fops w (nth (i - 1) l 0%float) / Fnat order)%float (ap_knot order n vl i)).
      { rewrite EK. apply is_div; [exact H1|destruct (Fnat_exact order Hs); split; auto|lra|rewrite <- EK; apply Hk; lia|].
        unfold Rdiv. rewrite Rabs_mult, (Rabs_pos_eq (/ INR order)) by (left; apply Rinv_0_lt_compat; lra).
        rewrite <- (Rmult_1_r big). apply Rmult_le_compat; auto using Rabs_pos; [left; apply Rinv_0_lt_compat; lra|].
        rewrite <- Rinv_1. apply Rinv_le_contravar; lra. }
      change (odiv Fops (oadd Fops w (nth (i - 1) l 0%float)) (onat Fops order)) with (Ok (oadd Fops w (nth (i - 1) l 0%float) / Fnat order)%float). cbn [bind].
      rewrite vset_ok by lia. cbn [bind]. rewrite (gvget_firstn 0%float) by lia. cbn [bind].
      eexists; split; [reflexivity|]. eexists _, _; split; [|split; [|split; [|split]]].
      * f_equal; f_equal; [f_equal; lia|f_equal; lia].
      * rewrite <- W2. apply is_sub; auto; [apply (is_l (i - order)); lia| |]; rewrite W2; auto.
      * rewrite upd_length. auto.
      * intros k Hk'. rewrite nth_upd, Lx. destruct (Nat.ltb_spec i (n + order + 1)); [|lia].
        destruct (Nat.eqb_spec k i) as [->|Ne]; cbn [andb]; [exact Q|apply Nx; lia].
      * intros k Hk'. rewrite nth_upd. destruct (Nat.eqb_spec k i) as [->|Ne]; [lia|]. rewrite ?andb_false_r. cbn [andb]. apply Ox. lia.
    + rewrite E3 || (unfold body2 in E3; rewrite E3). destruct H3 as (xs & w & -> & _ & Lx & Nx & Ox). cbn [bind].
      replace (n - 2 + 1)%nat with (n - 1)%nat by lia.
      rewrite (vget_ok l (n - 1) 0%float) by lia. cbn [bind].
      destruct (fill_loop 0%float n (n + order + 1) xs (fun _ => nth (n - 1) l 0%float)) as (xs2 & E4 & L4 & N4); [lia|].
      rewrite E4. cbn [bind].
      exists xs2. split; [|split; [lia|]].
      * f_equal. f_equal. rewrite gfirstn_snoc by lia. replace (n - 1 + 1)%nat with n by lia. apply firstn_all.
      * intros k Hk'. rewrite N4. destruct (Nat.le_gt_cases k order) as [K1|K1]; [|destruct (Nat.lt_ge_cases k n) as [K2|K2]].
        -- destruct (Nat.leb_spec n k); [lia|]. cbn [andb]. rewrite Ox by lia. rewrite N1. destruct (Nat.ltb_spec k (order + 1)); [|lia].
           unfold ap_knot. destruct (Nat.leb_spec k order); [|lia]. apply (is_l 0). lia.
        -- destruct (Nat.leb_spec n k); [lia|]. cbn [andb]. apply Nx. lia.
        -- destruct (Nat.leb_spec n k); [|lia]. destruct (Nat.ltb_spec k (n + order + 1)); [|lia]. cbn [andb].
           unfold ap_knot. destruct (Nat.leb_spec k order); [lia|]. destruct (Nat.ltb_spec k n); [lia|]. apply (is_l (n - 1)). lia.
Qed.
End Ap.

Section Per.
Context (order : nat) (Hn : (order + 2 <= n)%nat) (HX : (INR order + 8) * X <= big).
Local Notation m := (n - 1)%nat.
Local Notation P := (vl m - vl 0%nat).
Local Notation K := (per_knot order m P vl).
Context (Hk : forall k, (k < n + 2 * order + 1)%nat -> multiple e (K k)).

Lemma epX : 0 <= X /\ 8 * X <= big.
Proof using All.
  pose proof (abs_l 0 ltac:(lia)) as H. pose proof (Rabs_pos (vl 0%nat)). cbn beta in *. pose proof (pos_INR order). assert (0 <= X) by lra. split; auto. nra.
Qed.
Lemma evl i : (i < n)%nat -> - X <= vl i <= X.
Proof using All. intros H. pose proof (abs_l i H) as A. apply Rabs_le_inv in A. exact A. Qed.
Lemma eP : - (2 * X) <= P <= 2 * X.
Proof using All. pose proof (evl m ltac:(lia)). pose proof (evl 0 ltac:(lia)). cbn beta in *. lra. Qed.
Lemma eK_in i : (order + 1 <= i <= order + m)%nat -> - X <= K i <= X.
Proof using All.
  intros H. rewrite (per_knot_in order m vl) by lia. pose proof (evl (i - order - 1) ltac:(lia)). pose proof (evl (i - order) ltac:(lia)). cbn beta in *.
  destruct (Nat.even order); lra.
Qed.
Lemma eK_add i : K (i + m) = K i + P.
Proof using All. apply (per_knot_add order m P vl). lia. Qed.
Lemma eknot_mid i : (order + 1 <= i <= order + m)%nat ->
  isv (if (order mod 2 =? 0)%nat then omul Fops (ohalf Fops) (oadd Fops (nth (i - order - 1) l 0%float) (nth (i - order) l 0%float)) else nth (i - order) l 0%float) (K i).
Proof using All.
  intros Hi. destruct epX as [X0 X8]. pose proof (Hk i ltac:(lia)) as M. pose proof (eK_in i Hi) as KI.
  rewrite (per_knot_in order m vl) in M, KI |- * by lia. rewrite even_mod2 in M, KI |- *.
  pose proof (evl (i - order - 1) ltac:(lia)) as A1. pose proof (evl (i - order) ltac:(lia)) as A2. cbn beta in *.
  destruct (order mod 2 =? 0)%nat; [|apply (is_l (i - order)); lia].
  replace ((double_val (nth (i - order - 1) l 0%float) + double_val (nth (i - order) l 0%float)) / 2) with
    (/ 2 * (double_val (nth (i - order - 1) l 0%float) + double_val (nth (i - order) l 0%float))) in * by field.
  apply is_mul; [exact half_val| |exact M|apply Rabs_le; lra].
  apply is_add; [apply (is_l (i - order - 1)); lia|apply (is_l (i - order)); lia| |apply Rabs_le; lra].
  apply multiple_add; [apply (Hm (i - order - 1)); lia|apply (Hm (i - order)); lia].
Qed.

Lemma eknots_per : exists xs,
  periodic_points Fops order l = Ok (xs, l) /\ length xs = (n + 2 * order + (1 - order mod 2))%nat /\
  forall k, (k < n + 2 * order + (1 - order mod 2))%nat -> isv (nth k xs 0%float) (K k).
Proof using All.
  unfold periodic_points. change (o0 Fops) with 0%float.
  set (len := (n + 2 * order + (1 - order mod 2))%nat).
  destruct epX as [X0 X8]. pose proof eP as HP.
  rewrite (vget_ok l 0 0%float) by lia. cbn [bind].
  set (body1 := fun (st : list float * list float) i => let '(xs, coord) := st in
      present <- vget l (i - order) ;; back <- vget coord (length coord - 1) ;;
      xs <- vset xs i (if (order mod 2 =? 0)%nat then omul Fops (ohalf Fops) (oadd Fops back present) else present) ;;
      Ok (xs, coord ++ [present])).
  destruct (for_inv (fun i (st : list float * list float) => exists xs, st = (xs, firstn (i - order) l) /\ length xs = len /\
      forall k, (order + 1 <= k < i)%nat -> isv (nth k xs 0%float) (K k)) (order + 1) (order + n) (repeat 0%float len, [nth 0 l 0%float]) body1)
    as (st1 & Q1 & xs1 & -> & L1 & N1); [lia|..].
  - exists (repeat 0%float len). split; [|split].
    + f_equal. replace (order + 1 - order)%nat with 1%nat by lia. destruct l; [simpl in Hn; lia|]. reflexivity.
    + apply repeat_length.
    + intros; lia.
  - intros i st Hi (xs & -> & Lx & Nx). unfold body1.
    rewrite (vget_ok l (i - order) 0%float) by lia. cbn [bind].
    rewrite firstn_length_le by lia. rewrite (gvget_firstn 0%float) by lia. cbn [bind].
    rewrite vset_ok by (unfold len in *; lia). cbn [bind]. eexists; split; [reflexivity|].
    eexists; split; [|split].
    + f_equal. rewrite gfirstn_snoc by lia. f_equal. lia.
    + rewrite upd_length. auto.
    + intros k Hk'. rewrite nth_upd, Lx. destruct (Nat.ltb_spec i len); [|unfold len in *; lia].
      destruct (Nat.eqb_spec k i) as [->|Ne]; cbn [andb]; [apply eknot_mid; lia|apply Nx; lia].
  - rewrite Q1. cbn [bind]. replace (order + n - order)%nat with n by lia.
    rewrite !firstn_all.
    rewrite (vget_ok l (n - 1) 0%float), (vget_ok l 0 0%float) by lia. cbn [bind].
    set (p := osub Fops (nth (n - 1) l 0%float) (nth 0 l 0%float)).
    assert (Hp : isv p P).
    { apply is_sub; [apply (is_l m); lia|apply (is_l 0); lia|apply multiple_sub; [apply (Hm m)|apply (Hm 0%nat)]; lia|].
      apply Rabs_le. cbn beta in *. lra. }
    set (body2 := fun xs i => k <- usub (n + i) 1 ;; v <- vget xs k ;; xs <- vset xs i (osub Fops v p) ;;
      a <- usub (length xs) i ;; a1 <- usub a 1 ;; an <- usub a n ;; w <- vget xs an ;; vset xs a1 (oadd Fops w p)).
    destruct (for_inv (fun i (xs : list float) => length xs = len /\
      (forall k, (k < i)%nat -> (k <= order)%nat -> isv (nth k xs 0%float) (K k)) /\
      (forall k, (order + 1 <= k <= order + m)%nat -> (k < len - i)%nat -> isv (nth k xs 0%float) (K k)) /\
      (forall k, (len - i <= k < len)%nat -> isv (nth k xs 0%float) (K k))) 0 (order + 1) xs1 body2)
      as (xs2 & Q2 & L2 & N2 & M2 & O2); [lia|..].
    + split; auto. split; [intros; lia|]. split; [intros k Hk' _; apply N1; lia|intros; lia].
    + intros i xs Hi (Lx & Nx & Mx & Ox). unfold body2. rewrite usub_ok by lia. cbn [bind].
      assert (Hlen : len = (m + 1 + 2 * order + (1 - order mod 2))%nat) by (unfold len; lia).
      assert (Hm2 : order mod 2 = 0%nat \/ order mod 2 = 1%nat) by apply mod2_cases.
      rewrite (vget_ok xs _ 0%float) by lia. cbn [bind]. rewrite vset_ok by lia. cbn [bind]. rewrite upd_length, Lx.
      rewrite (usub_ok len i) by lia. cbn [bind]. rewrite (usub_ok (len - i) 1) by lia. cbn [bind].
      rewrite (usub_ok (len - i) n) by lia. cbn [bind].
      assert (V : isv (osub Fops (nth (n + i - 1) xs 0%float) p) (K i)).
      { replace (n + i - 1)%nat with (i + m)%nat by lia. pose proof (Mx (i + m)%nat ltac:(lia) ltac:(lia)) as C. pose proof (eK_in (i + m) ltac:(lia)) as KI.
        assert (EK : K i = K (i + m)%nat - P) by (rewrite eK_add; ring). rewrite EK.
        apply is_sub; auto; [rewrite <- EK; apply Hk; lia|apply Rabs_le; lra]. }
      set (v := osub Fops (nth (n + i - 1) xs 0%float) p) in *.
      assert (Nx' : forall k, (k < i + 1)%nat -> (k <= order)%nat -> isv (nth k (upd xs i v) 0%float) (K k)).
      { intros k Hk1 Hk'. rewrite nth_upd, Lx. destruct (Nat.ltb_spec i len); [|lia].
        destruct (Nat.eqb_spec k i) as [->|Ne]; cbn [andb]; auto. apply Nx; auto. lia. }
      assert (Mx' : forall k, (order + 1 <= k <= order + m)%nat -> (k < len - i)%nat -> isv (nth k (upd xs i v) 0%float) (K k)).
      { intros k Hk1 Hk'. rewrite nth_upd. destruct (Nat.eqb_spec k i) as [->|Ne]; [lia|]. rewrite ?andb_false_r. cbn [andb]. apply Mx; auto. }
      assert (Ox' : forall k, (len - i <= k < len)%nat -> isv (nth k (upd xs i v) 0%float) (K k)).
      { intros k Hk'. rewrite nth_upd. destruct (Nat.eqb_spec k i) as [->|Ne]; [lia|]. rewrite ?andb_false_r. cbn [andb]. apply Ox; auto. }
      rewrite (vget_ok _ _ 0%float) by (rewrite upd_length; lia). cbn [bind].
      rewrite vset_ok by (rewrite upd_length; lia). eexists; split; [reflexivity|].
      assert (W : isv (oadd Fops (nth (len - i - n) (upd xs i v) 0%float) p) (K (len - i - 1)%nat)).
      { assert (EK : K (len - i - 1)%nat = K (len - i - n)%nat + P) by (rewrite <- eK_add; f_equal; lia).
        assert (MK : multiple e (K (len - i - n)%nat + P)).
        { apply multiple_add; [apply Hk; lia|]. apply multiple_sub; [apply (Hm m)|apply (Hm 0%nat)]; lia. }
        rewrite EK. destruct (Nat.le_gt_cases (order + 1) (len - i - n)) as [Ge|Lt].
        - pose proof (Mx' (len - i - n)%nat ltac:(lia) ltac:(lia)) as C. pose proof (eK_in (len - i - n) ltac:(lia)) as KI.
          apply is_add; auto. apply Rabs_le; lra.
        - pose proof (Nx' (len - i - n)%nat ltac:(lia) ltac:(lia)) as C. pose proof (eK_in (len - i - 1) ltac:(lia)) as KI.
          apply is_add; auto. rewrite <- EK. apply Rabs_le; lra. }
      set (w := oadd Fops (nth (len - i - n) (upd xs i v) 0%float) p) in *.
      split; [rewrite !upd_length; auto|]. split; [|split]; intros k Hk1.
      * intros Hk'. rewrite nth_upd. destruct (Nat.eqb_spec k (len - i - 1)) as [Ek|Ne]; [lia|]. rewrite ?andb_false_r. cbn [andb]. apply Nx'; auto.
      * intros Hk'. rewrite nth_upd. destruct (Nat.eqb_spec k (len - i - 1)) as [Ek|Ne]; [lia|]. rewrite ?andb_false_r. cbn [andb]. apply Mx'; auto. lia.
      * rewrite nth_upd, upd_length, Lx. destruct (Nat.ltb_spec (len - i - 1) len); [|lia].
        destruct (Nat.eqb_spec k (len - i - 1)) as [->|Ne]; cbn [andb]; [exact W|apply Ox'; lia].
    + fold body2. rewrite Q2. cbn [bind]. exists xs2. split; auto. split; [lia|].
      intros k Hk'. destruct (Nat.le_gt_cases (len - (order + 1)) k) as [K1|K1]; [|destruct (Nat.le_gt_cases k order) as [K2|K2]].
      * apply O2. lia.
      * apply N2; lia.
      * apply M2; try lia; pose proof (mod2_cases order); lia.
Qed.
End Per.
End Exact.

Lemma isv_list xs len K : length xs = len -> (forall k, (k < len)%nat -> isv (nth k xs 0%float) (K k)) -> map double_val xs = map K (seq 0 len).
Proof.
  intros L H. apply nth_ext with (d := double_val 0%float) (d' := K 0%nat); [rewrite !map_length, seq_length; auto|].
  intros k Hk. rewrite map_length, L in Hk. rewrite !map_nth, seq_nth by auto. apply H. auto.
Qed.

(** The knots of a grid, in doubles, are the exact ones. *)
Lemma exact_points order (per : bool) l : exact_grid order per l ->
  (if per then (order + 2 <= length l)%nat else (1 <= order)%nat /\ (order + 1 <= length l)%nat) -> (Z.of_nat order <= 2 ^ 53)%Z ->
  let x := fun i => double_val (nth i l 0%float) in let n := length l in
  exists xs, (if per then periodic_points Fops order l else aperiodic_points Fops order l) = Ok (xs, l) /\
    map double_val xs = if per then map (per_knot order (n - 1) (x (n - 1)%nat - x 0%nat) x) (seq 0 (n + 2 * order + (1 - order mod 2)))
                        else map (ap_knot order n x) (seq 0 (n + order + 1)).
Proof.
  intros (e & X & He & Hl & HX & Hm & Hk) Ho Hs x n. destruct per.
  - destruct (eknots_per e He l X Hl Hm order Ho HX Hk) as (xs & E & L & V). exists xs. split; auto. apply isv_list; auto.
  - destruct Ho as [Ho Hn]. destruct (eknots_ap e He l X Hl Hm order Ho Hn HX Hk Hs) as (xs & E & L & V). exists xs. split; auto. apply isv_list; auto.
Qed.
