(** Examples for PropFitU.v: deciding the hypotheses by computation. *)
From Coq Require Import List Arith Lia Bool ZArith Reals Lra Floats.
From Flocq Require Import Core.
From Verif Require Import Base Num FloatM MeshM SpecMesh BandM ProgM LUM SplineM InterpM SpecBand SpecSpline SpecInterp SpecRound SpecRoundInterp SpecRoundFit FloatProofs SumR PropSolveEx PropKnotsEx PropFitEx.
Import ListNotations.
Local Open Scope nat_scope.
Local Notation float := PrimFloat.float.

(** Ranges. *)
Definition fit_rangeb (order : nat) (per : bool) (n : nat) (r : xrange float) (k kx kh : Z) : bool :=
  (1 <=? order) && (order + (if per then 2 else 1) <=? n) && (Z.of_nat n <=? 2 ^ k)%Z && (0 <=? k)%Z && (k <=? 40)%Z && (kx <=? 900)%Z && (-798 <=? kh)%Z && (-1074 <=? kx)%Z &&
  match r with
  | Uniform a b => exb a && exb b && (Z.abs (dz a) <=? 2 ^ (kx + 1074))%Z && (Z.abs (dz b) <=? 2 ^ (kx + 1074))%Z && (Z.of_nat (n - 1) * 2 ^ (kh + 1074) <=? dz b - dz a)%Z
  | Points l => (length l =? n) && forallb exb l && forallb (fun a => (Z.abs (dz a) <=? 2 ^ (kx + 1074))%Z) l && (k - 46 + kx <=? kh)%Z &&
      forallb (fun i => (2 ^ (kh + 1074) <=? dz (nth (i + 1) l zero) - dz (nth i l zero))%Z) (seq 0 (length l - 1)) &&
      (if per then let x0 := nth 0 l zero in let xm := nth (n - 1) l zero in
         exb (xm - (xm - x0))%float && (dz (xm - (xm - x0))%float =? dz x0)%Z else true)
  end.
Lemma unit_pos : (0 < powerRZ 2 (-1074))%R.
Proof. apply powerRZ_lt; lra. Qed.
Lemma dz_abs a kx : exb a = true -> (Z.abs (dz a) <= 2 ^ (kx + 1074))%Z -> (-1074 <= kx)%Z -> (Rabs (double_val a) <= powerRZ 2 kx)%R.
Proof.
  intros E H Hk. destruct (dz_ok a E) as [_ ->]. rewrite (pow_dz kx) by auto. pose proof unit_pos.
  rewrite Rabs_mult, (Rabs_pos_eq (powerRZ 2 (-1074))) by lra. apply Rmult_le_compat_r; [lra|]. rewrite <- abs_IZR. apply IZR_le. auto.
Qed.
Lemma list_at l i : i < length l -> nth i (map double_val l) 0%R = double_val (nth i l zero).
Proof. intros H. rewrite (nth_indep _ 0%R (double_val zero)) by (rewrite map_length; auto). apply map_nth. Qed.
Lemma fit_rangeb_ok order per n r k kx kh : fit_rangeb order per n r k kx kh = true -> fit_range order per n r (powerRZ 2 kx) (powerRZ 2 kh).
Proof.
  unfold fit_rangeb. rewrite !andb_true_iff, !Nat.leb_le, !Z.leb_le. intros ((((((((O1 & O2) & H1) & H2) & H3) & H5) & H6) & H7) & H).
  pose proof unit_pos as Pp.
  assert (L : (INR n <= powerRZ 2 k)%R).
  { rewrite INR_IZR_INZ, <- (bpow_powerRZ radix2). rewrite <- (IZR_Zpower radix2) by auto. apply IZR_le. exact H1. }
  assert (N1 : (1 <= INR (n - 1))%R) by (change 1%R with (INR 1); apply le_INR; destruct per; lia).
  constructor; auto.
  - eapply Rle_trans; [exact L|]. rewrite <- !(bpow_powerRZ radix2). apply bpow_le. auto.
  - destruct r as [a b|l]; rewrite !andb_true_iff in H.
    + destruct H as ((((A & B) & _) & _) & _). split; apply dz_ok; auto.
    + destruct H as (((((A & B) & _) & _) & _) & _). apply Nat.eqb_eq in A. rewrite forallb_forall in B. split; auto. intros x Hx. apply dz_ok. auto.
  - split; [rewrite <- !(bpow_powerRZ radix2); apply bpow_le; auto|]. intros i Hi.
    destruct r as [a b|l]; rewrite !andb_true_iff in H; cbn [real_range grid_of].
    + destruct H as ((((A & B) & A') & B') & _). apply Z.leb_le in A', B'. pose proof (dz_abs a kx A A' H7) as Ra. pose proof (dz_abs b kx B B' H7) as Rb.
      apply Rabs_le_inv in Ra. apply Rabs_le_inv in Rb. set (x := (INR i / INR (n - 1))%R).
      assert (X : (0 <= x <= 1)%R).
      { unfold x. pose proof (pos_INR i). assert (INR i <= INR (n - 1))%R by (apply le_INR; lia). split; [apply Rmult_le_pos; [lra|apply Rlt_le, Rinv_0_lt_compat; lra]|].
        apply Rmult_le_reg_r with (INR (n - 1)); [lra|]. unfold Rdiv. rewrite Rmult_assoc, Rinv_l by lra. lra. }
      replace (double_val a + INR i * ((double_val b - double_val a) / INR (n - 1)))%R with ((1 - x) * double_val a + x * double_val b)%R by (unfold x; field; lra).
      set (B0 := powerRZ 2 kx) in *. apply Rabs_le. split.
      * replace (- B0)%R with ((1 - x) * - B0 + x * - B0)%R by ring. apply Rplus_le_compat; apply Rmult_le_compat_l; lra.
      * replace B0 with ((1 - x) * B0 + x * B0)%R by ring. apply Rplus_le_compat; apply Rmult_le_compat_l; lra.
    + destruct H as (((((A & B) & C) & _) & _) & _). apply Nat.eqb_eq in A. rewrite forallb_forall in B, C. rewrite list_at by lia.
      assert (I : In (nth i l zero) l) by (apply nth_In; lia). apply dz_abs; auto. apply Z.leb_le; auto.
  - split; [rewrite <- !(bpow_powerRZ radix2); apply bpow_le; auto|]. intros i Hi.
    destruct r as [a b|l]; rewrite !andb_true_iff in H; cbn [real_range grid_of].
    + destruct H as ((((A & B) & _) & _) & S). apply Z.leb_le in S. destruct (dz_ok a A) as [_ ->]. destruct (dz_ok b B) as [_ ->]. rewrite (pow_dz kh) by lia.
      apply IZR_le in S. rewrite mult_IZR, <- INR_IZR_INZ, minus_IZR in S. rewrite plus_INR. change (INR 1) with 1%R. set (U := powerRZ 2 (-1074)) in *.
      replace (IZR (dz a) * U + (INR i + 1) * ((IZR (dz b) * U - IZR (dz a) * U) / INR (n - 1)) - (IZR (dz a) * U + INR i * ((IZR (dz b) * U - IZR (dz a) * U) / INR (n - 1))))%R
        with ((IZR (dz b) - IZR (dz a)) / INR (n - 1) * U)%R by (field; lra). apply Rmult_le_compat_r; [lra|].
      apply Rmult_le_reg_r with (INR (n - 1)); [lra|]. unfold Rdiv. rewrite Rmult_assoc, Rinv_l by lra. lra.
    + destruct H as (((((A & B) & _) & _) & S) & _). apply Nat.eqb_eq in A. rewrite forallb_forall in B, S. rewrite !list_at by lia.
      specialize (S i). rewrite in_seq in S. specialize (S ltac:(lia)). apply Z.leb_le in S. assert (Hi1 : i < length l) by lia. assert (Hi2 : i + 1 < length l) by lia.
      destruct (dz_ok (nth i l zero) (B _ (nth_In l zero Hi1))) as [_ ->]. destruct (dz_ok (nth (i + 1) l zero) (B _ (nth_In l zero Hi2))) as [_ ->].
      rewrite (pow_dz kh) by lia. apply IZR_le in S. rewrite minus_IZR in S. rewrite <- Rmult_minus_distr_r. apply Rmult_le_compat_r; [lra|auto].
  - destruct r as [a b|l]; auto. rewrite !andb_true_iff in H. destruct H as (((((A & B) & C) & S) & _) & Q). apply Nat.eqb_eq in A. apply Z.leb_le in S. rewrite forallb_forall in B. split.
    + apply Rle_trans with (powerRZ 2 k * powerRZ 2 (-46) * powerRZ 2 kx)%R.
      * apply Rmult_le_compat_r; [apply powerRZ_le; lra|]. apply Rmult_le_compat_r; [apply powerRZ_le; lra|auto].
      * rewrite <- !(bpow_powerRZ radix2), <- !bpow_plus. apply bpow_le. lia.
    + intros -> _. cbv zeta in *. apply andb_prop in Q as [Q1 Q2]. apply Z.eqb_eq in Q2. destruct (dz_ok _ Q1) as [_ ->].
      assert (H0' : 0 < length l) by lia. destruct (dz_ok (nth 0 l zero) (B _ (nth_In l zero H0'))) as [_ ->]. rewrite Q2. reflexivity.
Qed.

(** Data points. *)
Definition nearb (n : nat) (r : xrange float) (kx : Z) (i : nat) (x : float) : bool :=
  exb x && (1 <? n) && (i <? n) && (-1025 <=? kx)%Z &&
  match r with
  | Uniform a b => exb a && exb b && (dz a <=? dz x)%Z && (dz x <=? dz b)%Z &&
      (Z.abs (Z.of_nat (n - 1) * (dz x - dz a) - Z.of_nat i * (dz b - dz a)) <=? Z.of_nat (n - 1) * 2 ^ (kx - 49 + 1074))%Z
  | Points l => (length l =? n) && forallb exb l && (dz (nth 0 l zero) <=? dz x)%Z && (dz x <=? dz (nth (n - 1) l zero))%Z &&
      (Z.abs (dz x - dz (nth i l zero)) <=? 2 ^ (kx - 49 + 1074))%Z
  end.
Lemma nearb_ok n r kx i x : nearb n r kx i x = true -> double_finite x /\
  (grid_of (real_range r) n 0 <= double_val x <= grid_of (real_range r) n (n - 1))%R /\
  (Rabs (double_val x - grid_of (real_range r) n i) <= powerRZ 2 (-49) * powerRZ 2 kx)%R.
Proof.
  unfold nearb. rewrite !andb_true_iff, !Nat.ltb_lt, Z.leb_le. intros ((((X & N1) & Hi) & Hk) & H). pose proof unit_pos as Pp. destruct (dz_ok x X) as [Fx Ex]. split; auto. clear Fx. rewrite Ex. clear Ex.
  assert (M1 : (1 <= INR (n - 1))%R) by (change 1%R with (INR 1); apply le_INR; lia).
  replace (powerRZ 2 (-49) * powerRZ 2 kx)%R with (IZR (2 ^ (kx - 49 + 1074)) * powerRZ 2 (-1074))%R.
  2:{ rewrite <- pow_dz by lia. rewrite <- !(bpow_powerRZ radix2), <- bpow_plus. f_equal. lia. }
  set (U := powerRZ 2 (-1074)) in *. destruct r as [a b|l]; rewrite !andb_true_iff in H; cbn [real_range grid_of].
  - destruct H as ((((A & B) & L1) & L2) & E). apply Z.leb_le in L1, L2, E. destruct (dz_ok a A) as [_ ->]. destruct (dz_ok b B) as [_ ->]. fold U. cbn [INR]. split; [split|].
    + rewrite Rmult_0_l, Rplus_0_r. apply Rmult_le_compat_r; [lra|]. apply IZR_le; auto.
    + replace (IZR (dz a) * U + INR (n - 1) * ((IZR (dz b) * U - IZR (dz a) * U) / INR (n - 1)))%R with (IZR (dz b) * U)%R by (field; lra). apply Rmult_le_compat_r; [lra|]. apply IZR_le; auto.
    + apply IZR_le in E. rewrite abs_IZR, minus_IZR, !mult_IZR, !minus_IZR, <- !INR_IZR_INZ in E.
      replace (IZR (dz x) * U - (IZR (dz a) * U + INR i * ((IZR (dz b) * U - IZR (dz a) * U) / INR (n - 1))))%R
        with ((INR (n - 1) * (IZR (dz x) - IZR (dz a)) - INR i * (IZR (dz b) - IZR (dz a))) * (U / INR (n - 1)))%R by (field; lra).
      assert (V : (0 <= U / INR (n - 1))%R) by (apply Rmult_le_pos; [lra|apply Rlt_le, Rinv_0_lt_compat; lra]).
      rewrite Rabs_mult, (Rabs_pos_eq (U / _)) by auto. eapply Rle_trans; [apply Rmult_le_compat_r; [exact V|exact E]|]. right. field. lra.
  - destruct H as ((((A & B) & L1) & L2) & E). apply Z.leb_le in L1, L2, E. apply Nat.eqb_eq in A. rewrite forallb_forall in B. rewrite !list_at by lia.
    assert (Hd : forall k, k < n -> double_val (nth k l zero) = (IZR (dz (nth k l zero)) * U)%R) by (intros j Hj; apply dz_ok, B, nth_In; lia).
    rewrite !Hd by lia. split; [split; apply Rmult_le_compat_r; try lra; apply IZR_le; auto|].
    rewrite <- Rmult_minus_distr_r, Rabs_mult, (Rabs_pos_eq U) by lra. apply Rmult_le_compat_r; [lra|]. rewrite <- minus_IZR, <- abs_IZR. apply IZR_le. auto.
Qed.

(** The factors. *)
Definition factorb (n k : nat) (sv : solver float) : bool := storedb sv && withinb n (fun i j => getok (stored sv i j)) 1 && (n <=? k).
Lemma factorb_ok n k sv : factorb n k sv = true -> exists F, stored_factors sv F /\ factors_within n F (INR k * (3 * (1 + 2 * INR k))).
Proof.
  intros H. apply andb_prop in H as [H H3]. apply andb_prop in H as [H1 H2]. apply Nat.leb_le in H3. exists (fun i j => getok (stored sv i j)). split; [apply storedb_ok; auto|].
  pose proof (withinb_ok n _ _ H2) as W. cbv zeta in W. revert W. apply within_mono. change (powerRZ 2 1) with (2 * 1)%R.
  apply le_INR in H3. pose proof (pos_INR n). apply Rmult_le_compat; lra.
Qed.
Definition ctrlb (k : Z) (c : list float) : bool := (-1074 <=? k)%Z && forallb (fun a => exb a && (Z.abs (dz a) <=? 2 ^ (k + 1074))%Z) c.
Lemma ctrlb_ok k c : ctrlb k c = true -> forall a, In a c -> double_finite a /\ (Rabs (double_val a) <= powerRZ 2 k)%R.
Proof.
  unfold ctrlb. rewrite andb_true_iff, Z.leb_le, forallb_forall. intros [Hk X] a Ha. specialize (X a Ha). apply andb_prop in X as [X1 X2]. apply Z.leb_le in X2. split; [apply dz_ok; auto|apply dz_abs; auto].
Qed.

(** Two dimensions of order 3: the first one uniform, the second one periodic
    and given by its points; the repeated end point is left out of the data. *)
Definition fm_r : list (xrange float) := [Uniform (-1) 2.1; Points fe_y]%float.
Definition fm_per := [false; true].
Definition fm_dims := [6; 5].
Definition fm_none : templ float := mkTempl (mkInterp (spline_empty Fops 0 []) [] []) [] [] [].
Definition fm_t : templ float := match templ_make Fops true true 3 fm_per fm_dims fm_r with Ok t => t | _ => fm_none end.
Definition fm_g : interp float := match interpolate Fops true true fm_t fe_f with Ok g => g | _ => tp_base fm_none end.
Definition fm_reach (d : nat) : R := powerRZ 2 (match d with 0 => 2 | _ => 3 end).
Definition fm_step (d : nat) : R := powerRZ 2 (match d with 0 => -1 | _ => -2 end).
(** The coordinates of the data points as a user would compute them. *)
Definition fm_x (i j : nat) : list float := [(-1 + Fnat i * ((2.1 - -1) / 5)); nth j fe_y 0]%float.
Lemma fm_made : templ_make Fops true true 3 fm_per fm_dims fm_r = Ok fm_t /\ interpolate Fops true true fm_t fe_f = Ok fm_g /\
  interp_make Fops true true 3 fm_per fe_f fm_r = Ok fm_g.
Proof. split; [vm_compute; reflexivity|]. split; vm_compute; reflexivity. Qed.
Lemma fm_fit : fit_ranges true true 3 fm_per fm_dims fm_r fm_t fm_reach fm_step 32 6 234.
Proof.
  constructor.
  - apply fm_made.
  - split; [discriminate|]. split; reflexivity.
  - intros [|[|d]] Hd; [| |cbn in Hd; lia].
    + apply (fit_rangeb_ok 3 false 6 (Uniform (-1) 2.1)%float 3 2 (-1)). vm_compute. reflexivity.
    + apply (fit_rangeb_ok 3 true 6 (Points fe_y) 3 3 (-2)). vm_compute. reflexivity.
  - split; [lra|]. intros [|[|d]] Hd; unfold fm_reach, fm_step; rewrite <- !(bpow_powerRZ radix2); [cbn; lra|cbn; lra|cbn in Hd; lia].
  - intros [|[|d]] Hd; [cbn; lia|cbn; lia|cbn in Hd; lia].
  - intros d sv E. assert (X : forallb (fun d => match nth_error (tp_solvers fm_t) d with Some sv => factorb (unknowns true fm_per fm_dims d) 6 sv | None => true end) (seq 0 2) = true) by (vm_compute; reflexivity).
    rewrite forallb_forall in X. specialize (X d). rewrite in_seq in X.
    assert (Hd : d < 2). { assert (L : length (tp_solvers fm_t) = 2) by (vm_compute; reflexivity). rewrite <- L. apply nth_error_Some. congruence. }
    specialize (X ltac:(lia)). rewrite E in X. destruct (factorb_ok _ _ _ X) as (F & A & B). exists F. split; auto. revert B. apply within_mono. cbn. lra.
  - rewrite <- (bpow_powerRZ radix2). split; (apply Rle_trans with (bpow radix2 20); [cbn; lra|apply bpow_le; lia]).
  - rewrite <- (bpow_powerRZ radix2). apply Rle_trans with (bpow radix2 20); [|apply bpow_le; lia].
    replace (INR (roundings 3 (length fm_per))) with (INR 61) by reflexivity. rewrite INR_IZR_INZ. cbn. lra.
Qed.
Lemma fm_ctrl a : In a (m_data (sp_ctrl (if_spline fm_g))) -> double_finite a /\ (Rabs (double_val a) <= powerRZ 2 7)%R.
Proof. apply ctrlb_ok. vm_compute. reflexivity. Qed.
Lemma fm_near i j : i < 6 -> j < 5 -> near_data true fm_per fm_dims fm_r fm_reach [i; j] (map double_val (fm_x i j)) /\ forall a, In a (fm_x i j) -> double_finite a.
Proof.
  intros Hi Hj.
  assert (X : forallb (fun i => nearb 6 (Uniform (-1) 2.1)%float 2 i (-1 + Fnat i * ((2.1 - -1) / 5))%float) (seq 0 6) = true) by (vm_compute; reflexivity).
  assert (Y : forallb (fun j => nearb 6 (Points fe_y) 3 j (nth j fe_y 0%float)) (seq 0 6) = true) by (vm_compute; reflexivity).
  rewrite forallb_forall in X, Y. specialize (X i). specialize (Y j). rewrite in_seq in X, Y. apply nearb_ok in X; [|lia]. apply nearb_ok in Y; [|lia].
  destruct X as (X1 & X2 & X3). destruct Y as (Y1 & Y2 & Y3). split.
  - split; [reflexivity|]. split; [reflexivity|]. intros [|[|d]] Hd; [split; [cbn; lia|split; [exact X2|exact X3]]|split; [cbn; lia|split; [exact Y2|exact Y3]]|cbn in Hd; lia].
  - intros a [<-|[<-|[]]]; auto.
Qed.

(** One periodic dimension of order 2, uniform, the repeated end point being
    part of the data. *)
Definition fu_r : list (xrange float) := [Uniform 0 0x1.921fb54442d18p+2]%float.
Definition fu_f : mesh float := mkMesh [9] [0; 0.707; 1; 0.707; 0; -0.707; -1; -0.707; 0]%float.
Definition fu_t : templ float := match templ_make Fops true false 2 [true] [9] fu_r with Ok t => t | _ => fm_none end.
Definition fu_g : interp float := match interpolate Fops true false fu_t fu_f with Ok g => g | _ => tp_base fm_none end.
Definition fu_x (i : nat) : list float := [Fnat i * (0x1.921fb54442d18p+2 / 8)]%float.
Lemma fu_made : templ_make Fops true false 2 [true] [9] fu_r = Ok fu_t /\ interpolate Fops true false fu_t fu_f = Ok fu_g /\ interp_make Fops true false 2 [true] fu_f fu_r = Ok fu_g.
Proof. split; [vm_compute; reflexivity|]. split; vm_compute; reflexivity. Qed.
Lemma fu_fit : fit_ranges true false 2 [true] [9] fu_r fu_t (fun _ => powerRZ 2 3) (fun _ => powerRZ 2 (-1)) 16 8 408.
Proof.
  constructor.
  - apply fu_made.
  - split; [discriminate|]. split; reflexivity.
  - intros [|d] Hd; [|cbn in Hd; lia]. apply (fit_rangeb_ok 2 true 9 (Uniform 0 0x1.921fb54442d18p+2)%float 4 3 (-1)). vm_compute. reflexivity.
  - split; [lra|]. intros _ _. rewrite <- !(bpow_powerRZ radix2). cbn. lra.
  - intros [|d] Hd; [cbn; lia|cbn in Hd; lia].
  - intros d sv E. assert (X : forallb (fun d => match nth_error (tp_solvers fu_t) d with Some sv => factorb (unknowns false [true] [9] d) 8 sv | None => true end) (seq 0 1) = true) by (vm_compute; reflexivity).
    rewrite forallb_forall in X. specialize (X d). rewrite in_seq in X.
    assert (Hd : d < 1). { assert (L : length (tp_solvers fu_t) = 1) by (vm_compute; reflexivity). rewrite <- L. apply nth_error_Some. congruence. }
    specialize (X ltac:(lia)). rewrite E in X. destruct (factorb_ok _ _ _ X) as (F & A & B). exists F. split; auto. revert B. apply within_mono. cbn. lra.
  - rewrite <- (bpow_powerRZ radix2). split; (apply Rle_trans with (bpow radix2 20); [cbn; lra|apply bpow_le; lia]).
  - rewrite <- (bpow_powerRZ radix2). apply Rle_trans with (bpow radix2 20); [|apply bpow_le; lia].
    replace (INR (roundings 2 (length [true]))) with (INR 19) by reflexivity. rewrite INR_IZR_INZ. cbn. lra.
Qed.
Lemma fu_ctrl a : In a (m_data (sp_ctrl (if_spline fu_g))) -> double_finite a /\ (Rabs (double_val a) <= powerRZ 2 7)%R.
Proof. apply ctrlb_ok. vm_compute. reflexivity. Qed.
Lemma fu_near i : i < 8 -> near_data false [true] [9] fu_r (fun _ => powerRZ 2 3) [i] (map double_val (fu_x i)) /\ forall a, In a (fu_x i) -> double_finite a.
Proof.
  intros Hi.
  assert (X : forallb (fun i => nearb 9 (Uniform 0 0x1.921fb54442d18p+2)%float 3 i (Fnat i * (0x1.921fb54442d18p+2 / 8))%float) (seq 0 8) = true) by (vm_compute; reflexivity).
  rewrite forallb_forall in X. specialize (X i). rewrite in_seq in X. apply nearb_ok in X; [|lia]. destruct X as (X1 & X2 & X3). split.
  - split; [reflexivity|]. split; [reflexivity|]. intros [|d] Hd; [split; [cbn; lia|split; [exact X2|exact X3]]|cbn in Hd; lia].
  - intros a [<-|[]]; auto.
Qed.
Lemma fu_128 : (0 <= powerRZ 2 7 <= powerRZ 2 1000)%R.
Proof. rewrite <- !(bpow_powerRZ radix2). split; [apply bpow_ge_0|apply bpow_le; lia]. Qed.
