(** Examples for PropFit.v: deciding the hypotheses by computation. *)
From Coq Require Import List Arith Lia Bool ZArith Reals Lra Floats.
From Flocq Require Import Core.
From Verif Require Import Base Num FloatM MeshM SpecMesh BandM ProgM LUM SplineM InterpM SpecBand SpecSpline SpecInterp SpecRound SpecRoundInterp FloatProofs SumR PropSolveEx PropKnotsEx.
Import ListNotations.
Local Open Scope nat_scope.
Local Notation float := PrimFloat.float.

(** A finite double as a multiple of 2^-1074. *)
Definition dz (x : float) : Z := match Prim2SF x with S754_finite s m e => ((if s then -1 else 1) * Zpos m * 2 ^ (e + 1074))%Z | _ => 0%Z end.
Definition exb (x : float) : bool := match Prim2SF x with S754_finite s m e => (-1074 <=? e)%Z | S754_zero _ => true | _ => false end.
Lemma dz_ok x : exb x = true -> double_finite x /\ double_val x = (IZR (dz x) * powerRZ 2 (-1074))%R.
Proof.
  unfold exb, double_finite, double_val, dz. destruct (Prim2SF x) as [s|s| |s m e]; try discriminate; intros H; (split; [exact I|]).
  - rewrite Rmult_0_l. reflexivity.
  - apply Z.leb_le in H. rewrite !mult_IZR. replace (IZR (if s then -1 else 1)) with (if s then -1 else 1)%R by (destruct s; reflexivity).
    rewrite <- !(bpow_powerRZ radix2). replace (IZR (2 ^ (e + 1074))) with (bpow radix2 (e + 1074)).
    + replace (bpow radix2 e) with (bpow radix2 (e + 1074) * bpow radix2 (-1074))%R; [ring|]. rewrite <- bpow_plus. f_equal. lia.
    + symmetry. apply (IZR_Zpower radix2). lia.
Qed.
Lemma pow_dz k : (-1074 <= k)%Z -> powerRZ 2 k = (IZR (2 ^ (k + 1074)) * powerRZ 2 (-1074))%R.
Proof.
  intros H. rewrite <- !(bpow_powerRZ radix2). rewrite (IZR_Zpower radix2) by lia. rewrite <- bpow_plus. f_equal. lia.
Qed.

Definition fit_gridb (order : nat) (per : bool) (l : list float) (n kx kh : Z) : bool :=
  (if per then order + 2 <=? length l else (1 <=? order) && (order + 1 <=? length l)) &&
  (Z.of_nat (length l) <=? 2 ^ n)%Z && (0 <=? n)%Z && (n <=? 40)%Z && (n - 46 + kx <=? kh)%Z && (kx <=? 900)%Z && (-799 <=? kh)%Z && (-1074 <=? kx)%Z &&
  forallb exb l && forallb (fun a => (Z.abs (dz a) <=? 2 ^ (kx + 1074))%Z) l &&
  forallb (fun i => (2 ^ (kh + 1074) <=? dz (nth (i + 1) l zero) - dz (nth i l zero))%Z) (seq 0 (length l - 1)) &&
  (if per then let x0 := nth 0 l zero in let xm := nth (length l - 1) l zero in
     exb (xm - (xm - x0))%float && (dz (xm - (xm - x0))%float =? dz x0)%Z else true).
Lemma fit_gridb_ok order per l n kx kh : fit_gridb order per l n kx kh = true -> fit_grid order per l.
Proof.
  unfold fit_gridb. rewrite !andb_true_iff, !Z.leb_le, !forallb_forall. intros (((((((((((H0 & H1) & H2) & H3) & H4) & H5) & H6) & H7) & H8) & H9) & H10) & H11).
  assert (Pp : (0 < powerRZ 2 (-1074))%R) by (apply powerRZ_lt; lra).
  assert (L : (INR (length l) <= powerRZ 2 n)%R).
  { rewrite INR_IZR_INZ, <- (bpow_powerRZ radix2). rewrite <- (IZR_Zpower radix2) by auto. apply IZR_le. exact H1. }
  constructor.
  - destruct per; [apply Nat.leb_le; auto|]. apply andb_prop in H0 as [A B]. apply Nat.leb_le in A, B. auto.
  - eapply Rle_trans; [exact L|]. rewrite <- !(bpow_powerRZ radix2). apply bpow_le. auto.
  - intros a Ha. apply dz_ok. auto.
  - exists (powerRZ 2 kx), (powerRZ 2 kh). split; [rewrite <- !(bpow_powerRZ radix2); apply bpow_le; auto|]. split; [rewrite <- !(bpow_powerRZ radix2); apply bpow_le; auto|].
    split; [|split].
    + apply Rle_trans with (powerRZ 2 n * powerRZ 2 (-46) * powerRZ 2 kx)%R.
      * apply Rmult_le_compat_r; [apply powerRZ_le; lra|]. apply Rmult_le_compat_r; [apply powerRZ_le; lra|auto].
      * rewrite <- !(bpow_powerRZ radix2), <- !bpow_plus. apply bpow_le. lia.
    + intros a Ha. destruct (dz_ok a (H8 a Ha)) as [_ ->]. rewrite (pow_dz kx) by auto. specialize (H9 a Ha). apply Z.leb_le in H9.
      rewrite Rabs_mult, (Rabs_pos_eq (powerRZ 2 (-1074))) by lra. apply Rmult_le_compat_r; [lra|]. rewrite <- abs_IZR. apply IZR_le. auto.
    + intros i Hi. assert (Hi' : i < length l) by lia. specialize (H10 i). rewrite in_seq in H10. specialize (H10 ltac:(lia)). apply Z.leb_le in H10.
      destruct (dz_ok (nth i l zero) (H8 _ (nth_In l zero Hi'))) as [_ ->]. destruct (dz_ok (nth (i + 1) l zero) (H8 _ (nth_In l zero Hi))) as [_ ->].
      rewrite (pow_dz kh) by lia. apply IZR_le in H10. rewrite minus_IZR in H10. rewrite <- Rmult_minus_distr_r. apply Rmult_le_compat_r; [lra|auto].
  - intros -> _. cbv zeta in *. apply andb_prop in H11 as [A B]. apply Z.eqb_eq in B. destruct (dz_ok _ A) as [_ ->].
    apply Nat.leb_le in H0. assert (H0' : 0 < length l) by lia. destruct (dz_ok (nth 0 l zero) (H8 _ (nth_In l zero H0'))) as [_ ->]. rewrite B. reflexivity.
Qed.

(** The factors of a solver. *)
Definition bandb n p q i j := (i <? n) && (j <? n) && (i <=? j + p) && (j <=? i + q).
Definition extb n p q i j := (i <? n) && (j <? n) && (bandb n p q i j || (n <=? j + p) || (n <=? i + q)).
Lemma bandb_iff n p q i j : bandb n p q i j = true <-> in_band n p q i j.
Proof. unfold bandb, in_band. rewrite !andb_true_iff, !Nat.ltb_lt, !Nat.leb_le. tauto. Qed.
Lemma extb_iff n p q i j : extb n p q i j = true <-> in_ext n p q i j.
Proof. unfold extb, in_ext. rewrite !andb_true_iff, !orb_true_iff, bandb_iff, !Nat.ltb_lt, !Nat.leb_le. tauto. Qed.
Definition stored (sv : solver float) (i j : nat) : res float :=
  match sv with
  | Aperiodic b => if bandb (b_n b) (b_p b) (b_q b) i j then band_get true b i j else Ok zero
  | Periodic e => if extb (e_n e) (e_p e) (e_q e) i j then eb_get true e i j else Ok zero
  end.
Definition getok (r : res float) : float := match r with Ok v => v | _ => zero end.
Definition size (sv : solver float) := match sv with Aperiodic b => b_n b | Periodic e => e_n e end.
Definition storedb sv : bool := forallb (fun i => forallb (fun j => match stored sv i j with Ok _ => true | _ => false end) (seq 0 (size sv))) (seq 0 (size sv)).
Lemma storedb_ok sv : storedb sv = true -> stored_factors sv (fun i j => getok (stored sv i j)).
Proof.
  unfold storedb. rewrite forallb_forall. intros H.
  assert (X : forall i j, i < size sv -> j < size sv -> exists v, stored sv i j = Ok v).
  { intros i j Hi Hj. specialize (H i). rewrite in_seq in H. specialize (H ltac:(lia)). rewrite forallb_forall in H. specialize (H j). rewrite in_seq in H. specialize (H ltac:(lia)).
    destruct (stored sv i j); try discriminate. eauto. }
  destruct sv as [b|e]; cbn [stored_factors stored size] in *; (split; intros i j Hij).
  - pose proof Hij as (Hi & Hj & _). apply bandb_iff in Hij. destruct (X i j Hi Hj) as [v E]. rewrite Hij in *. rewrite E. reflexivity.
  - destruct (bandb _ _ _ i j) eqn:E; auto. apply bandb_iff in E. tauto.
  - pose proof Hij as (Hi & Hj & _). apply extb_iff in Hij. destruct (X i j Hi Hj) as [v E]. rewrite Hij in *. rewrite E. reflexivity.
  - destruct (extb _ _ _ i j) eqn:E; auto. apply extb_iff in E. tauto.
Qed.
Definition withinb (n : nat) (F : nat -> nat -> float) (k : Z) : bool :=
  (-1074 <=? k)%Z && forallb (fun i => forallb (fun j => exb (F i j) && (Z.abs (dz (F i j)) <=? 2 ^ (k + 1074))%Z) (seq 0 n)) (seq 0 n).
Lemma withinb_ok n F k : withinb n F k = true -> let B := powerRZ 2 k in factors_within n F (INR n * ((1 + B) * (1 + INR n * B))).
Proof.
  unfold withinb. rewrite andb_true_iff, Z.leb_le, forallb_forall. intros [Hk H]. set (B := powerRZ 2 k).
  assert (Pp : (0 < powerRZ 2 (-1074))%R) by (apply powerRZ_lt; lra). assert (B0 : (0 <= B)%R) by (apply powerRZ_le; lra).
  assert (X : forall i j, i < n -> j < n -> double_finite (F i j) /\ (Rabs (double_val (F i j)) <= B)%R).
  { intros i j Hi Hj. specialize (H i). rewrite in_seq in H. specialize (H ltac:(lia)). rewrite forallb_forall in H. specialize (H j). rewrite in_seq in H. specialize (H ltac:(lia)).
    apply andb_prop in H as [H1 H2]. apply Z.leb_le in H2. destruct (dz_ok _ H1) as [Hf ->]. split; auto. unfold B. rewrite (pow_dz k) by auto.
    rewrite Rabs_mult, (Rabs_pos_eq (powerRZ 2 (-1074))) by lra. apply Rmult_le_compat_r; [lra|]. rewrite <- abs_IZR. apply IZR_le. auto. }
  pose proof (pos_INR n) as N0. split; [intros i j Hi Hj; apply X; auto|]. cbv zeta. change Rsum with sum. intros i Hi. rewrite <- sum_const. apply sum_le. intros a Ha.
  assert (U : (0 <= sum n (fun j => Rabs (upper (fun i j => double_val (F i j)) a j)) <= INR n * B)%R).
  { split; [apply sum_pos; intros; apply Rabs_pos|]. rewrite <- sum_const. apply sum_le. intros j Hj. unfold upper. destruct (a <=? j); [apply X; auto|rewrite Rabs_R0; auto]. }
  apply Rmult_le_compat; try lra; [apply Rabs_pos|]. unfold lower. destruct (a <? i).
  - pose proof (proj2 (X i a Hi Ha)). lra.
  - destruct (a =? i); rewrite ?Rabs_R1, ?Rabs_R0; lra.
Qed.

(** Two dimensions, the second one periodic, order 3. *)
Definition fe_x : list float := [-2; -0.5; 0.1; 0.7; 1; 3.5]%float.
Definition fe_y : list float := [0; 0.5; 1.25; 2; 3.1; 4.5]%float.
Definition fe_per := [false; true].
Definition fe_dims := [6; 5].
Definition fe_f : mesh float := mkMesh fe_dims
  [1; 2; 0.5; 3; 1;  0; 1.5; 2; 0.1; 0.3;  2; 1; 0; 1; 2;  0.7; 0.1; 3; 1; 1;  2; 2; 0.5; 1; 0;  1; 0.25; 0.125; 2; 1]%float.
Definition fe_t : templ float := match templ_make Fops true true 3 fe_per fe_dims [Points fe_x; Points fe_y] with Ok t => t
  | _ => mkTempl (mkInterp (spline_empty Fops 0 []) [] []) [] [] [] end.
Definition fe_g : interp float := match interpolate Fops true true fe_t fe_f with Ok g => g | _ => mkInterp (spline_empty Fops 0 []) [] [] end.
Lemma fe_made : templ_make Fops true true 3 fe_per fe_dims [Points fe_x; Points fe_y] = Ok fe_t /\ interpolate Fops true true fe_t fe_f = Ok fe_g /\
  interp_make Fops true true 3 fe_per fe_f [Points fe_x; Points fe_y] = Ok fe_g.
Proof. split; [vm_compute; reflexivity|]. split; vm_compute; reflexivity. Qed.
Lemma within_mono n F G G' : (G <= G')%R -> factors_within n F G -> factors_within n F G'.
Proof. intros H [H1 H2]. split; auto. cbv zeta in *. intros i Hi. eapply Rle_trans; [apply H2; auto|auto]. Qed.
Lemma factors_at n sv : storedb sv && withinb n (fun i j => getok (stored sv i j)) 1 && (n <=? 6) = true -> exists F, stored_factors sv F /\ factors_within n F 234.
Proof.
  intros H. apply andb_prop in H as [H H3]. apply andb_prop in H as [H1 H2]. apply Nat.leb_le in H3. exists (fun i j => getok (stored sv i j)). split; [apply storedb_ok; auto|].
  pose proof (withinb_ok n _ _ H2) as W. cbv zeta in W. revert W. apply within_mono. change (powerRZ 2 1) with (2 * 1)%R.
  apply le_INR in H3. change (INR 6) with (5 + 1)%R in H3 || cbn in H3. pose proof (pos_INR n). 
  replace 234%R with (6 * ((1 + 2 * 1) * (1 + 6 * (2 * 1))))%R by lra. apply Rmult_le_compat; lra.
Qed.
Lemma fe_fit : fit_template true true 3 fe_per fe_dims [fe_x; fe_y] fe_t 6 234.
Proof.
  constructor.
  - apply fe_made.
  - split; [discriminate|]. split; reflexivity.
  - intros [|[|d]] Hd; cbn [nth fe_per]; [| |cbn in Hd; lia].
    + apply (fit_gridb_ok 3 false fe_x 3 2 (-2)). vm_compute. reflexivity.
    + apply (fit_gridb_ok 3 true fe_y 3 3 (-2)). vm_compute. reflexivity.
  - intros [|[|d]] Hd; try reflexivity. cbn in Hd; lia.
  - intros [|[|d]] Hd; [cbn; lia|cbn; lia|cbn in Hd; lia].
  - intros d sv E. assert (X : forallb (fun d => match nth_error (tp_solvers fe_t) d with Some sv => let n := length (nth d [fe_x; fe_y] []) - (if nth d fe_per false then 1 else 0) in
       storedb sv && withinb n (fun i j => getok (stored sv i j)) 1 && (n <=? 6) | None => true end) (seq 0 2) = true) by (vm_compute; reflexivity).
    rewrite forallb_forall in X. specialize (X d). rewrite in_seq in X.
    assert (Hd : d < 2). { assert (L : length (tp_solvers fe_t) = 2) by (vm_compute; reflexivity). rewrite <- L. apply nth_error_Some. congruence. }
    specialize (X ltac:(lia)). rewrite E in X. apply factors_at. exact X.
  - rewrite <- (bpow_powerRZ radix2). apply Rle_trans with (bpow radix2 20); [cbn; lra|apply bpow_le; lia].
  - rewrite <- (bpow_powerRZ radix2). apply Rle_trans with (bpow radix2 20); [|apply bpow_le; lia].
    replace (INR (roundings 3 (length fe_per))) with (INR 61) by reflexivity. rewrite INR_IZR_INZ. cbn. lra.
Qed.
Lemma fe_ctrl a : In a (m_data (sp_ctrl (if_spline fe_g))) -> double_finite a /\ (Rabs (double_val a) <= 128)%R.
Proof.
  assert (X : forallb (fun a => exb a && (Z.abs (dz a) <=? 2 ^ (7 + 1074))%Z) (m_data (sp_ctrl (if_spline fe_g))) = true) by (vm_compute; reflexivity).
  rewrite forallb_forall in X. intros Ha. specialize (X a Ha). apply andb_prop in X as [X1 X2]. apply Z.leb_le in X2.
  destruct (dz_ok a X1) as [Hf E]. clear Ha. split; [exact Hf|]. rewrite E. replace 128%R with (powerRZ 2 7) by (rewrite <- (bpow_powerRZ radix2); reflexivity). rewrite (pow_dz 7) by lia.
  assert (Pp : (0 < powerRZ 2 (-1074))%R) by (apply powerRZ_lt; lra).
  rewrite Rabs_mult, (Rabs_pos_eq (powerRZ 2 (-1074))) by lra. apply Rmult_le_compat_r; [lra|]. rewrite <- abs_IZR. apply IZR_le. auto.
Qed.
Lemma fe_wrap i j : i < 6 -> j < 5 -> forall d, d < length fe_per ->
  wrap_coord Fops (nth d fe_per false) (nth d (sp_range (if_spline fe_g)) (0%float, 0%float)) (nth d (data_point [fe_x; fe_y] [i; j]) 0%float) = Ok (nth d (data_point [fe_x; fe_y] [i; j]) 0%float) /\
  double_finite (nth d (data_point [fe_x; fe_y] [i; j]) 0%float).
Proof.
  intros Hi Hj d Hd.
  do 6 (destruct i as [|i]; [do 5 (destruct j as [|j]; [destruct d as [|[|d]]; [split; [vm_compute; reflexivity|exact I]|split; [vm_compute; reflexivity|exact I]|cbn in Hd; lia]|]); lia|]); lia.
Qed.
Lemma fe_index i j : i < 6 -> j < 5 -> data_index fe_per [fe_x; fe_y] [i; j].
Proof. intros Hi Hj. split; auto. intros [|[|d]] Hd; cbn in *; lia. Qed.
Lemma fe_128 : (0 <= 128 <= powerRZ 2 1000)%R.
Proof. split; [lra|]. replace 128%R with (bpow radix2 7) by reflexivity. rewrite <- (bpow_powerRZ radix2). apply bpow_le. lia. Qed.
