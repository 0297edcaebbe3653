(** Examples and witnesses for PropKnots.v. *)
From Coq Require Import List Arith Lia Bool ZArith Reals Lra Floats.
From Flocq Require Import Core.
From Verif Require Import Base Num FloatM MeshM BandM ProgM LUM SplineM InterpM SpecBand SpecSpline SpecInterp SpecRound FloatProofs PropSolveEx.
Import ListNotations.
Local Open Scope nat_scope.
Local Notation float := PrimFloat.float.

(** Decision procedures for the hypotheses. *)
Definition all_fin (l : list float) : bool := forallb finb l.
Definition incb (l : list float) : bool := forallb (fun i => PrimFloat.ltb (nth i l zero) (nth (i + 1) l zero)) (seq 0 (length l - 1)).
Definition nonfin (r : res float) : bool := match r with Ok v => negb (finb v) | _ => false end.
Lemma all_fin_ok l : all_fin l = true -> forall a, In a l -> double_finite a.
Proof. unfold all_fin. rewrite forallb_forall. intros H a Ha. apply finb_ok. auto. Qed.
Lemma incb_ok l : all_fin l = true -> incb l = true -> forall i, i + 1 < length l -> (double_val (nth i l zero) < double_val (nth (i + 1) l zero))%R.
Proof.
  intros F H i Hi. unfold incb in H. rewrite forallb_forall in H. specialize (H i). rewrite in_seq in H. specialize (H ltac:(lia)).
  apply Flt_val; auto; apply (all_fin_ok l F); apply nth_In; lia.
Qed.
Lemma nonfin_ok r : nonfin r = true -> exists v, r = Ok v /\ ~ double_finite v.
Proof.
  destruct r as [v| |]; cbn [nonfin]; try discriminate. unfold finb, double_finite. intros H. exists v. split; auto. destruct (Prim2SF v); cbn in H; try discriminate; auto.
Qed.
Lemma nonfin_all {A} (F : A -> res float) l : forallb (fun x => nonfin (F x)) l = true -> forall x, In x l -> exists v, F x = Ok v /\ ~ double_finite v.
Proof. rewrite forallb_forall. intros H x Hx. apply nonfin_ok. auto. Qed.
Lemma less_ok a b : finb a = true -> finb b = true -> PrimFloat.ltb a b = true -> (double_val a < double_val b)%R.
Proof. intros Ha Hb H. apply Flt_val; auto using finb_ok. Qed.
Definition abs_le (c : float) (l : list float) : bool := forallb (fun x => PrimFloat.leb x c && PrimFloat.leb (- c)%float x) l.
Lemma abs_le_ok c l : finb c = true -> finb (- c)%float = true -> double_val (- c)%float = (- double_val c)%R -> all_fin l = true -> abs_le c l = true ->
  forall a, In a l -> double_finite a /\ (Rabs (double_val a) <= double_val c)%R.
Proof.
  intros Hc Hc' E F H a Ha. pose proof (all_fin_ok l F a Ha) as G. split; auto. unfold abs_le in H. rewrite forallb_forall in H. specialize (H a Ha).
  apply andb_prop in H as [H1 H2]. apply Fle_val in H1; auto using finb_ok. apply Fle_val in H2; auto using finb_ok. rewrite E in H2. apply Rabs_le. lra.
Qed.
Definition ok_with (r : res (interp float)) (P : interp float -> bool) : bool := match r with Ok g => P g | _ => false end.
Lemma ok_with_ok r P : ok_with r P = true -> exists g, r = Ok g /\ P g = true.
Proof. destruct r; cbn; try discriminate. eauto. Qed.

(** A graded mesh whose rolling sums lose the last coordinates. *)
Definition kn_l : list float := [-0x1p61; -0x1p60; 0; 100; 101; 102; 103; 104; 105; 106; 107; 108]%float.
Definition kn_f : mesh float := mesh_of_list [0; 0; 0; 1; 2; 3; 4; 5; 6; 7; 8; 9]%float.
Lemma rolling_sum : exists l f g,
  (forall a, In a l -> double_finite a) /\ (forall i, i + 1 < length l -> (double_val (nth i l zero) < double_val (nth (i + 1) l zero))%R) /\
  m_dims f = [length l] /\
  interp_make Fops true true 3 [false] f [Points l] = Throw AssertFailed /\
  interp_make Fops false true 3 [false] f [Points l] = Ok g /\
  (exists k, 3 <= k < length l /\
     (double_val (nth (k + 1) (nth 0 (sp_knots (if_spline g)) []) zero) < double_val (nth k (nth 0 (sp_knots (if_spline g)) []) zero))%R) /\
  (forall x, In x l -> exists v, interp_eval Fops g [x] = Ok v /\ ~ double_finite v).
Proof.
  destruct (ok_with_ok (interp_make Fops false true 3 [false] kn_f [Points kn_l]) (fun g => let t := nth 0 (sp_knots (if_spline g)) [] in
     finb (nth 11 t zero) && finb (nth 12 t zero) && PrimFloat.ltb (nth 12 t zero) (nth 11 t zero) && forallb (fun x => nonfin (interp_eval Fops g [x])) kn_l)) as (g & Eg & H).
  { vm_compute. reflexivity. }
  apply andb_prop in H as [H H4]. apply andb_prop in H as [H H3]. apply andb_prop in H as [H1 H2].
  exists kn_l, kn_f, g. split; [apply all_fin_ok; vm_compute; reflexivity|]. split; [apply incb_ok; vm_compute; reflexivity|]. split; [reflexivity|].
  split; [vm_compute; reflexivity|]. split; [exact Eg|]. split; [exists 11; split; [cbn [length kn_l]; lia|apply less_ok; auto]|].
  apply nonfin_all. exact H4.
Qed.

(** A period that rounds. *)
Definition kp_l : list float := [-0x1p-60; -0x1p-61; 0.125; 0.25; 0.5; 0.625; 0.75; 0.875; 1]%float.
Definition kp_f : mesh float := mesh_of_list [0; 1; 2; 3; 4; 5; 6; 7]%float.
Lemma rounded_period : exists l f g,
  (forall a, In a l -> double_finite a) /\ (forall i, i + 1 < length l -> (double_val (nth i l zero) < double_val (nth (i + 1) l zero))%R) /\
  m_dims f = [length l - 1] /\
  interp_make Fops true true 3 [true] f [Points l] = Ok g /\
  (exists k, 3 <= k < length l + 2 /\
     (double_val (nth (k + 1) (nth 0 (sp_knots (if_spline g)) []) zero) < double_val (nth k (nth 0 (sp_knots (if_spline g)) []) zero))%R) /\
  (forall x, In x l -> exists v, interp_eval Fops g [x] = Ok v /\ ~ double_finite v).
Proof.
  destruct (ok_with_ok (interp_make Fops true true 3 [true] kp_f [Points kp_l]) (fun g => let t := nth 0 (sp_knots (if_spline g)) [] in
     finb (nth 3 t zero) && finb (nth 4 t zero) && PrimFloat.ltb (nth 4 t zero) (nth 3 t zero) && forallb (fun x => nonfin (interp_eval Fops g [x])) kp_l)) as (g & Eg & H).
  { vm_compute. reflexivity. }
  apply andb_prop in H as [H H4]. apply andb_prop in H as [H H3]. apply andb_prop in H as [H1 H2].
  exists kp_l, kp_f, g. split; [apply all_fin_ok; vm_compute; reflexivity|]. split; [apply incb_ok; vm_compute; reflexivity|]. split; [reflexivity|].
  split; [exact Eg|]. split; [exists 3; split; [cbn [length kp_l]; lia|apply less_ok; auto]|].
  apply nonfin_all. exact H4.
Qed.

(** Uniform ranges that overflow, underflow, or are finer than the doubles. *)
Definition ku_f : mesh float := mesh_of_list [0; 1; 2; 3; 4; 5; 6; 7; 8]%float.
Lemma overflow : exists a b f g, double_finite a /\ double_finite b /\ (double_val a < double_val b)%R /\
  interp_make Fops true true 3 [false] f [Uniform a b] = Ok g /\
  (exists k, k < length (nth 0 (sp_knots (if_spline g)) []) /\ ~ double_finite (nth k (nth 0 (sp_knots (if_spline g)) []) zero)) /\
  (forall x, In x [a; zero; b] -> exists v, interp_at Fops g [x] = Ok v /\ ~ double_finite v).
Proof.
  destruct (ok_with_ok (interp_make Fops true true 3 [false] ku_f [Uniform (-0x1p1023)%float 0x1p1023%float]) (fun g => let t := nth 0 (sp_knots (if_spline g)) [] in
     (4 <? length t) && nonfin (Ok (nth 4 t zero)) && forallb (fun x => nonfin (interp_at Fops g [x])) [-0x1p1023; 0; 0x1p1023]%float)) as (g & Eg & H).
  { vm_compute. reflexivity. }
  apply andb_prop in H as [H H3]. apply andb_prop in H as [H1 H2]. apply Nat.ltb_lt in H1.
  exists (-0x1p1023)%float, 0x1p1023%float, ku_f, g. split; [exact I|]. split; [exact I|]. split; [apply less_ok; vm_compute; reflexivity|]. split; [exact Eg|]. split.
  - exists 4. split; auto. destruct (nonfin_ok _ H2) as (v & E & N). inversion E; subst. exact N.
  - apply (nonfin_all (fun x => interp_at Fops g [x])). exact H3.
Qed.
Lemma underflow : exists a b f g, double_finite a /\ double_finite b /\ (double_val a < double_val b)%R /\
  interp_make Fops true true 3 [false] f [Uniform a b] = Ok g /\
  (exists k, k + 1 < length (nth 0 (sp_knots (if_spline g)) []) /\
     (double_val (nth (k + 1) (nth 0 (sp_knots (if_spline g)) []) zero) < double_val (nth k (nth 0 (sp_knots (if_spline g)) []) zero))%R) /\
  (forall x, In x [a; b] -> exists v, interp_at Fops g [x] = Ok v /\ ~ double_finite v).
Proof.
  destruct (ok_with_ok (interp_make Fops true true 3 [false] ku_f [Uniform zero 0x5p-1074%float]) (fun g => let t := nth 0 (sp_knots (if_spline g)) [] in
     (9 <? length t) && finb (nth 8 t zero) && finb (nth 9 t zero) && PrimFloat.ltb (nth 9 t zero) (nth 8 t zero) && forallb (fun x => nonfin (interp_at Fops g [x])) [zero; 0x5p-1074%float])) as (g & Eg & H).
  { vm_compute. reflexivity. }
  apply andb_prop in H as [H H5]. apply andb_prop in H as [H H4]. apply andb_prop in H as [H H3]. apply andb_prop in H as [H1 H2]. apply Nat.ltb_lt in H1.
  exists zero, 0x5p-1074%float, ku_f, g. split; [exact I|]. split; [exact I|]. split; [apply less_ok; vm_compute; reflexivity|]. split; [exact Eg|]. split.
  - exists 8. split; auto. apply less_ok; auto.
  - apply (nonfin_all (fun x => interp_at Fops g [x])). exact H5.
Qed.
Lemma resolution : exists a b f g, double_finite a /\ double_finite b /\ (double_val a < double_val b)%R /\
  interp_make Fops true true 3 [false] f [Uniform a b] = Ok g /\
  (forall t, In t (nth 0 (sp_knots (if_spline g)) []) -> double_finite t) /\
  (forall x, In x [a; b] -> exists v, interp_at Fops g [x] = Ok v /\ ~ double_finite v).
Proof.
  destruct (ok_with_ok (interp_make Fops true true 3 [false] ku_f [Uniform 0x1p53%float (0x1p53 + 4)%float]) (fun g => 
     all_fin (nth 0 (sp_knots (if_spline g)) []) && forallb (fun x => nonfin (interp_at Fops g [x])) [0x1p53; 0x1p53 + 4]%float)) as (g & Eg & H).
  { vm_compute. reflexivity. }
  apply andb_prop in H as [H H5].
  exists 0x1p53%float, (0x1p53 + 4)%float, ku_f, g. split; [exact I|]. split; [apply finb_ok; vm_compute; reflexivity|]. split; [apply less_ok; vm_compute; reflexivity|]. split; [exact Eg|]. split; [apply all_fin_ok; exact H|].
  apply (nonfin_all (fun x => interp_at Fops g [x])). exact H5.
Qed.

(** Grids that meet the hypotheses. *)
Definition ke_l : list float := [-2; -0.5; 0.1; 0.7; 1; 3.5]%float.
Definition ke_f : mesh float := mesh_of_list [1; 2; 0.5; 3; 1; 4]%float.
Definition ke_f5 : mesh float := mesh_of_list [1; 2; 0.5; 3; 1]%float.
Lemma ke_made : exists g1 g2 g3 g4,
  interp_make Fops true true 3 [false] ke_f [Points ke_l] = Ok g1 /\
  interp_make Fops true true 3 [true] ke_f5 [Points ke_l] = Ok g2 /\
  interp_make Fops true true 3 [false] ke_f [Uniform (-1)%float 0.7%float] = Ok g3 /\
  interp_make Fops true true 3 [true] ke_f [Uniform (-1)%float 0.7%float] = Ok g4.
Proof. do 4 eexists. do 3 (split; [vm_compute; reflexivity|]). vm_compute; reflexivity. Qed.
Lemma four_val : double_val 4%float = 4%R /\ double_val (-4)%float = (-4)%R.
Proof.
  split; unfold double_val.
  - replace (Prim2SF 4%float) with (S754_finite false 4503599627370496 (-50)) by (vm_compute; reflexivity). rewrite <- (bpow_powerRZ radix2). cbn -[IZR]. lra.
  - replace (Prim2SF (-4)%float) with (S754_finite true 4503599627370496 (-50)) by (vm_compute; reflexivity). rewrite <- (bpow_powerRZ radix2). cbn -[IZR]. lra.
Qed.
Lemma ke_hyps : (forall a, In a ke_l -> double_finite a /\ (Rabs (double_val a) <= 4)%R) /\
  (INR (length ke_l) <= powerRZ 2 40)%R /\ (4 <= powerRZ 2 900)%R /\ (4 <= powerRZ 2 1000)%R.
Proof.
  split; [|rewrite <- !(bpow_powerRZ radix2); change 4%R with (bpow radix2 2); split; [|split; apply bpow_le; lia]].
  - destruct four_val as [E E']. rewrite <- E. apply abs_le_ok; try (vm_compute; reflexivity). change (- (4))%float with (-4)%float. rewrite E, E'. reflexivity.
  - apply Rle_trans with (bpow radix2 3); [cbn; lra|apply bpow_le; lia].
Qed.
Lemma ke_uniform : double_finite (-1)%float /\ double_finite 0.7%float /\ (Rabs (double_val (-1)%float) <= 4)%R /\ (Rabs (double_val 0.7%float) <= 4)%R /\
  (powerRZ 2 (-900) <= double_val 0.7%float - double_val (-1)%float)%R.
Proof.
  assert (E1 : double_val (-1)%float = (-1)%R).
  { unfold double_val. replace (Prim2SF (-1)%float) with (S754_finite true 4503599627370496 (-52)) by (vm_compute; reflexivity). rewrite <- (bpow_powerRZ radix2). cbn -[IZR]. lra. }
  assert (E2 : (0 < double_val 0.7%float <= 1)%R).
  { unfold double_val. replace (Prim2SF 0.7%float) with (S754_finite false 6305039478318694 (-53)) by (vm_compute; reflexivity). rewrite <- (bpow_powerRZ radix2). cbn -[IZR]. lra. }
  split; [exact I|]. split; [exact I|]. rewrite E1. split; [apply Rabs_le; lra|]. split; [apply Rabs_le; lra|].
  apply Rle_trans with (bpow radix2 0); [rewrite <- (bpow_powerRZ radix2); apply bpow_le; lia|change (bpow radix2 0) with 1%R; lra].
Qed.
