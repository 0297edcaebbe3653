(** Data of the examples in PropNear: doubles on the grids of PropTame. *)
From Coq Require Import List Arith Lia Bool ZArith Reals Lra Floats.
From Flocq Require Import Core.
From Verif Require Import Base Num FloatM MeshM SpecMesh MeshProofs SplineM InterpM SpecSpline SpecCurve SpecStab SpecTame SpecRound SpecRoundInterp SpecNear FloatProofs PropRoundEx PropFitEx PropInterpEx PropTameEx SpecInterp.
Import ListNotations.
Local Open Scope R_scope.
Local Notation float := PrimFloat.float.

(** The periodic points 0, 1, 3, 4 (period 6) and the points 0, ..., 6. *)
Definition ne_ls : list (list float) := [map FZ [0; 1; 3; 4; 6]%Z; map FZ [0; 1; 2; 3; 4; 5; 6]%Z].
Definition ne_f : mesh float := hdata FZ.
Definition ne_t : templ float := match templ_make Fops true true 3 hper hdims (map (@Points float) ne_ls) with Ok t => t
  | _ => mkTempl (mkInterp (spline_empty Fops 0 []) [] []) [] [] [] end.
Definition ne_g : interp float := match interpolate Fops true true ne_t ne_f with Ok g => g | _ => mkInterp (spline_empty Fops 0 []) [] [] end.
Lemma ne_made : templ_make Fops true true 3 hper hdims (map (@Points float) ne_ls) = Ok ne_t /\ interpolate Fops true true ne_t ne_f = Ok ne_g /\
  interp_make Fops true true 3 hper ne_f (map (@Points float) ne_ls) = Ok ne_g.
Proof. split; [vm_compute; reflexivity|]. split; vm_compute; reflexivity. Qed.
Lemma ne_factors n sv : storedb sv && withinb n (fun i j => getok (stored sv i j)) 1 && (n <=? 7)%nat = true -> exists F, stored_factors sv F /\ factors_within n F 315.
Proof.
  intros H. apply andb_prop in H as [H H3]. apply andb_prop in H as [H1 H2]. apply Nat.leb_le in H3. exists (fun i j => getok (stored sv i j)). split; [apply storedb_ok; auto|].
  pose proof (withinb_ok n _ _ H2) as W. cbv zeta in W. revert W. apply within_mono. change (powerRZ 2 1) with (2 * 1)%R.
  apply le_INR in H3. replace (INR 7) with 7 in H3 by (cbn; lra). pose proof (pos_INR n).
  replace 315 with (7 * ((1 + 2 * 1) * (1 + 7 * (2 * 1)))) by lra. apply Rmult_le_compat; try lra; apply Rmult_le_pos; lra.
Qed.
Lemma ne_fit : fit_template true true 3 hper hdims ne_ls ne_t 7 315.
Proof.
  constructor.
  - apply ne_made.
  - split; [discriminate|]. split; reflexivity.
  - intros [|[|d]] Hd; cbn [nth hper ne_ls]; [| |cbn in Hd; lia].
    + apply (fit_gridb_ok 3 true (map FZ [0; 1; 3; 4; 6]%Z) 3 3 0). vm_compute. reflexivity.
    + apply (fit_gridb_ok 3 false (map FZ [0; 1; 2; 3; 4; 5; 6]%Z) 3 3 0). vm_compute. reflexivity.
  - intros [|[|d]] Hd; try reflexivity. cbn in Hd; lia.
  - intros [|[|d]] Hd; [cbn; lia|cbn; lia|cbn in Hd; lia].
  - intros d sv E. assert (X : forallb (fun d => match nth_error (tp_solvers ne_t) d with Some sv => let n := (length (nth d ne_ls []) - (if nth d hper false then 1 else 0))%nat in
       storedb sv && withinb n (fun i j => getok (stored sv i j)) 1 && (n <=? 7)%nat | None => true end) (seq 0 2) = true) by (vm_compute; reflexivity).
    rewrite forallb_forall in X. specialize (X d). rewrite in_seq in X.
    assert (Hd : (d < 2)%nat). { assert (L : length (tp_solvers ne_t) = 2%nat) by (vm_compute; reflexivity). rewrite <- L. apply nth_error_Some. congruence. }
    specialize (X ltac:(lia)). rewrite E in X. apply ne_factors. exact X.
  - rewrite <- (bpow_powerRZ radix2). apply Rle_trans with (bpow radix2 20); [cbn; lra|apply bpow_le; lia].
  - rewrite <- (bpow_powerRZ radix2). apply Rle_trans with (bpow radix2 20); [|apply bpow_le; lia].
    replace (INR (roundings 3 (length hper))) with (INR 61) by reflexivity. rewrite INR_IZR_INZ. cbn. lra.
Qed.
Lemma ne_ctrl a : In a (m_data (sp_ctrl (if_spline ne_g))) -> double_finite a /\ Rabs (double_val a) <= 64.
Proof.
  assert (X : forallb (fun a => exb a && (Z.abs (dz a) <=? 2 ^ (6 + 1074))%Z) (m_data (sp_ctrl (if_spline ne_g))) = true) by (vm_compute; reflexivity).
  rewrite forallb_forall in X. intros Ha. specialize (X a Ha). apply andb_prop in X as [X1 X2]. apply Z.leb_le in X2.
  destruct (dz_ok a X1) as [Hf E]. clear Ha. split; [exact Hf|]. rewrite E. replace 64 with (powerRZ 2 6) by (rewrite <- (bpow_powerRZ radix2); reflexivity). rewrite (pow_dz 6) by lia.
  assert (Pp : (0 < powerRZ 2 (-1074))%R) by (apply powerRZ_lt; lra).
  rewrite Rabs_mult, (Rabs_pos_eq (powerRZ 2 (-1074))) by lra. apply Rmult_le_compat_r; [lra|]. rewrite <- abs_IZR. apply IZR_le. auto.
Qed.
Lemma ne_V z : (Z.abs z <= 40)%Z -> double_val (FZ z) = IZR z.
Proof. intros; apply FZ_val; lia. Qed.
Lemma ne_F z : (Z.abs z <= 40)%Z -> double_finite (FZ z).
Proof. intros; apply FZ_val; lia. Qed.

(** Both grids are exact, with e = 0. *)
Lemma mul0 v z : v = IZR z -> multiple 0 v.
Proof. intros ->. exists z. cbn. ring. Qed.
Lemma ne_scale : (INR 3 + 8) * 6 <= powerRZ 2 (53 + 0).
Proof.
  apply Rle_trans with (bpow radix2 10); [rewrite INR_IZR_INZ; cbn; lra|]. rewrite <- (bpow_powerRZ radix2). apply bpow_le. lia.
Qed.
Lemma ne_exact d : (d < length hper)%nat -> exact_grid 3 (nth d hper false) (nth d ne_ls []).
Proof.
  intros Hd. exists 0%Z, 6. split; [lia|]. destruct d as [|[|d]]; [| |cbn in Hd; lia]; cbn [nth hper ne_ls].
  - split; [|split; [|split]].
    + intros a Ha. cbn [map] in Ha. repeat (destruct Ha as [<-|Ha]; [split; [apply ne_F; lia|rewrite ne_V by lia; rewrite Rabs_pos_eq; lra]|]). destruct Ha.
    + apply ne_scale.
    + intros i Hi. cbn [map length] in Hi. do 5 (destruct i as [|i]; [cbn [map nth]; eapply mul0; apply ne_V; lia|]). lia.
    + intros k Hk. cbn [map length] in *. unfold per_knot, pext.
      do 12 (destruct k as [|k]; [cbn -[FZ double_val IZR INR]; rewrite ?ne_V by lia; cbn [INR];
        first [ eapply (mul0 _ (-6)); lra | eapply (mul0 _ (-5)); lra | eapply (mul0 _ (-3)); lra | eapply (mul0 _ (-2)); lra | eapply (mul0 _ 0); lra
              | eapply (mul0 _ 1); lra | eapply (mul0 _ 3); lra | eapply (mul0 _ 4); lra | eapply (mul0 _ 6); lra | eapply (mul0 _ 7); lra | eapply (mul0 _ 9); lra | eapply (mul0 _ 10); lra | eapply (mul0 _ 12); lra]|]). lia.
  - split; [|split; [|split]].
    + intros a Ha. cbn [map] in Ha. repeat (destruct Ha as [<-|Ha]; [split; [apply ne_F; lia|rewrite ne_V by lia; rewrite Rabs_pos_eq; lra]|]). destruct Ha.
    + apply ne_scale.
    + intros i Hi. cbn [map length] in Hi. do 7 (destruct i as [|i]; [cbn [map nth]; eapply mul0; apply ne_V; lia|]). lia.
    + intros k Hk. cbn [map length] in *. unfold ap_knot, mean.
      do 14 (destruct k as [|k]; [cbn -[FZ double_val IZR INR]; rewrite ?ne_V by lia; cbn [INR];
        first [ eapply (mul0 _ 0); lra | eapply (mul0 _ 1); lra | eapply (mul0 _ 2); lra | eapply (mul0 _ 3); lra | eapply (mul0 _ 4); lra | eapply (mul0 _ 5); lra | eapply (mul0 _ 6); lra]|]). lia.
Qed.
Lemma ne_twin : twin true 3 hper hdims ne_ls ne_f (hx IZR) (hdata IZR).
Proof.
  constructor.
  - apply good_hx. lia.
  - intros d i Hd Hi. destruct d as [|[|d]]; [| |cbn in Hd; lia]; cbn [nth ne_ls map length] in Hi |- *; unfold coordinate; cbn [nth hx hper hdims grid_of map].
    + do 5 (destruct i as [|i]; [cbn [nth]; symmetry; apply ne_V; lia|]). lia.
    + do 7 (destruct i as [|i]; [cbn [nth]; rewrite ne_V by lia; cbn; lra|]). lia.
  - apply ne_exact.
  - reflexivity.
  - unfold ne_f, hdata. cbn [m_data map]. rewrite !ne_V by lia. reflexivity.
Qed.
(** The point (7.5, 2.25) is reduced to (1.5, 2.25). *)
Definition ne_xs : list float := [7.5; 2.25]%float.
Definition ne_xs' : list float := [1.5; 2.25]%float.
Lemma ne_half z b : exb z = true -> dz z = (b * 2 ^ 1072)%Z -> double_finite z /\ double_val z = IZR b / 4.
Proof.
  intros H E. destruct (dz_ok z H) as [F V]. split; auto. rewrite V, E, mult_IZR, (IZR_Zpower radix2) by lia. rewrite <- (bpow_powerRZ radix2).
  rewrite Rmult_assoc, <- bpow_plus. cbn. lra.
Qed.
Lemma ne_reduced : reduced hper ne_ls ne_g ne_xs ne_xs'.
Proof.
  split; [reflexivity|]. split; [reflexivity|].
  destruct (ne_half 1.5%float 6 eq_refl eq_refl) as [F1 V1]. destruct (ne_half 2.25%float 9 eq_refl eq_refl) as [F2 V2].
  intros d Hd. destruct d as [|[|d]]; [| |cbn in Hd; lia]; cbn [nth hper ne_xs ne_xs' ne_ls]; cbv zeta.
  - split; [vm_compute; reflexivity|]. split; auto. 
    assert (E : nth 0 (sp_range (if_spline ne_g)) (zero, zero) = (FZ 0, FZ 6)) by (vm_compute; reflexivity). rewrite E. cbn [fst snd]. rewrite V1, !ne_V by lia. split; [lra|intros _; lra].
  - split; [vm_compute; reflexivity|]. split; auto. cbn [map length nth Nat.sub fst snd]. rewrite V2, !ne_V by lia. split; [lra|discriminate].
Qed.
Lemma ne_countable : countable_point true hper hdims (hx IZR) (map double_val ne_xs').
Proof. apply countable_hx. cbn [map ne_xs' nth]. rewrite (proj2 (ne_half 2.25%float 9 eq_refl eq_refl)). lra. Qed.
Lemma ne_data a : In a (m_data ne_f) -> Rabs (double_val a) <= 38.
Proof.
  unfold ne_f, hdata. cbn [m_data map]. intros Ha. repeat (destruct Ha as [<-|Ha]; [rewrite ne_V by lia; apply Rabs_le; lra|]). destruct Ha.
Qed.
Lemma ne_small : tame_factor 3 ^ length hper * (INR (length hper) * (INR 3 + INR 7 * 315) * powerRZ 2 (-49)) <= / 2.
Proof.
  apply Rle_trans with (36 * (2 * (3 + 7 * 315) * powerRZ 2 (-20))).
  - assert (powerRZ 2 (-49) <= powerRZ 2 (-20)) by (rewrite <- !(bpow_powerRZ radix2); apply bpow_le; lia).
    cbn [length hper tame_factor pow]. replace (INR 2) with 2 by (cbn; lra). replace (INR 3) with 3 by (cbn; lra). replace (INR 7) with 7 by (cbn; lra). lra.
  - rewrite <- (bpow_powerRZ radix2). cbn. lra.
Qed.
Lemma ne_64 : 0 <= 64 <= powerRZ 2 1000.
Proof. split; [lra|]. replace 64 with (bpow radix2 6) by reflexivity. rewrite <- (bpow_powerRZ radix2). apply bpow_le. lia. Qed.
Lemma ne_real : exists gr, interp_make Rops true true 3 hper (hdata IZR) (hx IZR) = Ok gr.
Proof. apply made_hx; reflexivity. Qed.

(** Order 4 on the periodic points 0, ..., 5 (period 6). *)
Definition nu_ls : list (list float) := [map FZ [0; 1; 2; 3; 4; 5; 6]%Z].
Definition nu_ranges : list (xrange R) := [Uniform 0 6].
Definition nu_data {T} (i : Z -> T) : mesh T := mkMesh [6%nat] (map i [1; -2; 3; 0; 5; -1]%Z).
Definition nu_f : mesh float := nu_data FZ.
Definition nu_t : templ float := match templ_make Fops true true 4 [true] [6%nat] (map (@Points float) nu_ls) with Ok t => t
  | _ => mkTempl (mkInterp (spline_empty Fops 0 []) [] []) [] [] [] end.
Definition nu_g : interp float := match interpolate Fops true true nu_t nu_f with Ok g => g | _ => mkInterp (spline_empty Fops 0 []) [] [] end.
Lemma nu_made : templ_make Fops true true 4 [true] [6%nat] (map (@Points float) nu_ls) = Ok nu_t /\ interpolate Fops true true nu_t nu_f = Ok nu_g /\
  interp_make Fops true true 4 [true] nu_f (map (@Points float) nu_ls) = Ok nu_g.
Proof. split; [vm_compute; reflexivity|]. split; vm_compute; reflexivity. Qed.
Lemma nu_fit : fit_template true true 4 [true] [6%nat] nu_ls nu_t 6 315.
Proof.
  constructor.
  - apply nu_made.
  - split; [discriminate|]. split; reflexivity.
  - intros [|d] Hd; cbn [nth nu_ls]; [|cbn in Hd; lia]. apply (fit_gridb_ok 4 true (map FZ [0; 1; 2; 3; 4; 5; 6]%Z) 3 3 0). vm_compute. reflexivity.
  - intros [|d] Hd; try reflexivity. cbn in Hd; lia.
  - intros [|d] Hd; [cbn; lia|cbn in Hd; lia].
  - intros d sv E. assert (X : forallb (fun d => match nth_error (tp_solvers nu_t) d with Some sv => let n := (length (nth d nu_ls []) - (if nth d [true] false then 1 else 0))%nat in
       storedb sv && withinb n (fun i j => getok (stored sv i j)) 1 && (n <=? 7)%nat | None => true end) (seq 0 1) = true) by (vm_compute; reflexivity).
    rewrite forallb_forall in X. specialize (X d). rewrite in_seq in X.
    assert (Hd : (d < 1)%nat). { assert (L : length (tp_solvers nu_t) = 1%nat) by (vm_compute; reflexivity). rewrite <- L. apply nth_error_Some. congruence. }
    specialize (X ltac:(lia)). rewrite E in X. apply ne_factors. exact X.
  - rewrite <- (bpow_powerRZ radix2). apply Rle_trans with (bpow radix2 20); [cbn; lra|apply bpow_le; lia].
  - rewrite <- (bpow_powerRZ radix2). apply Rle_trans with (bpow radix2 20); [|apply bpow_le; lia].
    rewrite INR_IZR_INZ. replace (Z.of_nat (roundings 4 (length [true]))) with (Z.of_nat (roundings 4 1)) by reflexivity. let v := eval vm_compute in (Z.of_nat (roundings 4 1)) in change (Z.of_nat (roundings 4 1)) with v. cbn. lra.
Qed.
Lemma nu_ctrl a : In a (m_data (sp_ctrl (if_spline nu_g))) -> double_finite a /\ Rabs (double_val a) <= 64.
Proof.
  assert (X : forallb (fun a => exb a && (Z.abs (dz a) <=? 2 ^ (6 + 1074))%Z) (m_data (sp_ctrl (if_spline nu_g))) = true) by (vm_compute; reflexivity).
  rewrite forallb_forall in X. intros Ha. specialize (X a Ha). apply andb_prop in X as [X1 X2]. apply Z.leb_le in X2.
  destruct (dz_ok a X1) as [Hf E]. clear Ha. split; [exact Hf|]. rewrite E. replace 64 with (powerRZ 2 6) by (rewrite <- (bpow_powerRZ radix2); reflexivity). rewrite (pow_dz 6) by lia.
  assert (Pp : (0 < powerRZ 2 (-1074))%R) by (apply powerRZ_lt; lra).
  rewrite Rabs_mult, (Rabs_pos_eq (powerRZ 2 (-1074))) by lra. apply Rmult_le_compat_r; [lra|]. rewrite <- abs_IZR. apply IZR_le. auto.
Qed.
Lemma mul1 v z : v = IZR z / 2 -> multiple (-1) v.
Proof. intros ->. exists z. change (powerRZ 2 (-1)) with (/ (2 * 1)). field. Qed.
Lemma mul2 v z : v = IZR z -> multiple (-1) v.
Proof. intros ->. apply (mul1 _ (2 * z)). rewrite mult_IZR. field. Qed.
Lemma nu_exact : exact_grid 4 true (map FZ [0; 1; 2; 3; 4; 5; 6]%Z).
Proof.
  exists (-1)%Z, 6. split; [lia|]. split; [|split; [|split]].
  - intros a Ha. cbn [map] in Ha. repeat (destruct Ha as [<-|Ha]; [split; [apply ne_F; lia|rewrite ne_V by lia; rewrite Rabs_pos_eq; lra]|]). destruct Ha.
  - apply Rle_trans with (bpow radix2 10); [rewrite INR_IZR_INZ; cbn; lra|]. rewrite <- (bpow_powerRZ radix2). apply bpow_le. lia.
  - intros i Hi. cbn [map length] in Hi. do 7 (destruct i as [|i]; [cbn [map nth]; eapply mul2; apply ne_V; lia|]). lia.
  - intros k Hk. cbn [map length] in *. unfold per_knot, pext.
    do 16 (destruct k as [|k]; [cbn -[FZ double_val IZR INR]; rewrite ?ne_V by lia; cbn [INR];
        first [ eapply (mul1 _ (-15)); lra | eapply (mul1 _ (-13)); lra | eapply (mul1 _ (-11)); lra | eapply (mul1 _ (-9)); lra | eapply (mul1 _ (-7)); lra | eapply (mul1 _ (-5)); lra | eapply (mul1 _ (-3)); lra | eapply (mul1 _ (-1)); lra
              | eapply (mul1 _ 1); lra | eapply (mul1 _ 3); lra | eapply (mul1 _ 5); lra | eapply (mul1 _ 7); lra | eapply (mul1 _ 9); lra | eapply (mul1 _ 11); lra
              | eapply (mul1 _ 13); lra | eapply (mul1 _ 15); lra | eapply (mul1 _ 17); lra | eapply (mul1 _ 19); lra | eapply (mul1 _ 21); lra | eapply (mul1 _ 23); lra]|]). lia.
Qed.
Lemma nu_good : good_input true 4 [true] [6%nat] nu_ranges.
Proof.
  split; [discriminate|]. split; [reflexivity|]. split; [reflexivity|]. intros [|d] Hd; [|cbn in Hd; lia].
  cbn [nth nu_ranges]; unfold good_dim, coords_num, distinct; cbn [andb negb map length]. split; [lia|]. split; [lia|]. lra.
Qed.
Lemma nu_uniform : uniform_periodic [true] nu_ranges.
Proof. intros [|d] Hd; [|cbn in Hd; lia]. split; [reflexivity|]. eexists; eexists; reflexivity. Qed.
Lemma nu_twin : twin true 4 [true] [6%nat] nu_ls nu_f nu_ranges (nu_data IZR).
Proof.
  constructor.
  - apply nu_good.
  - intros d i Hd Hi. destruct d as [|d]; [|cbn in Hd; lia]; cbn [nth nu_ls map length] in Hi |- *; unfold coordinate; cbn [nth nu_ranges grid_of map].
    do 7 (destruct i as [|i]; [cbn [nth]; rewrite ne_V by lia; cbn; lra|]). lia.
  - intros [|d] Hd; [|cbn in Hd; lia]. apply nu_exact.
  - reflexivity.
  - unfold nu_f, nu_data. cbn [m_data map]. rewrite !ne_V by lia. reflexivity.
Qed.
(** 7.5 is reduced to 1.5. *)
Lemma nu_reduced : reduced [true] nu_ls nu_g [7.5%float] [1.5%float].
Proof.
  split; [reflexivity|]. split; [reflexivity|].
  destruct (ne_half 1.5%float 6 eq_refl eq_refl) as [F1 V1].
  intros d Hd. destruct d as [|d]; [|cbn in Hd; lia]; cbn [nth nu_ls]; cbv zeta.
  split; [vm_compute; reflexivity|]. split; auto. 
  assert (E : nth 0 (sp_range (if_spline nu_g)) (zero, zero) = ((-0.5)%float, 5.5%float)) by (vm_compute; reflexivity). rewrite E. cbn [fst snd]. rewrite V1, (proj2 (ne_half (-0.5)%float (-2) eq_refl eq_refl)), (proj2 (ne_half 5.5%float 22 eq_refl eq_refl)). split; [lra|intros _; lra].
Qed.
Lemma nu_countable : countable_point true [true] [6%nat] nu_ranges (map double_val [1.5%float]).
Proof.
  intros [|d] Hd; [|cbn in Hd; lia]. cbn [nth map nu_ranges]. rewrite (proj2 (ne_half 1.5%float 6 eq_refl eq_refl)). unfold countable, two64. cbn. lra.
Qed.
Lemma nu_data_5 a : In a (m_data nu_f) -> Rabs (double_val a) <= 5.
Proof.
  unfold nu_f, nu_data. cbn [m_data map]. intros Ha. repeat (destruct Ha as [<-|Ha]; [rewrite ne_V by lia; apply Rabs_le; lra|]). destruct Ha.
Qed.
Lemma nu_small : amplification 4 ^ length [true] * (INR (length [true]) * (INR 4 + INR 6 * 315) * powerRZ 2 (-49)) <= / 2.
Proof.
  apply Rle_trans with (6 * ((4 + 6 * 315) * powerRZ 2 (-20))).
  - assert (powerRZ 2 (-49) <= powerRZ 2 (-20)) by (rewrite <- !(bpow_powerRZ radix2); apply bpow_le; lia).
    assert (0 <= powerRZ 2 (-49)) by (apply powerRZ_le; lra).
    cbn [length amplification pow]. replace (INR 1) with 1 by (cbn; lra). replace (INR 4) with 4 by (cbn; lra). replace (INR 6) with 6 by (cbn; lra). lra.
  - rewrite <- (bpow_powerRZ radix2). cbn. lra.
Qed.
Lemma nu_real : exists gr, interp_make Rops true true 4 [true] (nu_data IZR) nu_ranges = Ok gr.
Proof.
  apply (InterpFinal.make_ok true true 4 [true] [6%nat]); [apply nu_good| |reflexivity|reflexivity]. intros [|d] Hd; [|cbn in Hd; lia]. right. right. eexists; eexists; reflexivity.
Qed.
