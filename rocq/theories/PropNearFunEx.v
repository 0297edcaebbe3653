(** Data of the examples in PropNearFun. *)
From Coq Require Import List Arith Lia Bool ZArith Reals Lra Floats.
From Flocq Require Import Core.
From Verif Require Import Base Num FloatM MeshM SpecMesh MeshProofs SplineM InterpM SpecSpline SpecCurve SpecStab SpecApprox SpecSmooth SpecTame SpecRate SpecRound SpecRoundInterp SpecNear SpecNearFun
  FloatProofs PropRoundEx PropFitEx PropInterpEx PropApproxEx PropRateEx PropDualEx PropNearEx SpecInterp.
Import ListNotations.
Local Open Scope R_scope.
Local Notation float := PrimFloat.float.

Lemma small49 : powerRZ 2 (-49) <= powerRZ 2 (-20).
Proof. rewrite <- !(bpow_powerRZ radix2); apply bpow_le; lia. Qed.
Lemma small1031 : 0 <= powerRZ 2 (-1031) <= 1.
Proof. split; [apply powerRZ_le; lra|]. replace 1 with (bpow radix2 0) by reflexivity. rewrite <- (bpow_powerRZ radix2). apply bpow_le. lia. Qed.
Lemma large1000 : 4000 <= powerRZ 2 1000.
Proof. apply Rle_trans with (bpow radix2 12); [cbn; lra|]. rewrite <- (bpow_powerRZ radix2). apply bpow_le. lia. Qed.

(** Squares on 0, ..., 6, one of them wrong by 1. *)
Definition nq_ls : list (list float) := [map FZ [0; 1; 2; 3; 4; 5; 6]%Z].
Definition nq_f : mesh float := mkMesh [7%nat] (map FZ [0; 1; 4; 9; 16; 25; 35]%Z).
Definition nq_t : templ float := match templ_make Fops true true 3 [false] [7%nat] (map (@Points float) nq_ls) with Ok t => t
  | _ => mkTempl (mkInterp (spline_empty Fops 0 []) [] []) [] [] [] end.
Definition nq_g : interp float := match interpolate Fops true true nq_t nq_f with Ok g => g | _ => mkInterp (spline_empty Fops 0 []) [] [] end.
Lemma nq_made : templ_make Fops true true 3 [false] [7%nat] (map (@Points float) nq_ls) = Ok nq_t /\ interpolate Fops true true nq_t nq_f = Ok nq_g.
Proof. split; vm_compute; reflexivity. Qed.
Lemma nq_fit : fit_template true true 3 [false] [7%nat] nq_ls nq_t 7 315.
Proof.
  constructor.
  - apply nq_made.
  - split; [discriminate|]. split; reflexivity.
  - intros [|d] Hd; cbn [nth nq_ls]; [|cbn in Hd; lia]. apply (fit_gridb_ok 3 false (map FZ [0; 1; 2; 3; 4; 5; 6]%Z) 3 3 0). vm_compute. reflexivity.
  - intros [|d] Hd; try reflexivity. cbn in Hd; lia.
  - intros [|d] Hd; [cbn; lia|cbn in Hd; lia].
  - intros d sv E. assert (X : forallb (fun d => match nth_error (tp_solvers nq_t) d with Some sv => let n := (length (nth d nq_ls []) - (if nth d [false] false then 1 else 0))%nat in
       storedb sv && withinb n (fun i j => getok (stored sv i j)) 1 && (n <=? 7)%nat | None => true end) (seq 0 1) = true) by (vm_compute; reflexivity).
    rewrite forallb_forall in X. specialize (X d). rewrite in_seq in X.
    assert (Hd : (d < 1)%nat). { assert (L : length (tp_solvers nq_t) = 1%nat) by (vm_compute; reflexivity). rewrite <- L. apply nth_error_Some. congruence. }
    specialize (X ltac:(lia)). rewrite E in X. apply ne_factors. exact X.
  - rewrite <- (bpow_powerRZ radix2). apply Rle_trans with (bpow radix2 20); [cbn; lra|apply bpow_le; lia].
  - rewrite <- (bpow_powerRZ radix2). apply Rle_trans with (bpow radix2 20); [|apply bpow_le; lia].
    rewrite INR_IZR_INZ. let v := eval vm_compute in (Z.of_nat (roundings 3 1)) in change (Z.of_nat (roundings 3 (length [false]))) with v. cbn. lra.
Qed.
Lemma nq_twin : twin true 3 [false] [7%nat] nq_ls nq_f [Uniform 0 6] (real_data nq_f).
Proof.
  constructor.
  - apply ex_values.
  - intros d i Hd Hi. destruct d as [|d]; [|cbn in Hd; lia]; cbn [nth nq_ls map length] in Hi |- *; unfold coordinate; cbn [nth grid_of map].
    do 7 (destruct i as [|i]; [cbn [nth]; rewrite ne_V by lia; cbn; lra|]). lia.
  - intros [|d] Hd; [|cbn in Hd; lia]. exact (ne_exact 1%nat ltac:(cbn; lia)).
  - reflexivity.
  - reflexivity.
Qed.
Lemma nq_computed : computed true true 3 [false] [7%nat] nq_ls nq_t 7 315 (tame_factor 3) 36 nq_f nq_g [Uniform 0 6].
Proof.
  constructor.
  - exact nq_fit.
  - reflexivity.
  - reflexivity.
  - left. apply nq_made.
  - exact nq_twin.
  - unfold nq_f. cbn [m_data map]. intros a Ha. repeat (destruct Ha as [<-|Ha]; [rewrite ne_V by lia; apply Rabs_le; lra|]). destruct Ha.
  - assert (X : forallb exb (m_data (sp_ctrl (if_spline nq_g))) = true) by (vm_compute; reflexivity). rewrite forallb_forall in X. intros a Ha. exact (proj1 (dz_ok a (X a Ha))).
  - pose proof small49. cbn [length tame_factor pow]. replace (INR 1) with 1 by (cbn; lra). replace (INR 3) with 3 by (cbn; lra). replace (INR 7) with 7 by (cbn; lra).
    apply Rle_trans with (6 * ((3 + 7 * 315) * powerRZ 2 (-20))); [lra|]. rewrite <- (bpow_powerRZ radix2). cbn. lra.
  - cbn [length tame_factor pow]. pose proof small1031. pose proof large1000. lra.
Qed.
Lemma nq_sampled : nearly_sampled true [false] [7%nat] [Uniform 0 6] (quads [0%nat]) nq_f 1.
Proof.
  intros idx V. destruct idx as [|i idx]; [inversion V|]. apply valid_cons in V as [Hi V]. destruct idx; [|inversion V].
  unfold grid_point, coordinate, val_at, real_data, nq_f, quads. cbn [length seq map nth m_dims m_data row_major grid_of coords_num andb]. cbn [squared].
  do 7 (destruct i as [|i]; [cbn -[FZ double_val INR IZR pow]; rewrite ?ne_V by lia; cbn; apply Rabs_le; lra|]). lia.
Qed.
Lemma nq_reduced : reduced [false] nq_ls nq_g [2.25%float] [2.25%float].
Proof.
  split; [reflexivity|]. split; [reflexivity|]. destruct (ne_half 2.25%float 9 eq_refl eq_refl) as [F2 V2].
  intros d Hd. destruct d as [|d]; [|cbn in Hd; lia]; cbn [nth nq_ls]; cbv zeta.
  split; [vm_compute; reflexivity|]. split; auto. cbn [map length nth Nat.sub fst snd]. rewrite V2, !ne_V by lia. split; [lra|discriminate].
Qed.
Lemma nq_countable : countable_point true [false] [7%nat] [Uniform 0 6] (map double_val [2.25%float]).
Proof.
  intros [|d] Hd; [|cbn in Hd; lia]. cbn [nth map]. rewrite (proj2 (ne_half 2.25%float 9 eq_refl eq_refl)). unfold countable, two64. cbn. lra.
Qed.

(** The function of PropApprox with one wrong value. *)
Definition nw_ls : list (list float) := [map FZ [0; 1; 2; 3; 4]%Z; map FZ [0; 1; 2; 3; 4]%Z].
Definition nw_f : mesh float := mkMesh wdims (map FZ [1; 2; 1; 0; 0; 1; 0; -1; -1; 0; -1; -2; 0; 1; 0; 0]%Z).
Definition nw_t : templ float := match templ_make Fops true true 3 [true; true] wdims (map (@Points float) nw_ls) with Ok t => t
  | _ => mkTempl (mkInterp (spline_empty Fops 0 []) [] []) [] [] [] end.
Definition nw_g : interp float := match interp_make Fops true true 3 [true; true] nw_f (map (@Points float) nw_ls) with Ok g => g | _ => mkInterp (spline_empty Fops 0 []) [] [] end.
Lemma nw_made : templ_make Fops true true 3 [true; true] wdims (map (@Points float) nw_ls) = Ok nw_t /\ interp_make Fops true true 3 [true; true] nw_f (map (@Points float) nw_ls) = Ok nw_g.
Proof. split; vm_compute; reflexivity. Qed.
Lemma nw_fit : fit_template true true 3 [true; true] wdims nw_ls nw_t 4 315.
Proof.
  constructor.
  - apply nw_made.
  - split; [discriminate|]. split; reflexivity.
  - intros [|[|d]] Hd; cbn [nth nw_ls]; [| |cbn in Hd; lia]; apply (fit_gridb_ok 3 true (map FZ [0; 1; 2; 3; 4]%Z) 3 3 0); vm_compute; reflexivity.
  - intros [|[|d]] Hd; try reflexivity. cbn in Hd; lia.
  - intros [|[|d]] Hd; [cbn; lia|cbn; lia|cbn in Hd; lia].
  - intros d sv E. assert (X : forallb (fun d => match nth_error (tp_solvers nw_t) d with Some sv => let n := (length (nth d nw_ls []) - (if nth d [true; true] false then 1 else 0))%nat in
       storedb sv && withinb n (fun i j => getok (stored sv i j)) 1 && (n <=? 7)%nat | None => true end) (seq 0 2) = true) by (vm_compute; reflexivity).
    rewrite forallb_forall in X. specialize (X d). rewrite in_seq in X.
    assert (Hd : (d < 2)%nat). { assert (L : length (tp_solvers nw_t) = 2%nat) by (vm_compute; reflexivity). rewrite <- L. apply nth_error_Some. congruence. }
    specialize (X ltac:(lia)). rewrite E in X. apply ne_factors. exact X.
  - rewrite <- (bpow_powerRZ radix2). apply Rle_trans with (bpow radix2 20); [cbn; lra|apply bpow_le; lia].
  - rewrite <- (bpow_powerRZ radix2). apply Rle_trans with (bpow radix2 20); [|apply bpow_le; lia].
    replace (INR (roundings 3 (length [true; true]))) with (INR 61) by reflexivity. rewrite INR_IZR_INZ. cbn. lra.
Qed.
Lemma nw_exact : exact_grid 3 true (map FZ [0; 1; 2; 3; 4]%Z).
Proof.
  exists 0%Z, 6. split; [lia|]. split; [|split; [|split]].
  - intros a Ha. cbn [map] in Ha. repeat (destruct Ha as [<-|Ha]; [split; [apply ne_F; lia|rewrite ne_V by lia; rewrite Rabs_pos_eq; lra]|]). destruct Ha.
  - apply ne_scale.
  - intros i Hi. cbn [map length] in Hi. do 5 (destruct i as [|i]; [cbn [map nth]; eapply mul0; apply ne_V; lia|]). lia.
  - intros k Hk. cbn [map length] in *. unfold per_knot, pext.
    do 12 (destruct k as [|k]; [cbn -[FZ double_val IZR INR]; rewrite ?ne_V by lia; cbn [INR];
        first [ eapply (mul0 _ (-4)); lra | eapply (mul0 _ (-3)); lra | eapply (mul0 _ (-2)); lra | eapply (mul0 _ (-1)); lra | eapply (mul0 _ 0); lra
              | eapply (mul0 _ 1); lra | eapply (mul0 _ 2); lra | eapply (mul0 _ 3); lra | eapply (mul0 _ 4); lra | eapply (mul0 _ 5); lra | eapply (mul0 _ 6); lra
              | eapply (mul0 _ 7); lra | eapply (mul0 _ 8); lra]|]). lia.
Qed.
Lemma nw_twin : twin true 3 [true; true] wdims nw_ls nw_f (wx IZR) (real_data nw_f).
Proof.
  constructor.
  - apply good_wx. lia.
  - intros d i Hd Hi. destruct d as [|[|d]]; [| |cbn in Hd; lia]; cbn [nth nw_ls map length] in Hi |- *; unfold coordinate; cbn [nth wx wdims grid_of map];
    do 5 (destruct i as [|i]; [cbn [nth]; rewrite ne_V by lia; cbn; lra|]); lia.
  - intros [|[|d]] Hd; [exact nw_exact|exact nw_exact|cbn in Hd; lia].
  - reflexivity.
  - reflexivity.
Qed.
Lemma nw_computed : computed true true 3 [true; true] wdims nw_ls nw_t 4 315 (amplification 3) 2 nw_f nw_g (wx IZR).
Proof.
  constructor.
  - exact nw_fit.
  - reflexivity.
  - reflexivity.
  - right. apply nw_made.
  - exact nw_twin.
  - unfold nw_f. cbn [m_data map]. intros a Ha. repeat (destruct Ha as [<-|Ha]; [rewrite ne_V by lia; apply Rabs_le; lra|]). destruct Ha.
  - assert (X : forallb exb (m_data (sp_ctrl (if_spline nw_g))) = true) by (vm_compute; reflexivity). rewrite forallb_forall in X. intros a Ha. exact (proj1 (dz_ok a (X a Ha))).
  - pose proof small49. cbn [length amplification pow]. replace (INR 2) with 2 by (cbn; lra). replace (INR 3) with 3 by (cbn; lra). replace (INR 4) with 4 by (cbn; lra).
    apply Rle_trans with (9 * (2 * (3 + 4 * 315) * powerRZ 2 (-20))); [lra|]. rewrite <- (bpow_powerRZ radix2). cbn. lra.
  - cbn [length amplification pow]. pose proof small1031. pose proof large1000. lra.
Qed.
Lemma nw_sampled : nearly_sampled true [true; true] wdims (wx IZR) wave nw_f 1.
Proof.
  intros idx V. rewrite <- (wave_sampled idx V). destruct idx as [|i idx]; [inversion V|]. apply valid_cons in V as [Hi V].
  destruct idx as [|j idx]; [inversion V|]. apply valid_cons in V as [Hj V]. destruct idx; [|inversion V].
  unfold val_at, real_data, nw_f, wdata. 
  do 4 (destruct i as [|i]; [do 4 (destruct j as [|j]; [cbn -[FZ double_val INR IZR pow]; rewrite ?ne_V by lia; apply Rabs_le; lra|]); lia|]). lia.
Qed.
Lemma nw_reduced : reduced [true; true] nw_ls nw_g [-1.75; 5.5]%float [2.25; 1.5]%float.
Proof.
  split; [reflexivity|]. split; [reflexivity|].
  destruct (ne_half 1.5%float 6 eq_refl eq_refl) as [F1 V1]. destruct (ne_half 2.25%float 9 eq_refl eq_refl) as [F2 V2].
  assert (E0 : nth 0 (sp_range (if_spline nw_g)) (zero, zero) = (FZ 0, FZ 4)) by (vm_compute; reflexivity).
  assert (E1 : nth 1 (sp_range (if_spline nw_g)) (zero, zero) = (FZ 0, FZ 4)) by (vm_compute; reflexivity).
  intros d Hd. destruct d as [|[|d]]; [| |cbn in Hd; lia]; cbn [nth nw_ls]; cbv zeta.
  - split; [vm_compute; reflexivity|]. split; auto. rewrite E0. cbn [fst snd]. rewrite V2, !ne_V by lia. split; [lra|intros _; lra].
  - split; [vm_compute; reflexivity|]. split; auto. rewrite E1. cbn [fst snd]. rewrite V1, !ne_V by lia. split; [lra|intros _; lra].
Qed.
Lemma nw_countable : countable_point true [true; true] wdims (wx IZR) (map double_val [2.25; 1.5]%float).
Proof.
  apply countable_wx; cbn [nth map]; [rewrite (proj2 (ne_half 2.25%float 9 eq_refl eq_refl))|rewrite (proj2 (ne_half 1.5%float 6 eq_refl eq_refl))]; lra.
Qed.
