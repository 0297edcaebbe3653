(** Positive definite systems; exactly which systems are solved. *)
From Coq Require Import List Arith Lia Bool Reals Lra.
From Verif Require Import Base Num MeshM BandM ProgM LUM SpecBand SumR DenseLU BandProofs MulProofs LUProofs LUConv LUTop PerPD.
Import ListNotations.
Local Open Scope R_scope.

Lemma positive_definite_pivots n A : positive_definite n A -> pivots_ok A n.
Proof.
  intros H. apply posdef_pivots. intros y Hy i Hi. destruct (Req_dec (y i) 0) as [E|E]; auto. exfalso.
  specialize (H y (ex_intro _ i (conj Hi E))). rewrite Rsum_sum in H.
  assert (X : sum n (fun i => y i * Rsum n (fun j => A i j * y j)) = sum n (fun i => y i * mv n A y i)).
  { apply sum_ext. intros k Hk. unfold mv. rewrite Rsum_sum. reflexivity. }
  lra.
Qed.

Lemma band_definite_solves on n p q h iter m0 b :
  (0 < n)%nat -> writes_in (in_band n p q) h -> positive_definite n (content 0 h) ->
  good_iter n iter m0 -> vector_at n iter m0 m0 b ->
  exists m f m1 x,
    build_band Rops on n p q h = Ok m /\ band_lu Rops on m = Ok f /\
    run (band_solve Rops on f iter) m0 = Ok (tt, m1) /\
    vector_at n iter m0 m1 x /\ solves n (content 0 h) x b /\
    forall y, solves n (content 0 h) y b -> forall i, (i < n)%nat -> y i = x i.
Proof. intros. apply band_lu_solves_pivots; auto. apply positive_definite_pivots; auto. Qed.

Lemma eband_definite_solves on n p q h iter m0 b :
  (p < n)%nat -> (q < n)%nat -> (p + q <= n)%nat ->
  writes_in (in_ext n p q) h -> positive_definite n (content 0 h) ->
  good_iter n iter m0 -> vector_at n iter m0 m0 b ->
  exists m f m1 x,
    build_eband Rops on n p q h = Ok m /\ eband_lu Rops on m = Ok f /\
    run (eband_solve Rops on f iter) m0 = Ok (tt, m1) /\
    vector_at n iter m0 m1 x /\ solves n (content 0 h) x b /\
    forall y, solves n (content 0 h) y b -> forall i, (i < n)%nat -> y i = x i.
Proof. intros. apply eband_lu_solves_pivots; auto. apply positive_definite_pivots; auto. Qed.

Lemma pivots_leading A n : pivots_ok A n -> leading_nonsingular n A.
Proof.
  intros H k x Hk Hx i Hi. apply (pivots_ker A (S k)); [|apply solves_mv; auto|lia].
  intros j Hj. apply H. lia.
Qed.

Lemma vector_of n iter m0 : good_iter n iter m0 -> vector_at n iter m0 m0 (fun i => mval 0 m0 (iter i)).
Proof.
  intros H. pose proof (good_iter_ok _ _ _ H) as Hok. split; [auto|]. split; [|auto].
  intros i Hi. apply mem_get_ok. auto.
Qed.

Lemma band_solved_iff on n p q h iter m0 :
  (0 < n)%nat -> writes_in (in_band n p q) h -> good_iter n iter m0 ->
  (exists m f m1, build_band Rops on n p q h = Ok m /\ band_lu Rops on m = Ok f /\
     run (band_solve Rops on f iter) m0 = Ok (tt, m1)) <->
  leading_nonsingular n (content 0 h).
Proof.
  intros Hn Hh Hg. split.
  - intros (m & f & m1 & E1 & E2 & E3). apply pivots_leading.
    destruct (band_history_dense on n p q h m Hh E1) as (W & Ec).
    eapply pivots_ext; [|eapply band_ok_pivots; eauto]. intros i j _ _. apply Ec.
  - intros Hl. destruct (band_lu_solves on n p q h iter m0 _ Hn Hh Hl Hg (vector_of n iter m0 Hg)) as (m & f & m1 & x & A & B & C & _). eauto 8.
Qed.

Lemma eband_solved_iff on n p q h iter m0 :
  (p < n)%nat -> (q < n)%nat -> (p + q <= n)%nat -> writes_in (in_ext n p q) h -> good_iter n iter m0 ->
  (exists m f m1, build_eband Rops on n p q h = Ok m /\ eband_lu Rops on m = Ok f /\
     run (eband_solve Rops on f iter) m0 = Ok (tt, m1)) <->
  leading_nonsingular n (content 0 h).
Proof.
  intros Hp Hq Hpq Hh Hg. split.
  - intros (m & f & m1 & E1 & E2 & E3). apply pivots_leading.
    destruct (eband_history_dense on n p q h m Hp Hq Hh E1) as (W & Ec).
    eapply pivots_ext; [|eapply eband_ok_pivots; eauto]. intros i j _ _. apply Ec.
  - intros Hl. destruct (eband_lu_solves on n p q h iter m0 _ Hp Hq Hpq Hh Hl Hg (vector_of n iter m0 Hg)) as (m & f & m1 & x & A & B & C & _). eauto 8.
Qed.

(** Second differences: positive definite, not strictly dominant. *)
Lemma tri_definite : positive_definite 3 (content 0 (tri_history 2 (-1) (-1))) /\ ~ row_dominant 3 (content 0 (tri_history 2 (-1) (-1))).
Proof.
  split.
  - intros x (i & Hi & Hx). cbn [Rsum].
    replace (_ + _) with (x 0%nat * x 0%nat + (x 0%nat - x 1%nat) * (x 0%nat - x 1%nat) + (x 1%nat - x 2%nat) * (x 1%nat - x 2%nat) + x 2%nat * x 2%nat)
      by (cbn; ring).
    pose proof (Rle_0_sqr (x 0%nat)) as S0. pose proof (Rle_0_sqr (x 0%nat - x 1%nat)) as S1.
    pose proof (Rle_0_sqr (x 1%nat - x 2%nat)) as S2. pose proof (Rle_0_sqr (x 2%nat)) as S3. unfold Rsqr in *.
    destruct (Rle_or_lt (x 0%nat * x 0%nat + (x 0%nat - x 1%nat) * (x 0%nat - x 1%nat) + (x 1%nat - x 2%nat) * (x 1%nat - x 2%nat) + x 2%nat * x 2%nat) 0); [|auto].
    exfalso. apply Hx. assert (Z0 : x 0%nat = 0) by (apply Rsqr_0_uniq; unfold Rsqr; lra).
    assert (Z2 : x 2%nat = 0) by (apply Rsqr_0_uniq; unfold Rsqr; lra).
    assert (Z1 : x 0%nat - x 1%nat = 0) by (apply Rsqr_0_uniq; unfold Rsqr; lra).
    assert (i = 0 \/ i = 1 \/ i = 2)%nat as [->|[->| ->]] by lia; lra.
  - intros H. specialize (H 1%nat ltac:(lia)). cbn in H. unfold Rabs in H. repeat destruct Rcase_abs; lra.
Qed.
Lemma corner_definite : positive_definite 4 (content 0 (corner_history 2 (-1) (-1) 1 1)).
Proof.
  intros x (i & Hi & Hx). cbn [Rsum].
  replace (_ + _) with ((x 0%nat - x 1%nat) * (x 0%nat - x 1%nat) + (x 1%nat - x 2%nat) * (x 1%nat - x 2%nat) + (x 2%nat - x 3%nat) * (x 2%nat - x 3%nat) + (x 3%nat + x 0%nat) * (x 3%nat + x 0%nat))
    by (cbn; ring).
  pose proof (Rle_0_sqr (x 0%nat - x 1%nat)) as S0. pose proof (Rle_0_sqr (x 1%nat - x 2%nat)) as S1.
  pose proof (Rle_0_sqr (x 2%nat - x 3%nat)) as S2. pose proof (Rle_0_sqr (x 3%nat + x 0%nat)) as S3. unfold Rsqr in *.
  destruct (Rle_or_lt ((x 0%nat - x 1%nat) * (x 0%nat - x 1%nat) + (x 1%nat - x 2%nat) * (x 1%nat - x 2%nat) + (x 2%nat - x 3%nat) * (x 2%nat - x 3%nat) + (x 3%nat + x 0%nat) * (x 3%nat + x 0%nat)) 0); [|auto].
  exfalso. apply Hx.
  assert (Z0 : x 0%nat - x 1%nat = 0) by (apply Rsqr_0_uniq; unfold Rsqr; lra).
  assert (Z1 : x 1%nat - x 2%nat = 0) by (apply Rsqr_0_uniq; unfold Rsqr; lra).
  assert (Z2 : x 2%nat - x 3%nat = 0) by (apply Rsqr_0_uniq; unfold Rsqr; lra).
  assert (Z3 : x 3%nat + x 0%nat = 0) by (apply Rsqr_0_uniq; unfold Rsqr; lra).
  assert (i = 0 \/ i = 1 \/ i = 2 \/ i = 3)%nat as [->|[->|[->| ->]]] by lia; lra.
Qed.
(** A matrix with a singular leading block (though regular itself). *)
Lemma swap_singular : ~ leading_nonsingular 2 (content 0 [(0%nat, 1%nat, 1); (1%nat, 0%nat, 1)]).
Proof.
  intros H. assert (X := H 0%nat (fun _ => 1) ltac:(lia)). cbn in X.
  assert (1 = 0); [|lra]. apply (X (fun i Hi => ltac:(assert (i = 0%nat) by lia; subst; cbn; ring)) 0%nat). lia.
Qed.
