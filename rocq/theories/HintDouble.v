(** The position hint in doubles. *)
From Coq Require Import ZArith Reals Floats Lia Lra Bool List Arith.
From Verif Require Import Base Num FloatM MeshM SplineM InterpM SpecMesh MeshProofs SpecSpline SpecSplineObj SpecInterp SpecRound FloatProofs SplineProofs SplineFinal RoundEval EvalProofs SafeProofs SafeTop PositiveProofs NanFun SpecHint.
Import ListNotations.
Local Open Scope nat_scope.
Local Notation float := PrimFloat.float.

Lemma no_hit a x b : double_finite a -> double_finite b -> ~ double_finite x -> PrimFloat.leb a x = false \/ PrimFloat.ltb x b = false.
Proof.
  unfold double_finite. rewrite leb_spec, ltb_spec. destruct (Prim2SF x) as [s|s| |s m e]; intros Ha Hb Hx; try (exfalso; apply Hx; exact I).
  - destruct s.
    + left. destruct (Prim2SF a) as [s'|s'| |s' m' e']; try contradiction; try destruct s'; reflexivity.
    + right. destruct (Prim2SF b) as [s'|s'| |s' m' e']; try contradiction; try destruct s'; reflexivity.
  - left. destruct (Prim2SF a) as [s'|s'| |s' m' e']; try contradiction; try destruct s'; reflexivity.
Qed.
Lemma finite_dec x : double_finite x \/ ~ double_finite x.
Proof. unfold double_finite. destruct (Prim2SF x); auto. Qed.

Lemma lookup_hint order p knots r x h1 h2 :
  (forall a, In a knots -> double_finite a) -> nondecreasing (map double_val knots) ->
  order <= h1 -> h1 + order + 2 <= length knots -> order <= h2 -> h2 + order + 2 <= length knots ->
  get_knot_iter Fops order p knots r x h1 = get_knot_iter Fops order p knots r x h2.
Proof.
  intros Gk Hs A1 A2 B1 B2.
  assert (Ew : exists x', wrap_coord Fops p r x = Ok x') by (unfold wrap_coord; destruct p; eexists; reflexivity). destruct Ew as [x' Ew].
  assert (E0 : forall h, get_knot_iter Fops order p knots r x h = get_knot_iter Fops order false knots r x' h) by (intros h; unfold get_knot_iter, get_knot_iter_last; rewrite Ew; reflexivity).
  rewrite !E0. clear E0. destruct (finite_dec x') as [Gx|Gx].
  - assert (Mo : forall i j, (i <= j < length knots) -> (kn (map double_val knots) i <= kn (map double_val knots) j)%R) by (intros; apply Hs; rewrite map_length; auto).
    assert (So : forall i j, order <= i <= j -> j <= length (map double_val knots) - order - 2 -> ole Rops (nth i (map double_val knots) 0%R) (nth j (map double_val knots) 0%R) = true).
    { intros i j Hi Hj. rewrite map_length in Hj. apply Rleb_true. apply Mo. lia. }
    destruct (get_knot_iter_ok Rops Rops_total 0%R (map double_val knots) order false (0%R, 0%R) (double_val x') (double_val x') h1 eq_refl A1) as (k & Ek & _); [rewrite map_length; auto|exact So|].
    pose proof (hint_irrelevant Rops order false (map double_val knots) (0%R, 0%R) (double_val x') h1 h2 0%R Rops_total So A1) as Eh. rewrite map_length in Eh. specialize (Eh A2 B1 B2).
    destruct (knot_iter_val Fops double_val double_finite Fu Feta Fbig F_rounding knots x' Gk Gx order false r x' (0%R, 0%R) (double_val x') h1 (double_val x') k eq_refl eq_refl Ek) as [-> _].
    rewrite Eh in Ek.
    destruct (knot_iter_val Fops double_val double_finite Fu Feta Fbig F_rounding knots x' Gk Gx order false r x' (0%R, 0%R) (double_val x') h2 (double_val x') k eq_refl eq_refl Ek) as [-> _].
    reflexivity.
  - assert (M : forall h, h + order + 2 <= length knots -> (a <- vget knots h ;; (if ole Fops a x' then b <- vget knots (h + 1) ;; Ok (olt Fops x' b) else Ok false)) = Ok false).
    { intros h Hh. rewrite (vget_ok knots h zero) by lia. cbn [bind]. destruct (ole Fops (nth h knots zero) x') eqn:E; auto.
      rewrite (vget_ok knots (h + 1) zero) by lia. cbn [bind]. f_equal.
      destruct (no_hit (nth h knots zero) x' (nth (h + 1) knots zero)) as [Q|Q]; auto; try (apply Gk, nth_In; lia). change (ole Fops) with PrimFloat.leb in E. congruence. }
    unfold get_knot_iter, get_knot_iter_last. cbn [wrap_coord bind].
    pose proof (M h1 A2) as M1. pose proof (M h2 B2) as M2.
    rewrite (vget_ok knots h1 zero) in * by lia. rewrite (vget_ok knots h2 zero) in * by lia. cbn [bind] in *. rewrite M1, M2. reflexivity.
Qed.

Lemma iters_hint_double s xs h1 h2 :
  wf_spline s -> sorted_finite s -> length xs = sp_dim s -> hints_ok s h1 -> hints_ok s h2 ->
  get_knot_iters Fops s (combine xs h1) = get_knot_iters Fops s (combine xs h2).
Proof.
  intros W Hs Hl [A1 A2] [B1 B2]. unfold get_knot_iters.
  apply mapM_ext_in. intros d Hd. apply in_seq in Hd.
  rewrite !(vget_ok (combine xs _) d (zero, 0%nat)) by (rewrite combine_length; lia). cbn [bind].
  rewrite !combine_nth by lia. rewrite vget_per by lia. cbn [bind].
  rewrite (vget_ok (sp_knots s) d []) by (rewrite (wf_knots _ W); lia). cbn [bind].
  destruct (vget (sp_range s) d); cbn [bind fst snd]; auto.
  fold (knot_of s d). pose proof (wf_len _ W d ltac:(lia)). specialize (A2 d ltac:(lia)). specialize (B2 d ltac:(lia)).
  unfold last_of in *. destruct (Hs d ltac:(lia)). apply lookup_hint; auto; lia.
Qed.
Lemma hint_double on s xs h1 h2 orders :
  wf_spline s -> sorted_finite s -> length xs = sp_dim s -> length orders = sp_dim s -> hints_ok s h1 -> hints_ok s h2 ->
  spline_eval Fops s (combine xs h1) = spline_eval Fops s (combine xs h2) /\
  spline_derivative_at Fops on s (combine (combine xs h1) orders) = spline_derivative_at Fops on s (combine (combine xs h2) orders).
Proof.
  intros W Hs Hl Ho A B. pose proof (iters_hint_double s xs h1 h2 W Hs Hl A B) as EI. split; [unfold spline_eval; rewrite EI; reflexivity|].
  unfold spline_derivative_at.
  assert (E : forall h : list nat, length h = sp_dim s -> map fst (combine (combine xs h) orders) = combine xs h).
  { intros. apply combine_map_fst. rewrite combine_length. lia. }
  assert (E2 : forall h : list nat, length h = sp_dim s ->
    map (fun c => if (snd c <=? sp_order s)%nat then (sp_order s - snd c)%nat else (sp_order s + 1)%nat) (combine (combine xs h) orders)
    = map (fun a => if (a <=? sp_order s)%nat then (sp_order s - a)%nat else (sp_order s + 1)%nat) orders).
  { intros h Hh. rewrite <- (combine_map_snd (combine xs h) orders) at 2 by (rewrite combine_length; lia).
    rewrite map_map. reflexivity. }
  rewrite (E h1), (E h2), (E2 h1), (E2 h2) by (apply A || apply B). rewrite EI. reflexivity.
Qed.

Lemma hint_function on nd p per dims ranges f g xs :
  sized_input nd p per dims ranges -> m_dims f = dims -> wf_mesh f ->
  (on = false -> forall d, by_points ranges d -> nth d per false = true) ->
  interp_make Fops on nd p per f ranges = Ok g -> sorted_finite (if_spline g) ->
  length xs = length per -> below_two64 g xs ->
  interp_eval Fops g xs = spline_eval_plain Fops (if_spline g) xs.
Proof.
  intros Hi Ef Wf H1 E Hs Ls Hb.
  pose proof (make_gen_cases SafeLU.no_fault float Fops on nd p per dims ranges f (total_quiet Fops F_total) F_order Hi H1 Ef Wf) as X. rewrite E in X.
  destruct (hints_found p per g xs X Ls Hb) as (hints & Hh & ->). destruct X as (W & Ep & Eper & Lu & Lx).
  assert (D : sp_dim (if_spline g) = length per) by (unfold sp_dim; rewrite Eper; auto).
  unfold spline_eval_plain. set (s := if_spline g) in *.
  assert (Em : map (fun x => (x, sp_order s)) xs = combine xs (repeat (sp_order s) (length xs))) by (clear; induction xs; cbn; congruence).
  rewrite Em. apply (hint_double false s xs hints (repeat (sp_order s) (length xs)) (repeat 0 (sp_dim s))); auto; try (rewrite repeat_length; lia); try lia.
  split; [rewrite repeat_length; lia|]. intros d Hd. rewrite nth_repeat_lt by lia. pose proof (wf_len _ W d Hd). unfold last_of. fold s in H. lia.
Qed.
