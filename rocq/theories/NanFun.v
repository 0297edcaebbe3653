(** NaN coordinates of interpolation functions. *)
From Coq Require Import ZArith Floats Lia Bool List Arith.
From Verif Require Import Base Num FloatM MeshM SplineM InterpM SpecMesh MeshProofs SpecSplineObj SpecInterp SplineProofs SplineFinal EvalProofs SafeProofs SafeLU SafeBuild SafeTop NanProofs.
Import ListNotations.

Lemma combine_self {A B} (c : list (A * B)) : c = combine (map fst c) (map snd c).
Proof. induction c as [|[a b] c IH]; cbn; congruence. Qed.

Lemma hints_found p per g xs : made p per g -> length xs = length per -> below_two64 g xs ->
  exists hints, hints_ok (if_spline g) hints /\ interp_eval Fops g xs = spline_eval Fops (if_spline g) (combine xs hints).
Proof.
  intros (W & Ep & Eper & Lu & Lx) Ls Hb.
  assert (D : sp_dim (if_spline g) = length per) by (unfold sp_dim; rewrite Eper; auto).
  assert (Hc := convertible_safe no_fault float Fops g xs (total_quiet Fops F_total) (below_convertible g xs Hb)).
  assert (S : safely (FL := no_fault) false (fun c => length c = sp_dim (if_spline g) /\ forall d, d < sp_dim (if_spline g) -> fst (nth d c (zero, 0)) = nth d xs zero /\
     sp_order (if_spline g) <= snd (nth d c (zero, 0)) <= last_of (if_spline g) d) (add_hints Fops g xs)).
  { unfold add_hints. set (n := sp_dim (if_spline g)) in *.
    pose proof (safely_list (FL := no_fault) false (fun d (c : float * nat) => fst c = nth d xs zero /\ sp_order (if_spline g) <= snd c <= last_of (if_spline g) d)
      (fun d => x <- vget xs d ;; h <- hint_for Fops g d x ;; Ok (x, h)) (seq 0 n) 0 (zero, 0)) as P.
    rewrite seq_length in P. apply P. intros d Hd. rewrite seq_nth by auto. rewrite Nat.add_0_l.
    rewrite (vget_ok xs _ zero) by lia. cbn [bind].
    eapply safely_bind; [apply hint_safe; auto; try lia; intros; apply Hc; auto; lia|]. intros h Hh. cbn. auto. }
  apply safely_total in S as (c & Ec & Lc & H).
  exists (map snd c). split.
  - split; [rewrite map_length; auto|]. intros d Hd. change 0 with (snd (zero, 0)). rewrite map_nth. apply H; auto.
  - unfold interp_eval. rewrite Ec. cbn [bind]. f_equal. rewrite (combine_self c) at 1. f_equal.
    apply nth_ext with (fst (zero, 0)) zero; [rewrite map_length; lia|]. intros d Hd. rewrite map_length in Hd. rewrite map_nth. apply H. lia.
Qed.

Lemma nan_function on nd p per dims ranges f g xs d :
  sized_input nd p per dims ranges -> m_dims f = dims -> wf_mesh f ->
  (on = false -> forall d, by_points ranges d -> nth d per false = true) ->
  interp_make Fops on nd p per f ranges = Ok g ->
  length xs = length per -> below_two64 g xs -> 1 <= p -> d < length per ->
  is_nan (nth d xs zero) = true \/ nth d per false = true /\ is_infinity (nth d xs zero) = true ->
  exists v, interp_eval Fops g xs = Ok v /\ is_nan v = true.
Proof.
  intros Hi Ef Wf H1 E Ls Hb Hp Hd Hx.
  pose proof (make_gen_cases no_fault float Fops on nd p per dims ranges f (total_quiet Fops F_total) F_order Hi H1 Ef Wf) as X. rewrite E in X.
  destruct (hints_found p per g xs X Ls Hb) as (hints & Hh & ->). destruct X as (W & Ep & Eper & Lu & Lx).
  assert (D : sp_dim (if_spline g) = length per) by (unfold sp_dim; rewrite Eper; auto).
  apply (nan_coordinate (if_spline g) xs hints W) with d; auto; try lia. unfold per_of. rewrite Eper. exact Hx.
Qed.
