(** Splines and interpolations of order p are p - 1 times continuously
    differentiable. *)
From Coq Require Import List Arith Lia Bool ZArith Reals Lra FunctionalExtensionality.
From Coquelicot Require Import Coquelicot.
From Verif Require Import Base Num MeshM SplineM InterpM SpecMesh SpecBand SpecSpline SpecSplineObj SpecCalc SpecInterp SpecSmooth
  MeshProofs SumR MulProofs SplineProofs TensorR BasisProofs EvalProofs EvalR DerivProofs DerivLoops BetaProofs SplineTop SplineCalc
  KnotShape BuildProofs InterpProofs InterpTop SmoothProofs.
Import ListNotations.
Open Scope R_scope.

Definition Fd (s : spline R) (orders : list nat) (xs : list R) : R :=
  tensor (map (fun d => (num_of s d, fun j => dbeta s d j (nth d orders 0%nat) (nth d xs 0))) (seq 0 (sp_dim s))) (ctrl_at Rops s).

Lemma dbas_Fd s xs orders : good_spline s -> tensor (dbas s xs orders) (ctrl_at Rops s) = Fd s orders xs.
Proof.
  intros G. unfold dbas, Fd. f_equal. apply map_ext_seq. intros d Hd. f_equal. apply functional_extensionality. intros j.
  destruct (loc_spec s d (nth d xs 0) G Hd) as [_ (H1 & H2 & _)]. apply bD_Derive_n; auto.
Qed.

Lemma Fd_0 s xs : Fd s (repeat 0%nat (sp_dim s)) xs = sval s xs.
Proof.
  unfold Fd, sval. f_equal. apply map_ext_seq. intros d Hd. rewrite nth_repeat. reflexivity.
Qed.

Lemma with_nth {A} (l : list A) d e a z : (d < length l)%nat -> nth e (with_at l d a) z = if (e =? d)%nat then a else nth e l z.
Proof.
  intros H. unfold with_at. assert (L : length (firstn d l) = d) by (rewrite firstn_length; lia).
  destruct (Nat.eqb_spec e d) as [->|Ne].
  - rewrite app_nth2, L, Nat.sub_diag by lia. reflexivity.
  - destruct (Nat.lt_ge_cases e d).
    + rewrite app_nth1 by lia. rewrite <- (firstn_skipn d l) at 2. rewrite app_nth1 by lia. reflexivity.
    + rewrite app_nth2 by lia. rewrite L. replace (e - d)%nat with (S (e - S d)) by lia. cbn [nth].
      rewrite <- (firstn_skipn (S d) l) at 2. rewrite app_nth2 by (rewrite firstn_length; lia). f_equal. rewrite firstn_length. lia.
Qed.

Lemma with_length {A} (l : list A) d a : (d < length l)%nat -> length (with_at l d a) = length l.
Proof. intros H. unfold with_at. rewrite app_length. cbn [length]. rewrite firstn_length, skipn_length. lia. Qed.

Section S.
Variable s : spline R.
Hypothesis G : good_spline s.
Hypothesis Hp : (1 <= sp_order s)%nat.
Hypothesis H : forall d, (d < sp_dim s)%nat -> strict_knots s d /\ (per_of s d = true -> periodic_knots s d).

Lemma Fd_smooth : smooth_family (sp_dim s) (sp_order s - 1) (Fd s).
Proof.
  intros orders xs Lo Lx Ho. split; [|split].
  - apply near_continuous. unfold Fd.
    apply (near_tensor xs (seq 0 (sp_dim s)) (num_of s) (fun d j y => dbeta s d j (nth d orders 0%nat) y)).
    intros d j Hd. apply in_seq in Hd. split; [lia|]. destruct (H d ltac:(lia)).
    apply dbeta_continuous; auto; try lia. specialize (Ho d ltac:(lia)). lia.
  - set (fs := map (fun d => (num_of s d, beta s d)) (seq 0 (sp_dim s))).
    apply (is_mixed_ext orders (fun ys => tensorf fs ys (ctrl_at Rops s))).
    + congruence.
    + intros ys Hy. rewrite Fd_0. unfold tensorf, sval, fs. f_equal. rewrite map2_map_l.
      apply (nth_ext' _ _ (0%nat, fun _ => 0)).
      * rewrite map2_length, map_length; rewrite ?seq_length; auto; lia.
      * intros d Hd. rewrite map2_length, seq_length in Hd by (rewrite seq_length; lia).
        rewrite (map2_nth _ _ _ d 0%nat 0) by (rewrite ?seq_length; lia). rewrite seq_nth by auto. rewrite nth_map_seq by auto.
        reflexivity.
    + replace (Fd s orders xs) with (tensor (map2 (fun f ax => (fst f, fun j => Derive_n (snd f j) (fst ax) (snd ax))) fs (combine orders xs)) (ctrl_at Rops s)).
      * apply tensor_mixed.
        -- unfold fs. rewrite length_map_seq. auto.
        -- congruence.
        -- intros d j b y Hd Hb. rewrite Lx in Hd. unfold fs. rewrite nth_map_seq by auto. cbn [snd].
           destruct (H d Hd). apply beta_ex_derive_n; auto. specialize (Ho d Hd). lia.
      * unfold Fd. f_equal. unfold fs. rewrite map2_map_l. cbn [fst snd].
        apply (nth_ext' _ _ (0%nat, fun _ => 0)).
        -- rewrite map2_length, map_length; rewrite ?seq_length, ?combine_length; auto; lia.
        -- intros d Hd. rewrite map2_length, seq_length in Hd by (rewrite seq_length, combine_length; lia).
           rewrite (map2_nth _ _ _ d 0%nat (0%nat, 0)) by (rewrite ?seq_length, ?combine_length; lia).
           rewrite seq_nth by auto. rewrite nth_map_seq by auto. rewrite combine_nth by congruence. cbn [fst snd plus].
           f_equal. apply functional_extensionality. intros j. destruct (H d Hd). apply dbeta_Derive_n; auto.
           specialize (Ho d Hd). lia.
  - intros d Hd Hlt. unfold Fd.
    apply (is_derive_ext (fun x : R => tensor (map (fun e => (num_of s e, fun j => if (e =? d)%nat then dbeta s d j (nth d orders 0%nat) x
        else dbeta s e j (nth e orders 0%nat) (nth e xs 0))) (seq 0 (sp_dim s))) (ctrl_at Rops s))).
    { intros x. f_equal. apply map_ext_seq. intros e He. f_equal. apply functional_extensionality. intros j.
      rewrite with_nth by lia. destruct (Nat.eqb_spec e d); subst; auto. }
    replace (tensor (map (fun d0 => (num_of s d0, fun j => dbeta s d0 j (nth d0 (with_at orders d (S (nth d orders 0%nat))) 0%nat) (nth d0 xs 0))) (seq 0 (sp_dim s))) (ctrl_at Rops s))
      with (tensor (map (fun e => (num_of s e, fun j => if (e =? d)%nat then dbeta s d j (S (nth d orders 0%nat)) (nth d xs 0)
        else dbeta s e j (nth e orders 0%nat) (nth e xs 0))) (seq 0 (sp_dim s))) (ctrl_at Rops s)).
    2:{ f_equal. apply map_ext_seq. intros e He. f_equal. apply functional_extensionality. intros j.
        rewrite with_nth by lia. destruct (Nat.eqb_spec e d); subst; auto. }
    apply (tensor_derive (num_of s) d (fun j x => dbeta s d j (nth d orders 0%nat) x)
      (fun j => dbeta s d j (S (nth d orders 0%nat)) (nth d xs 0)) (fun e j => dbeta s e j (nth e orders 0%nat) (nth e xs 0))).
    + apply seq_NoDup.
    + apply in_seq. lia.
    + intros j. destruct (H d Hd). apply dbeta_derive; auto. lia.
Qed.
End S.

(** The class [BSpline]. *)
Lemma spline_smooth on s :
  good_spline s -> (1 <= sp_order s)%nat ->
  (forall d, (d < sp_dim s)%nat -> strict_knots s d /\ (per_of s d = true -> periodic_knots s d)) ->
  exists F, smooth_family (sp_dim s) (sp_order s - 1) F /\
    forall xs, length xs = sp_dim s ->
      spline_eval_plain Rops s xs = Ok (F (repeat 0%nat (sp_dim s)) xs) /\
      forall orders, length orders = sp_dim s ->
        spline_derivative_plain Rops on s (combine xs orders) = Ok (F orders xs).
Proof.
  intros G Hp H. exists (Fd s). split; [apply Fd_smooth; auto|]. intros xs Lx. split.
  - rewrite eval_sval, Fd_0; auto.
  - intros orders Lo. unfold spline_derivative_plain.
    assert (Hn : forall d, (d < sp_dim s)%nat ->
       nth d (map (fun c : R * nat => (fst c, sp_order s, snd c)) (combine xs orders)) (0%R, 0%nat, 0%nat) = (nth d xs 0, sp_order s, nth d orders 0%nat)).
    { intros d Hd. rewrite (nth_indep _ _ ((fun c : R * nat => (fst c, sp_order s, snd c)) (0%R, 0%nat)))
        by (rewrite map_length, combine_length; lia).
      rewrite (map_nth (fun c : R * nat => (fst c, sp_order s, snd c))). rewrite combine_nth by lia. reflexivity. }
    rewrite derivative_sval_hint; auto.
    + f_equal. rewrite <- dbas_Fd by auto. unfold dbas. f_equal. apply map_ext_seq. intros d Hd. rewrite Hn by auto. reflexivity.
    + rewrite map_length, combine_length. lia.
    + intros d Hd. rewrite Hn by auto. cbn [fst snd]. split; auto. apply last_ge; auto. apply (gs_wf _ G).
Qed.

(** Interpolation functions. *)
Lemma interp_periodic_knots nd p per dims ranges f g mats d :
  good_input nd p per dims ranges -> interpolant nd p per dims ranges f g mats -> (d < length per)%nat ->
  per_of (if_spline g) d = true -> periodic_knots (if_spline g) d.
Proof.
  intros GI IP Hd Ep. pose proof Ep as Ep'. rewrite (s_per_of _ _ _ _ _ _ _ _ IP) in Ep'.
  destruct (s_pk nd p per dims ranges f g mats IP d Hd Ep') as [L V].
  pose proof (s_N nd p per dims ranges GI d Hd) as HN. pose proof (s_incr nd p per dims ranges GI d Hd) as Hx.
  pose proof (s_num nd p per dims ranges f g mats IP d) as En.
  assert (Em : (p mod 2 < 2)%nat) by (apply Nat.mod_upper_bound; lia).
  set (x := gridx nd (nth d per false) (nth d dims 0%nat) (nth d ranges (Points []))) in *.
  set (n := nth d (ddims nd per dims) 0%nat) in *. rewrite Ep' in Hx.
  assert (Sh : forall i, (i + n < length (knot_of (if_spline g) d))%nat ->
     kn (knot_of (if_spline g) d) (i + n) = kn (knot_of (if_spline g) d) i + (x n - x 0%nat)).
  { intros i Hi. rewrite L in Hi. rewrite !V by lia. apply per_shift; auto. }
  assert (ER : snd (rng (if_spline g) d) - fst (rng (if_spline g) d) = x n - x 0%nat).
  { rewrite (s_rng nd p per dims ranges f g mats IP d Hd). cbn [fst snd]. rewrite L.
    replace (n + 2 * p + 1 + (1 - p mod 2) - p - (2 - p mod 2))%nat with (p + n)%nat by lia. rewrite Sh by lia. ring. }
  split; auto.
  - rewrite ER, En. exact Sh.
  - rewrite (s_order _ _ _ _ _ _ _ _ IP), En, L. fold n. destruct (p mod 2)%nat as [|[|]]; lia.
Qed.

Lemma interp_smooth on nd p per dims ranges f g :
  good_input nd p per dims ranges -> (1 <= p)%nat -> m_dims f = dims -> wf_mesh f ->
  interp_make Rops on nd p per f ranges = Ok g ->
  exists F, smooth_family (length per) (p - 1) F /\
    forall xs, length xs = length per -> countable_point nd per dims ranges xs ->
      interp_eval Rops g xs = Ok (F (repeat 0%nat (length per)) xs) /\
      forall orders, length orders = length per -> interp_derivative Rops on g xs orders = Ok (F orders xs).
Proof.
  intros GI Hp Ef Wf E. destruct (interp_make_spec on nd p per dims ranges f GI Ef Wf) as (mats & _ & _ & HG & _).
  pose proof (HG g E) as IP. pose proof (s_good nd p per dims ranges f g mats GI IP) as G.
  pose proof (s_dim _ _ _ _ _ _ _ _ IP) as SD. pose proof (s_order _ _ _ _ _ _ _ _ IP) as SO.
  exists (Fd (if_spline g)). split.
  - rewrite <- SD, <- SO. apply Fd_smooth; auto; [lia|]. rewrite SD. intros d Hd. split.
    + intros i Hi. rewrite SO in Hi. apply (s_strict nd p per dims ranges f g mats GI IP); auto.
    + apply (interp_periodic_knots nd p per dims ranges f g mats d GI IP Hd).
  - intros xs Lx Cx. split.
    + rewrite (s_eval nd p per dims ranges f g mats GI IP) by auto. rewrite <- SD, Fd_0. auto.
    + intros orders Lo. rewrite (s_derivative nd p per dims ranges f g mats GI IP) by auto. rewrite dbas_Fd by auto. auto.
Qed.
