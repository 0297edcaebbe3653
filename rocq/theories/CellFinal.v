(** Interpolation functions with the cell layout, over the reals. *)
From Coq Require Import List Arith Lia Bool ZArith Reals Lra.
From Verif Require Import Base Num MeshM SpecMesh MeshProofs ProgM BandM LUM SplineM InterpM CellM.
From Verif Require Import SumR DenseLU SpecBand SpecSpline SpecSplineObj SplineProofs TensorR EvalProofs EvalR SafeProofs SpecInterp CoefProofs BuildProofs WeightProofs InterpProofs CellProofs CellTop.
Import ListNotations.
Open Scope R_scope.

Lemma Rops_quiet : quiet (fun _ => True) Rops.
Proof.
  intros a b. split; simpl; unfold post.
  - destruct (Req_EM_T b 0); exact I.
  - destruct (Req_EM_T b 0); exact I.
Qed.

Section Spline.
Variables (nd : bool) (p : nat) (per : list bool) (dims : list nat) (ranges : list (xrange R)) (f : mesh R)
  (g : interp R) (mats : list mat).
Hypothesis GI : good_input nd p per dims ranges.
Hypothesis IP : interpolant nd p per dims ranges f g mats.
Let s := if_spline g.

Lemma dim_pos : (1 <= sp_dim s)%nat.
Proof. unfold s. rewrite (s_dim _ _ _ _ _ _ _ _ IP). destruct GI as [H _]. destruct per; [congruence|simpl; lia]. Qed.

Lemma s_reaches xs coords : length coords = length per -> map fst coords = xs ->
  (forall d, (d < length per)%nat -> (p <= snd (nth d coords (0%R, 0%nat)) <= last_of s d)%nat) ->
  Nat.odd p = true \/ off_period per (sp_range s) xs -> reaches Rops s coords.
Proof.
  intros Hl Hx Hh HC iters Ei d Hd Ep.
  pose proof (s_dim _ _ _ _ _ _ _ _ IP) as SD. pose proof (s_order _ _ _ _ _ _ _ _ IP) as SO. fold s in SD, SO.
  assert (G := s_good nd p per dims ranges f g mats GI IP). fold s in G.
  destruct (spline_iters_ok s coords G) as (iters' & Ei' & Gi & H).
  { rewrite SD. auto. } { rewrite SD, SO. auto. }
  rewrite Ei in Ei'. injection Ei' as <-.
  destruct (H d Hd) as [Hw Hs]. rewrite Ep in Hw.
  rewrite SD in Hd. unfold s in Ep. rewrite (s_per_of _ _ _ _ _ _ _ _ IP) in Ep.
  destruct (s_pk nd p per dims ranges f g mats IP d Hd Ep) as [L _]. fold s in L.
  destruct (s_period nd p per dims ranges f g mats GI IP d Hd Ep) as (_ & R1 & R2). fold s in R1, R2.
  unfold s at 1. rewrite (s_num _ _ _ _ _ _ _ _ IP). fold s. rewrite SO.
  set (N := nth d (ddims nd per dims) 0%nat) in *.
  change (o0 Rops) with 0. set (k := snd (nth d iters (0, 0%nat))) in *. set (x' := fst (nth d iters (0, 0%nat))) in *.
  destruct Hs as (Hk & _ & Hk1 & _). unfold last_of in Hk. rewrite SO in *.
  assert (HN : (p + 1 <= N)%nat) by (apply (s_N nd p per dims ranges GI d Hd)).
  pose proof (half_cases p) as HP. destruct HP as [(_ & _ & HP)|(_ & _ & HP)]; [|lia].
  destruct (Nat.eq_dec k (p + N)) as [->|Hne]; [exfalso|lia].
  destruct Hk1 as [Hk1|Hk1]; [lia|].
  destruct HC as [HC|HC].
  { rewrite <- Nat.negb_even in HC. assert (Nat.even p = true). { apply Nat.even_spec. exists (p / 2)%nat. pose proof (Nat.div_mod p 2). lia. }
    rewrite H0 in HC. discriminate. }
  specialize (HC d Hd Ep). cbv zeta in HC. fold (rng s d) in HC.
  assert (Ex : nth d xs 0 = fst (nth d coords (0, 0%nat))). { rewrite <- Hx. rewrite <- (map_nth fst). reflexivity. }
  rewrite Ex in HC. destruct Hw as [(m & Em) Hw]. fold x' in Em, Hw.
  replace (p + N)%nat with (N + p)%nat in Hk1 by lia. rewrite <- R2 in Hk1.
  destruct (Rle_dec (fst (rng s d)) (fst (nth d coords (0, 0%nat)))) as [Hle|Hnle]; [lra|].
  destruct HC as [HC|HC]; [lra|]. apply (HC (1 - m)%Z). rewrite minus_IZR. 
  assert (x' = snd (rng s d)) by lra. nra.
Qed.

Lemma s_strides : (Nat.odd p = true \/ forall d, (1 <= d < length per)%nat -> nth d per false = false) -> strides_agree s.
Proof.
  intros HC d Hd Ep. unfold s in *. rewrite (s_dim _ _ _ _ _ _ _ _ IP) in Hd. rewrite (s_per_of _ _ _ _ _ _ _ _ IP) in Ep.
  destruct HC as [HC|HC]; [|rewrite HC in Ep by auto; discriminate].
  destruct (s_pk nd p per dims ranges f g mats IP d ltac:(lia) Ep) as [L _]. rewrite L.
  rewrite (s_num _ _ _ _ _ _ _ _ IP), (s_order _ _ _ _ _ _ _ _ IP).
  apply Nat.odd_spec in HC as [q Hq]. destruct (half_cases p) as [(_ & _ & HP)|(_ & _ & HP)]; [|lia].
  pose proof (Nat.div_mod p 2 ltac:(lia)). lia.
Qed.
End Spline.

Lemma cells_of_solved on nd p per dims ranges f t c mats g :
  good_input nd p per dims ranges -> g = set_ctrl (tp_base t) c -> interpolant nd p per dims ranges f g mats ->
  exists cm, generate_cells Rops on (if_spline g) (sp_ctrl (if_spline g)) = Ok cm /\
    set_cells Rops on (tp_base t) c = Ok (mkInterp (load_ctrl (if_spline g) cm) (if_dx g) (if_uniform g)).
Proof.
  intros GI -> IP. assert (W := gs_wf _ (s_good nd p per dims ranges f _ mats GI IP)).
  destruct (generate_cells_ok Rops on _ W (dim_pos nd p per dims ranges f _ mats GI IP)) as (cm & E & _).
  exists cm. split; auto. unfold set_cells, load_cells.
  change (generate_cells Rops on (if_spline (tp_base t)) c)
    with (generate_cells Rops on (if_spline (set_ctrl (tp_base t) c)) (sp_ctrl (if_spline (set_ctrl (tp_base t) c)))).
  rewrite E. reflexivity.
Qed.

Section Same.
Variables (on nd : bool) (p : nat) (per : list bool) (dims : list nat) (ranges : list (xrange R)) (f : mesh R)
  (g : interp R) (mats : list mat) (cm : mesh R).
Hypothesis GI : good_input nd p per dims ranges.
Hypothesis IP : interpolant nd p per dims ranges f g mats.
Hypothesis Ecm : generate_cells Rops on (if_spline g) (sp_ctrl (if_spline g)) = Ok cm.
Let s := if_spline g.
Let gc := mkInterp (load_ctrl s cm) (if_dx g) (if_uniform g).

Lemma cell_interp_eval_eq xs : length xs = length per -> countable_point nd per dims ranges xs ->
  Nat.odd p = true \/ off_period per (sp_range s) xs ->
  cell_interp_eval Rops on gc xs = interp_eval Rops g xs.
Proof.
  intros Hl Hc HC. destruct (s_hints nd p per dims ranges f g mats GI IP xs Hl Hc) as (coords & E & L & Ef & Hh).
  unfold cell_interp_eval, interp_eval. change (add_hints Rops gc) with (add_hints Rops g). rewrite E. cbn [bind].
  pose proof (s_dim _ _ _ _ _ _ _ _ IP) as SD. pose proof (s_order _ _ _ _ _ _ _ _ IP) as SO.
  assert (HI : forall d, (d < length per)%nat -> (p <= snd (nth d coords (0%R, 0%nat)) <= last_of s d)%nat) by (intros; apply Hh; auto).
  apply cell_eval_eq; auto.
  - apply (s_good nd p per dims ranges f g mats GI IP).
  - apply (dim_pos nd p per dims ranges f g mats GI IP).
  - rewrite SD. auto.
  - rewrite SD, SO. auto.
  - apply (s_reaches nd p per dims ranges f g mats GI IP xs); auto.
Qed.

Lemma cell_interp_derivative_eq xs orders : length xs = length per -> length orders = length per ->
  countable_point nd per dims ranges xs -> Nat.odd p = true \/ off_period per (sp_range s) xs ->
  cell_interp_derivative Rops on gc xs orders = interp_derivative Rops on g xs orders.
Proof.
  intros Hl Ho Hc HC.
  assert (Hh : forall d, (d < length per)%nat -> exists h, hint_for Rops g d (nth d xs 0) = Ok h /\ (p <= h <= last_of s d)%nat).
  { intros d Hd. apply (s_hint nd p per dims ranges f g mats GI IP d (nth d xs 0) Hd (Hc d Hd)). }
  set (h := fun d => match hint_for Rops g d (nth d xs 0) with Ok h => h | _ => 0%nat end).
  assert (Hh' : forall d, (d < length per)%nat -> hint_for Rops g d (nth d xs 0) = Ok (h d) /\ (p <= h d <= last_of s d)%nat).
  { intros d Hd. destruct (Hh d Hd) as (k & E & B). unfold h. rewrite E. auto. }
  pose proof (s_dim _ _ _ _ _ _ _ _ IP) as SD. fold s in SD. pose proof (s_order _ _ _ _ _ _ _ _ IP) as SO. fold s in SO.
  unfold cell_interp_derivative, interp_derivative. change (hint_for Rops gc) with (hint_for Rops g).
  change (sp_dim (if_spline gc)) with (sp_dim s). fold s. rewrite SD.
  rewrite (mapM_ok _ (fun d => (nth d xs 0, h d, nth d orders 0%nat))).
  - cbn [bind]. apply (cell_derivative_eq Rops on (fun _ => True) Rops_quiet); auto.
    + apply (gs_wf _ (s_good nd p per dims ranges f g mats GI IP)).
    + apply (dim_pos nd p per dims ranges f g mats GI IP).
    + rewrite map_length, seq_length. auto.
    + rewrite SD, SO. intros d Hd. change (o0 Rops) with 0. rewrite (map_seq_nth (fun d0 => (nth d0 xs 0, h d0, nth d0 orders 0%nat))) by auto.
      cbn [fst snd]. apply Hh'; auto.
    + apply (s_reaches nd p per dims ranges f g mats GI IP xs); auto.
      * rewrite !map_length, seq_length. auto.
      * rewrite !map_map. cbn [fst]. apply (nth_ext _ _ 0 0).
        rewrite map_length, seq_length. auto.
        intros d Hd. rewrite map_length, seq_length in Hd. rewrite map_seq_nth by auto. auto.
      * intros d Hd. rewrite map_map. rewrite (map_seq_nth (fun d0 => fst (nth d0 xs 0, h d0, nth d0 orders 0%nat))) by auto.
        cbn [fst snd]. apply Hh'; auto.
  - intros d Hd. apply in_seq in Hd. rewrite (vget_ok _ _ 0) by lia. cbn [bind].
    destruct (Hh' d ltac:(lia)) as [E _]. rewrite E. cbn [bind]. rewrite (vget_ok _ _ 0%nat) by lia. reflexivity.
Qed.

Lemma proxy_interp_eq g0 m0 xs : length xs = length per -> countable_point nd per dims ranges xs ->
  Nat.odd p = true \/ ((forall d, (1 <= d < length per)%nat -> nth d per false = false) /\ off_period per (sp_range s) xs) ->
  g0 = mkInterp (load_ctrl s m0) (if_dx g) (if_uniform g) ->
  (pr <- eval_proxy Rops g0 xs ;; use_proxy Rops pr gc) = interp_eval Rops g xs.
Proof.
  intros Hl Hc HC ->. destruct (s_hints nd p per dims ranges f g mats GI IP xs Hl Hc) as (coords & E & L & Ef & Hh).
  unfold eval_proxy, interp_eval, use_proxy.
  change (add_hints Rops {| if_spline := load_ctrl s m0; if_dx := if_dx g; if_uniform := if_uniform g |}) with (add_hints Rops g).
  rewrite E. cbn [bind]. cbn [if_spline].
  pose proof (s_dim _ _ _ _ _ _ _ _ IP) as SD. pose proof (s_order _ _ _ _ _ _ _ _ IP) as SO.
  assert (HI : forall d, (d < length per)%nat -> (p <= snd (nth d coords (0%R, 0%nat)) <= last_of s d)%nat) by (intros; apply Hh; auto).
  apply (proxy_eq on); auto.
  - apply (s_good nd p per dims ranges f g mats GI IP).
  - apply (dim_pos nd p per dims ranges f g mats GI IP).
  - rewrite SD. auto.
  - rewrite SD, SO. auto.
  - apply (s_reaches nd p per dims ranges f g mats GI IP xs); auto. tauto.
  - apply (s_strides nd p per dims ranges f g mats IP). tauto.
Qed.
End Same.

(** ** Top level *)
Lemma interpolate_interpolant on nd p per dims ranges f t c :
  good_input nd p per dims ranges -> m_dims f = dims -> wf_mesh f -> templ_make Rops on nd p per dims ranges = Ok t ->
  solve_ctrl Rops on nd t f = Ok c -> exists mats, interpolant nd p per dims ranges f (set_ctrl (tp_base t) c) mats.
Proof.
  intros GI Ef Wf Et Ec. destruct (interp_make_spec on nd p per dims ranges f GI Ef Wf) as (mats & _ & _ & H & _).
  exists mats. apply H. unfold interp_make. rewrite Ef, Et. cbn [bind]. unfold interpolate_move. rewrite Ec. reflexivity.
Qed.

Lemma cell_same on nd p per dims ranges f g :
  good_input nd p per dims ranges -> m_dims f = dims -> wf_mesh f -> interp_make Rops on nd p per f ranges = Ok g ->
  exists gc, cell_interp_make Rops on nd p per f ranges = Ok gc /\
    forall xs orders, length xs = length per -> length orders = length per -> countable_point nd per dims ranges xs ->
      Nat.odd p = true \/ off_period per (sp_range (if_spline g)) xs ->
      cell_interp_eval Rops on gc xs = interp_eval Rops g xs /\
      cell_interp_derivative Rops on gc xs orders = interp_derivative Rops on g xs orders.
Proof.
  intros GI Ef Wf E. unfold interp_make in E. rewrite Ef in E. apply bind_Ok in E as (t & Et & E).
  unfold interpolate_move in E. apply bind_Ok in E as (r & E & Er). injection Er as <-.
  apply bind_Ok in E as (c & Ec & E). injection E as <-. cbn [fst].
  destruct (interpolate_interpolant on nd p per dims ranges f t c GI Ef Wf Et Ec) as (mats & IP).
  destruct (cells_of_solved on nd p per dims ranges f t c mats _ GI eq_refl IP) as (cm & Ecm & Es).
  eexists. split.
  - unfold cell_interp_make, cell_interpolate. rewrite Ef, Et. cbn [bind]. rewrite Ec. cbn [bind]. exact Es.
  - intros xs orders Hl Ho Hc HC. split.
    + apply (cell_interp_eval_eq on nd p per dims ranges f _ mats cm GI IP Ecm xs Hl Hc HC).
    + apply (cell_interp_derivative_eq on nd p per dims ranges f _ mats cm GI IP Ecm xs orders Hl Ho Hc HC).
Qed.

Lemma proxy_same on nd p per dims ranges f t g :
  good_input nd p per dims ranges -> m_dims f = dims -> wf_mesh f -> templ_make Rops on nd p per dims ranges = Ok t ->
  interpolate Rops on nd t f = Ok g ->
  exists gc, cell_interpolate Rops on nd t f = Ok gc /\
    forall xs, length xs = length per -> countable_point nd per dims ranges xs ->
      Nat.odd p = true \/
      ((forall d, (1 <= d < length per)%nat -> nth d per false = false) /\ off_period per (sp_range (if_spline g)) xs) ->
      (pr <- templ_eval_proxy Rops t xs ;; use_proxy Rops pr gc) = interp_eval Rops g xs /\
      (pr <- eval_proxy Rops gc xs ;; use_proxy Rops pr gc) = interp_eval Rops g xs.
Proof.
  intros GI Ef Wf Et E. unfold interpolate in E. apply bind_Ok in E as (c & Ec & E). injection E as <-.
  destruct (interpolate_interpolant on nd p per dims ranges f t c GI Ef Wf Et Ec) as (mats & IP).
  destruct (cells_of_solved on nd p per dims ranges f t c mats _ GI eq_refl IP) as (cm & Ecm & Es).
  eexists. split.
  - unfold cell_interpolate. rewrite Ec. cbn [bind]. exact Es.
  - intros xs Hl Hc HC. split.
    + apply (proxy_interp_eq on nd p per dims ranges f _ mats cm GI IP Ecm _ (sp_ctrl (if_spline (tp_base t))) xs Hl Hc HC).
      destruct (tp_base t) as [[? ? ? ? ?] ? ?]. reflexivity.
    + apply (proxy_interp_eq on nd p per dims ranges f _ mats cm GI IP Ecm _ cm xs Hl Hc HC). reflexivity.
Qed.
