(** Evaluation through cells is evaluation on the control points. *)
From Coq Require Import List Arith Lia Bool ZArith Reals.
From Verif Require Import Base Num MeshM SpecMesh MeshProofs ProgM SplineM InterpM CellM.
From Verif Require Import SumR TensorR SplineProofs SpecSpline SpecSplineObj EvalProofs EvalR DerivProofs DerivLoops SafeProofs RoundProofs CellProofs.
Import ListNotations.
Open Scope nat_scope.

Section Any.
Context {T : Type} (o : ops T) (on : bool).
Notation z := (o0 o).

Lemma cell_coef_ok (s : spline T) vals idx c0 :
  good_vals s vals -> valid (repeat (sp_order s + 1) (sp_dim s)) idx ->
  for_ 0 (sp_dim s) c0 (fun coef d =>
        a <- vget idx d ;;
        bs <- vget vals d ;;
        b <- vget bs a ;;
        Ok (omul o coef b)) =
  Ok (fold_left (fun c d => omul o c (nth (nth d idx 0) (nth d vals []) z)) (seq 0 (sp_dim s)) c0).
Proof.
  intros [V1 V2] Hv. apply for_pure. intros v d Hd.
  assert (Hl := valid_length _ _ Hv). rewrite repeat_length in Hl.
  rewrite (vget_ok idx d 0) by lia. cbn [bind]. rewrite (vget_ok vals d []) by lia. cbn [bind].
  rewrite (vget_ok _ _ z). reflexivity. rewrite V2 by auto. apply (local_lt s); auto.
Qed.

(** Segments found for [coords] have a cell. *)
Definition reaches (s : spline T) (coords : list (T * nat)) : Prop :=
  forall iters, get_knot_iters o s coords = Ok iters -> reach o s iters.

Context (Flt : fault -> Prop) (Hq : quiet Flt o).

Lemma cell_derivative_eq (s : spline T) c coords :
  wf_spline s -> 1 <= sp_dim s -> generate_cells o on s (sp_ctrl s) = Ok c -> length coords = sp_dim s ->
  (forall d, d < sp_dim s -> sp_order s <= snd (fst (nth d coords (z, 0, 0))) <= last_of s d) ->
  reaches s (map fst coords) ->
  cell_derivative_at o on (load_ctrl s c) coords = spline_derivative_at o on s coords.
Proof using Flt Hq.
  intros W HD Ec Hc Hh HR.
  assert (Hfst : forall d, nth d (map fst coords) (z, 0) = fst (nth d coords (z, 0, 0))).
  { intros d. rewrite <- (map_nth fst). reflexivity. }
  unfold spline_derivative_at, cell_derivative_at. cbn [load_ctrl sp_order sp_per sp_knots sp_ctrl].
  change (sp_dim (load_ctrl s c)) with (sp_dim s). change (buf_size (load_ctrl s c)) with (buf_size s).
  fold (so_of s coords). set (so := so_of s coords).
  destruct (existsb (fun q => sp_order s <? q) so) eqn:Ex; [reflexivity|].
  assert (Hsl : length so = sp_dim s) by (unfold so, so_of; rewrite map_length; auto).
  assert (Hso : forall d, d < sp_dim s -> nth d so 0 <= sp_order s).
  { intros d Hd. destruct (Nat.le_gt_cases (nth d so 0) (sp_order s)); auto.
    assert (existsb (fun q => sp_order s <? q) so = true); [|congruence].
    apply existsb_exists. exists (nth d so 0). split. apply nth_In; lia. apply Nat.ltb_lt; auto. }
  change (get_knot_iters o (load_ctrl s c)) with (get_knot_iters o s).
  destruct (get_knot_iters o s (map fst coords)) as [iters|e|f] eqn:Ei; cbn [bind]; try reflexivity.
  assert (G : good_iters o s iters).
  { pose proof (get_knot_iters_post Flt o Hq s (map fst coords) W) as P. rewrite map_length, Ei in P.
    apply P; auto. intros d Hd; rewrite Hfst; auto. }
  change (calc_base_spline_vals o (load_ctrl s c)) with (calc_base_spline_vals o s).
  destruct (calc_base_spline_vals o s iters so) as [vals|e|f] eqn:Ev; cbn [bind]; try reflexivity.
  assert (V : good_vals s vals).
  { pose proof (calc_vals_post Flt o Hq s iters so W G Hsl Hso) as P. rewrite Ev in P. exact P. }
  destruct (cell_read o on s W HD c iters Ec G (HR _ Ei)) as (it & Eit & Hit).
  change (cell_index (load_ctrl s c)) with (cell_index s).
  destruct (cell_index s iters) as [ind|e|f] eqn:Ex2; cbn [bind] in Eit |- *; try discriminate.
  rewrite Eit. cbn [bind]. f_equal. apply for_ext. intros [lsv lcp] i Hi. cbv zeta.
  assert (Hv : valid (repeat (sp_order s + 1) (sp_dim s)) (digits (sp_order s + 1) (sp_dim s) i))
    by (apply digits_valid; unfold buf_size in Hi; lia).
  rewrite (deriv_inner_ok o s iters vals _ W G V Hv). rewrite cell_coef_ok by auto.
  cbn [bind]. fold (coef_of o s vals (digits (sp_order s + 1) (sp_dim s) i)).
  destruct (mesh_set lsv _ _); cbn [bind]; try reflexivity.
  rewrite Hit by (unfold buf_size in Hi; lia).
  rewrite (ctrl_get o) by (auto; eapply gmap_valid; eauto). reflexivity.
Qed.

(** The value computed from a cell. *)
Definition cell_value (s : spline T) (iters : list (T * nat)) (vals : list (list T)) : T :=
  fold_left (fun v i =>
      let idx := digits (sp_order s + 1) (sp_dim s) i in
      oadd o v (fold_left (fun c d => omul o c (nth (nth d idx 0) (nth d vals []) z)) (seq 0 (sp_dim s))
                          (ctrl_at o s (gmap o s iters idx))))
    (seq 0 (buf_size s)) z.

Lemma cell_eval_run (s : spline T) c coords iters vals :
  wf_spline s -> 1 <= sp_dim s -> generate_cells o on s (sp_ctrl s) = Ok c ->
  get_knot_iters o s coords = Ok iters ->
  calc_base_spline_vals o s iters (repeat (sp_order s) (sp_dim s)) = Ok vals ->
  good_iters o s iters -> good_vals s vals -> reach o s iters ->
  cell_eval o on (load_ctrl s c) coords = Ok (cell_value s iters vals).
Proof.
  intros W HD Ec Ei Ev G V HR. unfold cell_eval. cbn [load_ctrl sp_order sp_per sp_knots sp_ctrl].
  change (get_knot_iters o (load_ctrl s c)) with (get_knot_iters o s). fold (load_ctrl s c).
  change (sp_dim (load_ctrl s c)) with (sp_dim s). change (buf_size (load_ctrl s c)) with (buf_size s).
  rewrite Ei. cbn [bind].
  change (calc_base_spline_vals o (load_ctrl s c)) with (calc_base_spline_vals o s). rewrite Ev. cbn [bind].
  destruct (cell_read o on s W HD c iters Ec G HR) as (it & Eit & Hit).
  change (cell_index (load_ctrl s c)) with (cell_index s).
  destruct (cell_index s iters) as [ind|e|f] eqn:Ex2; cbn [bind] in Eit |- *; try discriminate.
  rewrite Eit. cbn [bind]. apply for_pure. intros v i Hi.
  rewrite Hit by (unfold buf_size in Hi; lia). cbn [bind].
  rewrite cell_coef_ok; auto. apply digits_valid; unfold buf_size in Hi; lia.
Qed.

(** Memory safety of evaluation through cells, in any arithmetic. *)
Lemma cell_eval_safe (s : spline T) c coords :
  wf_spline s -> 1 <= sp_dim s -> generate_cells o on s (sp_ctrl s) = Ok c -> length coords = sp_dim s ->
  (forall d, d < sp_dim s -> sp_order s <= snd (nth d coords (z, 0)) <= last_of s d) ->
  reaches s coords ->
  post Flt (fun _ => True) (cell_eval o on (load_ctrl s c) coords).
Proof using Hq.
  intros W HD Ec Hc Hh HR.
  assert (P := get_knot_iters_post Flt o Hq s coords W Hc Hh).
  destruct (get_knot_iters o s coords) as [iters|e|f] eqn:Ei.
  2: destruct P.
  2:{ unfold cell_eval. change (get_knot_iters o (load_ctrl s c)) with (get_knot_iters o s). rewrite Ei. exact P. }
  simpl in P.
  assert (P2 : post Flt (good_vals s) (calc_base_spline_vals o s iters (repeat (sp_order s) (sp_dim s)))).
  { apply (calc_vals_post Flt o Hq); auto. apply repeat_length. intros d Hd. rewrite nth_repeat_lt by auto. auto. }
  destruct (calc_base_spline_vals o s iters (repeat (sp_order s) (sp_dim s))) as [vals|e|f] eqn:Ev.
  - simpl in P2. rewrite (cell_eval_run s c coords iters vals); auto. exact I.
  - destruct P2.
  - unfold cell_eval. change (get_knot_iters o (load_ctrl s c)) with (get_knot_iters o s). rewrite Ei. cbn [bind].
    change (calc_base_spline_vals o (load_ctrl s c)) with (calc_base_spline_vals o s).
    change (sp_dim (load_ctrl s c)) with (sp_dim s). change (sp_order (load_ctrl s c)) with (sp_order s).
    rewrite Ev. exact P2.
Qed.

(** ** Proxies *)
Definition strides_agree (s : spline T) : Prop :=
  forall d, 1 <= d < sp_dim s -> per_of s d = true -> length (knot_of s d) = num_of s d + 2 * sp_order s + 1.

Definition kdim (s : spline T) (d : nat) : nat :=
  length (knot_of s d) - (sp_order s + 1) - (if d =? sp_dim s - 1 then 0 else sp_order s).

Lemma cell_dims_from_knots_ok (s : spline T) : wf_spline s ->
  cell_dims_from_knots s = Ok (map (kdim s) (seq 0 (sp_dim s)) ++ [(sp_order s + 1) ^ (sp_dim s - 1)]).
Proof.
  intros W. unfold cell_dims_from_knots.
  rewrite (mapM_ok_nth _ _ (map (kdim s) (seq 0 (sp_dim s))) 0 0); auto.
  - rewrite map_length; auto.
  - rewrite seq_length. intros d Hd. rewrite seq_nth by auto. cbn [plus].
    rewrite (vget_ok (sp_knots s) d []) by (rewrite (wf_knots _ W); auto). cbn [bind].
    fold (knot_of s d). pose proof (wf_len _ W d Hd). rewrite usub_ok by lia. cbn [bind].
    rewrite nth_map_seq by auto. unfold kdim. rewrite usub_ok. reflexivity.
    destruct (d =? sp_dim s - 1); lia.
Qed.

(** Row-major offsets do not depend on the first dimension. *)
Lemma row_major_head a b l i u : row_major (a :: l) (i :: u) = row_major (b :: l) (i :: u).
Proof. reflexivity. Qed.

Lemma proxy_dims (s : spline T) ind : wf_spline s -> 1 <= sp_dim s -> strides_agree s ->
  length ind = sp_dim s + 1 ->
  row_major (map (kdim s) (seq 0 (sp_dim s)) ++ [(sp_order s + 1) ^ (sp_dim s - 1)]) ind = row_major (the_cdims s) ind.
Proof.
  intros W HD HS Hl.
  assert (E : the_cdims s = map (cdim s) (seq 0 (sp_dim s)) ++ [(sp_order s + 1) ^ (sp_dim s - 1)]).
  { unfold the_cdims. replace (sp_dim s) with (S (sp_dim s - 1)) at 4 by lia. rewrite seq_S, map_app. cbn [map plus].
    rewrite <- app_assoc. reflexivity. }
  rewrite E. replace (sp_dim s) with (S (sp_dim s - 1)) at 1 3 by lia. cbn [seq map app].
  assert (Em : map (kdim s) (seq 1 (sp_dim s - 1)) = map (cdim s) (seq 1 (sp_dim s - 1))).
  { apply map_ext_in. intros d Hd. apply in_seq in Hd. unfold kdim, cdim.
    assert (Hd' : d < sp_dim s) by lia. pose proof (wf_num _ W d Hd') as Hn. pose proof (HS d ltac:(lia)) as Hs.
    destruct (per_of s d).
    + rewrite Hs by auto. destruct (d =? sp_dim s - 1); lia.
    + destruct (d =? sp_dim s - 1); lia. }
  rewrite Em. destruct ind as [|i u]; [simpl in Hl; lia|]. reflexivity.
Qed.

End Any.

(** Over the reals. *)
Section Reals.
Local Open Scope R_scope.
Context (on : bool).

Lemma fold_mul_start (g : nat -> R) l a : fold_left (fun c d => c * g d) l a = fold_left (fun c d => c * g d) l 1 * a.
Proof.
  revert a; induction l as [|d l IH]; intros a; cbn [fold_left]; [ring|].
  rewrite IH, (IH (1 * g d)). ring.
Qed.

Lemma fold_left_ext' {A B} (f g : A -> B -> A) l a : (forall v i, f v i = g v i) -> fold_left f l a = fold_left g l a.
Proof. intros H. revert a; induction l; intros; cbn [fold_left]; auto. rewrite H. auto. Qed.

Lemma cell_value_eq (s : spline R) iters vals :
  cell_value Rops s iters vals = eval_value Rops s iters vals.
Proof.
  unfold cell_value, eval_value.
  set (F := fun idx => coef_of Rops s vals idx * ctrl_at Rops s (gmap Rops s iters idx)).
  transitivity (0 + sum (buf_size s) (fun i => F (digits (sp_order s + 1) (sp_dim s) i))).
  - rewrite <- fold_left_sum. apply fold_left_ext'. intros v i. simpl. f_equal.
    unfold F, coef_of. rewrite fold_mul_start. reflexivity.
  - unfold buf_size. rewrite sum_digits. rewrite <- fold_left_sum. reflexivity.
Qed.

Lemma cell_eval_eq (s : spline R) c coords :
  good_spline s -> (1 <= sp_dim s)%nat -> generate_cells Rops on s (sp_ctrl s) = Ok c -> length coords = sp_dim s ->
  (forall d, (d < sp_dim s)%nat -> (sp_order s <= snd (nth d coords (0%R, 0%nat)) <= last_of s d)%nat) ->
  reaches Rops s coords ->
  cell_eval Rops on (load_ctrl s c) coords = spline_eval Rops s coords.
Proof.
  intros G HD Ec Hc Hh HR. assert (W := gs_wf _ G).
  destruct (spline_iters_ok s coords G Hc Hh) as (iters & Ei & Gi & Hseg).
  destruct (calc_vals_ok s iters (repeat (sp_order s) (sp_dim s)) G Gi) as (vals & Ev & V & _).
  - apply repeat_length.
  - intros d Hd. rewrite nth_repeat_lt by auto. auto.
  - intros d Hd. destruct (Hseg d Hd) as [_ Hs]. destruct Hs as (_ & Hs & _). exact Hs.
  - rewrite (spline_eval_run Rops s coords iters vals) by auto.
    rewrite (cell_eval_run Rops on s c coords iters vals) by auto. f_equal. apply cell_value_eq.
Qed.

Lemma proxy_eq (s : spline R) c m0 coords :
  good_spline s -> (1 <= sp_dim s)%nat -> generate_cells Rops on s (sp_ctrl s) = Ok c -> length coords = sp_dim s ->
  (forall d, (d < sp_dim s)%nat -> (sp_order s <= snd (nth d coords (0%R, 0%nat)) <= last_of s d)%nat) ->
  reaches Rops s coords -> strides_agree s ->
  (pr <- pre_calc_coef Rops (load_ctrl s m0) coords ;; apply_proxy Rops pr (load_ctrl s c)) = spline_eval Rops s coords.
Proof.
  intros G HD Ec Hc Hh HR HS. assert (W := gs_wf _ G).
  destruct (spline_iters_ok s coords G Hc Hh) as (iters & Ei & Gi & Hseg).
  destruct (calc_vals_ok s iters (repeat (sp_order s) (sp_dim s)) G Gi) as (vals & Ev & V & _).
  - apply repeat_length.
  - intros d Hd. rewrite nth_repeat_lt by auto. auto.
  - intros d Hd. destruct (Hseg d Hd) as [_ Hs]. destruct Hs as (_ & Hs & _). exact Hs.
  - rewrite (spline_eval_run Rops s coords iters vals) by auto. rewrite <- cell_value_eq.
    destruct (cell_read_at Rops on s W HD c iters Ec Gi (HR _ Ei)) as (ind & E1 & Hl & Hst & HlC & _ & Hrd).
    unfold pre_calc_coef.
    change (get_knot_iters Rops (load_ctrl s m0)) with (get_knot_iters Rops s). rewrite Ei. cbn [bind].
    change (calc_base_spline_vals Rops (load_ctrl s m0)) with (calc_base_spline_vals Rops s).
    change (sp_dim (load_ctrl s m0)) with (sp_dim s). change (sp_order (load_ctrl s m0)) with (sp_order s).
    rewrite Ev. cbn [bind]. change (cell_index (load_ctrl s m0)) with (cell_index s). rewrite E1. cbn [bind].
    change (cell_dims_from_knots (load_ctrl s m0)) with (cell_dims_from_knots s).
    rewrite cell_dims_from_knots_ok by auto. cbn [bind].
    rewrite md_indexing_spec.
    2:{ rewrite app_length, map_length, seq_length. simpl. lia. }
    cbn [bind]. rewrite proxy_dims by auto. unfold apply_proxy.
    change (sp_ctrl (load_ctrl s c)) with c. change (sp_dim (load_ctrl s c)) with (sp_dim s).
    change (sp_order (load_ctrl s c)) with (sp_order s).
    unfold mesh_dim_size. rewrite (vget_ok (m_dims c) (sp_dim s) 0%nat) by lia. cbn [bind]. rewrite Hst.
    assert (Ep : ((sp_order s + 1) ^ (sp_dim s - 1) * (sp_order s + 1) = (sp_order s + 1) ^ sp_dim s)%nat).
    { replace (sp_dim s) with (S (sp_dim s - 1)) at 2 by lia. rewrite Nat.pow_succ_r'. lia. }
    rewrite Ep. unfold cell_value, buf_size. apply for_pure. intros v i Hi.
    assert (Hv : valid (repeat (sp_order s + 1)%nat (sp_dim s)) (digits (sp_order s + 1) (sp_dim s) i))
      by (apply digits_valid; auto).
    destruct (Nat.eqb_spec (sp_dim s) 1) as [H1|H1].
    + destruct V as [V1 V2].
      rewrite (vget_ok vals 0 []) by lia. cbn [bind]. rewrite H1 in Hi. rewrite Nat.pow_1_r in Hi.
      rewrite (vget_ok _ _ 0%R) by (rewrite V2; lia). cbn [bind].
      rewrite Hrd by (rewrite H1, Nat.pow_1_r; lia). cbn [bind]. f_equal. rewrite H1. cbn [seq fold_left digits nth].
      rewrite Nat.mod_small by lia. simpl. ring.
    + rewrite (cell_coef_ok Rops) by auto. cbn [bind]. rewrite Hrd by auto. cbn [bind]. f_equal.
      simpl oadd. simpl omul. f_equal. symmetry. rewrite fold_mul_start. reflexivity.
Qed.
End Reals.
