(** Lemmas on interpolation functions that hold in any arithmetic. *)
From Coq Require Import List Arith Lia Bool ZArith.
From Verif Require Import Base Num MeshM SpecMesh MeshProofs TensorR ProgM BandM LUM SplineM InterpM LUConv SpecInterp.
Import ListNotations.
Open Scope nat_scope.

Section Gen.
Context {T : Type} (o : ops T) (on : bool).

(** ** The repeated end point of periodic dimensions *)

Lemma shift_keep order per W idx idx' :
  length idx = length per ->
  shift_index false order per W idx = Ok (idx', true) ->
  forall d, d < length per -> nth d per false = true -> nth d idx 0 <> nth d W 0.
Proof.
  intros L E. unfold shift_index in E.
  apply (for_post (fun D st => length (fst st) = length per /\
     (forall e, D <= e < length per -> nth e (fst st) 0 = nth e idx 0) /\
     (snd st = true -> forall d, d < D -> nth d per false = true -> nth d idx 0 <> nth d W 0))) in E.
  - cbn [fst snd] in E. destruct E as (_ & _ & H). auto.
  - lia.
  - cbn [fst snd]. split; auto. split; auto. intros; lia.
  - intros i [ix kp] s' Hi (I1 & I2 & I3) B. cbn [fst snd] in *.
    rewrite (vget_ok _ _ false) in B by lia. cbn [bind] in B. destruct (nth i per false) eqn:Ep.
    + apply bind_Ok in B as (a & Ea & B). rewrite (vget_ok _ _ 0) in Ea by lia. inversion Ea; subst a; clear Ea.
      apply bind_Ok in B as (n & En & B). apply bind_Ok in B as (r & Er & B). apply bind_Ok in B as (ix' & Ei & B).
      rewrite vset_ok in Ei by lia. inversion Ei; subst ix'; clear Ei. inversion B; subst s'; clear B. cbn [fst snd].
      split; [rewrite upd_length; auto|]. split.
      * intros e He. rewrite nth_upd. destruct (Nat.eqb_spec e i); [lia|]. cbn [andb]. apply I2. lia.
      * intros K. apply andb_true_iff in K as [K1 K2]. cbn [orb] in K2. apply negb_true_iff, Nat.eqb_neq in K2.
        intros d Hd Hp. destruct (Nat.eq_dec d i) as [->|]; [|apply I3; auto; lia].
        unfold vget in En. destruct (nth_error W i) eqn:EW; [|discriminate]. inversion En; subst n.
        rewrite (nth_error_nth _ _ 0 EW). rewrite <- (I2 i) by lia. auto.
    + inversion B; subst s'. cbn [fst snd]. split; auto. split; [intros; apply I2; lia|].
      intros K d Hd Hp. destruct (Nat.eq_dec d i) as [->|]; [congruence|apply I3; auto; lia].
Qed.

Lemma reduced_nth per dims W d : reduced_dims false per dims = Ok W -> d < length per -> nth d per false = true ->
  nth d W 0 + 1 = nth d dims 0.
Proof.
  unfold reduced_dims. intros E Hd Hp. apply (mapM_nth _ _ _ d 0 0) in E; [|rewrite seq_length; auto].
  rewrite seq_nth in E by auto. cbn [Nat.add] in E.
  apply bind_Ok in E as (n & En & E). apply bind_Ok in E as (b & Eb & E).
  unfold vget in En, Eb. destruct (nth_error dims d) eqn:E1; [|discriminate]. destruct (nth_error per d) eqn:E2; [|discriminate].
  inversion En; inversion Eb; subst. rewrite (nth_error_nth _ _ 0 E1). rewrite (nth_error_nth _ _ false E2) in Hp. subst b.
  unfold usub in E. destruct (Nat.leb_spec 1 n); [|discriminate]. inversion E. lia.
Qed.

Lemma dummy_ignored order per f f' ranges :
  m_dims f' = m_dims f -> wf_mesh f -> wf_mesh f' -> length (m_dims f) = length per ->
  (forall idx, valid (m_dims f) idx ->
     (forall d, d < length per -> nth d per false = true -> nth d idx 0 + 1 < nth d (m_dims f) 0) ->
     nth_error (m_data f) (row_major (m_dims f) idx) = nth_error (m_data f') (row_major (m_dims f) idx)) ->
  interp_make o on false order per f ranges = interp_make o on false order per f' ranges.
Proof.
  intros Ed Wf Wf' L H. unfold interp_make. rewrite Ed.
  destruct (templ_make o on false order per (m_dims f) ranges) as [t| |] eqn:Et; auto. cbn [bind].
  unfold interpolate_move, solve_ctrl.
  assert (ET : exists b c, interp_base o on false order per (m_dims f) ranges = Ok (b, c) /\ tp_base t = b /\
     reduced_dims false per (m_dims f) = Ok (tp_dims t)).
  { unfold templ_make in Et. apply bind_Ok in Et as ([b c] & E1 & Et). apply bind_Ok in Et as (W & E2 & Et).
    apply bind_Ok in Et as (sv & E3 & Et). inversion Et; subst. cbn. eauto. }
  destruct ET as (b & c & Eb & Etb & EW).
  assert (EI : sp_per (if_spline b) = per).
  { unfold interp_base, create_knots in Eb.
    apply (for_post (fun _ st => sp_per (if_spline (fst st)) = per)) in Eb; auto; [lia|].
    clear. intros i [g cs] s' _ Hg B. cbn [fst] in *.
    apply bind_Ok in B as (r & _ & B). apply bind_Ok in B as (pp & _ & B). apply bind_Ok in B as (n & _ & B).
    destruct r.
    - apply bind_Ok in B as (u & _ & B). apply bind_Ok in B as ([xs h] & _ & B). apply bind_Ok in B as (dx & _ & B).
      apply bind_Ok in B as (s1 & E1 & B). inversion B; subst. cbn [fst if_spline].
      unfold load_knots in E1. repeat (apply bind_Ok in E1 as (? & _ & E1)). inversion E1; subst. auto.
    - apply bind_Ok in B as (u & _ & B). apply bind_Ok in B as ([xs h] & _ & B). apply bind_Ok in B as (dx & _ & B).
      apply bind_Ok in B as (s1 & E1 & B). inversion B; subst. cbn [fst if_spline].
      unfold load_knots in E1. repeat (apply bind_Ok in E1 as (? & _ & E1)). inversion E1; subst. auto. }
  rewrite Etb, EI.
  replace (init_weights o false (sp_order (if_spline b)) per (tp_dims t) f') with
          (init_weights o false (sp_order (if_spline b)) per (tp_dims t) f); [reflexivity|].
  unfold init_weights. unfold mesh_size. rewrite Wf', Ed, <- Wf. apply for_ext. intros w off Hoff.
  unfold mesh_iter_indices. rewrite Ed.
  destruct (md_dimwise_indices_spec (m_dims f) off) as (idx & Ei & V & RO).
  { rewrite Wf in Hoff. lia. }
  rewrite Ei. cbn [bind].
  destruct (shift_index false (sp_order (if_spline b)) per (tp_dims t) idx) as [[ix kp]| |] eqn:Es; auto. cbn [bind].
  destruct kp; auto. unfold vget. rewrite <- RO. rewrite H; auto.
  intros d Hd Hp. pose proof (valid_length _ _ V) as Li.
  assert (Li' : length idx = length per) by lia. pose proof (shift_keep _ _ _ _ _ Li' Es d Hd Hp) as K.
  pose proof (reduced_nth _ _ _ _ EW Hd Hp). rewrite valid_nth in V by auto. pose proof (V d ltac:(lia)). lia.
Qed.

(** ** Bounds checks *)

Lemma check_spec (f : interp T) xs :
  length xs = sp_dim (if_spline f) -> length (sp_range (if_spline f)) = sp_dim (if_spline f) ->
  boundary_check o f xs =
  if existsb (outside o (sp_per (if_spline f)) (sp_range (if_spline f)) xs) (seq 0 (sp_dim (if_spline f)))
  then Throw DomainError else Ok tt.
Proof.
  intros Lx Lr. unfold boundary_check, for_. rewrite Nat.sub_0_r. set (s := if_spline f) in *.
  assert (H : forall l, (forall d, In d l -> d < sp_dim s) ->
    foldM (fun (_ : unit) d =>
      bind (vget (sp_per s) d) (fun p : bool => if p then Ok tt else
        bind (vget xs d) (fun x => bind (vget (sp_range s) d) (fun range =>
        if olt o x (fst range) || olt o (snd range) x then Throw DomainError else Ok tt)))) l tt =
    if existsb (outside o (sp_per s) (sp_range s) xs) l then Throw DomainError else Ok tt).
  { induction l as [|d l IH]; intros Hl; auto. cbn [foldM existsb].
    assert (Hd : d < sp_dim s) by (apply Hl; left; auto).
    unfold outside at 1. unfold sp_dim in *.
    rewrite (vget_ok _ _ false) by lia. cbn [bind]. destruct (nth d (sp_per s) false); cbn [negb andb orb bind].
    - apply IH. intros; apply Hl; right; auto.
    - rewrite (vget_ok xs _ (o0 o)) by lia. cbn [bind]. rewrite (vget_ok (sp_range s) _ (o0 o, o0 o)) by lia. cbn [bind].
      destruct (olt o (nth d xs (o0 o)) (fst (nth d (sp_range s) (o0 o, o0 o))) ||
                olt o (snd (nth d (sp_range s) (o0 o, o0 o))) (nth d xs (o0 o))); cbn [orb bind]; auto.
      apply IH. intros; apply Hl; right; auto. }
  apply H. intros d Hd. apply in_seq in Hd. lia.
Qed.

Lemma at_spec (f : interp T) xs orders :
  length xs = sp_dim (if_spline f) -> length (sp_range (if_spline f)) = sp_dim (if_spline f) ->
  let out := existsb (outside o (sp_per (if_spline f)) (sp_range (if_spline f)) xs) (seq 0 (sp_dim (if_spline f))) in
  interp_at o f xs = (if out then Throw DomainError else interp_eval o f xs) /\
  interp_derivative_at o on f xs orders = (if out then Throw DomainError else interp_derivative o on f xs orders).
Proof.
  intros Lx Lr out. unfold interp_at, interp_derivative_at. rewrite check_spec by auto. fold out. destruct out; auto.
Qed.

(** ** Overloads of [interpolate] *)

Lemma overloads nd (t : templ T) old f :
  interpolate_into o on nd t old f = interpolate o on nd t f /\
  (forall g, interpolate o on nd t f = Ok g <-> exists t', interpolate_move o on nd t f = Ok (g, t')) /\
  (forall e, interpolate o on nd t f = Throw e <-> interpolate_move o on nd t f = Throw e) /\
  (forall e, interpolate o on nd t f = Fault e <-> interpolate_move o on nd t f = Fault e).
Proof.
  split; [reflexivity|]. unfold interpolate, interpolate_move.
  destruct (solve_ctrl o on nd t f) as [c|e0|e0]; cbn [bind].
  - split; [|split; intros e; split; intros E; discriminate E]. intros g. split.
    + intros E. inversion E. eauto.
    + intros (t' & E). inversion E. auto.
  - split; [|split; intros e; split; intros E; inversion E; auto]. intros g. split; [discriminate|intros (? & E); discriminate].
  - split; [|split; intros e; split; intros E; inversion E; auto]. intros g. split; [discriminate|intros (? & E); discriminate].
Qed.

Lemma make_interpolate nd order per dims ranges t f :
  templ_make o on nd order per dims ranges = Ok t -> m_dims f = dims ->
  interp_make o on nd order per f ranges = interpolate o on nd t f.
Proof.
  intros E Ed. unfold interp_make. rewrite Ed, E. cbn [bind]. unfold interpolate, interpolate_move.
  destruct (solve_ctrl o on nd t f); auto.
Qed.

Lemma mapM_snoc {A B} (f : A -> res B) l x ys y :
  mapM f l = Ok ys -> f x = Ok y -> mapM f (l ++ [x]) = Ok (ys ++ [y]).
Proof.
  revert ys. induction l; intros ys E Ex; cbn [mapM app] in *.
  - inversion E. cbn. rewrite Ex. auto.
  - apply bind_Ok in E as (b & Eb & E). apply bind_Ok in E as (bs & E1 & E). inversion E; subst. rewrite Eb. cbn [bind].
    rewrite (IHl bs) by auto. auto.
Qed.

Lemma mapM_set {A B} (f : A -> res B) l i x ys y :
  mapM f l = Ok ys -> f x = Ok y -> i < length l ->
  mapM f (firstn i l ++ x :: skipn (i + 1) l) = Ok (upd ys i y).
Proof.
  revert i ys. induction l; intros i ys E Ex Hi; cbn [length] in *; [lia|]. cbn [mapM] in E.
  apply bind_Ok in E as (b & Eb & E). apply bind_Ok in E as (bs & E1 & E). inversion E; subst.
  destruct i.
  - cbn [firstn app Nat.add skipn mapM]. rewrite Ex. cbn [bind]. rewrite E1. auto.
  - cbn [firstn app Nat.add skipn mapM]. rewrite Eb. cbn [bind]. rewrite (IHl i bs) by (auto; lia). auto.
Qed.

Lemma history nd order per dims ranges t : templ_make o on nd order per dims ranges = Ok t ->
  forall l fs gs gs', (forall p, In p l -> m_dims (op_data p) = dims) ->
    mapM (fun f => interp_make o on nd order per f ranges) fs = Ok gs ->
    run_ops o on nd t gs l = Ok gs' ->
    mapM (fun f => interp_make o on nd order per f ranges) (data_after fs l) = Ok gs'.
Proof.
  intros Et. induction l as [|[f|i f] l IH]; intros fs gs gs' Hl Efs E; cbn [run_ops data_after] in *.
  - inversion E; subst; auto.
  - apply bind_Ok in E as (g & Eg & E). apply (IH _ (gs ++ [g])); auto.
    + intros; apply Hl; right; auto.
    + apply mapM_snoc; auto. rewrite (make_interpolate _ _ _ dims _ t); auto. apply (Hl (OpNew f)). left; auto.
  - apply bind_Ok in E as (old & Eo & E). apply bind_Ok in E as (g & Eg & E). apply bind_Ok in E as (gs1 & E1 & E).
    unfold vset in E1. destruct (Nat.ltb_spec i (length gs)); [|discriminate]. inversion E1; subst gs1.
    apply (IH _ (upd gs i g)); auto.
    + intros; apply Hl; right; auto.
    + apply mapM_set; auto.
      * rewrite (make_interpolate _ _ _ dims _ t); auto. apply (Hl (OpInto i f)). left; auto.
      * apply mapM_length in Efs. lia.
Qed.

Lemma history_from_start nd order per dims ranges t l gs :
  templ_make o on nd order per dims ranges = Ok t ->
  (forall p, In p l -> m_dims (op_data p) = dims) ->
  run_ops o on nd t [] l = Ok gs ->
  mapM (fun f => interp_make o on nd order per f ranges) (data_after [] l) = Ok gs.
Proof. intros Et Hl E. apply (history _ _ _ _ _ _ Et l [] []); auto. Qed.

(** ** 1-D constructors *)

Lemma one_dim_agree nd order f periodic : nd && periodic = false ->
  interp1d_make o on nd order f periodic =
  bind (templ1d_make o on nd order (length f) periodic) (fun t => interpolate o on nd t (mesh_of_list f)).
Proof.
  intros H. unfold interp1d_make, templ1d_make. rewrite H.
  destruct (usub (length f) 1) as [e| |]; auto. cbn [bind].
  destruct (templ_make o on nd order [periodic] [length f] [Uniform (o0 o) (onat o e)]) as [t| |] eqn:Et.
  - cbn [bind]. apply (make_interpolate _ _ _ [length f]); auto.
  - cbn [bind]. unfold interp_make. unfold mesh_of_list, m_dims. rewrite Et. auto.
  - cbn [bind]. unfold interp_make. unfold mesh_of_list, m_dims. rewrite Et. auto.
Qed.

(** ** Order 0 on given coordinates *)

Lemma order_zero_points l : (forall a b, exists c, odiv o a b = Ok c) -> l <> [] ->
  aperiodic_points o 0 l = Fault OutOfBounds.
Proof.
  intros D Hl. assert (Hn : 1 <= length l) by (destruct l; [congruence|cbn; lia]).
  unfold aperiodic_points. set (xs := repeat (o0 o) (length l + 0 + 1)).
  assert (Lx : length xs = length l + 1) by (unfold xs; rewrite repeat_length; lia). clearbody xs.
  rewrite (vget_ok _ _ (o0 o)) by lia. cbn [bind]. unfold for_ at 1. cbn [Nat.add Nat.sub seq foldM].
  rewrite vset_ok by lia. cbn [bind]. rewrite for_empty by lia. cbn [bind].
  match goal with |- bind (for_ ?a ?b ?c ?d) _ = _ =>
    destruct (for_inv (fun i (st : list T * nat * list T * T) => let '(xs, it, coord, w) := st in
       length xs = length l + 1 /\ it + 1 = i /\ length coord = i) a b c d) as ([[[xs' it] coord] w] & E & H1 & H2 & H3) end.
  - lia.
  - rewrite upd_length. cbn. auto.
  - intros i [[[ys it] coord] w] Hi (I1 & I2 & I3).
    rewrite (vget_ok _ _ (o0 o)) by lia. cbn [bind].
    rewrite (vget_ok _ _ (o0 o)) by (rewrite app_length; cbn; lia). cbn [bind].
    match goal with |- context [odiv o ?a ?b] => destruct (D a b) as (k & ->) end. cbn [bind].
    rewrite vset_ok by lia. cbn [bind].
    rewrite (vget_ok _ _ (o0 o)) by (rewrite app_length; cbn; lia). cbn [bind].
    eexists. split; [reflexivity|]. cbn. rewrite upd_length, app_length. cbn. lia.
  - rewrite E. cbn [bind]. unfold vget. replace (nth_error l (it + 1)) with (@None T); auto.
    symmetry. apply nth_error_None. lia.
Qed.

Lemma order_zero_make nd f l : (forall a b, exists c, odiv o a b = Ok c) -> l <> [] -> m_dims f = [length l] ->
  interp_make o on nd 0 [false] f [Points l] = Fault OutOfBounds.
Proof.
  intros D Hl Ef. unfold interp_make. rewrite Ef. unfold templ_make, interp_base, create_knots. cbn [length].
  unfold for_. cbn [Nat.sub seq foldM if_spline spline_empty sp_per sp_order repeat if_uniform if_dx vget nth_error bind length].
  unfold vset at 1. cbn [length Nat.ltb Nat.leb bind upd]. unfold points_knots. rewrite andb_false_r, Nat.add_0_r, Nat.eqb_refl.
  replace (intp_assert on true) with (Ok tt) by (destruct on; reflexivity). cbn [bind]. rewrite order_zero_points by auto. reflexivity.
Qed.
End Gen.
