(** Constructors of BSpline establish the preconditions; example objects. *)
From Coq Require Import List Arith Lia Bool ZArith QArith Reals Lra.
From Coquelicot Require Import Coquelicot.
From Verif Require Import Base Num MeshM SplineM SpecMesh SpecBand SpecSpline SpecCalc MeshProofs SumR MulProofs
  SplineProofs TensorR BasisProofs EvalProofs EvalR DerivProofs DerivLoops SafeProofs BetaProofs SplineTop SplineCalc SplineFinal.
Import ListNotations.
Open Scope R_scope.

(** What the user must supply: [extra] is the number of knots beyond the
    number of control points. *)
Record good_input (order : nat) (per : list bool) (ctrl : mesh R) (knots : list (list R))
    (extra : bool -> nat) : Prop := {
  gi_knots : length knots = length per;
  gi_ctrl : wf_mesh ctrl;
  gi_dims : length (m_dims ctrl) = length per;
  gi_num : forall d, (d < length per)%nat ->
     ((if nth d per false then 1 else order + 1) <= nth d (m_dims ctrl) 0)%nat;
  gi_len : forall d, (d < length per)%nat ->
     length (nth d knots []) = (nth d (m_dims ctrl) 0 + extra (nth d per false))%nat;
  gi_sorted : forall d, (d < length per)%nat -> nondecreasing (nth d knots []);
  gi_first : forall d, (d < length per)%nat ->
     kn (nth d knots []) order < kn (nth d knots []) (order + 1);
  gi_last : forall d, (d < length per)%nat ->
     kn (nth d knots []) (length (nth d knots []) - order - 2) < kn (nth d knots []) (length (nth d knots []) - order - 1)
}.

Lemma make_good on order per ctrl knots :
  good_input order per ctrl knots (fun p => if p then 2 * order + 1 else order + 1)%nat ->
  exists s, spline_make on order per ctrl knots = Ok s /\ good_spline s /\
    sp_order s = order /\ sp_per s = per /\ sp_knots s = knots /\ sp_ctrl s = ctrl /\
    forall d, (d < length per)%nat -> snd (rng s d) = kn (nth d knots []) (length (nth d knots []) - order - 1).
Proof.
  intros [H1 H2 H3 H4 H5 H6 H7 H8].
  assert (Hlen : forall d, (d < length per)%nat -> (2 * order + 2 <= length (nth d knots []))%nat).
  { intros d Hd. specialize (H4 d Hd). specialize (H5 d Hd). destruct (nth d per false); lia. }
  unfold spline_make.
  set (rg := map (fun l => (kn l order, kn l (length l - order - 1)%nat)) knots).
  rewrite (mapM_ok_nth _ knots rg [] (0, 0)).
  2:{ unfold rg. rewrite map_length; auto. }
  2:{ intros d Hd. rewrite H1 in Hd. specialize (Hlen d Hd). rewrite (vget_ok _ _ 0) by lia. cbn [bind].
      rewrite usub_ok by lia. cbn [bind]. rewrite (vget_ok _ _ 0) by lia. cbn [bind]. unfold rg.
      rewrite (nth_indep _ _ ((fun l => (kn l order, kn l (length l - order - 1)%nat)) [])) by (rewrite map_length; lia).
      rewrite (map_nth (fun l => (kn l order, kn l (length l - order - 1)%nat))).
      do 2 f_equal. unfold kn. f_equal. lia. }
  cbn [bind].
  match goal with |- context[for_ 0 ?hi tt ?f] => destruct (for_inv (fun _ _ => True) 0 hi tt f) as ([] & E & _) end; auto; try lia.
  { intros d [] Hd _. exists tt. split; auto. rewrite (vget_ok knots d []) by lia. cbn [bind].
    unfold mesh_dim_size. rewrite (vget_ok (m_dims ctrl) d 0%nat) by lia. cbn [bind].
    rewrite (vget_ok per d false) by lia. cbn [bind]. rewrite (H5 d) by lia.
    destruct (nth d per false); rewrite Nat.eqb_refl; unfold intp_assert; destruct on; reflexivity. }
  rewrite E. cbn [bind]. eexists; split; [reflexivity|].
  assert (Hr : forall d, (d < length per)%nat -> nth d rg (0, 0) = (kn (nth d knots []) order, kn (nth d knots []) (length (nth d knots []) - order - 1))).
  { intros d Hd. unfold rg.
    rewrite (nth_indep _ _ ((fun l => (kn l order, kn l (length l - order - 1)%nat)) [])) by (rewrite map_length; lia).
    rewrite (map_nth (fun l => (kn l order, kn l (length l - order - 1)%nat))). reflexivity. }
  split; [|cbn; repeat split; auto; intros d Hd; rewrite Hr by auto; reflexivity].
  split; cbn [sp_order sp_knots sp_range sp_ctrl sp_per]; unfold last_of, sp_dim, knot_of, per_of; cbn [sp_order sp_knots sp_range sp_ctrl sp_per]; auto.
  - split; unfold sp_dim, knot_of, per_of, num_of; cbn [sp_order sp_knots sp_range sp_ctrl sp_per]; auto.
    + unfold rg; rewrite map_length; auto.
    + intros d Hd. specialize (H4 d Hd). specialize (H5 d Hd). specialize (Hlen d Hd). destruct (nth d per false); lia.
  - intros d Hd. specialize (Hlen d Hd).
    replace (length (nth d knots []) - order - 2 + 1)%nat with (length (nth d knots []) - order - 1)%nat by lia. auto.
  - intros d Hd _. rewrite Hr by auto. cbn [fst snd]. specialize (Hlen d Hd).
    apply Rlt_le_trans with (kn (nth d knots []) (order + 1)); auto. apply H6; auto. lia.
  - intros d Hd. rewrite Hr by auto. cbn [fst snd]. specialize (Hlen d Hd). split; auto. left. f_equal. lia.
Qed.

(** With assertions a wrong number of knots is refused. *)
Lemma make_refuses {T} order per (ctrl : mesh T) knots d :
  (d < length per)%nat -> length knots = length per -> length (m_dims ctrl) = length per ->
  (forall e, (e < length per)%nat -> (order < length (nth e knots []))%nat) ->
  length (nth d knots []) <> (nth d (m_dims ctrl) 0 + (if nth d per false then 2 * order + 1 else order + 1))%nat ->
  spline_make true order per ctrl knots = Throw AssertFailed.
Proof.
  intros Hd H1 H2 H3 Hn. unfold spline_make.
  assert (Hm : forall l : list (list T), (forall x, In x l -> (order < length x)%nat) -> exists rg, mapM (fun kn0 : list T =>
      a <- vget kn0 order ;; i <- usub (length kn0) (order + 1) ;; b <- vget kn0 i ;; Ok (a, b)) l = Ok rg).
  { induction l as [|x l IH]; intros Hx; cbn [mapM]; eauto.
    specialize (IH (fun y Hy => Hx y (or_intror Hy))). destruct IH as [rg ->].
    specialize (Hx x (or_introl eq_refl)). destruct x as [|t0 x0]; [simpl in Hx; lia|].
    rewrite (vget_ok _ _ t0) by auto. cbn [bind]. rewrite usub_ok by lia. cbn [bind]. rewrite (vget_ok _ _ t0) by lia. cbn [bind]. eauto. }
  destruct (Hm knots) as [rg ->].
  { intros x Hx. destruct (In_nth _ _ [] Hx) as (e & He & <-). apply H3. lia. }
  cbn [bind].
  match goal with |- context[for_ 0 ?hi tt ?f] => set (F := f) end.
  assert (HF : forall e, (e < length per)%nat -> F tt e = intp_assert true
    (length (nth e knots []) =? nth e (m_dims ctrl) 0 + (if nth e per false then 2 * order + 1 else order + 1))%nat).
  { intros e He. unfold F. rewrite (vget_ok knots e []) by lia. cbn [bind].
    unfold mesh_dim_size. rewrite (vget_ok (m_dims ctrl) e 0%nat) by lia. cbn [bind].
    rewrite (vget_ok per e false) by lia. reflexivity. }
  assert (E : for_ 0 (length per) tt F = Throw AssertFailed); [|rewrite E; reflexivity].
  unfold for_. replace (length per - 0)%nat with (d + S (length per - d - 1))%nat by lia.
  rewrite seq_app, foldM_app. cbn [seq foldM].
  assert (Hpre : forall l u, (forall e, In e l -> (e < length per)%nat) -> foldM F l u = Ok tt \/ foldM F l u = Throw AssertFailed).
  { induction l as [|e l IH]; intros [] Hl; cbn [foldM]; auto. rewrite HF by (apply Hl; simpl; auto).
    unfold intp_assert. destruct (_ =? _)%nat; cbn [negb andb bind]; auto. apply IH. intros; apply Hl; simpl; auto. }
  destruct (Hpre (seq 0 d) tt) as [-> | ->]; auto.
  { intros e He. apply in_seq in He. lia. }
  cbn [bind]. rewrite ?Nat.add_0_l. rewrite HF by auto. unfold intp_assert.
  destruct (Nat.eqb_spec (length (nth d knots [])) (nth d (m_dims ctrl) 0 + (if nth d per false then 2 * order + 1 else order + 1))%nat); [contradiction|].
  reflexivity.
Qed.

(** Loading knots and control points into an empty spline, as the
    interpolation templates do. *)
Definition load_all {T} (o : ops T) order per (knots : list (list T)) (ctrl : mesh T) : res (spline T) :=
  s <- for_ 0 (length per) (spline_empty o order per) (fun s d =>
         l <- vget knots d ;; load_knots s d l) ;;
  Ok (load_ctrl s ctrl).

Lemma load_good order per ctrl knots :
  good_input order per ctrl knots (fun p => if p then 2 * order + (2 - order mod 2) else order + 1)%nat ->
  exists s, load_all Rops order per knots ctrl = Ok s /\ good_spline s /\
    sp_order s = order /\ sp_per s = per /\ sp_knots s = knots /\ sp_ctrl s = ctrl /\
    forall d, (d < length per)%nat ->
      snd (rng s d) = kn (nth d knots []) (length (nth d knots []) - order - (2 - order mod 2)).
Proof.
  intros [H1 H2 H3 H4 H5 H6 H7 H8].
  assert (Hm : (order mod 2 < 2)%nat) by (apply Nat.mod_upper_bound; lia).
  assert (Hlen : forall d, (d < length per)%nat -> (2 * order + 2 <= length (nth d knots []))%nat).
  { intros d Hd. specialize (H4 d Hd). specialize (H5 d Hd). destruct (nth d per false); lia. }
  unfold load_all.
  set (rgd := fun l : list R => (kn l order, kn l (length l - order - (2 - order mod 2))%nat)).
  match goal with |- context[for_ 0 ?hi ?s0 ?f] =>
    destruct (for_inv (fun d s => sp_order s = order /\ sp_per s = per /\ length (sp_knots s) = length per /\
      length (sp_range s) = length per /\
      forall e, (e < d)%nat -> nth e (sp_knots s) [] = nth e knots [] /\ rng s e = rgd (nth e knots [])) 0 hi s0 f)
      as (s & E & I1 & I2 & I3 & I4 & I5) end; try lia.
  - cbn. rewrite !repeat_length. repeat split; auto; lia.
  - intros d s Hd (I1 & I2 & I3 & I4 & I5). specialize (Hlen d ltac:(lia)).
    rewrite (vget_ok knots d []) by lia. cbn [bind]. unfold load_knots. rewrite I1, I2.
    rewrite vset_ok by lia. cbn [bind]. rewrite (vget_ok _ _ 0) by lia. cbn [bind].
    rewrite usub_ok by lia. cbn [bind]. rewrite usub_ok by lia. cbn [bind].
    rewrite (vget_ok _ _ 0) by lia. cbn [bind]. rewrite vset_ok by lia. cbn [bind].
    eexists; split; [reflexivity|]. cbn [sp_order sp_per sp_knots sp_range]. rewrite !upd_length.
    do 4 (split; auto). intros e He. destruct (Nat.eq_dec e d) as [->|Hne].
    + rewrite !nth_upd_same by lia. split; reflexivity.
    + rewrite !nth_upd_other by lia. apply I5. lia.
  - rewrite E. cbn [bind]. eexists; split; [reflexivity|].
    destruct s as [so sp sk sc sr]. cbn in I1, I2, I3, I4, I5 |- *. subst so sp. unfold load_ctrl. cbn.
    assert (Ek : sk = knots).
    { apply (nth_ext' _ _ []); [lia|]. intros e He. apply I5. lia. }
    subst sk.
    assert (Hr : forall d, (d < length per)%nat -> nth d sr (0, 0) = rgd (nth d knots [])) by (intros; apply I5; auto).
    clear I5 E. unfold rgd in Hr.
    split; [|repeat split; auto; intros d Hd; rewrite Hr by auto; reflexivity].
    split; cbn [sp_order sp_knots sp_range sp_ctrl sp_per]; unfold last_of, sp_dim, knot_of, per_of; cbn [sp_order sp_knots sp_range sp_ctrl sp_per]; auto.
    + split; unfold sp_dim, knot_of, per_of, num_of; cbn [sp_order sp_knots sp_range sp_ctrl sp_per]; auto.
      intros d Hd. specialize (H4 d Hd). specialize (H5 d Hd). specialize (Hlen d Hd). destruct (nth d per false); lia.
    + intros d Hd. specialize (Hlen d Hd).
      replace (length (nth d knots []) - order - 2 + 1)%nat with (length (nth d knots []) - order - 1)%nat by lia. auto.
    + intros d Hd Hp. rewrite Hr by auto. cbn [fst snd]. specialize (Hlen d Hd). specialize (H4 d Hd). specialize (H5 d Hd). rewrite Hp in H4, H5.
      apply Rlt_le_trans with (kn (nth d knots []) (order + 1)); auto. apply H6; auto. lia.
    + intros d Hd. rewrite Hr by auto. cbn [fst snd]. specialize (Hlen d Hd). split; auto.
      assert (Hc : (order mod 2 = 1 \/ order mod 2 = 0)%nat) by lia. destruct Hc as [-> | ->]; [left|right]; f_equal; lia.
Qed.

(** ** Examples *)
Lemma nondec_step l : (forall i, (i + 1 < length l)%nat -> kn l i <= kn l (i + 1)) -> nondecreasing l.
Proof.
  intros H i j [Hij Hj]. induction Hij; [lra|].
  apply Rle_trans with (kn l m). apply IHHij; lia. replace (S m) with (m + 1)%nat by lia. apply H. lia.
Qed.

(** Order 1, dimension 0 with end knots repeated, dimension 1 periodic. *)
Definition ex_ctrl {T} (f : Z -> T) : mesh T := mkMesh [3; 2]%nat (map f [1; 2; 4; 3; 5; 9]%Z).
Definition ex_knots {T} (f : Z -> T) : list (list T) := [map f [0; 0; 1; 2; 2]%Z; map f [-1; 0; 1; 2; 3]%Z].
Definition ex_spline {T} (f : Z -> T) : spline T :=
  mkSpline 1 [false; true] (ex_knots f) (ex_ctrl f) [(f 0%Z, f 2%Z); (f 0%Z, f 2%Z)].

Ltac two d := match goal with H : (d < _)%nat |- _ => change (d < 2)%nat in H end; destruct d as [|[|d]]; [| |exfalso; lia].

Lemma ex_input : good_input 1 [false; true] (ex_ctrl IZR) (ex_knots IZR) (fun p => if p then 2 * 1 + 1 else 1 + 1)%nat.
Proof.
  split; try reflexivity.
  - intros d Hd. two d; simpl; lia.
  - intros d Hd. two d; reflexivity.
  - intros d Hd. two d; apply nondec_step; intros i Hi; simpl in Hi;
      do 4 (destruct i as [|i]; [unfold kn; simpl; lra|]); lia.
  - intros d Hd. two d; unfold kn; simpl; lra.
  - intros d Hd. two d; unfold kn; simpl; lra.
Qed.

Lemma ex_make on : spline_make on 1 [false; true] (ex_ctrl IZR) (ex_knots IZR) = Ok (ex_spline IZR).
Proof. destruct on; reflexivity. Qed.

Lemma ex_good : good_spline (ex_spline IZR).
Proof.
  destruct (make_good true _ _ _ _ ex_input) as (s & E & G & _). rewrite ex_make in E. injection E as <-. exact G.
Qed.

Lemma ex_wf {T} (f : Z -> T) : wf_spline (ex_spline f).
Proof. split; try reflexivity; intros d Hd; two d; cbn; auto; lia. Qed.

Lemma ex_sorted : sorted_knots Rops (ex_spline IZR).
Proof.
  intros d i j Hd Hij Hj. apply Rleb_true. apply (gs_sorted _ ex_good d Hd). 
  pose proof (wf_len _ (gs_wf _ ex_good) d Hd). unfold last_of in Hj. lia.
Qed.

Lemma ex_periodic : periodic_knots (ex_spline IZR) 1.
Proof.
  split; try reflexivity.
  - unfold num_of, knot_of, kn. cbn [ex_spline sp_ctrl ex_ctrl m_dims nth sp_knots ex_knots sp_range map length fst snd].
    intros i Hi. do 3 (destruct i as [|i]; [cbn; lra|]). lia.
  - left. reflexivity.
Qed.

Lemma ex_strict d : (d < 2)%nat -> strict_knots (ex_spline IZR) d.
Proof.
  intros Hd i Hi. two d; cbn in Hi; do 3 (destruct i as [|i]; [try lia; unfold kn, knot_of; cbn; lra|]); lia.
Qed.

Lemma ex_off : off_knots (ex_spline IZR) 0 (1/2) /\ off_knots (ex_spline IZR) 1 (5/2).
Proof.
  split; intros x' Hw i Hi; unfold per_of in Hw; cbn in Hw, Hi.
  - rewrite Hw. do 4 (destruct i as [|i]; [unfold kn, knot_of; cbn; lra|]); lia.
  - destruct Hw as [[m Hm] _]. intros E. rewrite E in Hm.
    assert (Hz : exists z : Z, kn (knot_of (ex_spline IZR) 1) i = IZR z).
    { do 4 (destruct i as [|i]; [eexists; reflexivity|]); lia. }
    destruct Hz as [z Hz]. rewrite Hz in Hm.
    assert (IZR (2 * z) = IZR (5 + 4 * m)) by (rewrite mult_IZR, plus_IZR, mult_IZR; lra).
    apply eq_IZR in H. lia.
Qed.

(** Order 0, periodic: knots 0, 1, 2, two control points. *)
Definition step_spline : spline R :=
  mkSpline 0 [true] [[0; 1; 2]] (mkMesh [2%nat] [5; 7]) [(0, 2)].

Lemma step_good : good_spline step_spline.
Proof.
  destruct (make_good true 0 [true] (mkMesh [2%nat] [5; 7]) [[0; 1; 2]]) as (s & E & G & _).
  - split; try reflexivity; intros [|d] Hd; try (simpl in Hd; lia); try (unfold kn; simpl; lra); try (simpl; lia); auto.
    apply nondec_step; intros i Hi; simpl in Hi. do 2 (destruct i as [|i]; [unfold kn; simpl; lra|]); lia.
  - cbn in E. injection E as <-. exact G.
Qed.

Lemma step_periodic : periodic_knots step_spline 0.
Proof.
  split; try reflexivity.
  - unfold num_of, knot_of, kn, step_spline. cbn [sp_ctrl m_dims nth sp_knots sp_range length fst snd].
    intros i Hi. destruct i as [|i]; [cbn; lra|]. lia.
  - left. reflexivity.
Qed.

Lemma step_not_periodic :
  exists s x y (m : Z), good_spline s /\ sp_dim s = 1%nat /\ periodic_knots s 0 /\
    y = x + IZR m * (snd (rng s 0) - fst (rng s 0)) /\
    spline_eval_plain Rops s [x] = Ok 5 /\ spline_eval_plain Rops s [y] = Ok 7.
Proof.
  exists step_spline, 0, (-2), (-1)%Z. split; [apply step_good|]. split; auto. split; [apply step_periodic|].
  split; [cbn; lra|].
  assert (H : forall x x' k v, wrapped true (0, 2) x x' -> segment (kn [0; 1; 2]) 0 1 x' k -> nth k [5; 7] 0 = v ->
     spline_eval_plain Rops step_spline [x] = Ok v).
  { intros x x' k v Hw Hs Hv. unfold spline_eval_plain.
    destruct (eval_is_tensor step_spline [x] [0%nat] step_good eq_refl) as (xs' & ks & _ & _ & H & E).
    { split; auto. intros d Hd. change (d < 1)%nat in Hd. destruct d; [cbn; lia|exfalso; lia]. }
    cbn in E |- *. rewrite E. clear E. destruct (H 0%nat) as [H1 H2]; [cbn; lia|].
    change (wrapped true (0, 2) x (nth 0 xs' 0)) in H1. cbn in H2. set (x0 := nth 0 xs' 0) in *. set (k0 := nth 0 ks 0%nat) in *.
    assert (x0 = x').
    { eapply wrapped_unique; [|exact H1|exact Hw]. left. cbn. lra. }
    assert (k0 = k).
    { subst x0. rewrite H0 in H2. eapply (segment_unique [0; 1; 2] 0 1 x'); eauto; [|simpl; lia].
      apply (gs_sorted _ step_good 0%nat). cbn; lia. }
    rewrite H3. destruct Hs as [Hk _]. destruct k as [|[|k]]; [| |lia]; cbn in *; subst v; unfold piece; cbn; f_equal; unfold ctrl_at; cbn; lra. }
  split.
  - apply (H 0 0 0%nat); [| |reflexivity].
    + split. exists 0%Z. cbn [fst snd]. lra. cbn [fst snd]. destruct (Rle_dec 0 0); lra.
    + split. lia. unfold kn; cbn. split; [lra|]. split; [left; reflexivity|right; lra].
  - apply (H (-2) 2 1%nat); [| |reflexivity].
    + split. exists 2%Z. cbn [fst snd]. lra. cbn [fst snd]. destruct (Rle_dec 0 (-2)); lra.
    + split. lia. unfold kn; cbn. split; [lra|]. split; [right; lra|left; reflexivity].
Qed.

Lemma ex_hints h : (h = 1 \/ h = 2)%nat -> hints_ok (ex_spline IZR) [h; h].
Proof. intros H. split; auto. intros d Hd. two d; cbn; lia. Qed.

Lemma R_divides : divides Rops.
Proof.
  intros a b. simpl. split; destruct (Req_EM_T b 0); eauto.
Qed.
