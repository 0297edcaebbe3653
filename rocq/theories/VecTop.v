(** Values of another type: top lemmas. *)
From Coq Require Import List Arith Lia Bool ZArith Reals Lra.
From Verif Require Import Base Num MeshM SpecMesh MeshProofs SplineM InterpM SpecBand SumR MulProofs SpecSpline SpecSplineObj SpecInterp BuildProofs WeightProofs.
From Verif Require Import InterpProofs InterpTop InterpFinal InterpMore BetaProofs SplineTop VecM SpecValue SpecCurve VecProofs.
Import ListNotations.
Local Open Scope R_scope.

(** ** Maps of values, any arithmetic *)
Lemma preserves_eqs {T V W} (vo : vops T V) (wo : vops T W) pi : preserves vo wo pi ->
  pi (v_zero vo) = v_zero wo /\
  (forall v t c, pi (v_mac vo v t c) = v_mac wo (pi v) t (pi c)) /\
  (forall v t c, pi (v_msub vo v t c) = v_msub wo (pi v) t (pi c)) /\
  (forall v t, v_div wo (pi v) t = rmap pi (v_div vo v t)).
Proof. intros (A & B & C & D). repeat split; auto. intros. apply same_rmap. auto. Qed.

Lemma preserves_diff_eqs {T V W} (vo : vops T V) (wo : vops T W) pi : preserves_diff vo wo pi ->
  (forall v t c, pi (v_mac_conv vo v t c) = v_mac_conv wo (pi v) t (pi c)) /\
  (forall k a b t, v_diff wo k (pi a) (pi b) t = rmap pi (v_diff vo k a b t)).
Proof. intros (A & B). split; auto. intros. apply same_rmap. auto. Qed.

Lemma values_mapped {T V W} (o : ops T) (vo : vops T V) (wo : vops T W) pi on nd order per f ranges :
  preserves vo wo pi ->
  match vinterp_make o vo on nd order per f ranges, vinterp_make o wo on nd order per (mesh_map pi f) ranges with
  | Ok g, Ok h =>
      (forall xs, same_outcome pi (vinterp_eval o vo g xs) (vinterp_eval o wo h xs) /\
                  same_outcome pi (vinterp_at o vo g xs) (vinterp_at o wo h xs)) /\
      (preserves_diff vo wo pi -> forall xs orders,
         same_outcome pi (vinterp_derivative o vo on g xs orders) (vinterp_derivative o wo on h xs orders) /\
         same_outcome pi (vinterp_derivative_at o vo on g xs orders) (vinterp_derivative_at o wo on h xs orders))
  | Throw e, Throw e' => e = e'
  | Fault u, Fault u' => u = u'
  | _, _ => False
  end.
Proof.
  intros P. destruct (preserves_eqs _ _ _ P) as (P0 & P1 & P2 & P3).
  rewrite (make_map o vo wo pi on nd P0 P2 P3).
  destruct (vinterp_make o vo on nd order per f ranges) as [g| |]; simpl; auto.
  split.
  - intros xs. split; apply same_rmap; [apply eval_map|apply at_map]; auto.
  - intros Q. destruct (preserves_diff_eqs _ _ _ Q) as (Q0 & Q1).
    intros xs orders. split; apply same_rmap; [apply derivative_map|apply derivative_at_map]; auto.
Qed.

Lemma values_component {T V} (o : ops T) (vo : vops T V) pi on nd order per f ranges :
  preserves vo (scalar_vops o) pi ->
  match vinterp_make o vo on nd order per f ranges, interp_make o on nd order per (mesh_map pi f) ranges with
  | Ok g, Ok h =>
      (forall xs, same_outcome pi (vinterp_eval o vo g xs) (interp_eval o h xs) /\
                  same_outcome pi (vinterp_at o vo g xs) (interp_at o h xs)) /\
      (preserves_diff vo (scalar_vops o) pi -> forall xs orders,
         same_outcome pi (vinterp_derivative o vo on g xs orders) (interp_derivative o on h xs orders) /\
         same_outcome pi (vinterp_derivative_at o vo on g xs orders) (interp_derivative_at o on h xs orders))
  | Throw e, Throw e' => e = e'
  | Fault u, Fault u' => u = u'
  | _, _ => False
  end.
Proof.
  intros P. pose proof (values_mapped o vo (scalar_vops o) pi on nd order per f ranges P) as H.
  rewrite scalar_make.
  destruct (vinterp_make o vo on nd order per f ranges) as [g| |],
    (vinterp_make o (scalar_vops o) on nd order per (mesh_map pi f) ranges) as [h| |]; simpl; auto.
Qed.

(** ** Vectors and complex numbers *)
Lemma mapM_seq_same {T} (o : ops T) (g : nat -> T) t dim i (z : T) :
  (forall a b, same_outcome (fun _ : T => tt) (odiv o a t) (rmap (fun _ => tt) (odiv o b t))) ->
  (i < dim)%nat ->
  odiv o (g i) t = rmap (fun v => nth i v z) (mapM (fun j => odiv o (g j) t) (seq 0 dim)).
Proof.
  intros U Hi.
  destruct (odiv o (g i) t) as [q|e|u] eqn:E.
  - assert (A : forall j, exists r, odiv o (g j) t = Ok r).
    { intros j. specialize (U (g i) (g j)). rewrite E in U. destruct (odiv o (g j) t); simpl in U; try easy. eauto. }
    assert (M : forall l, exists l', mapM (fun j => odiv o (g j) t) l = Ok l' /\
       forall k, (k < length l)%nat -> odiv o (g (nth k l 0%nat)) t = Ok (nth k l' z)).
    { induction l as [|j l (l' & El & Hl)]; simpl.
      - exists []. split; auto. intros; lia.
      - destruct (A j) as (r & Er). rewrite Er. simpl. rewrite El. simpl. exists (r :: l'). split; auto.
        intros [|k] Hk; auto. apply Hl. lia. }
    destruct (M (seq 0 dim)) as (l' & El & Hl). rewrite El. simpl.
    specialize (Hl i). rewrite seq_length, seq_nth in Hl by auto. simpl in Hl. rewrite Hl in E by auto. auto.
  - destruct dim; [lia|]. simpl. specialize (U (g i) (g 0%nat)). rewrite E in U.
    destruct (odiv o (g 0%nat) t); simpl in *; try easy. congruence.
  - destruct dim; [lia|]. simpl. specialize (U (g i) (g 0%nat)). rewrite E in U.
    destruct (odiv o (g 0%nat) t); simpl in *; try easy. congruence.
Qed.

Lemma nth_map_seq {T} (g : nat -> T) dim i z : (i < dim)%nat -> nth i (map g (seq 0 dim)) z = g i.
Proof.
  intros. rewrite (nth_indep _ z (g 0%nat)) by (rewrite map_length, seq_length; auto).
  rewrite map_nth, seq_nth; auto.
Qed.

Lemma vec_components {T} (o : ops T) dim i :
  (forall a b, omul o a b = omul o b a) ->
  division_uniform o ->
  (i < dim)%nat ->
  preserves (vec_vops o dim) (scalar_vops o) (fun v => nth i v (o0 o)) /\
  preserves_diff (vec_vops o dim) (scalar_vops o) (fun v => nth i v (o0 o)).
Proof.
  intros C U Hi.
  assert (U' : forall t a b, same_outcome (fun _ : T => tt) (odiv o a t) (rmap (fun _ => tt) (odiv o b t))).
  { intros t a b. specialize (U a b t). destruct (odiv o a t), (odiv o b t); simpl in *; auto. }
  split; [split; [|split; [|split]]|split].
  - simpl. apply nth_repeat.
  - intros v t c. simpl. rewrite nth_map_seq by auto. rewrite C. auto.
  - intros v t c. simpl. rewrite nth_map_seq by auto. rewrite C. auto.
  - intros v t. apply same_rmap. simpl. apply (mapM_seq_same o (fun j => nth j v (o0 o)) t dim i (o0 o)); auto.
  - intros v t c. simpl. rewrite nth_map_seq by auto. auto.
  - intros k a b t. apply same_rmap. simpl.
    apply (mapM_seq_same o (fun j => omul o (onat o k) (osub o (nth j a (o0 o)) (nth j b (o0 o)))) t dim i (o0 o)); auto.
Qed.

Lemma complex_parts :
  (preserves (complex_vops Rops) (scalar_vops Rops) fst /\ preserves_diff (complex_vops Rops) (scalar_vops Rops) fst) /\
  (preserves (complex_vops Rops) (scalar_vops Rops) snd /\ preserves_diff (complex_vops Rops) (scalar_vops Rops) snd).
Proof.
  split; (split; [split; [|split; [|split]]|split]); try reflexivity; intros; simpl; try ring.
  all: destruct (Req_EM_T t 0); simpl; auto; f_equal; ring.
Qed.

(** ** Vectors of reals *)
Lemma Rops_div_uniform : division_uniform Rops.
Proof. intros a b t. simpl. destruct (Req_EM_T t 0); simpl; auto. Qed.

Lemma vec_dot n w : (0 < n)%nat -> preserves (vec_vops Rops n) (scalar_vops Rops) (dot n w).
Proof.
  intros Hn. split; [|split; [|split]].
  - unfold dot. simpl. rewrite Rsum_sum. apply sum_0. intros i Hi. rewrite nth_repeat. ring.
  - intros v t c. unfold dot. simpl. rewrite !Rsum_sum, <- sum_scal, <- sum_plus. apply sum_ext.
    intros i Hi. rewrite nth_map_seq by auto. ring.
  - intros v t c. unfold dot. simpl. rewrite !Rsum_sum, <- sum_scal, <- sum_minus. apply sum_ext.
    intros i Hi. rewrite nth_map_seq by auto. ring.
  - intros v t. apply same_rmap. simpl. destruct (Req_EM_T t 0).
    + destruct n; [lia|]. simpl. auto.
    + rewrite (mapM_ok _ (fun i => nth i v 0 / t)) by auto. simpl. f_equal.
      unfold dot. rewrite !Rsum_sum. unfold Rdiv at 1. rewrite <- sum_scal_r. apply sum_ext.
      intros i Hi. rewrite nth_map_seq by auto. field; auto.
Qed.

Lemma vec_nth n i : (i < n)%nat -> preserves (vec_vops Rops n) (scalar_vops Rops) (fun v => nth i v 0).
Proof. intros Hi. apply (vec_components Rops n i); auto. simpl; intros; ring. apply Rops_div_uniform. Qed.

(** Values have the right number of components. *)
Lemma foldM_post {S I} (Q : S -> Prop) (f : S -> I -> res S) l s s' :
  Q s -> (forall s i s', Q s -> f s i = Ok s' -> Q s') -> foldM f l s = Ok s' -> Q s'.
Proof.
  intros Hs Hf. revert s Hs. induction l; simpl; intros s Hs E; [inversion E; subst; auto|].
  apply bind_Ok in E as (s1 & E1 & E). eauto.
Qed.

Lemma vec_length {T} (o : ops T) n g xs v : vinterp_eval o (vec_vops o n) g xs = Ok v -> length v = n.
Proof.
  unfold vinterp_eval, vspline_eval. intros E.
  apply bind_Ok in E as (c & _ & E). apply bind_Ok in E as (it & _ & E). apply bind_Ok in E as (vals & _ & E).
  revert E. apply (foldM_post (fun v : list T => length v = n)); [apply repeat_length|].
  intros s i s' _ E. apply bind_Ok in E as (ind & _ & E). apply bind_Ok in E as ([coef idx] & _ & E).
  apply bind_Ok in E as (w & _ & E). injection E as <-. simpl. rewrite map_length, seq_length. auto.
Qed.

Lemma val_vec (f : mesh (list R)) i idx : val_at (mesh_map (fun v => nth i v 0) f) idx = nth i (vec_at f idx) 0.
Proof.
  unfold val_at, vec_at. simpl.
  replace 0 with ((fun v => nth i v 0) []) at 1 by (destruct i; auto).
  rewrite (map_nth (fun v : list R => nth i v 0)). auto.
Qed.

Lemma wf_map {V W} (pi : V -> W) f : wf_mesh f -> wf_mesh (mesh_map pi f).
Proof. unfold wf_mesh. simpl. rewrite map_length. auto. Qed.

(** All components of a value. *)
Lemma component_value on nd order per n (f : mesh (list R)) ranges g i :
  (i < n)%nat -> vinterp_make Rops (vec_vops Rops n) on nd order per f ranges = Ok g ->
  exists h, interp_make Rops on nd order per (mesh_map (fun v => nth i v 0) f) ranges = Ok h /\
    forall xs, interp_eval Rops h xs = rmap (fun v => nth i v 0) (vinterp_eval Rops (vec_vops Rops n) g xs).
Proof.
  intros Hi E. pose proof (values_component Rops _ _ on nd order per f ranges (vec_nth n i Hi)) as H.
  rewrite E in H. destruct (interp_make Rops on nd order per _ ranges) as [h| |]; try easy.
  exists h. split; auto. intros xs. apply same_rmap. apply H.
Qed.

Lemma component_made on nd order per n (f : mesh (list R)) ranges h :
  (0 < n)%nat -> interp_make Rops on nd order per (mesh_map (fun v => nth 0 v 0) f) ranges = Ok h ->
  exists g, vinterp_make Rops (vec_vops Rops n) on nd order per f ranges = Ok g.
Proof.
  intros Hn E. pose proof (values_component Rops _ _ on nd order per f ranges (vec_nth n 0 Hn)) as H.
  rewrite E in H. destruct (vinterp_make Rops _ on nd order per f ranges); try easy. eauto.
Qed.

Lemma vector_value n r w : (0 < n)%nat -> length w = n -> (forall v, r = Ok v -> length v = n) ->
  (forall i, (i < n)%nat -> rmap (fun v => nth i v 0) r = Ok (nth i w 0)) -> r = Ok w.
Proof.
  intros Hn Lw Lr H. destruct r as [v|e|u].
  - f_equal. apply (nth_ext _ _ 0 0). rewrite Lw; auto. intros i Hi. rewrite (Lr v) in Hi by auto.
    specialize (H i Hi). simpl in H. congruence.
  - specialize (H 0%nat Hn). discriminate.
  - specialize (H 0%nat Hn). discriminate.
Qed.

Lemma representative_valid nd p per dims ranges idx :
  good_input nd p per dims ranges -> valid dims idx -> valid dims (representative nd per dims idx).
Proof.
  intros GI V. pose proof (proj1 (proj2 GI)) as L. pose proof (valid_length _ _ V) as LV.
  rewrite valid_nth in V by auto.
  apply valid_nth; unfold representative; rewrite ?map_length, ?seq_length; auto.
  intros d Hd. rewrite nth_map_seq by lia. specialize (V d Hd).
  destruct (nth d per false) eqn:E; auto. rewrite L in Hd.
  pose proof (W_big nd p per dims ranges GI d Hd) as B. rewrite ddims_nth, E in B by auto.
  assert (distinct nd true (nth d dims 0) <= nth d dims 0)%nat by (unfold distinct; destruct (_ && _); lia).
  pose proof (Nat.mod_upper_bound (nth d idx 0%nat) (distinct nd true (nth d dims 0%nat))). lia.
Qed.

(** C89: vector data are met. *)
Lemma vectors_pass on nd p per dims ranges n (f : mesh (list R)) :
  good_input nd p per dims ranges -> m_dims f = dims -> wf_mesh f -> small_dims dims -> (0 < n)%nat ->
  (forall v, In v (m_data f) -> length v = n) ->
  (solvable p per ranges -> exists g, vinterp_make Rops (vec_vops Rops n) on nd p per f ranges = Ok g) /\
  forall g, vinterp_make Rops (vec_vops Rops n) on nd p per f ranges = Ok g ->
    forall idx, valid dims idx ->
      vinterp_eval Rops (vec_vops Rops n) g (grid_point nd per dims ranges idx) = Ok (vec_at f (representative nd per dims idx)).
Proof.
  intros GI Ef Wf Sm Hn HL. split.
  - intros S. destruct (make_ok on nd p per dims ranges (mesh_map (fun v => nth 0 v 0) f) GI S Ef (wf_map _ _ Wf)) as (h & Eh).
    eapply component_made; eauto.
  - intros g E idx Vi. apply (vector_value n); auto.
    + apply HL. apply nth_In. rewrite Wf, Ef. apply row_major_lt.
      eapply representative_valid; eauto.
    + intros v. apply vec_length.
    + intros i Hi. destruct (component_value on nd p per n f ranges g i Hi E) as (h & Eh & Hh).
      rewrite <- Hh. 
      destruct (periodic_passes on nd p per dims ranges (mesh_map (fun v => nth i v 0) f) GI Ef (wf_map _ _ Wf) Sm) as (_ & PP).
      rewrite (PP h Eh idx Vi). rewrite val_vec. auto.
Qed.

(** C89: affine maps. *)
Lemma affine_data on nd p per dims ranges n (f : mesh (list R)) g a b :
  good_input nd p per dims ranges -> m_dims f = dims -> wf_mesh f -> (0 < n)%nat -> (0 < length b)%nat ->
  vinterp_make Rops (vec_vops Rops n) on nd p per f ranges = Ok g ->
  exists g', vinterp_make Rops (vec_vops Rops (length b)) on nd p per (mesh_map (affine n a b) f) ranges = Ok g' /\
    forall xs, length xs = length per -> countable_point nd per dims ranges xs ->
      exists v, vinterp_eval Rops (vec_vops Rops n) g xs = Ok v /\
        vinterp_eval Rops (vec_vops Rops (length b)) g' xs = Ok (affine n a b v).
Proof.
  intros GI Ef Wf Hn Hb E. set (m := length b) in *.
  set (f' := mesh_map (affine n a b) f).
  assert (Wf' : wf_mesh f') by (apply wf_map; auto).
  set (one := mesh_map (fun _ : list R => 1) f).
  (* each component of the image *)
  assert (K : forall i, (i < m)%nat -> exists h, interp_make Rops on nd p per (mesh_map (fun v => nth i v 0) f') ranges = Ok h /\
     forall xs, length xs = length per -> countable_point nd per dims ranges xs ->
      exists v, vinterp_eval Rops (vec_vops Rops n) g xs = Ok v /\ interp_eval Rops h xs = Ok (nth i (affine n a b v) 0)).
  { intros i Hi.
    pose proof (values_component Rops _ _ on nd p per f ranges (vec_dot n (nth i a []) Hn)) as H. rewrite E in H.
    destruct (interp_make Rops on nd p per (mesh_map (dot n (nth i a [])) f) ranges) as [h1| |] eqn:E1; try easy.
    destruct H as [H _].
    destruct (transfer nd p per dims ranges ranges GI GI (same_grid_refl nd per dims ranges) on on
      (mesh_map (dot n (nth i a [])) f) one h1 Ef (wf_map _ _ Wf) Ef (wf_map _ _ Wf) E1) as (mats & h2 & _ & E2 & _).
    destruct (linear_data on nd p per dims ranges (mesh_map (dot n (nth i a [])) f) one (mesh_map (fun v => nth i v 0) f') h1 h2 1 (nth i b 0)
      GI Ef (wf_map _ _ Wf) Ef (wf_map _ _ Wf) Ef (wf_map _ _ Wf')) as (h & Eh & Hh); auto.
    - intros idx V. rewrite val_vec. unfold val_at, vec_at. simpl. rewrite Ef.
      assert (Hr : (row_major dims idx < length (m_data f))%nat) by (rewrite Wf, Ef; apply row_major_lt; auto).
      rewrite (nth_indep (map (affine n a b) _) _ (affine n a b [])) by (rewrite map_length; auto). rewrite map_nth.
      rewrite (nth_indep (map (dot n (nth i a [])) _) 0 (dot n (nth i a []) [])) by (rewrite map_length; auto). rewrite map_nth.
      rewrite (nth_indep (map (fun _ => 1) _) 0 1) by (rewrite map_length; auto).
      rewrite (map_nth (fun _ : list R => 1) _ []). unfold affine at 1. rewrite nth_map_seq by auto. ring.
    - exists h. split; auto. intros xs Lx Cx.
      destruct (Hh xs (repeat 0%nat (length per)) Lx (repeat_length _ _) Cx) as [(u & w & U1 & U2 & U3) _].
      destruct (constant_data on nd p per dims ranges one h2 1 GI Ef (wf_map _ _ Wf)) with (xs := xs) (orders := repeat 0%nat (length per)) as [W1 _]; auto.
      + intros v Hv. unfold one in Hv. simpl in Hv. apply in_map_iff in Hv as (? & <- & _). auto.
      + apply repeat_length.
      + rewrite W1 in U2. injection U2 as <-.
        specialize (H xs). destruct H as [H _]. apply same_rmap in H. rewrite U1 in H.
        destruct (vinterp_eval Rops (vec_vops Rops n) g xs) as [v| |]; try discriminate. injection H as ->.
        exists v. split; auto. rewrite U3. f_equal. unfold affine. rewrite nth_map_seq by auto. ring. }
  destruct (K 0%nat Hb) as (h0 & E0 & _).
  destruct (component_made on nd p per m f' ranges h0 Hb E0) as (g' & E').
  exists g'. split; auto. intros xs Lx Cx.
  destruct (K 0%nat Hb) as (h0' & _ & K0). destruct (K0 xs Lx Cx) as (v & Ev & _).
  exists v. split; auto. apply (vector_value m); auto.
  - unfold affine. rewrite map_length, seq_length. auto.
  - intros w. apply vec_length.
  - intros i Hi. destruct (component_value on nd p per m f' ranges g' i Hi E') as (h & Eh & Hh).
    rewrite <- Hh. destruct (K i Hi) as (h' & Eh' & K'). rewrite Eh in Eh'. injection Eh' as <-.
    destruct (K' xs Lx Cx) as (v' & Ev' & R'). rewrite Ev in Ev'. injection Ev' as <-. auto.
Qed.

(** C89: half-spaces, hence the convex hull of the control points. *)
Lemma grid_in_range on nd p per dims ranges f g xs :
  good_input nd p per dims ranges -> m_dims f = dims -> wf_mesh f ->
  interp_make Rops on nd p per f ranges = Ok g -> in_grid nd per dims ranges xs ->
  forall d, (d < length per)%nat -> in_range (if_spline g) d (nth d xs 0).
Proof.
  intros GI Ef Wf E HI d Hd. destruct (interp_make_spec on nd p per dims ranges f GI Ef Wf) as (mats & _ & _ & HG & _).
  pose proof (HG g E) as IP. unfold in_range. rewrite (s_per_of _ _ _ _ _ _ _ _ IP).
  destruct (HI d Hd) as [H|H]; auto. destruct (nth d per false) eqn:Ep; auto. right.
  destruct (s_ap nd p per dims ranges f g mats IP d Hd Ep) as [L K].
  pose proof (s_N nd p per dims ranges GI d Hd) as HN. pose proof (s_two nd p per dims ranges GI d Hd Ep) as H2.
  unfold last_of. rewrite L, (s_order _ _ _ _ _ _ _ _ IP).
  rewrite !K by lia. unfold ap_knot. rewrite Nat.leb_refl.
  replace (nth d (ddims nd per dims) 0 + p + 1 - p - 2 + 1)%nat with (nth d (ddims nd per dims) 0%nat) by lia.
  rewrite Nat.ltb_irrefl. destruct (Nat.leb_spec (nth d (ddims nd per dims) 0%nat) p); [lia|].
  rewrite (ddims_nth nd per dims d Hd), Ep in *. exact H.
Qed.

Lemma lower_bound (l : list R) : exists b, forall c, In c l -> b <= c.
Proof.
  induction l as [|a l (b & IH)]; [exists 0; easy|]. exists (Rmin a b). intros c [<-|H].
  - apply Rmin_l. - specialize (IH c H). pose proof (Rmin_r a b). lra.
Qed.

Lemma vector_hull on nd p per dims ranges n (f : mesh (list R)) g :
  good_input nd p per dims ranges -> m_dims f = dims -> wf_mesh f -> (0 < n)%nat ->
  vinterp_make Rops (vec_vops Rops n) on nd p per f ranges = Ok g ->
  forall xs, length xs = length per -> countable_point nd per dims ranges xs -> in_grid nd per dims ranges xs ->
  exists v, vinterp_eval Rops (vec_vops Rops n) g xs = Ok v /\
    forall w c, (forall q, In q (m_data (vf_ctrl g)) -> dot n w q <= c) -> dot n w v <= c.
Proof.
  intros GI Ef Wf Hn E xs Lx Cx Ix.
  assert (H : forall w, exists h, interp_make Rops on nd p per (mesh_map (dot n w) f) ranges = Ok h /\
     m_data (sp_ctrl (if_spline h)) = map (dot n w) (m_data (vf_ctrl g)) /\
     interp_eval Rops h xs = rmap (dot n w) (vinterp_eval Rops (vec_vops Rops n) g xs)).
  { intros w. destruct (preserves_eqs _ _ _ (vec_dot n w Hn)) as (P0 & P1 & P2 & P3).
    rewrite scalar_make, (make_map Rops _ _ (dot n w) on nd P0 P2 P3), E. simpl.
    eexists. split; [reflexivity|]. split; [reflexivity|]. rewrite scalar_eval. apply eval_map; auto. }
  assert (S : forall w, exists h, interp_make Rops on nd p per (mesh_map (dot n w) f) ranges = Ok h /\
     m_data (sp_ctrl (if_spline h)) = map (dot n w) (m_data (vf_ctrl g)) /\
     rmap (dot n w) (vinterp_eval Rops (vec_vops Rops n) g xs) = Ok (sval (if_spline h) xs) /\
     forall lo hi, (forall c, In c (m_data (sp_ctrl (if_spline h))) -> lo <= c <= hi) -> lo <= sval (if_spline h) xs <= hi).
  { intros w. destruct (H w) as (h & Eh & Dh & Vh). exists h. split; auto. split; auto.
    destruct (interp_make_spec on nd p per dims ranges (mesh_map (dot n w) f) GI Ef (wf_map _ _ Wf)) as (mats & _ & _ & HG & _).
    pose proof (HG h Eh) as IP. rewrite <- Vh, (s_eval nd p per dims ranges _ h mats GI IP) by auto. split; auto.
    intros lo hi B. pose proof (s_good nd p per dims ranges _ h mats GI IP) as G.
    apply (convex_hull _ xs lo hi G).
    - rewrite (s_dim _ _ _ _ _ _ _ _ IP). exact Lx.
    - rewrite (s_dim _ _ _ _ _ _ _ _ IP). refine (grid_in_range on nd p per dims ranges (mesh_map (dot n w) f) h xs GI Ef (wf_map _ _ Wf) Eh Ix).
    - intros idx Vi. apply B. unfold ctrl_at. apply nth_In. rewrite (ip_wf _ _ _ _ _ _ _ _ IP). apply row_major_lt. auto. }
  destruct (vinterp_eval Rops (vec_vops Rops n) g xs) as [v|e|u].
  - exists v. split; auto. intros w c B. destruct (S w) as (h & _ & Dh & Vh & Hh). simpl in Vh. injection Vh as ->.
    destruct (lower_bound (m_data (sp_ctrl (if_spline h)))) as (b & Hb).
    apply (Hh b c). intros q Hq. split; auto. rewrite Dh in Hq. apply in_map_iff in Hq as (q' & <- & Hq'). auto.
  - destruct (S []) as (h & _ & _ & Vh & _). discriminate.
  - destruct (S []) as (h & _ & _ & Vh & _). discriminate.
Qed.
