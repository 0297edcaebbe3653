(** The MEX function: indexing of MATLAB arrays and the data mesh. *)
From Coq Require Import List Arith Lia Bool.
From Verif Require Import Base Num MeshM SpecMesh MeshProofs SplineM InterpM MatlabM SpecMatlab.
Import ListNotations.

Lemma mapM_seq {A B} (f : A -> res B) (g : A -> B) l :
  (forall a, In a l -> f a = Ok (g a)) -> mapM f l = Ok (map g l).
Proof.
  induction l as [|a l IH]; intros H; cbn [mapM map]; auto.
  rewrite (H a) by (simpl; auto). cbn [bind]. rewrite IH by (intros; apply H; simpl; auto). reflexivity.
Qed.

Lemma mapM_same {A B} (f g : A -> res B) l : (forall a, In a l -> f a = g a) -> mapM f l = mapM g l.
Proof.
  induction l as [|a l IH]; intros H; cbn [mapM]; auto.
  rewrite (H a) by (simpl; auto). rewrite IH by (intros; apply H; simpl; auto). reflexivity.
Qed.

Lemma inverse_rev n : inverse_indices n = rev (seq 0 n).
Proof.
  unfold inverse_indices. apply (nth_ext _ _ 0 0).
  - rewrite map_length, rev_length. auto.
  - intros i Hi. rewrite map_length, seq_length in Hi.
    rewrite (nth_indep _ 0 (n - 0 - 1)) by (rewrite map_length, seq_length; auto).
    rewrite (map_nth (fun i => n - i - 1)). rewrite seq_nth by auto.
    rewrite rev_nth by (rewrite seq_length; auto). rewrite seq_length, seq_nth by lia. lia.
Qed.

Lemma in_inverse n d : In d (inverse_indices n) <-> d < n.
Proof. rewrite inverse_rev, <- in_rev, in_seq. lia. Qed.

Lemma map_seq_id {A} (l : list A) (d : A) : map (fun i => nth i l d) (seq 0 (length l)) = l.
Proof.
  apply (nth_ext _ _ d d).
  - rewrite map_length, seq_length. auto.
  - intros i Hi. rewrite map_length, seq_length in Hi.
    rewrite (nth_indep _ d (nth 0 l d)) by (rewrite map_length, seq_length; auto).
    rewrite (map_nth (fun i => nth i l d)). rewrite seq_nth by auto. reflexivity.
Qed.

Lemma reverse_args_ok is : reverse_args is = Ok (rev is).
Proof.
  unfold reverse_args. rewrite (mapM_seq _ (fun i => nth i is 0)).
  - rewrite inverse_rev, map_rev. rewrite map_seq_id. reflexivity.
  - intros i Hi. apply in_inverse in Hi. apply vget_ok. auto.
Qed.

(** ** Indexing *)
Lemma offset_fold dims : forall idx a s,
  fst (fold_left (fun r p => (fst r + fst p * snd r, snd r * snd p)) (combine idx dims) (a, s)) = a + s * col_major dims idx.
Proof.
  induction dims as [|n dims IH]; intros [|i idx] a s; cbn [combine fold_left col_major fst snd]; try lia.
  rewrite IH. lia.
Qed.

Lemma col_major_lt dims : forall idx, valid dims idx -> col_major dims idx < prod dims.
Proof.
  induction dims as [|n dims IH]; intros [|i idx] V; try (inversion V; fail); cbn [col_major prod]; [lia|].
  apply valid_cons in V as [H V]. specialize (IH idx V). nia.
Qed.

Lemma col_major_pad k : forall dims idx, col_major dims (idx ++ repeat 0 k) = col_major dims idx.
Proof.
  assert (Z : forall k dims, col_major dims (repeat 0 k) = 0).
  { intros j. induction j; intros [|n dims]; cbn [col_major repeat]; auto. rewrite IHj. lia. }
  intros dims. induction dims as [|n dims IH]; intros [|i idx].
  - apply (Z k []).
  - reflexivity.
  - apply (Z k (n :: dims)).
  - cbn [col_major app]. rewrite IH. reflexivity.
Qed.

Lemma arr_get_ok {A} (def : A) (x : marray A) idx k :
  wf_array x -> valid (a_dims x) (idx ++ repeat 0 k) -> arr_get x idx = Ok (elem def x idx).
Proof.
  intros W V. unfold arr_get, elem.
  assert (L : length idx <= length (a_dims x)).
  { apply valid_length in V. rewrite app_length in V. lia. }
  assert (F : forallb (fun p => fst p <? snd p) (combine idx (a_dims x)) = true).
  { revert V. clear. generalize (a_dims x). induction idx as [|i idx IH]; intros [|n ds] V; auto.
    cbn [app] in V. apply valid_cons in V as [H V]. cbn [combine forallb fst snd]. rewrite (IH ds V).
    apply Nat.ltb_lt in H. rewrite H. reflexivity. }
  apply Nat.leb_le in L. rewrite L, F. cbn [andb]. rewrite offset_fold. rewrite Nat.mul_1_l, Nat.add_0_l.
  apply vget_ok. rewrite W. rewrite <- (col_major_pad k). apply col_major_lt. auto.
Qed.

(** ** The loops that fill the mesh *)
Section Fill.
Context {T : Type} (def : T) (on : bool) (x : marray T) (ns sizes : list nat) (k : nat).
Hypothesis Wx : wf_array x.
Hypothesis Dx : a_dims x = ns ++ repeat 1 k.
Hypothesis Sz : forall idx, valid ns idx -> valid sizes (rev idx).

Definition body (f : mesh T) (is : list nat) : res (mesh T) :=
  js <- reverse_args is ;; v <- arr_get x is ;; mesh_set_safe on f js v.

Definition right (f : mesh T) (idx : list nat) : Prop :=
  nth (row_major sizes (rev idx)) (m_data f) def = elem def x idx.

Lemma elem_get idx : valid ns idx -> arr_get x idx = Ok (elem def x idx).
Proof.
  intros V. apply (arr_get_ok def x idx k Wx). rewrite Dx. apply valid_app; auto.
  clear. induction k; cbn [repeat]; constructor; auto.
Qed.

Definition step_ok (f f' : mesh T) : Prop :=
  m_dims f' = sizes /\ wf_mesh f' /\ forall idx, valid ns idx -> right f idx -> right f' idx.

Lemma step_refl f : m_dims f = sizes -> wf_mesh f -> step_ok f f.
Proof. intros. split; auto. Qed.
Lemma step_trans f g h : step_ok f g -> step_ok g h -> step_ok f h.
Proof. intros (_ & _ & A) (B & C & D). split; auto. Qed.

Lemma body_ok f is : m_dims f = sizes -> wf_mesh f -> valid ns is ->
  exists f', body f is = Ok f' /\ step_ok f f' /\ right f' is.
Proof.
  intros Df Wf V. unfold body. rewrite reverse_args_ok. cbn [bind]. rewrite elem_get by auto. cbn [bind].
  pose proof (Sz is V) as VS. rewrite <- Df in VS. rewrite mesh_set_safe_ok by auto.
  eexists; split; [reflexivity|].
  assert (R : right (mkMesh (m_dims f) (upd (m_data f) (row_major (m_dims f) (rev is)) (elem def x is))) is).
  { unfold right. cbn [m_data]. rewrite <- Df. apply nth_upd_same. rewrite Wf. apply row_major_lt; auto. }
  split; auto. split; [exact Df|]. split; [apply wf_mesh_upd; auto|].
  intros idx Vi Ri. destruct (list_eq_dec Nat.eq_dec idx is) as [->|N]; auto.
  unfold right in *. cbn [m_data]. rewrite nth_upd_other; auto. rewrite Df. intros E. apply N.
  apply row_major_inj in E; [|apply Sz; auto|apply Sz; auto].
  rewrite <- (rev_involutive idx), <- (rev_involutive is), E. reflexivity.
Qed.

Lemma loops_ok rdims : forall is tl f, ns = rev rdims ++ tl -> valid tl is -> m_dims f = sizes -> wf_mesh f ->
  exists f', col_loops body rdims is f = Ok f' /\ step_ok f f' /\ forall pre, valid (rev rdims) pre -> right f' (pre ++ is).
Proof.
  induction rdims as [|n rdims IH]; intros is tl f En V Df Wf.
  - cbn [rev app] in En. subst tl. destruct (body_ok f is Df Wf V) as (f' & E & S & R).
    exists f'. split; auto. split; auto. intros pre P. inversion P. auto.
  - cbn [col_loops]. unfold for_. rewrite Nat.sub_0_r.
    assert (G : forall l f, (forall i, In i l -> i < n) -> m_dims f = sizes -> wf_mesh f ->
      exists f', foldM (fun s i => col_loops body rdims (i :: is) s) l f = Ok f' /\ step_ok f f' /\
        forall i pre, In i l -> valid (rev rdims) pre -> right f' (pre ++ i :: is)).
    { clear f Df Wf. induction l as [|i l IHl]; intros f Hl Df Wf.
      - exists f. split; [reflexivity|]. split; [apply step_refl; auto|]. intros i pre [].
      - cbn [foldM]. destruct (IH (i :: is) (n :: tl) f) as (f1 & E1 & S1 & R1); auto.
        { rewrite En. cbn [rev]. rewrite <- app_assoc. reflexivity. }
        { apply valid_cons. split; auto. apply Hl. simpl; auto. }
        rewrite E1. cbn [bind]. destruct S1 as (D1 & W1 & P1).
        destruct (IHl f1) as (f2 & E2 & S2 & R2); auto. { intros j Hj. apply Hl. simpl; auto. }
        exists f2. split; auto. split; [apply (step_trans f f1 f2); auto; split; auto|].
        intros j pre [->|Hj] Vp; auto. apply S2; auto.
        rewrite En. cbn [rev]. rewrite <- app_assoc. apply valid_app; auto. apply valid_cons. split; auto.
        apply Hl. simpl; auto. }
    destruct (G (seq 0 n) f) as (f' & E & S & R); auto. { intros i Hi. apply in_seq in Hi. lia. }
    exists f'. split; auto. split; auto. intros pre P. cbn [rev] in P.
    apply Forall2_app_inv_r in P as (p1 & p2 & P1 & P2 & ->).
    inversion P2 as [|i ? l ? Hi P3]; subst. inversion P3; subst. rewrite <- app_assoc. cbn [app].
    apply R; auto. apply in_seq. lia.
Qed.

Lemma fill_ok : exists f, col_loops body (rev ns) [] (mesh_make def sizes) = Ok f /\ m_dims f = sizes /\ wf_mesh f /\
  forall idx, valid ns idx -> nth (row_major sizes (rev idx)) (m_data f) def = elem def x idx.
Proof.
  destruct (loops_ok (rev ns) [] [] (mesh_make def sizes)) as (f & E & (D & W & _) & R); auto.
  - rewrite rev_involutive, app_nil_r. reflexivity.
  - constructor.
  - apply wf_mesh_make.
  - exists f. split; auto. split; auto. split; auto. intros idx V. rewrite rev_involutive in R.
    specialize (R idx V). rewrite app_nil_r in R. exact R.
Qed.
End Fill.

(** ** Shapes *)
Lemma filter_shape {T} (mesh : marray T) D ns k : a_dims mesh = ns ++ repeat 1 k -> length ns = D ->
  Forall (fun n => 2 <= n) ns -> mex_dim mesh = D.
Proof.
  intros E L F. unfold mex_dim. rewrite E, filter_app, app_length.
  replace (filter (fun n => 1 <? n) ns) with ns.
  - replace (filter (fun n => 1 <? n) (repeat 1 k)) with (@nil nat); [cbn [length]; lia|].
    clear. induction k; cbn [repeat filter]; auto.
  - clear - F. induction F; cbn [filter]; auto. destruct (Nat.ltb_spec 1 x); [congruence|lia].
Qed.

Lemma shaped_check {T} D N per (range mesh coor : marray T) deriv :
  1 <= D -> shaped_data D per range mesh -> shaped_points D N coor deriv -> mex_check per range mesh coor deriv = true.
Proof.
  intros D1 (_ & _ & _ & E1 & E3 & ns & k & L & F & E5) (_ & _ & E4 & E2). unfold mex_check.
  rewrite (filter_shape mesh D ns k) by auto. rewrite E1, E2, E3, E4, E5. cbn [nth length]. rewrite !Nat.eqb_refl.
  destruct ns as [|n ns]; [cbn [length] in L; lia|]. cbn [app nth]. inversion F; subst.
  replace (n =? 1) with false by (symmetry; apply Nat.eqb_neq; lia). reflexivity.
Qed.

Lemma mex_shaped {T} (o : ops T) on nd order D N per (range mesh coor : marray T) deriv :
  1 <= D <= 3 -> shaped_data D per range mesh -> shaped_points D N coor deriv ->
  mex o on nd order per range mesh coor deriv = Done (mex_nd o on nd D order per range mesh coor deriv).
Proof.
  intros HD S SP. unfold mex. rewrite (shaped_check D N) by (auto; lia).
  destruct S as (_ & _ & _ & _ & _ & ns & k & L & F & E5).
  rewrite (filter_shape mesh D ns k) by auto.
  destruct D as [|[|[|[|D]]]]; try lia; reflexivity.
Qed.

(** The sizes of the mesh. *)
Definition mesh_sizes {T} (D : nat) (per : marray bool) (mesh : marray T) : list nat :=
  map (fun d => size_of mesh d + (if flag_of per d then 1 else 0)) (rev (seq 0 D)).

Lemma sizes_nth {T} D per (mesh : marray T) d : d < D ->
  nth d (mesh_sizes D per mesh) 0 = size_of mesh (D - S d) + (if flag_of per (D - S d) then 1 else 0).
Proof.
  intros H. unfold mesh_sizes.
  rewrite (nth_indep _ 0 ((fun d => size_of mesh d + (if flag_of per d then 1 else 0)) 0))
    by (rewrite map_length, rev_length, seq_length; auto).
  rewrite (map_nth (fun d => size_of mesh d + (if flag_of per d then 1 else 0))).
  rewrite rev_nth by (rewrite seq_length; auto). rewrite seq_length, seq_nth by lia. reflexivity.
Qed.

Lemma column_get {A} (def : A) (x : marray A) D d : wf_array x -> a_dims x = [D; 1] -> d < D ->
  arr_get x [d] = Ok (elem def x [d]).
Proof.
  intros W E H. apply (arr_get_ok def x [d] 1 W). rewrite E. repeat constructor; auto.
Qed.
Lemma table_get {A} (def : A) (x : marray A) n m i j : wf_array x -> a_dims x = [n; m] -> i < n -> j < m ->
  arr_get x [i; j] = Ok (elem def x [i; j]).
Proof.
  intros W E H1 H2. apply (arr_get_ok def x [i; j] 0 W). rewrite E. repeat constructor; auto.
Qed.

Lemma mex_mesh_ok {T} (o : ops T) on D per (range mesh : marray T) :
  shaped_data D per range mesh ->
  exists f, mex_mesh o on D per mesh = Ok f /\ m_dims f = mesh_sizes D per mesh /\ wf_mesh f /\
    forall idx, length idx = D -> (forall d, d < D -> nth d idx 0 < size_of mesh d) ->
      nth (row_major (m_dims f) (rev idx)) (m_data f) (o0 o) = elem (o0 o) mesh idx.
Proof.
  intros (Wp & Wr & Wm & E1 & E3 & ns & k & L & F & E5).
  assert (SZ : forall d, d < D -> size_of mesh d = nth d ns 0).
  { intros d Hd. unfold size_of. rewrite E5, app_nth1 by lia. reflexivity. }
  unfold mex_mesh. rewrite (mapM_seq _ (fun d => nth d ns 0)).
  2:{ intros d Hd. apply in_seq in Hd. rewrite (vget_ok _ _ 0) by (rewrite E5, app_length; lia).
      rewrite E5, app_nth1 by lia. reflexivity. }
  cbn [bind]. replace (map (fun d => nth d ns 0) (seq 0 D)) with ns by (rewrite <- L; symmetry; apply map_seq_id).
  rewrite (mapM_seq _ (fun d => size_of mesh d + (if flag_of per d then 1 else 0))).
  2:{ intros d Hd. apply in_inverse in Hd. rewrite (vget_ok _ _ 0) by lia. cbn [bind].
      rewrite (column_get false per D) by (auto; lia). cbn [bind]. rewrite SZ by lia. reflexivity. }
  cbn [bind]. rewrite inverse_rev. fold (mesh_sizes D per mesh).
  set (sizes := mesh_sizes D per mesh).
  assert (Ls : length sizes = D). { unfold sizes, mesh_sizes. rewrite map_length, rev_length, seq_length. auto. }
  destruct (fill_ok (o0 o) on mesh ns sizes k Wm E5) as (f & E & Df & Wf & R).
  - intros idx V. pose proof (valid_length _ _ V) as Li. rewrite valid_nth in V by auto. apply valid_nth.
    { rewrite rev_length. lia. }
    intros d Hd. rewrite Ls in Hd. rewrite rev_nth by lia. unfold sizes. rewrite sizes_nth by auto. rewrite Li, L.
    rewrite SZ by lia. specialize (V (D - S d) ltac:(lia)). lia.
  - exists f. unfold body in E. rewrite E. split; auto. split; auto. split; auto.
    intros idx Li Hi. rewrite Df. apply R. apply valid_nth; [lia|]. intros d Hd. rewrite <- SZ by lia. apply Hi. lia.
Qed.

(** The constructor call and the evaluations. *)
Lemma mex_nd_eq {T} (o : ops T) on nd order D N per (range mesh coor : marray T) deriv f :
  shaped_data D per range mesh -> shaped_points D N coor deriv -> mex_mesh o on D per mesh = Ok f ->
  mex_nd o on nd D order per range mesh coor deriv =
    (g <- interp_make o on nd order (rev (map (fun d => flag_of per d) (seq 0 D))) f
            (rev (map (fun d => Uniform (elem (o0 o) range [d; 0]) (elem (o0 o) range [d; 1])) (seq 0 D))) ;;
     mapM (fun i => interp_derivative o on g (rev (map (fun d => elem (o0 o) coor [i; d]) (seq 0 D)))
                      (rev (map (fun d => order_of deriv d) (seq 0 D)))) (seq 0 N)).
Proof.
  intros (Wp & Wr & Wm & E1 & E3 & _) (Wc & Wd & E4 & E2) Ef. unfold mex_nd. rewrite Ef. cbn [bind].
  rewrite (mapM_seq _ (fun d => flag_of per d)).
  2:{ intros d Hd. apply in_inverse in Hd. apply (column_get false per D); auto. }
  cbn [bind]. rewrite (mapM_seq _ (fun d => Uniform (elem (o0 o) range [d; 0]) (elem (o0 o) range [d; 1]))).
  2:{ intros d Hd. apply in_inverse in Hd. rewrite !(table_get (o0 o) range D 2) by (auto; lia). reflexivity. }
  cbn [bind]. rewrite inverse_rev, !map_rev.
  destruct (interp_make _ _ _ _ _ _ _) as [g|e|u]; cbn [bind]; auto.
  rewrite E4. cbn [vget nth_error bind].
  apply mapM_same. intros i Hi. apply in_seq in Hi.
  rewrite (mapM_seq _ (fun d => elem (o0 o) coor [i; d])).
  2:{ intros d Hd. apply in_rev, in_seq in Hd. apply (table_get (o0 o) coor N D); auto; lia. }
  cbn [bind]. rewrite (mapM_seq _ (fun d => order_of deriv d)).
  2:{ intros d Hd. apply in_rev, in_seq in Hd. apply (column_get 0 deriv D); auto. lia. }
  cbn [bind]. rewrite !map_rev. reflexivity.
Qed.

(** Arrays with more than three dimensions end the process. *)
Lemma mex_terminates {T} (o : ops T) on nd order D N per (range mesh coor : marray T) deriv :
  4 <= D -> shaped_data D per range mesh -> shaped_points D N coor deriv ->
  mex o on nd order per range mesh coor deriv = Terminated.
Proof.
  intros HD S SP. unfold mex. rewrite (shaped_check D N) by (auto; lia).
  destruct S as (_ & _ & _ & _ & _ & ns & k & L & F & E5).
  rewrite (filter_shape mesh D ns k) by auto.
  destruct D as [|[|[|[|D]]]]; try lia; reflexivity.
Qed.

(** What is checked. *)
Lemma mex_checked {T} (o : ops T) on nd order per (range mesh coor : marray T) deriv D ns k :
  a_dims mesh = ns ++ repeat 1 k -> length ns = D -> Forall (fun n => 2 <= n) ns ->
  mex o on nd order per range mesh coor deriv <> Rejected ->
  a_dims range = [D; 2] /\ (exists N, a_dims coor = [N; D]) /\ nth 0 (a_dims per) 0 = D /\ nth 0 (a_dims deriv) 0 = D.
Proof.
  intros E L F H. unfold mex in H. destruct (mex_check per range mesh coor deriv) eqn:C; [|congruence].
  unfold mex_check in C. rewrite (filter_shape mesh D ns k) in C by auto.
  rewrite !andb_true_iff, !Nat.eqb_eq in C. destruct C as (((((((C1 & C2) & C3) & C4) & C5) & C6) & C7) & C8).
  destruct (a_dims range) as [|r0 [|r1 [|]]]; try discriminate. destruct (a_dims coor) as [|c0 [|c1 [|]]]; try discriminate.
  cbn [nth] in *. subst. split; auto. split; eauto.
Qed.

(** The wrapper in any arithmetic: one constructor call with everything in
    reverse order, one derivative call for each row. *)
Lemma mex_calls {T} (o : ops T) on nd order D N per (range mesh coor : marray T) deriv :
  1 <= D <= 3 -> shaped_data D per range mesh -> shaped_points D N coor deriv ->
  exists f, m_dims f = rev (map (fun d => size_of mesh d + (if flag_of per d then 1 else 0)) (seq 0 D)) /\ wf_mesh f /\
    (forall idx, length idx = D -> (forall d, d < D -> nth d idx 0 < size_of mesh d) ->
       nth (row_major (m_dims f) (rev idx)) (m_data f) (o0 o) = elem (o0 o) mesh idx) /\
    mex o on nd order per range mesh coor deriv = Done (
      g <- interp_make o on nd order (rev (map (fun d => flag_of per d) (seq 0 D))) f
            (rev (map (fun d => Uniform (elem (o0 o) range [d; 0]) (elem (o0 o) range [d; 1])) (seq 0 D))) ;;
      mapM (fun i => interp_derivative o on g (rev (map (fun d => elem (o0 o) coor [i; d]) (seq 0 D)))
                       (rev (map (fun d => order_of deriv d) (seq 0 D)))) (seq 0 N)).
Proof.
  intros HD S SP. destruct (mex_mesh_ok o on D per range mesh S) as (f & Ef & Df & Wf & Vf).
  exists f. split; [rewrite Df; unfold mesh_sizes; rewrite map_rev; reflexivity|]. split; auto. split; auto.
  rewrite (mex_shaped o on nd order D N) by auto. f_equal. apply mex_nd_eq; auto.
Qed.
