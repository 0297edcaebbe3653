(** Proofs for SpecValue: maps of values commute with construction and
    evaluation, in any arithmetic. *)
From Coq Require Import List Arith Lia Bool ZArith.
From Verif Require Import Base Num MeshM ProgM BandM LUM SplineM InterpM VecM SpecValue.
Import ListNotations.

(** ** Outcomes *)
Definition rmap {A B} (pi : A -> B) (r : res A) : res B :=
  match r with Ok a => Ok (pi a) | Throw e => Throw e | Fault u => Fault u end.

Lemma same_rmap {A B} (pi : A -> B) r r' : same_outcome pi r r' <-> r' = rmap pi r.
Proof. destruct r, r'; simpl; split; intros H; try easy; try congruence; inversion H; auto. Qed.

Lemma rmap_bind {A B A' B'} (pa : A -> A') (pb : B -> B') r r' f f' :
  r' = rmap pa r -> (forall a, r = Ok a -> f' (pa a) = rmap pb (f a)) ->
  bind r' f' = rmap pb (bind r f).
Proof. intros -> H. destruct r; simpl; auto. Qed.

Lemma rmap_bind_same {A B B'} (pb : B -> B') (r : res A) f f' :
  (forall a, f' a = rmap pb (f a)) -> bind r f' = rmap pb (bind r f).
Proof. intros H. destruct r; simpl; auto. Qed.

Lemma rmap_foldM {S S' I} (ps : S -> S') f f' (l : list I) s :
  (forall s i, f' (ps s) i = rmap ps (f s i)) ->
  foldM f' l (ps s) = rmap ps (foldM f l s).
Proof.
  intros H. revert s; induction l; intros s; simpl; auto.
  eapply rmap_bind; [apply H|]. intros; apply IHl.
Qed.

Lemma rmap_for {S S'} (ps : S -> S') lo hi f f' s :
  (forall s i, f' (ps s) i = rmap ps (f s i)) ->
  for_ lo hi (ps s) f' = rmap ps (for_ lo hi s f).
Proof. apply rmap_foldM. Qed.

Lemma rmap_vget {V W} (pi : V -> W) l i : vget (map pi l) i = rmap pi (vget l i).
Proof. unfold vget. rewrite nth_error_map. destruct (nth_error l i); auto. Qed.

Lemma upd_map {V W} (pi : V -> W) l i a : upd (map pi l) i (pi a) = map pi (upd l i a).
Proof. revert i; induction l; destruct i; simpl; auto. f_equal; auto. Qed.

Lemma rmap_vset {V W} (pi : V -> W) l i a : vset (map pi l) i (pi a) = rmap (map pi) (vset l i a).
Proof. unfold vset. rewrite map_length, upd_map. destruct (i <? length l); auto. Qed.

Lemma map_repeat {V W} (pi : V -> W) a n : map pi (repeat a n) = repeat (pi a) n.
Proof. induction n; simpl; congruence. Qed.

Lemma rmap_id {A} (r : res A) : rmap (fun a => a) r = r.
Proof. destruct r; auto. Qed.

Section Map.
Context {T V W : Type} (o : ops T) (vo : vops T V) (wo : vops T W) (pi : V -> W) (on nd : bool).
Hypothesis P0 : pi (v_zero vo) = v_zero wo.
Hypothesis Pmac : forall v t c, pi (v_mac vo v t c) = v_mac wo (pi v) t (pi c).
Hypothesis Pmsub : forall v t c, pi (v_msub vo v t c) = v_msub wo (pi v) t (pi c).
Hypothesis Pdiv : forall v t, v_div wo (pi v) t = rmap pi (v_div vo v t).

(** ** Programs *)
Inductive psim {A} : prog V A -> prog W A -> Prop :=
| sim_ret a : psim (Ret a) (Ret a)
| sim_rd l k k' : (forall v, psim (k v) (k' (pi v))) -> psim (Rd l k) (Rd l k')
| sim_wr l v k k' : psim k k' -> psim (Wr l v k) (Wr l (pi v) k')
| sim_throw e : psim (PThrow e) (PThrow e)
| sim_fault u : psim (PFault u) (PFault u).

Lemma sim_bind {A B} (p : prog V A) p' (f : A -> prog V B) f' :
  psim p p' -> (forall a, psim (f a) (f' a)) -> psim (pbind p f) (pbind p' f').
Proof. induction 1; intros; simpl; auto; constructor; auto. Qed.

Lemma sim_lift {A} (r : res A) : psim (plift r) (plift r).
Proof. destruct r; constructor. Qed.

Lemma sim_lift_bind {A B} (r : res A) (f : A -> prog V B) f' :
  (forall a, psim (f a) (f' a)) -> psim (pbind (plift r) f) (pbind (plift r) f').
Proof. intros. apply sim_bind; auto using sim_lift. Qed.

Lemma sim_piter {I} (f : I -> prog V unit) f' l :
  (forall i, psim (f i) (f' i)) -> psim (piter f l) (piter f' l).
Proof. intros H. induction l; simpl; [constructor|]. apply sim_bind; auto. Qed.

Lemma sim_pfor lo hi (f : nat -> prog V unit) f' :
  (forall i, psim (f i) (f' i)) -> psim (pfor lo hi f) (pfor lo hi f').
Proof. apply sim_piter. Qed.

Lemma sim_pfor_down n (f : nat -> prog V unit) f' :
  (forall i, psim (f i) (f' i)) -> psim (pfor_down n f) (pfor_down n f').
Proof. apply sim_piter. Qed.

Definition mmap : mem V -> mem W := map (map pi).

Lemma mem_get_map m l : mem_get (mmap m) l = rmap pi (mem_get m l).
Proof.
  unfold mem_get, mmap. rewrite nth_error_map. destruct (nth_error m (fst l)); simpl; auto.
  apply rmap_vget.
Qed.

Lemma mem_set_map m l v : mem_set (mmap m) l (pi v) = rmap mmap (mem_set m l v).
Proof.
  unfold mem_set, mmap. rewrite nth_error_map. destruct (nth_error m (fst l)); simpl; auto.
  eapply rmap_bind; [apply rmap_vset|]. intros. simpl. f_equal. apply upd_map.
Qed.

Lemma run_sim {A} (p : prog V A) p' m :
  psim p p' -> run p' (mmap m) = rmap (fun r => (fst r, mmap (snd r))) (run p m).
Proof.
  intros S. revert m; induction S; intros m; simpl; auto.
  - eapply rmap_bind; [apply mem_get_map|]. auto.
  - eapply rmap_bind; [apply mem_set_map|]. auto.
Qed.

(** ** Solving *)
Lemma sim_sub_assign iter a i j : psim (vit_sub_assign vo iter a i j) (vit_sub_assign wo iter a i j).
Proof.
  unfold vit_sub_assign. simpl. constructor. intros v. apply sim_lift_bind. intros t.
  constructor. intros w. rewrite <- Pmsub. constructor. constructor.
Qed.

Lemma sim_div_assign iter a j : psim (vit_div_assign vo iter a j) (vit_div_assign wo iter a j).
Proof.
  unfold vit_div_assign. simpl. constructor. intros v. apply sim_lift_bind. intros t.
  rewrite Pdiv. destruct (v_div vo v t); simpl; repeat constructor.
Qed.

Lemma sim_band_solve m iter : psim (vband_solve vo on m iter) (vband_solve wo on m iter).
Proof.
  apply sim_bind.
  - apply sim_pfor; intros j. apply sim_pfor; intros i. apply sim_sub_assign.
  - intros _. apply sim_pfor_down; intros j. apply sim_bind; [apply sim_div_assign|].
    intros _. apply sim_pfor; intros i. apply sim_sub_assign.
Qed.

Lemma sim_eband_solve m iter : psim (veband_solve vo on m iter) (veband_solve wo on m iter).
Proof.
  apply sim_bind.
  - apply sim_pfor; intros j. apply sim_bind; [apply sim_pfor; intros i; apply sim_sub_assign|].
    intros _. apply sim_lift_bind; intros np1. destruct (j <? np1); [|constructor].
    apply sim_lift_bind; intros nq. apply sim_pfor; intros i. apply sim_sub_assign.
  - intros _. apply sim_pfor_down; intros j. apply sim_bind; [apply sim_div_assign|].
    intros _. apply sim_bind; [apply sim_pfor; intros i; apply sim_sub_assign|].
    intros _. apply sim_lift_bind; intros np1. destruct (np1 <? j); [|constructor].
    apply sim_lift_bind; intros e. apply sim_pfor; intros i. apply sim_sub_assign.
Qed.

Lemma sim_block sv d odims ndims lo hi :
  psim (vsolve_block vo on sv d odims ndims lo hi) (vsolve_block wo on sv d odims ndims lo hi).
Proof.
  unfold vsolve_block. apply sim_lift_bind; intros last. apply sim_lift_bind; intros ls.
  apply sim_pfor; intros j. apply sim_lift_bind; intros ind.
  apply sim_lift_bind; intros ob. apply sim_lift_bind; intros oe. apply sim_lift_bind; intros nb.
  apply sim_bind; [destruct sv; [apply sim_band_solve|apply sim_eband_solve]|]. intros _.
  destruct (1 <? length odims); [|constructor]. apply sim_lift_bind; intros len.
  apply sim_pfor; intros k. simpl. constructor. intros v. repeat constructor.
Qed.

Lemma sim_round solvers dims d : psim (vsolve_round vo on solvers dims d) (vsolve_round wo on solvers dims d).
Proof.
  unfold vsolve_round. do 4 (apply sim_lift_bind; intros). apply sim_block.
Qed.

Lemma mesh_set_map m idx v : mesh_set (mesh_map pi m) idx (pi v) = rmap (mesh_map pi) (mesh_set m idx v).
Proof.
  unfold mesh_set. simpl. apply rmap_bind_same. intros i.
  eapply rmap_bind; [apply rmap_vset|]. auto.
Qed.

Lemma mesh_get_map m idx : mesh_get (mesh_map pi m) idx = rmap pi (mesh_get m idx).
Proof. unfold mesh_get. simpl. apply rmap_bind_same. intros i. apply rmap_vget. Qed.

Lemma mesh_make_map dims : mesh_make (v_zero wo) dims = mesh_map pi (mesh_make (v_zero vo) dims).
Proof. unfold mesh_make, mesh_map. simpl. rewrite map_repeat, P0. auto. Qed.

Lemma init_map order per wdims f :
  vinit_weights wo nd order per wdims (mesh_map pi f) = rmap (mesh_map pi) (vinit_weights vo nd order per wdims f).
Proof.
  unfold vinit_weights. unfold mesh_size. simpl. rewrite map_length, mesh_make_map.
  apply rmap_for. intros w off. unfold mesh_iter_indices. simpl.
  apply rmap_bind_same. intros idx. apply rmap_bind_same. intros [idx' keep].
  destruct keep; auto. eapply rmap_bind; [apply rmap_vget|]. intros; apply mesh_set_map.
Qed.

Lemma final_map dims m : final_mesh dims (mmap m) = rmap (mesh_map pi) (final_mesh dims m).
Proof.
  unfold final_mesh. unfold mmap. eapply rmap_bind; [apply rmap_vget|]. intros data _.
  apply rmap_bind_same. auto.
Qed.

Lemma solve_map t f : vsolve_ctrl wo on nd t (mesh_map pi f) = rmap (mesh_map pi) (vsolve_ctrl vo on nd t f).
Proof.
  unfold vsolve_ctrl. eapply rmap_bind; [apply init_map|]. intros w _.
  eapply rmap_bind.
  - replace (vinitial_mem wo (tp_dims t) (mesh_map pi w)) with (mmap (vinitial_mem vo (tp_dims t) w)).
    + apply run_sim. apply sim_pfor. intros d. apply sim_round.
    + unfold vinitial_mem, mmap. simpl. rewrite <- P0.
      destruct (1 <? length (tp_dims t)); simpl; rewrite ?map_repeat; auto.
  - intros r _. simpl. apply final_map.
Qed.

Definition vimap (g : vinterp T V) : vinterp T W := mkVInterp (vf_base g) (mesh_map pi (vf_ctrl g)).

Lemma make_map order per f ranges :
  vinterp_make o wo on nd order per (mesh_map pi f) ranges = rmap vimap (vinterp_make o vo on nd order per f ranges).
Proof.
  unfold vinterp_make. simpl. apply rmap_bind_same. intros t. unfold vinterpolate.
  eapply rmap_bind; [apply solve_map|]. auto.
Qed.

(** ** Evaluation *)
Lemma eval_map g xs : vinterp_eval o wo (vimap g) xs = rmap pi (vinterp_eval o vo g xs).
Proof.
  unfold vinterp_eval. simpl. apply rmap_bind_same. intros c. unfold vspline_eval.
  apply rmap_bind_same. intros iters. apply rmap_bind_same. intros vals.
  rewrite <- P0. apply rmap_for. intros v i. apply rmap_bind_same. intros ind.
  apply rmap_bind_same. intros [coef idx]. eapply rmap_bind; [apply mesh_get_map|].
  intros a _. simpl. rewrite Pmac. auto.
Qed.

Lemma at_map g xs : vinterp_at o wo (vimap g) xs = rmap pi (vinterp_at o vo g xs).
Proof. unfold vinterp_at. simpl. apply rmap_bind_same. intros _. apply eval_map. Qed.

(** ** Derivatives *)
Hypothesis Pconv : forall v t c, pi (v_mac_conv vo v t c) = v_mac_conv wo (pi v) t (pi c).
Hypothesis Pdiff : forall k a b t, v_diff wo k (pi a) (pi b) t = rmap pi (v_diff vo k a b t).

Lemma sk_at_map m it n : sk_at (mesh_map pi m) it n = rmap pi (sk_at m it n).
Proof.
  unfold sk_at, sk_deref. destruct (Z.ltb _ _); auto. simpl. apply rmap_vget.
Qed.

Lemma sk_set_map m it n v : sk_set (mesh_map pi m) it n (pi v) = rmap (mesh_map pi) (sk_set m it n v).
Proof.
  unfold sk_set. destruct (Z.ltb _ _); auto. simpl. eapply rmap_bind; [apply rmap_vset|]. auto.
Qed.

Lemma derive_map order knots seg so m it :
  vderive_line o wo order knots seg so (mesh_map pi m) it =
  rmap (mesh_map pi) (vderive_line o vo order knots seg so m it).
Proof.
  unfold vderive_line. apply rmap_foldM. intros m' k. apply rmap_foldM. intros m'' j.
  eapply rmap_bind; [apply sk_at_map|]. intros a _.
  eapply rmap_bind; [apply sk_at_map|]. intros b _.
  apply rmap_bind_same; intros tr. apply rmap_bind_same; intros tl.
  eapply rmap_bind; [apply Pdiff|]. intros v _. apply sk_set_map.
Qed.

Lemma derivative_map g xs orders :
  vinterp_derivative o wo on (vimap g) xs orders = rmap pi (vinterp_derivative o vo on g xs orders).
Proof.
  unfold vinterp_derivative. simpl. apply rmap_bind_same. intros c. unfold vspline_derivative_at.
  destruct (existsb _ _); [simpl; rewrite P0; auto|].
  apply rmap_bind_same. intros iters. apply rmap_bind_same. intros vals.
  rewrite mesh_make_map.
  eapply (rmap_bind (fun st : mesh T * mesh V => (fst st, mesh_map pi (snd st)))).
  - match goal with |- for_ _ _ (?a, mesh_map pi ?b) _ = _ =>
      change (a, mesh_map pi b) with ((fun st : mesh T * mesh V => (fst st, mesh_map pi (snd st))) (a, b)) end.
    apply rmap_for. intros [lsv lcp] i. simpl. apply rmap_bind_same. intros [coef idx].
    apply rmap_bind_same. intros lsv'. eapply rmap_bind; [apply mesh_get_map|]. intros w _.
    eapply rmap_bind; [apply mesh_set_map|]. auto.
  - intros [lsv lcp] _. simpl.
    eapply (rmap_bind (mesh_map pi)).
    + apply rmap_for. intros lcp' d. apply rmap_bind_same. intros q.
      destruct (q =? _); auto. unfold mesh_dim_size. simpl. apply rmap_bind_same. intros n.
      unfold mesh_size. simpl. rewrite map_length. apply rmap_bind_same. intros h.
      apply rmap_for. intros lcp'' i. unfold mesh_begin. simpl. apply rmap_bind_same. intros it.
      apply rmap_bind_same; intros kn. apply rmap_bind_same; intros ki. apply derive_map.
    + intros lcp' _. rewrite <- P0. apply rmap_for. intros v i.
      apply rmap_bind_same. intros a. eapply rmap_bind; [apply rmap_vget|]. intros b _.
      simpl. rewrite Pconv. auto.
Qed.

Lemma derivative_at_map g xs orders :
  vinterp_derivative_at o wo on (vimap g) xs orders = rmap pi (vinterp_derivative_at o vo on g xs orders).
Proof. unfold vinterp_derivative_at. simpl. apply rmap_bind_same. intros _. apply derivative_map. Qed.

End Map.

(** ** Values of the type of the coordinates: the model of [InterpM.v] *)
Section Scalar.
Context {T : Type} (o : ops T) (on nd : bool).

Definition vito (g : vinterp T T) : interp T := set_ctrl (vf_base g) (vf_ctrl g).

Lemma scalar_make order per f ranges :
  interp_make o on nd order per f ranges = rmap vito (vinterp_make o (scalar_vops o) on nd order per f ranges).
Proof.
  unfold interp_make, vinterp_make. apply rmap_bind_same. intros t.
  unfold interpolate_move, vinterpolate.
  change (vsolve_ctrl (scalar_vops o) on nd t f) with (solve_ctrl o on nd t f).
  destruct (solve_ctrl o on nd t f); reflexivity.
Qed.

Lemma scalar_eval g xs : interp_eval o (vito g) xs = vinterp_eval o (scalar_vops o) g xs.
Proof. reflexivity. Qed.

Lemma scalar_at g xs : interp_at o (vito g) xs = vinterp_at o (scalar_vops o) g xs.
Proof. reflexivity. Qed.

Lemma scalar_derivative g xs orders :
  interp_derivative o on (vito g) xs orders = vinterp_derivative o (scalar_vops o) on g xs orders.
Proof. reflexivity. Qed.

Lemma scalar_derivative_at g xs orders :
  interp_derivative_at o on (vito g) xs orders = vinterp_derivative_at o (scalar_vops o) on g xs orders.
Proof. reflexivity. Qed.
End Scalar.
