(** The threads of a round and of the cell generation have disjoint
    footprints. *)
From Coq Require Import List Arith Lia Bool ZArith.
From Verif Require Import Base Num MeshM SpecMesh MeshProofs ProgM BandM LUM SplineM InterpM CellM ThreadsM.
From Verif Require Import TensorR SplineProofs EvalProofs RoundProofs LUConv SolveProofs CellProofs ThreadsProofs.
Import ListNotations.
Open Scope nat_scope.

(** ** Division into blocks *)
Definition block_list (l : nat * nat) : list nat := seq (fst l) (snd l - fst l).

Lemma blocks_le b h lo hi : In (lo, hi) (mt_blocks b h) -> lo <= hi <= h.
Proof.
  unfold mt_blocks. set (t := if b =? 0 then h else h / b). intros H.
  assert (Ht : b * t <= h). { unfold t. destruct (Nat.eqb_spec b 0); [lia|]. apply Nat.mul_div_le. auto. }
  apply in_app_or in H as [H|[H|[]]].
  - apply in_map_iff in H as (i & E & Hi). apply in_seq in Hi. injection E as <- <-. nia.
  - injection H as <- <-. lia.
Qed.

Lemma blocks_cover b h : concat (map block_list (mt_blocks b h)) = seq 0 h.
Proof.
  unfold mt_blocks. set (t := if b =? 0 then h else h / b).
  assert (Ht : b * t <= h). { unfold t. destruct (Nat.eqb_spec b 0); [lia|]. apply Nat.mul_div_le. auto. }
  rewrite map_app, concat_app. cbn [map concat]. rewrite app_nil_r, map_map. unfold block_list at 2. cbn [fst snd].
  assert (G : concat (map (fun i => block_list (i * t, (i + 1) * t)) (seq 0 b)) = seq 0 (b * t)).
  { clear Ht. clearbody t. induction b as [|b IH]; auto. rewrite seq_S, map_app, concat_app, IH. cbn [map concat Nat.add]. rewrite app_nil_r.
    unfold block_list. cbn [fst snd]. replace (S b * t) with (b * t + t) by lia. rewrite seq_app. f_equal. cbn [Nat.add]. f_equal. lia. }
  rewrite G. replace h with (b * t + (h - b * t)) at 2 by lia. rewrite seq_app. reflexivity.
Qed.

Lemma blocks_length b h : length (mt_blocks b h) = b + 1.
Proof. unfold mt_blocks. rewrite app_length, map_length, seq_length. simpl. lia. Qed.

Lemma blocks_order b h i j : i < j <= b -> snd (nth i (mt_blocks b h) (0, 0)) <= fst (nth j (mt_blocks b h) (0, 0)).
Proof.
  unfold mt_blocks. set (t := if b =? 0 then h else h / b). intros H.
  assert (G : forall k, k < b -> nth k (map (fun i => (i * t, (i + 1) * t)) (seq 0 b) ++ [(b * t, h)]) (0, 0) = (k * t, (k + 1) * t)).
  { intros k Hk. rewrite app_nth1 by (rewrite map_length, seq_length; lia).
    rewrite (nth_indep _ _ (0 * t, (0 + 1) * t)) by (rewrite map_length, seq_length; lia).
    rewrite (map_nth (fun i => (i * t, (i + 1) * t))). rewrite seq_nth by lia. reflexivity. }
  rewrite (G i) by lia. cbn [snd]. destruct (Nat.eq_dec j b) as [->|].
  - rewrite app_nth2 by (rewrite map_length, seq_length; lia). rewrite map_length, seq_length, Nat.sub_diag. cbn [nth fst]. nia.
  - rewrite (G j) by lia. cbn [fst]. nia.
Qed.

Lemma blocks_disjoint b h i j x : i <> j ->
  fst (nth i (mt_blocks b h) (0, 0)) <= x < snd (nth i (mt_blocks b h) (0, 0)) ->
  fst (nth j (mt_blocks b h) (0, 0)) <= x < snd (nth j (mt_blocks b h) (0, 0)) -> False.
Proof.
  intros Hij Hi Hj. pose proof (blocks_length b h) as L.
  assert (Bi : i <= b). { destruct (Nat.le_gt_cases i b); auto. rewrite (nth_overflow _ _ (n := i)) in Hi by lia. simpl in Hi. lia. }
  assert (Bj : j <= b). { destruct (Nat.le_gt_cases j b); auto. rewrite (nth_overflow _ _ (n := j)) in Hj by lia. simpl in Hj. lia. }
  destruct (Nat.lt_ge_cases i j).
  - pose proof (blocks_order b h i j). lia.
  - pose proof (blocks_order b h j i). lia.
Qed.

(** ** Sequential execution of all blocks *)
Section Ser.
Context {T : Type}.
Lemma run_piter_app {I} (f : I -> prog T unit) a b m : run (piter f (a ++ b)) m = (r <- run (piter f a) m ;; run (piter f b) (snd r)).
Proof.
  revert m; induction a as [|x a IH]; intros m; cbn [app piter]; auto.
  rewrite !run_bind. destruct (run (f x) m) as [r|e|u]; cbn [bind]; auto.
Qed.
Lemma run_ser_concat {I} (f : I -> prog T unit) ls m : run (ser (map (piter f) ls)) m = run (piter f (concat ls)) m.
Proof.
  revert m; induction ls as [|l ls IH]; intros m; cbn [map concat]; auto.
  unfold ser. cbn [piter]. rewrite run_bind, run_piter_app. destruct (run (piter f l) m) as [r|e|u]; cbn [bind]; auto.
Qed.
Lemma run_ser_blocks (f : nat -> prog T unit) b h m :
  run (ser (map (fun l => pfor (fst l) (snd l) f) (mt_blocks b h))) m = run (pfor 0 h f) m.
Proof.
  unfold pfor at 2. rewrite Nat.sub_0_r. rewrite <- (blocks_cover b h), <- run_ser_concat, map_map. reflexivity.
Qed.

(** A block only touches cells of its lines. *)
Lemma footed_blocks (f : nat -> prog T unit) b h (L : loc -> option nat) :
  (forall j, j < h -> within (fun l => match L l with Some x => x =? j | None => false end) (f j)) ->
  footed (fun i l => match L l with
                     | Some x => (fst (nth i (mt_blocks b h) (0, 0)) <=? x) && (x <? snd (nth i (mt_blocks b h) (0, 0)))
                     | None => false end)
         (map (fun l => pfor (fst l) (snd l) f) (mt_blocks b h)).
Proof.
  intros H. split.
  - intros i p E. assert (Hi : i < length (mt_blocks b h)).
    { rewrite <- (map_length (fun l => pfor (fst l) (snd l) f)). apply nth_error_Some. congruence. }
    rewrite (nth_error_nth' _ (pfor (fst (0, 0)) (snd (0, 0)) f)) in E by (rewrite map_length; auto).
    rewrite (map_nth (fun l => pfor (fst l) (snd l) f)) in E. injection E as <-.
    destruct (nth i (mt_blocks b h) (0, 0)) as [lo hi] eqn:En.
    assert (B : lo <= hi <= h). { apply (blocks_le b). rewrite <- En. apply nth_In. auto. }
    cbn [fst snd] in *. apply within_pfor. intros j Hj. eapply within_mono; [|apply H; lia].
    intros l. cbn beta. destruct (L l) as [x|]; [|discriminate]. intros Ex. apply Nat.eqb_eq in Ex. subst x.
    apply andb_true_intro. split; [apply Nat.leb_le|apply Nat.ltb_lt]; lia.
  - intros i j l Hij. cbn beta. destruct (L l) as [x|]; auto. intros Hi. apply not_true_iff_false. intros Hj.
    apply andb_prop in Hi as [H1 H2], Hj as [H3 H4]. apply Nat.leb_le in H1, H3. apply Nat.ltb_lt in H2, H4.
    apply (blocks_disjoint b h i j x); auto.
Qed.
End Ser.

(** ** Footprints of the solvers *)
Section Foot.
Context {T : Type} (o : ops T) (on : bool).

Definition solver_size (sv : solver T) : nat := match sv with Aperiodic b => b_n b | Periodic e => e_n e end.

Lemma within_sub F iter a i j : F (iter i) = true -> F (iter j) = true -> within F (it_sub_assign o iter a i j).
Proof.
  intros Hi Hj. unfold it_sub_assign. apply within_bind; [apply within_read; auto|]. intros x.
  apply within_bind; [apply within_lift|]. intros y. apply within_bind; [apply within_read; auto|]. intros z. apply within_write. auto.
Qed.
Lemma within_div F iter a j : F (iter j) = true -> within F (it_div_assign o iter a j).
Proof.
  intros Hj. unfold it_div_assign. apply within_bind; [apply within_read; auto|]. intros x.
  apply within_bind; [apply within_lift|]. intros y. apply within_bind; [apply within_lift|]. intros z. apply within_write. auto.
Qed.

Lemma within_solve F iter (sv : solver T) : (forall k, k < solver_size sv -> F (iter k) = true) -> within F (solver_solve o on sv iter).
Proof.
  destruct sv as [m|m]; cbn [solver_size solver_solve]; intros H.
  - unfold band_solve. apply within_bind.
    + apply within_pfor. intros j Hj. apply within_pfor. intros i Hi. apply within_sub; apply H; lia.
    + intros _. apply within_pfor_down. intros j Hj. apply within_bind; [apply within_div; apply H; lia|].
      intros _. apply within_pfor. intros i Hi. apply within_sub; apply H; lia.
  - unfold eband_solve. apply within_bind.
    + apply within_pfor. intros j Hj. apply within_bind.
      * apply within_pfor. intros i Hi. apply within_sub; apply H; lia.
      * intros _. apply within_lift_bind. intros a _. destruct (j <? a); [|constructor]. apply within_lift_bind. intros q _.
        apply within_pfor. intros i Hi. apply within_sub; apply H; lia.
    + intros _. apply within_pfor_down. intros j Hj. apply within_bind; [apply within_div; apply H; lia|].
      intros _. apply within_bind.
      * apply within_pfor. intros i Hi. apply within_sub; apply H; lia.
      * intros _. apply within_lift_bind. intros a _. destruct (a <? j); [|constructor]. apply within_lift_bind. intros q Eq.
        apply usub_inv in Eq. apply within_pfor. intros i Hi. apply within_sub; apply H; lia.
Qed.

(** The line a cell belongs to. *)
Definition line_of (old new n h : nat) (l : loc) : option nat :=
  if fst l =? old then Some (snd l / n) else if fst l =? new then Some (snd l mod h) else None.

Lemma within_line sv old new n h copy j : solver_size sv = n -> 0 < n -> old <> new -> j < h ->
  within (fun l => match line_of old new n h l with Some x => x =? j | None => false end) (line_prog o on sv old new n h copy j).
Proof.
  intros Hs Hn Ho Hj.
  assert (R : forall k, k < n -> (match line_of old new n h (line_cell old (mkSkip (Z.of_nat (j * n)) 1) k) with Some x => x =? j | None => false end) = true).
  { intros k Hk. change 1%Z with (Z.of_nat 1). rewrite line_cell_eq. unfold line_of. cbn [fst snd]. rewrite Nat.eqb_refl.
    apply Nat.eqb_eq. rewrite Nat.mul_1_r, Nat.div_add_l by lia. rewrite Nat.div_small by lia. lia. }
  unfold line_prog. apply within_bind.
  - apply within_solve. intros k Hk. apply R. lia.
  - intros _. destruct copy; [|constructor]. apply within_pfor. intros k Hk. apply within_bind; [apply within_read; apply R; lia|].
    intros v. apply within_write. rewrite line_cell_eq. unfold line_of. cbn [fst snd].
    destruct (Nat.eqb_spec new old); [lia|]. rewrite Nat.eqb_refl. apply Nat.eqb_eq. rewrite Nat.mod_add by lia. apply Nat.mod_small. auto.
Qed.
End Foot.

(** ** Sizes of the solvers *)
Section Size.
Context {T : Type} (o : ops T) (on nd : bool).

Lemma for_keeps {A B} (g : A -> B) lo hi (s : A) f r :
  (forall s i s', f s i = Ok s' -> g s' = g s) -> for_ lo hi s f = Ok r -> g r = g s.
Proof.
  intros H. unfold for_. generalize (seq lo (hi - lo)). intros l. revert s.
  induction l as [|i l IH]; intros s E; cbn [foldM] in E; [congruence|].
  apply bind_Ok in E as (s' & E1 & E2). rewrite (IH _ E2). eauto.
Qed.
Lemma band_set_n m i j v m' : band_set on m i j v = Ok m' -> b_n m' = b_n (T := T) m.
Proof.
  unfold band_set. intros E. apply bind_Ok in E as (? & _ & E). apply bind_Ok in E as (? & _ & E). apply bind_Ok in E as (? & _ & E).
  injection E as <-. reflexivity.
Qed.
Lemma main_set_n m i j v m' : eb_main_set on m i j v = Ok m' -> e_n m' = e_n (T := T) m.
Proof. unfold eb_main_set. intros E. apply bind_Ok in E as (b & Eb & E). injection E as <-. apply band_set_n in Eb. exact Eb. Qed.
Lemma side_set_n m i j v m' : eb_side_set on m i j v = Ok m' -> e_n m' = e_n (T := T) m.
Proof.
  unfold eb_side_set. intros E. apply bind_Ok in E as (? & _ & E).
  destruct (_ <? _); apply bind_Ok in E as (? & _ & E); apply bind_Ok in E as (? & _ & E); injection E as <-; reflexivity.
Qed.
Lemma eb_set_n m i j v m' : eb_set on m i j v = Ok m' -> e_n m' = e_n (T := T) m.
Proof. unfold eb_set. destruct (_ || _); eauto using main_set_n, side_set_n. Qed.
Lemma div_n {M} (g : M -> nat) getd get set : (forall m i j v m', set m i j v = Ok m' -> g m' = g m) ->
  forall m i j k m', div_assign (T := T) o getd get set m i j k = Ok m' -> g m' = g m.
Proof.
  intros H m i j k m' E. unfold div_assign in E. apply bind_Ok in E as (? & _ & E). apply bind_Ok in E as (? & _ & E).
  apply bind_Ok in E as (? & _ & E). eauto.
Qed.
Lemma sub_n {M} (g : M -> nat) get get1 get2 set : (forall m i j v m', set m i j v = Ok m' -> g m' = g m) ->
  forall m i j k m', sub_assign (T := T) o get get1 get2 set m i j k = Ok m' -> g m' = g m.
Proof.
  intros H m i j k m' E. unfold sub_assign in E. apply bind_Ok in E as (? & _ & E). apply bind_Ok in E as (? & _ & E).
  apply bind_Ok in E as (? & _ & E). eauto.
Qed.
Lemma band_lu_n m m' : band_lu o on m = Ok m' -> b_n m' = b_n m.
Proof.
  unfold band_lu. intros E. apply bind_Ok in E as (? & _ & E). revert E. apply for_keeps. intros s i s' E.
  apply bind_Ok in E as (s1 & E1 & E). transitivity (b_n s1).
  - revert E. apply for_keeps. intros s2 j s3. apply for_keeps. intros s4 k s5. apply (sub_n b_n). apply band_set_n.
  - revert E1. apply for_keeps. intros s2 j s3. apply (div_n b_n). apply band_set_n.
Qed.
Lemma eband_lu_n m m' : eband_lu o on m = Ok m' -> e_n m' = e_n m.
Proof.
  unfold eband_lu. intros E. apply bind_Ok in E as (? & _ & E). revert E. apply for_keeps. intros s0 i s' E.
  apply bind_Ok in E as (? & _ & E). apply bind_Ok in E as (? & _ & E).
  apply bind_Ok in E as (s1 & E1 & E). apply bind_Ok in E as (s2 & E2 & E). apply bind_Ok in E as (s3 & E3 & E).
  apply bind_Ok in E as (s4 & E4 & E). apply bind_Ok in E as (s5 & E5 & E).
  apply bind_Ok in E as (? & _ & E). apply bind_Ok in E as (? & _ & E).
  assert (K1 : e_n s1 = e_n s0). { revert E1. apply for_keeps. intros ? ? ?. apply (div_n e_n). apply main_set_n. }
  assert (K2 : e_n s2 = e_n s1). { revert E2. apply for_keeps. intros ? ? ?. apply (div_n e_n). apply side_set_n. }
  assert (K3 : e_n s3 = e_n s2). { revert E3. apply for_keeps. intros ? ? ?. apply for_keeps. intros ? ? ?. apply (sub_n e_n). apply main_set_n. }
  assert (K4 : e_n s4 = e_n s3). { revert E4. apply for_keeps. intros ? ? ?. apply for_keeps. intros ? ? ?. apply (sub_n e_n). apply eb_set_n. }
  assert (K5 : e_n s5 = e_n s4). { revert E5. apply for_keeps. intros ? ? ?. apply for_keeps. intros ? ? ?. apply (sub_n e_n). apply eb_set_n. }
  assert (K6 : e_n s' = e_n s5).
  { destruct (_ <? _); [|congruence]. revert E. apply for_keeps. intros ? ? ?. apply for_keeps. intros ? ? ?. apply (sub_n e_n). apply main_set_n. }
  congruence.
Qed.
Lemma coef_factor_n (sv sv' : solver T) : coef_factor o on sv = Ok sv' -> solver_size sv' = solver_size sv.
Proof.
  destruct sv as [m|m]; cbn [coef_factor]; intros E; apply bind_Ok in E as (m' & E & E'); injection E' as <-; cbn [solver_size].
  - eapply band_lu_n; eauto.
  - eapply eband_lu_n; eauto.
Qed.
Lemma coef_set_n (sv sv' : solver T) i j v : coef_set on sv i j v = Ok sv' -> solver_size sv' = solver_size sv.
Proof.
  destruct sv as [m|m]; cbn [coef_set]; intros E; apply bind_Ok in E as (m' & E & E'); injection E' as <-; cbn [solver_size].
  - eapply band_set_n; eauto.
  - eapply eb_set_n; eauto.
Qed.
Lemma coef_make_n order p n sv : coef_make o order p n = Ok sv -> solver_size sv = n.
Proof.
  unfold coef_make. destruct p; intros E.
  - apply bind_Ok in E as (e & Ee & E). injection E as <-. unfold eband_make in Ee.
    apply bind_Ok in Ee as (? & _ & Ee). apply bind_Ok in Ee as (? & _ & Ee). apply bind_Ok in Ee as (? & _ & Ee).
    apply bind_Ok in Ee as (? & _ & Ee). injection Ee as <-. reflexivity.
  - injection E as <-. reflexivity.
Qed.
Lemma coef_row_n s d u dx c n i (st st' : solver T * list T) : coef_row o on s d u dx c n i st = Ok st' ->
  solver_size (fst st') = solver_size (fst st).
Proof.
  destruct st as [m vals]. unfold coef_row. intros E. cbn [fst].
  apply bind_Ok in E as (per & _ & E). apply bind_Ok in E as (kn & _ & E). apply bind_Ok in E as (rg & _ & E). apply bind_Ok in E as (n1 & _ & E).
  destruct (negb per && _).
  - apply bind_Ok in E as (m' & Em & E). injection E as <-. cbn [fst]. eapply coef_set_n; eauto.
  - apply bind_Ok in E as (int & _ & E). apply bind_Ok in E as ([ki v'] & _ & E).
    apply bind_Ok in E as (m' & Em & E). injection E as <-. cbn [fst]. revert Em. apply for_keeps.
    intros a j a' Ea. apply bind_Ok in Ea as (? & _ & Ea). apply bind_Ok in Ea as (? & _ & Ea). apply bind_Ok in Ea as (? & _ & Ea).
    apply bind_Ok in Ea as (? & _ & Ea). eapply coef_set_n; eauto.
Qed.
Lemma coef_matrix_n f coords dims d sv : coef_matrix o on f coords dims d = Ok sv -> nth_error dims d = Some (solver_size sv).
Proof.
  unfold coef_matrix. intros E. apply bind_Ok in E as (? & _ & E). apply bind_Ok in E as (? & _ & E). apply bind_Ok in E as (? & _ & E).
  apply bind_Ok in E as (? & _ & E). apply bind_Ok in E as (n & En & E). apply bind_Ok in E as (? & _ & E).
  apply bind_Ok in E as (m & Em & E). apply bind_Ok in E as ([m' v] & Ef & E). injection E as <-.
  apply coef_make_n in Em. apply (for_keeps (fun st => solver_size (fst st))) in Ef.
  - cbn [fst] in Ef. rewrite Ef, Em. unfold vget in En. destruct (nth_error dims d); congruence.
  - intros a i a'. apply coef_row_n.
Qed.

(** The solvers of a template have the sizes of its mesh. *)
Definition sizes_match (t : templ T) : Prop :=
  length (tp_solvers t) = length (tp_dims t) /\
  forall d sv, nth_error (tp_solvers t) d = Some sv -> nth_error (tp_dims t) d = Some (solver_size sv).

Lemma mapM_nth_error {A B} (f : A -> res B) l l' : mapM f l = Ok l' -> forall i b, nth_error l' i = Some b -> exists a, nth_error l i = Some a /\ f a = Ok b.
Proof.
  revert l'; induction l as [|a l IH]; intros l' E i b Hb; cbn [mapM] in E.
  - injection E as <-. destruct i; discriminate.
  - apply bind_Ok in E as (b0 & E0 & E). apply bind_Ok in E as (l1 & E1 & E). injection E as <-.
    destruct i as [|i]; cbn [nth_error] in *.
    + injection Hb as <-. eauto.
    + eauto.
Qed.

Lemma templ_sizes order per dims ranges t : templ_make o on nd order per dims ranges = Ok t ->
  length dims = length per -> sizes_match t.
Proof.
  unfold templ_make. intros E Hl. apply bind_Ok in E as ([f coords] & _ & E). apply bind_Ok in E as (dims' & Ed & E).
  apply bind_Ok in E as (svs & Es & E). injection E as <-. unfold sizes_match. cbn [tp_solvers tp_dims].
  split.
  - rewrite (mapM_length _ _ _ Es), seq_length. unfold reduced_dims in Ed. destruct nd.
    + injection Ed as <-. auto.
    + rewrite (mapM_length _ _ _ Ed), seq_length. auto.
  - intros d sv Hsv. destruct (mapM_nth_error _ _ _ Es d sv Hsv) as (d' & Hd' & E).
    assert (d' = d).
    { assert (Hd : d < length (seq 0 (length per))) by (apply nth_error_Some; congruence). rewrite seq_length in Hd.
      rewrite (nth_error_nth' _ 0) in Hd' by (rewrite seq_length; auto). rewrite seq_nth in Hd' by auto. cbn in Hd'. congruence. }
    subst d'. apply bind_Ok in E as (m & Em & Ef). rewrite (coef_matrix_n _ _ _ _ _ Em). f_equal. symmetry. apply coef_factor_n. auto.
Qed.
End Size.

(** ** Rounds *)
Section Round.
Context {T : Type} (o : ops T) (on nd : bool) (blocks : nat -> nat).
Variables (dims : list nat) (solvers : list (solver T)).
Hypothesis Hpos : 0 < prod dims.
Hypothesis Ls : length solvers = length dims.
Hypothesis Hsz : forall d sv, nth_error solvers d = Some sv -> nth_error dims d = Some (solver_size sv).
Let D := length dims.

Lemma round_threads d : d < D -> exists sv n h,
  solver_size sv = n /\ 0 < n /\
  solve_round o on solvers dims d = pfor 0 h (line_prog o on sv (d mod 2) (1 - d mod 2) n h (1 <? D)) /\
  mt_round o on blocks solvers dims d =
    Ok (map (fun b => pfor (fst b) (snd b) (line_prog o on sv (d mod 2) (1 - d mod 2) n h (1 <? D))) (mt_blocks (blocks h) h)).
Proof using Hpos Ls Hsz.
  intros Hd. assert (HD : D = length dims) by reflexivity.
  destruct (nth_error solvers (D - 1 - d)) as [sv|] eqn:Esv.
  2:{ apply nth_error_None in Esv. lia. }
  pose proof (Hsz _ _ Esv) as Esz. set (n := solver_size sv) in *.
  set (pre := firstn (D - 1 - d) dims). set (suf := skipn (S (D - 1 - d)) dims).
  assert (Ed : dims = (pre ++ [n]) ++ suf).
  { rewrite <- app_assoc. cbn [app]. rewrite <- (nth_error_nth dims (D - 1 - d) 0 Esz). apply split_at. lia. }
  assert (Hs : length suf = d) by (unfold suf; rewrite skipn_length; lia).
  assert (Hp : length pre = D - 1 - d) by (unfold pre; rewrite firstn_length; lia).
  clearbody pre suf.
  assert (Hall : 0 < n /\ 0 < prod (suf ++ pre)).
  { pose proof Hpos as P. rewrite Ed in P. rewrite !prod_app in *. cbn [prod] in P. nia. }
  destruct Hall as [Hn Hh].
  exists sv, n, (prod (suf ++ pre)). split; auto. split; auto.
  assert (LD : length ((suf ++ pre) ++ [n]) = D).
  { rewrite HD, Ed. rewrite !app_length. simpl. lia. }
  assert (LD' : length (suf ++ pre) = D - 1) by (rewrite (app_length (suf ++ pre)) in LD; simpl in LD; lia).
  assert (E1 : round_dims dims d = Ok ((suf ++ pre) ++ [n])).
  { rewrite <- Hs, Ed. rewrite round_dims_ok. rewrite app_assoc. reflexivity. }
  assert (E2 : (k <- usub (length dims) 1 ;; k <- usub k d ;; vget solvers k) = Ok sv).
  { rewrite <- HD. rewrite usub_ok by lia. cbn [bind]. rewrite usub_ok by lia. cbn [bind]. unfold vget. rewrite Esv. reflexivity. }
  assert (E3 : hyperplane_size ((suf ++ pre) ++ [n]) = Ok (prod (suf ++ pre))).
  { unfold hyperplane_size. rewrite usub_ok by lia. cbn [bind].
    rewrite (vget_ok _ _ 0) by lia. cbn [bind]. rewrite app_nth2 by lia.
    replace (length ((suf ++ pre) ++ [n]) - 1 - length (suf ++ pre)) with 0 by lia.
    cbn [nth]. unfold udiv. destruct (Nat.eqb_spec n 0); [lia|]. rewrite md_size_prod, prod_app. cbn [prod].
    replace (prod (suf ++ pre) * (n * 1)) with (prod (suf ++ pre) * n) by lia. rewrite Nat.div_mul by lia. reflexivity. }
  assert (B : forall lo hi, hi <= prod (suf ++ pre) ->
     solve_block o on sv d ((suf ++ pre) ++ [n]) (if 1 <? length dims then n :: suf ++ pre else [1]) lo hi =
     pfor lo hi (line_prog o on sv (d mod 2) (1 - d mod 2) n (prod (suf ++ pre)) (1 <? D))).
  { intros lo hi Hhi. rewrite <- HD.
    replace (1 <? D) with (1 <? length ((suf ++ pre) ++ [n])) by (rewrite LD; reflexivity).
    apply solve_block_lines; auto. apply prod_pos. auto. }
  split.
  - unfold solve_round. rewrite E1. cbn [plift pbind]. rewrite right_shift_ok. cbn [plift pbind]. rewrite E2. cbn [plift pbind].
    rewrite E3. cbn [plift pbind]. apply B. lia.
  - unfold mt_round. rewrite E1. cbn [bind]. rewrite right_shift_ok. cbn [bind]. rewrite E2. cbn [bind]. rewrite E3. cbn [bind].
    f_equal. apply map_ext_in. intros [lo hi] Hin. apply B. cbn [snd]. apply blocks_le in Hin. lia.
Qed.

Lemma round_footed d : d < D -> exists ps F, mt_round o on blocks solvers dims d = Ok ps /\ footed F ps /\
  forall m, run (ser ps) m = run (solve_round o on solvers dims d) m.
Proof using Hpos Ls Hsz.
  intros Hd. destruct (round_threads d Hd) as (sv & n & h & Hn & Hn0 & E1 & E2).
  eexists. eexists. split; [exact E2|]. split.
  - apply (footed_blocks _ _ _ (line_of (d mod 2) (1 - d mod 2) n h)). intros j Hj. apply within_line; auto.
    pose proof (Nat.mod_upper_bound d 2). lia.
  - intros m. rewrite E1. apply run_ser_blocks.
Qed.

Lemma mt_rounds_serial ds m m' : (forall d, In d ds -> d < D) ->
  mt_run (map (mt_round o on blocks solvers dims) ds) m m' <-> run (piter (solve_round o on solvers dims) ds) m = Ok (tt, m').
Proof using Hpos Ls Hsz.
  revert m. induction ds as [|d ds IH]; intros m Hds; cbn [map piter].
  - cbn [run]. split.
    + intros H. inversion H; subst. reflexivity.
    + intros E. injection E as <-. constructor.
  - destruct (round_footed d) as (ps & F & Ep & HF & Hser); [apply Hds; simpl; auto|].
    rewrite run_bind, Ep. split.
    + intros H. inversion H as [|ps0 rs m0 tr qs m1 m2 X Fin R]; subst.
      assert (S1 : run (solve_round o on solvers dims d) m = Ok (tt, m1)).
      { rewrite <- Hser. apply (interleaving F ps m HF). eauto. }
      rewrite S1. cbn [bind snd]. apply IH; auto. intros; apply Hds; simpl; auto.
    + intros E. apply bind_Ok in E as ([u m1] & E1 & E). cbn [snd] in E. destruct u.
      rewrite <- Hser in E1. apply (interleaving F ps m HF) in E1 as (tr & qs & X & Fin).
      econstructor; eauto. apply IH; auto. intros; apply Hds; simpl; auto.
Qed.
End Round.

Lemma mt_solve_serial {T} (o : ops T) on nd blocks t f c : sizes_match t -> 0 < prod (tp_dims t) ->
  mt_solve o on nd blocks t f c <-> solve_ctrl o on nd t f = Ok c.
Proof.
  intros [L S] P. unfold mt_solve, solve_ctrl. split.
  - intros (w & m & Ew & R & Ef). rewrite Ew. cbn [bind].
    apply (mt_rounds_serial o on blocks (tp_dims t) (tp_solvers t) P L S) in R.
    + unfold pfor. rewrite Nat.sub_0_r, R. cbn [bind snd]. auto.
    + intros d Hd. apply in_seq in Hd. lia.
  - intros E. apply bind_Ok in E as (w & Ew & E). apply bind_Ok in E as ([u m] & R & E). destruct u. exists w, m.
    split; auto. split; auto. apply (mt_rounds_serial o on blocks (tp_dims t) (tp_solvers t) P L S).
    + intros d Hd. apply in_seq in Hd. lia.
    + unfold pfor in R. rewrite Nat.sub_0_r in R. auto.
Qed.

(** No race and no stuck thread in any round. *)
Lemma mt_round_races {T} (o : ops T) on blocks t d ps : sizes_match t -> 0 < prod (tp_dims t) -> d < length (tp_dims t) ->
  mt_round o on blocks (tp_solvers t) (tp_dims t) d = Ok ps ->
  forall m tr qs m', texec (ps, m) tr (qs, m') ->
  (forall i j l, In (i, l) tr -> In (j, l) tr -> i = j) /\
  length tr <= total ps m /\
  ((exists r, run (solve_round o on (tp_solvers t) (tp_dims t) d) m = Ok r) ->
   forall i p, nth_error qs i = Some p -> p = Ret tt \/ exists l c, tstep (qs, m') (i, l) c).
Proof.
  intros [L S] P Hd Ep m tr qs m' X. destruct (round_footed o on blocks _ _ P L S d Hd) as (ps' & F & Ep' & HF & Hser).
  assert (ps' = ps) by congruence. subst ps'.
  destruct (texec_ser F _ _ _ X HF) as (HF' & R & A). cbn [fst snd] in *. split; [|split].
  - intros i j l Hi Hj. destruct (Nat.eq_dec i j); auto. destruct HF as [_ Dj]. pose proof (Dj i j l n (A _ _ Hi)). rewrite (A _ _ Hj) in H. discriminate.
  - apply (texec_length F _ _ _ X HF).
  - intros (r & Er) i p Hp. rewrite <- Hser, <- R in Er. eapply progress; eauto.
Qed.

(** ** Cells *)
Section Cells.
Context {T : Type} (o : ops T) (on : bool) (blocks : nat -> nat).
Variable s : spline T.
Hypothesis W : wf_spline s.
Hypothesis HD : 1 <= sp_dim s.

Lemma mt_fill_footed cdims h : cell_dims s (sp_ctrl s) = Ok cdims -> cell_hyper s cdims = Ok h ->
  exists F, footed F (mt_fill on blocks s (sp_ctrl s) cdims h) /\
  forall m, run (ser (mt_fill on blocks s (sp_ctrl s) cdims h)) m = run (fill_cell on s (sp_ctrl s) cdims 0 h) m.
Proof using o W HD.
  intros E1 E2. rewrite (cell_dims_ok s W HD) in E1. injection E1 as <-. rewrite (cell_hyper_ok s W HD) in E2. injection E2 as <-.
  set (h := prod (map (cdim s) (seq 0 (sp_dim s - 1)))).
  set (n := cdim s (sp_dim s - 1)). set (st := (sp_order s + 1) ^ (sp_dim s - 1)).
  assert (Pn : 0 < n) by (apply cdim_pos; auto; lia).
  assert (Ps : 0 < st) by (apply (st_pos s); auto).
  set (f := fun h0 => pfor 0 n (fun k => pfor 0 st (fun i =>
    pwrite (0, (h0 * n + k) * st + i) (ctrl_at o s (csrc s (unrank (map (cdim s) (seq 0 (sp_dim s - 1))) h0) k i))))).
  assert (B : mt_fill on blocks s (sp_ctrl s) (the_cdims s) h = map (fun b => pfor (fst b) (snd b) f) (mt_blocks (blocks h) h)).
  { apply map_ext_in. intros [lo hi] Hin. apply blocks_le in Hin. apply (fill_cell_writes o on s W HD). cbn [snd]. fold h. lia. }
  rewrite B. eexists. split.
  - apply (footed_blocks f (blocks h) h (fun l => Some (snd l / st / n))). intros j Hj. unfold f.
    apply within_pfor. intros k Hk. apply within_pfor. intros i Hi. apply within_write. cbn [snd]. apply Nat.eqb_eq.
    rewrite Nat.div_add_l by lia. rewrite (Nat.div_small i) by lia. rewrite Nat.add_0_r, Nat.div_add_l by lia. rewrite Nat.div_small by lia. lia.
  - intros m. rewrite run_ser_blocks. rewrite (fill_cell_writes o on s W HD) by (fold h; lia). reflexivity.
Qed.

Lemma mt_cells_serial c : mt_cells o on blocks s (sp_ctrl s) c <-> generate_cells o on s (sp_ctrl s) = Ok c.
Proof using W HD.
  unfold mt_cells, generate_cells. split.
  - intros (cdims & h & tr & qs & data & rest & E1 & E2 & X & Fin & ->).
    destruct (mt_fill_footed cdims h E1 E2) as (F & HF & Hser). rewrite E1. cbn [bind]. rewrite E2. cbn [bind]. rewrite <- Hser.
    assert (R : run (ser (mt_fill on blocks s (sp_ctrl s) cdims h)) [repeat (o0 o) (md_size cdims)] = Ok (tt, data :: rest)).
    { apply (interleaving F _ _ HF). eauto. }
    rewrite R. reflexivity.
  - intros E. apply bind_Ok in E as (cdims & E1 & E). apply bind_Ok in E as (h & E2 & E). apply bind_Ok in E as ([u m] & R & E).
    apply bind_Ok in E as (data & Ed & E). injection E as <-. cbn [snd] in Ed. destruct u.
    destruct (mt_fill_footed cdims h E1 E2) as (F & HF & Hser). rewrite <- Hser in R.
    apply (interleaving F _ _ HF) in R as (tr & qs & X & Fin).
    destruct m as [|d0 rest]; [discriminate|]. injection Ed as ->.
    exists cdims, h, tr, qs, data, rest. auto 10.
Qed.

Lemma mt_fill_races cdims h : cell_dims s (sp_ctrl s) = Ok cdims -> cell_hyper s cdims = Ok h ->
  forall m tr qs m', texec (mt_fill on blocks s (sp_ctrl s) cdims h, m) tr (qs, m') ->
  (forall i j l, In (i, l) tr -> In (j, l) tr -> i = j) /\
  length tr <= total (mt_fill on blocks s (sp_ctrl s) cdims h) m /\
  ((exists r, run (fill_cell on s (sp_ctrl s) cdims 0 h) m = Ok r) ->
   forall i p, nth_error qs i = Some p -> p = Ret tt \/ exists l c, tstep (qs, m') (i, l) c).
Proof using o W HD.
  intros E1 E2 m tr qs m' X. destruct (mt_fill_footed cdims h E1 E2) as (F & HF & Hser).
  destruct (texec_ser F _ _ _ X HF) as (HF' & R & A). cbn [fst snd] in *. split; [|split].
  - intros i j l Hi Hj. destruct (Nat.eq_dec i j); auto. destruct HF as [_ Dj]. pose proof (Dj i j l n (A _ _ Hi)). rewrite (A _ _ Hj) in H. discriminate.
  - apply (texec_length F _ _ _ X HF).
  - intros (r & Er) i p Hp. rewrite <- Hser, <- R in Er. eapply progress; eauto.
Qed.
End Cells.
