(** Last steps and data of the examples in PropThreads. *)
From Coq Require Import List Arith Lia Bool ZArith QArith.
From Verif Require Import Base Num MeshM ProgM SpecMesh SplineM InterpM CellM ThreadsM RoundProofs
  SpecSpline SpecSplineObj SplineProofs ThreadsProofs ThreadsTop PropInterpEx.
Import ListNotations.
Open Scope nat_scope.

Lemma pos_prod l : (forall n, In n l -> 0 < n) -> 0 < prod l.
Proof. intros H. apply prod_pos. apply Forall_forall. auto. Qed.

Lemma mt_solve_eq {T} (o : ops T) on nd blocks order per dims ranges t f c :
  length dims = length per -> templ_make o on nd order per dims ranges = Ok t -> (forall n, In n (tp_dims t) -> 0 < n) ->
  mt_solve o on nd blocks t f c <-> solve_ctrl o on nd t f = Ok c.
Proof. intros L E P. apply mt_solve_serial; [eapply templ_sizes; eauto|apply pos_prod; auto]. Qed.

Lemma mt_round_safe {T} (o : ops T) on nd blocks order per dims ranges t d ps m tr qs m' :
  length dims = length per -> templ_make o on nd order per dims ranges = Ok t -> (forall n, In n (tp_dims t) -> 0 < n) ->
  d < length (tp_dims t) -> mt_round o on blocks (tp_solvers t) (tp_dims t) d = Ok ps ->
  texec (ps, m) tr (qs, m') ->
  forall i j l, In (i, l) tr -> In (j, l) tr -> i = j.
Proof. intros L E P Hd Ep X. eapply mt_round_races; eauto. eapply templ_sizes; eauto. apply pos_prod; auto. Qed.

(** A round reached from the initial state. *)
Lemma mt_progress {T} (o : ops T) on nd blocks order per dims ranges t f c w :
  length dims = length per -> templ_make o on nd order per dims ranges = Ok t -> (forall n, In n (tp_dims t) -> 0 < n) ->
  init_weights o nd (sp_order (if_spline (tp_base t))) (sp_per (if_spline (tp_base t))) (tp_dims t) f = Ok w ->
  solve_ctrl o on nd t f = Ok c ->
  forall d m, d < length (tp_dims t) ->
  mt_run (map (mt_round o on blocks (tp_solvers t) (tp_dims t)) (seq 0 d)) (initial_mem o (tp_dims t) w) m ->
  exists ps, mt_round o on blocks (tp_solvers t) (tp_dims t) d = Ok ps /\
  exists bound, forall tr qs m', texec (ps, m) tr (qs, m') ->
    length tr <= bound /\
    forall i p, nth_error qs i = Some p -> p = Ret tt \/ exists l c, tstep (qs, m') (i, l) c.
Proof.
  intros L E P Ew Es d m Hd HR. pose proof (templ_sizes o on nd _ _ _ _ _ E L) as [Sl Sz]. pose proof (pos_prod _ P) as Pp.
  destruct (round_footed o on blocks _ _ Pp Sl Sz d Hd) as (ps & F & Ep & HF & Hser).
  exists ps. split; auto. exists (total ps m). intros tr qs m' X.
  destruct (mt_round_races o on blocks t d ps (conj Sl Sz) Pp Hd Ep m tr qs m' X) as (_ & H2 & H3). split; auto.
  apply H3. apply (mt_rounds_serial o on blocks _ _ Pp Sl Sz) in HR; [|intros k Hk; apply in_seq in Hk; lia].
  unfold solve_ctrl in Es. rewrite Ew in Es. cbn [bind] in Es. apply bind_Ok in Es as (r & Er & _).
  unfold pfor in Er. rewrite Nat.sub_0_r in Er.
  replace (length (tp_dims t)) with (d + S (length (tp_dims t) - d - 1)) in Er by lia.
  rewrite seq_app, run_piter_app, HR in Er. cbn [bind snd] in Er. cbn [seq piter Nat.add] in Er. rewrite run_bind in Er.
  apply bind_Ok in Er as (r' & Er' & _). eauto.
Qed.

Lemma mt_fill_safe {T} (o : ops T) on blocks (s : spline T) cdims h m tr qs m' :
  wf_spline s -> 1 <= sp_dim s -> cell_dims s (sp_ctrl s) = Ok cdims -> cell_hyper s cdims = Ok h ->
  texec (mt_fill on blocks s (sp_ctrl s) cdims h, m) tr (qs, m') ->
  forall i j l, In (i, l) tr -> In (j, l) tr -> i = j.
Proof. intros W H E1 E2 X. eapply mt_fill_races; eauto. Qed.

Lemma blocks_ok b h :
  (forall lo hi, In (lo, hi) (mt_blocks b h) -> lo <= hi <= h) /\
  concat (map (fun l => seq (fst l) (snd l - fst l)) (mt_blocks b h)) = seq 0 h.
Proof. split. intros lo hi. apply blocks_le. apply blocks_cover. Qed.

(** Three dimensions with line counts 12, 20 and 15. *)
Definition tdims : list nat := [5; 4; 3].
Definition tdata : mesh Q := mkMesh tdims (map (fun k => inject_Z (Z.of_nat ((k * k + 3 * k) mod 17))) (seq 0 60)).
Lemma ex_mt : exists t c,
  templ_make Qops true false 2 [false; true; false] tdims [Uniform 0 4; Uniform 0 3; Uniform 0 1]%Q = Ok t /\
  tp_dims t = [5; 3; 3] /\ (forall n, In n (tp_dims t) -> 0 < n) /\
  solve_ctrl Qops true false t tdata = Ok c /\
  mt_solve Qops true false Nat.sqrt t tdata c.
Proof.
  assert (C : match templ_make Qops true false 2 [false; true; false] tdims [Uniform 0 4; Uniform 0 3; Uniform 0 1]%Q with
              | Ok t => (tp_dims t, match solve_ctrl Qops true false t tdata with Ok _ => true | _ => false end)
              | _ => ([], false) end = ([5; 3; 3], true)) by (vm_compute; reflexivity).
  destruct (templ_make Qops true false 2 [false; true; false] tdims [Uniform 0 4; Uniform 0 3; Uniform 0 1]%Q) as [t| |] eqn:E; try discriminate C.
  destruct (solve_ctrl Qops true false t tdata) as [c| |] eqn:Ec; try discriminate C.
  injection C as Dt. exists t, c.
  assert (P : forall n, In n (tp_dims t) -> 0 < n). { rewrite Dt. intros n [<-|[<-|[<-|[]]]]; lia. }
  split; auto. split; auto. split; auto. split; auto.
  apply (mt_solve_eq Qops true false Nat.sqrt 2 [false; true; false] tdims [Uniform 0 4; Uniform 0 3; Uniform 0 1]%Q t tdata c); auto.
Qed.
