(** Before C++17: threads and cells. *)
From Coq Require Import List Arith Lia Bool ZArith QArith Reals.
From Verif Require Import Base Num MeshM ProgM BandM LUM SplineM InterpM CellM ThreadsM Templ14M Mode14M SpecInterp MeshProofs.
From Verif Require Import CoefProofs BuildProofs WeightProofs SafeProofs SafeLU SafeSolve SafeBuild SafeTop Templ14Proofs PropThreadsEx.
Import ListNotations.
Local Open Scope nat_scope.

Section Mode.
Context {T : Type} (o : ops T) (on nd : bool).
Context (Ho : never_throws o).
Context (p : nat) (per : list bool) (dims : list nat) (ranges : list (xrange T)).
Context (Hin : sized_input nd p per dims ranges) (Hlast : ends_last o per ranges).

Lemma mt_round_same blocks per' svs dims' d : length svs = length per' ->
  (forall k, k < length per' -> exists sv, nth_error svs k = Some sv /\ of_kind (nth k per' false) sv) ->
  mt_round14 o on blocks per' (map Held svs) dims' d = mt_round o on blocks svs dims' d.
Proof using Type.
  intros L Hk. unfold mt_round14, mt_round. apply bind_ext. intros odims _. apply bind_ext. intros ndims _.
  destruct (usub (length dims') 1) as [k|e|w]; cbn [bind]; auto.
  destruct (usub k d) as [k'|e|w]; cbn [bind]; auto.
  destruct (Nat.lt_ge_cases k' (length per')) as [H|H].
  - destruct (Hk k' H) as (sv & E & K). unfold vget. rewrite nth_error_map, E. cbn [option_map bind].
    rewrite (nth_error_nth' per' false) by auto. cbn [bind fst snd]. apply bind_ext. intros h _.
    f_equal. apply map_ext. intros b. apply block_same. auto.
  - rewrite !vget_oob by (rewrite ?map_length; lia). reflexivity.
Qed.

Lemma solve_ctrl14_same t f : templ_make o on nd p per dims ranges = Ok t ->
  solve_ctrl14 o on nd (as14 t) f = solve_ctrl o on nd t f.
Proof using Ho Hin Hlast.
  intros E. apply (templ_kinds o on nd Ho p per dims ranges Hin Hlast) in E as (E1 & _ & E2 & E3).
  unfold solve_ctrl14, solve_ctrl, as14. cbn [t14_base t14_dims t14_solvers].
  apply bind_ext. intros w _. f_equal. rewrite !run_pfor. f_equal. apply for_ext. intros i s.
  rewrite round_same; rewrite ?E1; auto.
Qed.

Lemma mt_solve_same blocks t f c : templ_make o on nd p per dims ranges = Ok t ->
  mt_solve14 o on nd blocks (as14 t) f c <-> mt_solve o on nd blocks t f c.
Proof using Ho Hin Hlast.
  intros E. apply (templ_kinds o on nd Ho p per dims ranges Hin Hlast) in E as (E1 & _ & E2 & E3).
  unfold mt_solve14, mt_solve, as14. cbn [t14_base t14_dims t14_solvers].
  assert (Q : map (mt_round14 o on blocks (sp_per (if_spline (tp_base t))) (map Held (tp_solvers t)) (tp_dims t)) (seq 0 (length (tp_dims t))) =
    map (mt_round o on blocks (tp_solvers t) (tp_dims t)) (seq 0 (length (tp_dims t)))).
  { apply map_ext. intros d. apply mt_round_same; rewrite ?E1; auto. }
  rewrite Q. reflexivity.
Qed.
End Mode.

Lemma threads14 (T : Type) (o : ops T) on nd blocks p per dims ranges t f c :
  never_throws o -> sized_input nd p per dims ranges -> ends_last o per ranges ->
  templ14_make o on nd p per dims ranges = Ok t -> (forall n, In n (t14_dims t) -> 0 < n) ->
  mt_solve14 o on nd blocks t f c <-> solve_ctrl14 o on nd t f = Ok c.
Proof.
  intros Ho Hi Hl E P. rewrite (templ_same o on nd Ho p per dims ranges Hi Hl) in E.
  destruct (templ_make o on nd p per dims ranges) as [t'|e|w] eqn:E'; cbn [bind] in E; try discriminate. injection E as <-.
  rewrite (mt_solve_same o on nd Ho p per dims ranges Hi Hl blocks t' f c E'), (solve_ctrl14_same o on nd Ho p per dims ranges Hi Hl t' f E').
  eapply mt_solve_eq; eauto. destruct Hi as (_ & Ld & _). exact Ld.
Qed.

Lemma races14 (T : Type) (o : ops T) on nd blocks p per dims ranges t d ps m tr qs m' :
  never_throws o -> sized_input nd p per dims ranges -> ends_last o per ranges ->
  templ14_make o on nd p per dims ranges = Ok t -> (forall n, In n (t14_dims t) -> 0 < n) ->
  d < length (t14_dims t) -> mt_round14 o on blocks (sp_per (if_spline (t14_base t))) (t14_solvers t) (t14_dims t) d = Ok ps ->
  texec (ps, m) tr (qs, m') ->
  forall i j l, In (i, l) tr -> In (j, l) tr -> i = j.
Proof.
  intros Ho Hi Hl E P Hd Ep X. rewrite (templ_same o on nd Ho p per dims ranges Hi Hl) in E.
  destruct (templ_make o on nd p per dims ranges) as [t'|e|w] eqn:E'; cbn [bind] in E; try discriminate. injection E as <-.
  destruct (templ_kinds o on nd Ho p per dims ranges Hi Hl t' E') as (E1 & _ & E2 & E3).
  unfold as14 in Ep. cbn [t14_base t14_dims t14_solvers] in Ep. rewrite mt_round_same in Ep; rewrite ?E1; auto.
  eapply mt_round_safe; eauto. destruct Hi as (_ & Ld & _). exact Ld.
Qed.

Lemma cells14 (T : Type) (o : ops T) on nd p per ranges f :
  never_throws o -> sized_input nd p per (m_dims f) ranges -> ends_last o per ranges ->
  cell_interp14_make o on nd p per f ranges = cell_interp_make o on nd p per f ranges.
Proof.
  intros Ho Hi Hl. unfold cell_interp14_make, cell_interp_make. rewrite (templ_same o on nd Ho p per _ ranges Hi Hl).
  destruct (templ_make o on nd p per (m_dims f) ranges) as [t|e|w] eqn:E; cbn [bind]; auto.
  unfold cell_interpolate14, cell_interpolate. rewrite (solve_ctrl14_same o on nd Ho p per _ ranges Hi Hl t f E). reflexivity.
Qed.

Lemma ex_threads14 : exists t c, templ14_make Qops true false 3 [true; false] [6; 5] mixed_ranges = Ok t /\
  t14_dims t = [5; 5] /\ (forall n, In n (t14_dims t) -> 0 < n) /\ solve_ctrl14 Qops true false t mixed_data = Ok c /\
  mt_solve14 Qops true false Nat.sqrt t mixed_data c.
Proof.
  destruct (templ14_make Qops true false 3 [true; false] [6; 5] mixed_ranges) as [t|e|u] eqn:E; [|vm_compute in E; discriminate..].
  destruct (solve_ctrl14 Qops true false t mixed_data) as [c|e|u] eqn:G.
  - exists t, c. split; auto.
    assert (D : t14_dims t = [5; 5]) by (vm_compute in E; injection E as <-; reflexivity).
    assert (P : forall n, In n (t14_dims t) -> 0 < n) by (rewrite D; intros n [<-|[<-|[]]]; lia).
    split; auto. split; auto. split; auto. destruct mixed_sized as [S1 S2].
    apply (threads14 Q Qops true false Nat.sqrt 3 [true; false] [6; 5] mixed_ranges t mixed_data c Q_never_throws S1 S2 E P). exact G.
  - exfalso. vm_compute in E. injection E as <-. vm_compute in G. discriminate.
  - exfalso. vm_compute in E. injection E as <-. vm_compute in G. discriminate.
Qed.
