(** Solving for the control points in any arithmetic: no access outside the
    arrays and no failing assertion; only a division can fail. *)
From Coq Require Import List Arith Lia Bool ZArith Reals.
From Verif Require Import Base Num MeshM SpecMesh MeshProofs ProgM BandM LUM SplineM InterpM.
From Verif Require Import SpecBand BandProofs SafeLU SpecInterp TensorR CoefProofs RoundProofs SolveProofs BuildProofs WeightProofs.
Import ListNotations.
Open Scope nat_scope.

Section Any.
Context {FL : allowed} {T : Type} (o : ops T) (d0 : T) (on : bool).
Hypothesis Hdiv : div_safe o.

(** A matrix of either kind with [n] rows and bands of width [bw]. *)
Definition sshape (per : bool) (n bw : nat) (sv : solver T) : Prop :=
  match sv with
  | Aperiodic b => per = false /\ wfb n bw bw b
  | Periodic e => per = true /\ wfe n bw bw e
  end.
Definition svok (n : nat) (sv : solver T) : Prop :=
  exists per bw, sshape per n bw sv /\ (per = true -> 2 * bw <= n).

Lemma factor_safe per n bw sv : sshape per n bw sv -> 0 < n -> safely false (sshape per n bw) (coef_factor o on sv).
Proof using Hdiv d0.
  intros H Hn. destruct sv as [b|e]; cbn [sshape coef_factor] in *; destruct H as [-> H].
  - apply (safely_bind false (wfb n bw bw)); [apply (band_lu_safe o d0); auto|]. intros b' Hb. split; auto.
  - apply (safely_bind false (wfe n bw bw)); [apply (eband_lu_safe o d0); auto|]. intros b' Hb. split; auto.
Qed.

Lemma solver_solve_safe n sv iter : svok n sv -> psafe (vec n iter) (solver_solve o on sv iter).
Proof using Hdiv d0.
  intros (per & bw & H & Hb). destruct sv as [b|e]; cbn [sshape solver_solve] in *; destruct H as [-> H].
  - apply (band_solve_safe o d0 on Hdiv n bw bw). auto.
  - apply (eband_solve_safe o d0 on Hdiv n bw bw); auto. specialize (Hb eq_refl). lia.
Qed.

Definition cells (old new s : nat) (copy : bool) (l : ProgM.loc) : Prop :=
  (fst l = old \/ copy = true /\ fst l = new) /\ snd l < s.

Lemma line_safe sv old new n h copy j : svok n sv -> j < h ->
  psafe (cells old new (h * n) copy) (line_prog o on sv old new n h copy j).
Proof using Hdiv d0.
  intros Hs Hj. unfold line_prog. 
  assert (B : forall k, k < n -> j * n + k < h * n) by (intros; nia).
  assert (EI : forall k, line_cell old (mkSkip (Z.of_nat (j * n)) 1) k = (old, j * n + k)).
  { intros k. change 1%Z with (Z.of_nat 1). rewrite line_cell_eq. f_equal. lia. }
  apply psafe_bind.
  - eapply psafe_mono; [|apply (solver_solve_safe n); auto]. intros l (i & Hi & ->). rewrite EI. split; cbn [fst snd]; auto.
  - intros _. destruct copy; [|constructor]. apply psafe_pfor. intros k Hk. cbn [pread pwrite pbind].
    constructor.
    + rewrite EI. split; cbn [fst snd]; auto. apply B. lia.
    + intros v. constructor; [|constructor]. rewrite line_cell_eq. split; cbn [fst snd]; auto. nia.
Qed.

Section Rounds.
Context (dims : list nat) (solvers : list (solver T)).
Hypothesis Hpos : 0 < prod dims.
Hypothesis Ls : length solvers = length dims.
Hypothesis Hsv : forall k, k < length dims -> svok (nth k dims 0) (nth k solvers (Aperiodic (band_make o 0 0 0))).

Lemma solve_round_safe d : d < length dims ->
  psafe (fun l => (fst l = 0 \/ 1 < length dims /\ fst l = 1) /\ snd l < prod dims) (solve_round o on solvers dims d).
Proof using Hdiv d0 Hpos Ls Hsv.
  intros Hd.
  set (D := length dims) in *. set (k := D - 1 - d). set (n := nth k dims 0).
  assert (X : exists pre suf, dims = (pre ++ [n]) ++ suf /\ length suf = d /\ length pre = k).
  { exists (firstn k dims), (skipn (S k) dims). split; [|split].
    - rewrite <- app_assoc. cbn [app]. apply split_at. unfold k. fold D. lia.
    - rewrite skipn_length. fold D. unfold k. lia.
    - rewrite firstn_length. fold D. unfold k. lia. }
  destruct X as (pre & suf & Ed & Hs & Hp).
  assert (Hall : 0 < n /\ 0 < prod (suf ++ pre) /\ prod dims = prod (suf ++ pre) * n).
  { assert (EP : prod dims = prod (suf ++ pre) * n).
    { rewrite (f_equal prod Ed). rewrite !prod_app. cbn [prod]. ring. }
    pose proof Hpos as P. rewrite EP in P. nia. }
  destruct Hall as (Hn & Hh & EP).
  assert (HD : D = length dims) by reflexivity.
  unfold solve_round. replace d with (length suf) at 1. rewrite Ed at 1. rewrite round_dims_ok. cbn [plift pbind].
  rewrite app_assoc. rewrite right_shift_ok. cbn [plift pbind].
  rewrite <- HD. rewrite usub_ok by lia. cbn [bind]. rewrite usub_ok by lia. cbn [bind].
  rewrite (vget_ok _ _ (Aperiodic (band_make o 0 0 0))) by lia. cbn [plift pbind].
  assert (LD : length ((suf ++ pre) ++ [n]) = D).
  { rewrite HD, Ed. rewrite !app_length. simpl. lia. }
  assert (LD' : length (suf ++ pre) = D - 1) by (rewrite (app_length (suf ++ pre)) in LD; simpl in LD; lia).
  unfold hyperplane_size. rewrite usub_ok by lia. cbn [bind].
  rewrite (vget_ok _ _ 0) by lia. cbn [bind].
  rewrite app_nth2 by lia.
  replace (length ((suf ++ pre) ++ [n]) - 1 - length (suf ++ pre)) with 0 by lia.
  cbn [nth]. unfold udiv. destruct (Nat.eqb_spec n 0); [lia|]. rewrite md_size_prod, prod_app. cbn [prod].
  replace (prod (suf ++ pre) * (n * 1)) with (prod (suf ++ pre) * n) by lia. rewrite Nat.div_mul by lia. cbn [plift pbind].
  replace (1 <? D) with (1 <? length ((suf ++ pre) ++ [n])) by (rewrite LD; reflexivity).
  rewrite (solve_block_lines o on _ d (suf ++ pre) n) by (auto; apply prod_pos; auto).
  rewrite LD. pose proof (Nat.mod_upper_bound d 2 ltac:(lia)) as Hm.
  eapply psafe_mono with (V := cells (d mod 2) (1 - d mod 2) (prod (suf ++ pre) * n) (1 <? D)).
  - intros l (H1 & H2). split; [|rewrite EP; auto].
    destruct (Nat.ltb_spec 1 D).
    + destruct H1 as [->|[_ ->]]; destruct (d mod 2) as [|[|]]; auto; lia.
    + assert (Ed0 : d = 0) by lia. destruct H1 as [->|[? _]]; [rewrite Ed0; auto|discriminate].
  - apply psafe_pfor. intros j Hj. apply line_safe; [|lia]. apply Hsv. fold D. unfold k. lia.
Qed.

Lemma rounds_safe m : map (@length T) m = [prod dims; if 1 <? length dims then prod dims else 1] ->
  safely false (fun r => map (@length T) (snd r) = map (@length T) m) (run (pfor 0 (length dims) (solve_round o on solvers dims)) m).
Proof using Hdiv d0 Hpos Ls Hsv.
  intros Hm. eapply psafe_run with (V := fun l => (fst l = 0 \/ 1 < length dims /\ fst l = 1) /\ snd l < prod dims).
  - apply psafe_pfor. intros d Hd. apply solve_round_safe. lia.
  - intros l [H1 H2]. unfold mem_ok. rewrite <- (map_nth (@length T)), Hm.
    destruct H1 as [->|[H ->]]; cbn [nth]; auto. destruct (Nat.ltb_spec 1 (length dims)); auto. lia.
Qed.

Lemma final_safe m : 0 < length dims -> map (@length T) m = [prod dims; if 1 <? length dims then prod dims else 1] ->
  exists c, final_mesh dims m = Ok c /\ m_dims c = dims /\ wf_mesh c.
Proof using.
  clear Hsv Ls Hpos solvers. intros HD0 Hm. set (D := length dims) in *. assert (HD : D = length dims) by reflexivity.
  assert (Lmem : length m = 2).
  { pose proof (f_equal (@length nat) Hm) as E. rewrite map_length in E. auto. }
  unfold final_mesh. rewrite <- HD. set (a := if (D mod 2 =? 0) || (D =? 1) then 0 else 1).
  assert (Ha : a < 2) by (unfold a; destruct ((D mod 2 =? 0) || (D =? 1)); lia).
  rewrite (vget_ok _ _ []) by lia. cbn [bind].
  assert (Er : (if D =? 1 then Ok dims else round_dims dims D) = Ok dims).
  { destruct (D =? 1); auto. rewrite HD. pose proof (round_dims_ok [] dims) as X. cbn [app] in X. rewrite app_nil_r in X. auto. }
  rewrite Er. cbn [bind]. eexists. split; [reflexivity|]. cbn [m_dims m_data]. split; auto.
  unfold wf_mesh. cbn [m_dims m_data]. rewrite <- (map_nth (@length T)), Hm.
  unfold a. destruct (Nat.eqb_spec (D mod 2) 0); cbn [orb nth]; auto.
  destruct (Nat.eqb_spec D 1); cbn [nth]; auto. destruct (Nat.ltb_spec 1 D); auto. lia.
Qed.
End Rounds.

(** The control points of a template whose solvers have the right shape. *)
Lemma solve_ctrl_safe (nd : bool) (p : nat) (per : list bool) (t : templ T) (f : mesh T) :
  sp_order (if_spline (tp_base t)) = p -> sp_per (if_spline (tp_base t)) = per -> per <> [] ->
  length (m_dims f) = length per -> wf_mesh f ->
  tp_dims t = ddims nd per (m_dims f) ->
  (forall d, d < length per -> 0 < distinct nd (nth d per false) (nth d (m_dims f) 0)) ->
  length (tp_solvers t) = length per ->
  (forall k, k < length per -> svok (nth k (tp_dims t) 0) (nth k (tp_solvers t) (Aperiodic (band_make o 0 0 0)))) ->
  safely false (fun c => m_dims c = tp_dims t /\ wf_mesh c) (solve_ctrl o on nd t f).
Proof using Hdiv d0.
  intros Hp Hper Hne Ld Wf Ed HN Ls Hsv. unfold solve_ctrl. rewrite Hp, Hper, Ed.
  destruct (init_ok o nd p per (m_dims f) f Ld eq_refl Wf HN) as (w & Ew & Dw & Ww & _).
  rewrite Ew. cbn [bind]. set (dims := ddims nd per (m_dims f)) in *.
  assert (Lw : length dims = length per) by (apply ddims_length).
  assert (Hpos : 0 < prod dims).
  { apply prod_pos. apply List.Forall_forall. intros x Hx. apply (In_nth _ _ 0) in Hx as (i & Hi & <-).
    unfold dims. rewrite ddims_nth by lia. apply HN. lia. }
  assert (Him : map (@length T) (initial_mem o dims w) = [prod dims; if 1 <? length dims then prod dims else 1]).
  { unfold initial_mem. cbn [map]. unfold wf_mesh in Ww. rewrite Ww, Dw. f_equal. f_equal.
    destruct (1 <? length dims); auto. rewrite repeat_length. apply md_size_prod. }
  assert (Hr := rounds_safe dims (tp_solvers t) Hpos ltac:(lia)).
  eapply safely_bind.
  - apply Hr; [|exact Him]. intros k Hk. specialize (Hsv k). rewrite Ed in Hsv. apply Hsv. lia.
  - intros [u m] Hm. cbn [snd] in *. destruct (final_safe dims m) as (c & -> & Hc).
    + rewrite Lw. destruct per; [congruence|simpl; lia].
    + congruence.
    + cbn [safely]. exact Hc.
Qed.
End Any.
