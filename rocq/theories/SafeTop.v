(** What can go wrong in factorisation, solving, construction and evaluation
    of interpolation functions, in any arithmetic. *)
From Coq Require Import List Arith Lia Bool ZArith Floats.
From Verif Require Import Base Num FloatM MeshM SpecMesh MeshProofs ProgM BandM LUM SplineM InterpM.
From Verif Require Import SpecBand BandProofs SafeLU LUTop SplineProofs EvalProofs SpecSplineObj SafeProofs SpecInterp TensorR CoefProofs RoundProofs SolveProofs BuildProofs WeightProofs SafeSolve SafeBuild.
Import ListNotations.
Open Scope nat_scope.

Lemma safely_div {A} (P : A -> Prop) r : safely (FL := div_only) false P r -> (exists v, r = Ok v /\ P v) \/ r = Fault DivByZero.
Proof. destruct r; cbn [safely]; intros H; [left; eauto|discriminate|right; rewrite H; auto]. Qed.
Lemma safely_total {A} (P : A -> Prop) r : safely (FL := no_fault) false P r -> exists v, r = Ok v /\ P v.
Proof. destruct r; cbn [safely]; intros H; [eauto|discriminate|destruct H]. Qed.

Lemma divides_div {T} (o : ops T) : divides o -> div_safe (FL := div_only) o.
Proof. intros H a b. destruct (H a b) as [[[c ->]| ->] _]; cbn; auto. reflexivity. Qed.
Lemma total_div {T} (o : ops T) : total_ops o -> div_safe (FL := no_fault) o.
Proof. intros H a b. destruct (H a b) as [[c ->] _]; cbn; auto. Qed.

(** ** Factorisation and solving *)
Definition in_memory {T} n (iter : nat -> ProgM.loc) (m0 : mem T) : Prop := forall i, i < n -> mem_ok m0 (iter i).

Lemma vec_memory {T} n iter (m0 : mem T) : in_memory n iter m0 -> forall l, vec n iter l -> mem_ok m0 l.
Proof. intros H l (i & Hi & ->). auto. Qed.

Lemma band_built {T} (o : ops T) on n p q h : writes_in (in_band n p q) h ->
  exists m, build_band o on n p q h = Ok m /\ wfb n p q m.
Proof. intros H. destruct (band_history o (o0 o) on n p q h H) as (m & E & W & _). exists m. auto. Qed.
Lemma eband_built {T} (o : ops T) on n p q h : p < n -> q < n -> writes_in (in_ext n p q) h ->
  exists m, build_eband o on n p q h = Ok m /\ wfe n p q m.
Proof. intros Hp Hq H. destruct (eband_history o (o0 o) on n p q h Hp Hq H) as (m0 & m & E0 & E & W & _).
  exists m. split; auto. unfold build_eband. rewrite E0. exact E.
Qed.

Lemma band_never_fails (T : Type) (o : ops T) on n p q h iter m0 :
  divides o -> 0 < n -> writes_in (in_band n p q) h -> in_memory n iter m0 ->
  exists m, build_band o on n p q h = Ok m /\
    ((exists f, band_lu o on m = Ok f /\
       ((exists r, run (band_solve o on f iter) m0 = Ok r) \/ run (band_solve o on f iter) m0 = Fault DivByZero)) \/
     band_lu o on m = Fault DivByZero).
Proof.
  intros Ho Hn Hh Hm. destruct (band_built o on n p q h Hh) as (m & E & W). exists m. split; auto.
  destruct (safely_div _ _ (band_lu_safe (FL := div_only) o (o0 o) on (divides_div o Ho) n p q m W Hn)) as [(f & Ef & Wf)|]; auto.
  left. exists f. split; auto.
  destruct (safely_div _ _ (psafe_run (FL := div_only) _ _ (band_solve_safe (FL := div_only) o (o0 o) on (divides_div o Ho) n p q f iter Wf) m0 (vec_memory n iter m0 Hm))) as [(r & Er & _)|]; eauto.
Qed.
Lemma eband_never_fails (T : Type) (o : ops T) on n p q h iter m0 :
  divides o -> p < n -> q < n -> p + q <= n -> writes_in (in_ext n p q) h -> in_memory n iter m0 ->
  exists m, build_eband o on n p q h = Ok m /\
    ((exists f, eband_lu o on m = Ok f /\
       ((exists r, run (eband_solve o on f iter) m0 = Ok r) \/ run (eband_solve o on f iter) m0 = Fault DivByZero)) \/
     eband_lu o on m = Fault DivByZero).
Proof.
  intros Ho Hp Hq Hpq Hh Hm. destruct (eband_built o on n p q h Hp Hq Hh) as (m & E & W). exists m. split; auto.
  destruct (safely_div _ _ (eband_lu_safe (FL := div_only) o (o0 o) on (divides_div o Ho) n p q m W)) as [(f & Ef & Wf)|]; auto.
  left. exists f. split; auto.
  destruct (safely_div _ _ (psafe_run (FL := div_only) _ _ (eband_solve_safe (FL := div_only) o (o0 o) on (divides_div o Ho) n p q f iter Wf Hpq) m0 (vec_memory n iter m0 Hm))) as [(r & Er & _)|]; eauto.
Qed.
(** With a division that always yields something (IEEE). *)
Lemma lu_total (T : Type) (o : ops T) on n p q iter m0 :
  total_ops o -> in_memory n iter m0 ->
  (forall h, 0 < n -> writes_in (in_band n p q) h ->
     exists m f r, build_band o on n p q h = Ok m /\ band_lu o on m = Ok f /\ run (band_solve o on f iter) m0 = Ok r) /\
  (forall h, p < n -> q < n -> p + q <= n -> writes_in (in_ext n p q) h ->
     exists m f r, build_eband o on n p q h = Ok m /\ eband_lu o on m = Ok f /\ run (eband_solve o on f iter) m0 = Ok r).
Proof.
  intros Ho Hm. split.
  - intros h Hn Hh. destruct (band_built o on n p q h Hh) as (m & E & W).
    destruct (safely_total _ _ (band_lu_safe (FL := no_fault) o (o0 o) on (total_div o Ho) n p q m W Hn)) as (f & Ef & Wf).
    destruct (safely_total _ _ (psafe_run (FL := no_fault) _ _ (band_solve_safe (FL := no_fault) o (o0 o) on (total_div o Ho) n p q f iter Wf) m0 (vec_memory n iter m0 Hm))) as (r & Er & _).
    exists m, f, r. auto.
  - intros h Hp Hq Hpq Hh. destruct (eband_built o on n p q h Hp Hq Hh) as (m & E & W).
    destruct (safely_total _ _ (eband_lu_safe (FL := no_fault) o (o0 o) on (total_div o Ho) n p q m W)) as (f & Ef & Wf).
    destruct (safely_total _ _ (psafe_run (FL := no_fault) _ _ (eband_solve_safe (FL := no_fault) o (o0 o) on (total_div o Ho) n p q f iter Wf Hpq) m0 (vec_memory n iter m0 Hm))) as (r & Er & _).
    exists m, f, r. auto.
Qed.

(** ** Wide extended bands *)
Lemma run_bind_ok {T A B} (a : prog T A) (f : A -> prog T B) m r : run (pbind a f) m = Ok r ->
  exists x m', run a m = Ok (x, m') /\ run (f x) m' = Ok r.
Proof. rewrite run_bind. intros E. apply bind_Ok in E as ([x m'] & E1 & E2). eauto. Qed.
Lemma run_piter_in {T I} (f : I -> prog T unit) l : forall m r i, run (piter f l) m = Ok r -> In i l ->
  exists m1 r1, run (f i) m1 = Ok r1.
Proof.
  induction l as [|a l IH]; intros m r i E Hi; [destruct Hi|]. cbn [piter] in E.
  apply run_bind_ok in E as (x & m' & E1 & E2). destruct Hi as [->|Hi]; [eauto|]. eapply IH; eauto.
Qed.

Lemma wide_solve_fails (T : Type) (o : ops T) on n p q h m f iter m0 r :
  divides o -> p < n -> q < n -> n < p + q -> writes_in (in_ext n p q) h ->
  build_eband o on n p q h = Ok m -> eband_lu o on m = Ok f ->
  run (eband_solve o on f iter) m0 <> Ok r.
Proof.
  intros Ho Hp Hq Hpq Hh E Ef Er. destruct (eband_built o on n p q h Hp Hq Hh) as (m' & E' & W).
  rewrite E in E'. injection E' as <-.
  pose proof (eband_lu_safe (FL := div_only) o (o0 o) on (divides_div o Ho) n p q m W) as Wf. rewrite Ef in Wf. cbn [safely] in Wf.
  destruct (wfe_npq _ _ _ _ Wf) as (En & Ep & Eq). unfold eband_solve in Er. rewrite En, Ep, Eq in Er.
  apply run_bind_ok in Er as (x & m1 & _ & Er). unfold pfor_down in Er.
  destruct (run_piter_in _ _ _ _ (q - 1) Er) as (m2 & r2 & E2).
  { apply in_rev. rewrite rev_involutive. apply in_seq. lia. }
  apply run_bind_ok in E2 as (? & m3 & _ & E2). apply run_bind_ok in E2 as (? & m4 & _ & E2).
  apply run_bind_ok in E2 as (np1 & m5 & E3 & E2). rewrite !usub_ok in E3 by lia. cbn [bind] in E3. rewrite usub_ok in E3 by lia.
  cbn [plift run] in E3. injection E3 as <- <-.
  destruct (Nat.ltb_spec (n - p - 1) (q - 1)); [|lia].
  apply run_bind_ok in E2 as (e & m6 & E4 & _). unfold usub in E4. destruct (Nat.leb_spec q (q - 1)); [lia|]. discriminate.
Qed.

(** ** Construction *)
Section Make.
Context {FL : allowed} {T : Type} (o : ops T) (on nd : bool).
Hypothesis Hq : quiet may_fail o.
Hypothesis Hord : sane_order o.

Definition made (p : nat) (per : list bool) (g : interp T) : Prop :=
  wf_spline (if_spline g) /\ sp_order (if_spline g) = p /\ sp_per (if_spline g) = per /\
  length (if_uniform g) = length per /\ length (if_dx g) = length per.

Lemma make_gen exc p per dims ranges f :
  per <> [] -> length dims = length per -> length ranges = length per ->
  (forall d, d < length per -> dim_ok on nd exc p (nth d per false) (nth d dims 0) (nth d ranges (Points []))) ->
  (on = false -> forall d l, d < length per -> nth d ranges (Points []) = Points l -> nth d per false = true) ->
  m_dims f = dims -> wf_mesh f ->
  safely exc (made p per) (interp_make o on nd p per f ranges).
Proof using Hq Hord.
  intros Hne Ld Lr Hd Hoff Ef Wf. unfold interp_make. rewrite Ef.
  eapply safely_bind; [apply (templ_safe o on nd Hq exc p per dims ranges Ld Lr Hd Hoff Hord)|]. intros t Ht.
  pose proof (interpolate_safe o on nd Hq exc p per dims ranges Ld Lr Hd t f Hne Ht Ef Wf) as X.
  unfold interpolate in X. unfold interpolate_move.
  destruct (solve_ctrl o on nd t f) as [c|e|u]; cbn [bind safely fst] in *; auto.
Qed.
End Make.

Lemma sized_ok {T} on nd p per dims (ranges : list (xrange T)) exc : sized_input nd p per dims ranges ->
  (on = true -> (exists d, by_points ranges d) -> exc = true) ->
  forall d, d < length per -> dim_ok on nd exc p (nth d per false) (nth d dims 0) (nth d ranges (Points [])).
Proof.
  intros (_ & _ & Lr & H) H2 d Hd. destruct (H d Hd) as (S1 & S2). split; auto.
  destruct (nth d ranges (Points [])) as [|l] eqn:E; auto. destruct S2 as (S2 & S3).
  assert (B : by_points ranges d). { exists l. rewrite (nth_error_nth' ranges (Points [])) by lia. congruence. }
  repeat split; auto. intros Eon. apply H2; eauto.
Qed.

Lemma points_dec {T} (ranges : list (xrange T)) : (exists d, by_points ranges d) \/ ~ exists d, by_points ranges d.
Proof.
  induction ranges as [|r l IH].
  - right. intros (d & x & E). destruct d; discriminate.
  - destruct r as [a b|x].
    + destruct IH as [(d & x & E)|N].
      * left. exists (S d), x. exact E.
      * right. intros ([|d] & x & E); [discriminate|]. apply N. exists d, x. exact E.
    + left. exists 0, x. reflexivity.
Qed.

Lemma make_gen_cases (FL : allowed) T (o : ops T) on nd p per dims ranges f :
  quiet may_fail o -> sane_order o -> sized_input nd p per dims ranges ->
  (on = false -> forall d, by_points ranges d -> nth d per false = true) ->
  m_dims f = dims -> wf_mesh f ->
  match interp_make o on nd p per f ranges with
  | Ok g => made p per g
  | Throw _ => on = true /\ exists d, by_points ranges d
  | Fault u => may_fail u
  end.
Proof.
  intros Hq Hord Hs H1 Ef Wf. pose proof Hs as (Hne & Ld & Lr & _).
  assert (Hoff : on = false -> forall d l, d < length per -> nth d ranges (Points []) = Points l -> nth d per false = true).
  { intros E d l Hd El. apply (H1 E). exists l. rewrite (nth_error_nth' ranges (Points [])) by lia. congruence. }
  destruct on.
  - destruct (points_dec ranges) as [Pt|Pt].
    + pose proof (make_gen o true nd Hq Hord true p per dims ranges f Hne Ld Lr (sized_ok true nd p per dims ranges true Hs (fun _ _ => eq_refl)) Hoff Ef Wf) as X.
      destruct (interp_make _ _ _ _ _ _ _); auto.
    + pose proof (make_gen o true nd Hq Hord false p per dims ranges f Hne Ld Lr (sized_ok true nd p per dims ranges false Hs (fun _ X => False_ind _ (Pt X))) Hoff Ef Wf) as X.
      destruct (interp_make _ _ _ _ _ _ _); cbn [safely] in X; auto. discriminate.
  - pose proof (make_gen o false nd Hq Hord false p per dims ranges f Hne Ld Lr (sized_ok false nd p per dims ranges false Hs (fun E _ => E)) Hoff Ef Wf) as X.
    destruct (interp_make _ _ _ _ _ _ _); cbn [safely] in X; auto. discriminate.
Qed.

Lemma make_never_fails (T : Type) (o : ops T) on nd p per dims ranges f :
  divides o -> sane_order o -> sized_input nd p per dims ranges -> m_dims f = dims -> wf_mesh f ->
  (on = false -> forall d, by_points ranges d -> nth d per false = true) ->
  (exists g, interp_make o on nd p per f ranges = Ok g) \/
  interp_make o on nd p per f ranges = Fault DivByZero \/
  (on = true /\ (exists d, by_points ranges d) /\ exists e, interp_make o on nd p per f ranges = Throw e).
Proof.
  intros Ho Hs Hi Ef Wf H1. pose proof (make_gen_cases div_only T o on nd p per dims ranges f (divides_quiet o Ho) Hs Hi H1 Ef Wf) as X.
  destruct (interp_make _ _ _ _ _ _ _) as [g|e|u]; [eauto|right; right; intuition eauto|right; left; rewrite X; auto].
Qed.
Lemma make_total (T : Type) (o : ops T) on nd p per dims ranges f :
  total_ops o -> sane_order o -> sized_input nd p per dims ranges -> m_dims f = dims -> wf_mesh f ->
  (on = false -> forall d, by_points ranges d -> nth d per false = true) ->
  (exists g, interp_make o on nd p per f ranges = Ok g) \/
  (on = true /\ (exists d, by_points ranges d) /\ exists e, interp_make o on nd p per f ranges = Throw e).
Proof.
  intros Ho Hs Hi Ef Wf H1. pose proof (make_gen_cases no_fault T o on nd p per dims ranges f (total_quiet o Ho) Hs Hi H1 Ef Wf) as X.
  destruct (interp_make _ _ _ _ _ _ _) as [g|e|u]; [eauto|right; intuition eauto|destruct X].
Qed.

(** ** Evaluation *)

(** The positions of the coordinates on the uniform grids can be converted to
    [size_t]. *)
Definition convertible {T} (o : ops T) (g : interp T) (xs : list T) : Prop :=
  forall d q, d < length xs -> nth d (if_uniform g) false = true ->
    odiv o (osub o (nth d xs (o0 o)) (fst (nth d (sp_range (if_spline g)) (o0 o, o0 o)))) (nth d (if_dx g) (o0 o)) = Ok q ->
    let v := osub o q (if nth d (sp_per (if_spline g)) false then o1 o
                       else omul o (ohalf o) (onat o (sp_order (if_spline g) + 1))) in
    exists k, oceil o (if olt o (o0 o) v then v else o0 o) = Ok k.

Lemma convertible_safe (FL : allowed) T (o : ops T) g xs : quiet may_fail o -> convertible o g xs -> casts_safe o g xs.
Proof.
  intros Hq Hc d Hd Hu. unfold hint_cast. destruct (Hq (osub o (nth d xs (o0 o)) (fst (nth d (sp_range (if_spline g)) (o0 o, o0 o)))) (nth d (if_dx g) (o0 o))) as [H _].
  specialize (Hc d). destruct (odiv o _ _) as [q|e|u]; cbn [bind safely post] in *; auto; try tauto.
  destruct (Hc q Hd Hu eq_refl) as (k & ->). exact I.
Qed.

Lemma eval_gen (FL : allowed) T (o : ops T) on p per g xs orders : quiet may_fail o -> made p per g ->
  length xs = length per -> length orders = length per -> casts_safe o g xs ->
  safely false (fun _ => True) (interp_eval o g xs) /\ safely false (fun _ => True) (interp_derivative o on g xs orders).
Proof.
  intros Hq (W & Ep & Eper & Lu & Lx) Ls Lo Hc.
  assert (D : sp_dim (if_spline g) = length per) by (unfold sp_dim; rewrite Eper; auto).
  split; [apply interp_eval_safe|apply interp_derivative_safe]; auto; lia.
Qed.

Lemma eval_never_fails (T : Type) (o : ops T) on nd p per dims ranges f g xs orders :
  divides o -> sane_order o -> sized_input nd p per dims ranges -> m_dims f = dims -> wf_mesh f ->
  (on = false -> forall d, by_points ranges d -> nth d per false = true) ->
  interp_make o on nd p per f ranges = Ok g ->
  length xs = length per -> length orders = length per -> convertible o g xs ->
  ((exists v, interp_eval o g xs = Ok v) \/ interp_eval o g xs = Fault DivByZero) /\
  ((exists v, interp_derivative o on g xs orders = Ok v) \/ interp_derivative o on g xs orders = Fault DivByZero).
Proof.
  intros Ho Hs Hi Ef Wf H1 E Ls Lo Hc.
  pose proof (make_gen_cases div_only T o on nd p per dims ranges f (divides_quiet o Ho) Hs Hi H1 Ef Wf) as X. rewrite E in X.
  destruct (eval_gen div_only T o on p per g xs orders (divides_quiet o Ho) X Ls Lo (convertible_safe div_only T o g xs (divides_quiet o Ho) Hc)) as [A B].
  apply safely_div in A. apply safely_div in B. firstorder.
Qed.
Lemma eval_made_total (T : Type) (o : ops T) on nd p per dims ranges f g xs orders :
  total_ops o -> sane_order o -> sized_input nd p per dims ranges -> m_dims f = dims -> wf_mesh f ->
  (on = false -> forall d, by_points ranges d -> nth d per false = true) ->
  interp_make o on nd p per f ranges = Ok g ->
  length xs = length per -> length orders = length per -> convertible o g xs ->
  (exists v, interp_eval o g xs = Ok v) /\ (exists v, interp_derivative o on g xs orders = Ok v).
Proof.
  intros Ho Hs Hi Ef Wf H1 E Ls Lo Hc.
  pose proof (make_gen_cases no_fault T o on nd p per dims ranges f (total_quiet o Ho) Hs Hi H1 Ef Wf) as X. rewrite E in X.
  destruct (eval_gen no_fault T o on p per g xs orders (total_quiet o Ho) X Ls Lo (convertible_safe no_fault T o g xs (total_quiet o Ho) Hc)) as [A B].
  apply safely_total in A as (v & A & _). apply safely_total in B as (w & B & _). eauto.
Qed.

(** ** IEEE doubles *)
Lemma F_total : total_ops Fops.
Proof. intros a b. split; eexists; reflexivity. Qed.

Lemma SF_swap f g : SFcompare g f = option_map CompOpp (SFcompare f g).
Proof.
  destruct f as [s| s| |s m e], g as [s'| s'| |s' m' e']; cbn; try (destruct s; reflexivity); try (destruct s'; reflexivity);
    try (destruct s, s'; reflexivity); try reflexivity.
  pose proof (Pos.compare_cont_antisym m m' Eq) as X. cbn [CompOpp] in X.
  destruct s, s'; cbn; try reflexivity; rewrite (Z.compare_antisym e e'), <- X;
    destruct (e ?= e')%Z; cbn; try reflexivity; destruct (Pos.compare_cont Eq m m'); reflexivity.
Qed.
Lemma F_order : sane_order Fops.
Proof.
  intros a x. cbn [ole olt Fops]. rewrite leb_spec, ltb_spec. unfold SFleb, SFltb. rewrite (SF_swap (Prim2SF a) (Prim2SF x)).
  destruct (SFcompare (Prim2SF a) (Prim2SF x)) as [[]|]; cbn; auto.
Qed.

Section Cast.
Local Open Scope Z_scope.
Lemma digits_bound m : Zpos m < 2 ^ Zpos (digits2_pos m).
Proof.
  induction m as [m IH|m IH|]; cbn [digits2_pos].
  - rewrite Pos2Z.inj_succ, Z.pow_succ_r by lia. lia.
  - rewrite Pos2Z.inj_succ, Z.pow_succ_r by lia. lia.
  - reflexivity.
Qed.

Lemma Fceil_ok v : (0x1p64 <=? v)%float = false -> (zero <? v)%float = true -> exists k, Fceil v = Ok k.
Proof.
  rewrite leb_spec, ltb_spec. unfold Fceil. pose proof (Prim2SF_valid v) as V.
  replace (Prim2SF 0x1p64%float) with (S754_finite false 4503599627370496 12) by reflexivity.
  replace (Prim2SF zero) with (S754_zero false) by reflexivity.
  destruct (Prim2SF v) as [s|s| |s m e]; intros H1 H2; [eauto|destruct s; discriminate|discriminate|].
  destruct s; [discriminate|]. cbn [valid_binary] in V. unfold bounded in V. apply andb_prop in V as [V _].
  unfold canonical_mantissa in V. apply Zeq_bool_eq in V. unfold fexp in V.
  assert (Hm : Zpos m < 2 ^ 53).
  { eapply Z.lt_le_trans; [apply digits_bound|]. apply Z.pow_le_mono_r; [lia|]. unfold FloatOps.prec, emin in V. lia. }
  assert (B : e < 12 \/ e = 12 /\ Zpos m < 4503599627370496).
  { unfold SFleb in H1. cbn [SFcompare] in H1. destruct (Z.compare_spec 12 e).
    - right. split; [clear V Hm; lia|]. change (Pos.compare_cont Eq 4503599627370496 m) with (Pos.compare 4503599627370496 m) in H1.
      destruct (Pos.compare_spec 4503599627370496 m); try discriminate. apply Pos2Z.pos_lt_pos; assumption.
    - discriminate.
    - left. lia. }
  set (z := if 0 <=? e then Zpos m * 2 ^ e else - (- Zpos m / 2 ^ (- e))).
  assert (Bz : 0 <= z < two64).
  { unfold z, two64. destruct (Z.leb_spec 0 e).
    - split; [nia|]. destruct B as [B|[-> B]]; [|lia]. assert (2 ^ e <= 2 ^ 11) by (apply Z.pow_le_mono_r; lia).
      change (2 ^ 11) with 2048 in *. change (2 ^ 53) with 9007199254740992 in *. nia.
    - pose proof (Z.pow_pos_nonneg 2 (- e) ltac:(lia) ltac:(lia)) as Hp.
      pose proof (Z.div_mod (- Zpos m) (2 ^ (- e)) ltac:(lia)). pose proof (Z.mod_pos_bound (- Zpos m) (2 ^ (- e)) Hp).
      change (2 ^ 53) with 9007199254740992 in *. nia. }
  destruct (Z.ltb_spec z 0); [lia|]. destruct (Z.leb_spec two64 z); [lia|]. cbn [orb]. eauto.
Qed.
End Cast.

(** In doubles the conversion is defined below 2^64. *)
Definition below_two64 (g : interp float) (xs : list float) : Prop :=
  forall d, d < length xs -> nth d (if_uniform g) false = true ->
    let q := ((nth d xs 0 - fst (nth d (sp_range (if_spline g)) (0, 0))) / nth d (if_dx g) 0)%float in
    (0x1p64 <=? q - (if nth d (sp_per (if_spline g)) false then 1
                     else 0.5 * Fnat (sp_order (if_spline g) + 1)))%float = false.

Lemma below_convertible g xs : below_two64 g xs -> convertible Fops g xs.
Proof.
  intros H d q Hd Hu E. cbn [odiv Fops] in E. injection E as <-. specialize (H d Hd Hu). cbn beta zeta in *.
  cbn [oceil olt osub omul ohalf onat o0 o1 Fops] in *. unfold zero, one in *.
  set (v := (_ - _)%float) in *.
  match goal with |- context [(0 <? ?w)%float] => change w with v end.
  destruct (0 <? v)%float eqn:E0; [apply Fceil_ok; auto|]. exists 0. reflexivity.
Qed.

Lemma eval_double on nd p per dims ranges f g xs orders :
  sized_input nd p per dims ranges -> m_dims f = dims -> wf_mesh f ->
  (on = false -> forall d, by_points ranges d -> nth d per false = true) ->
  interp_make Fops on nd p per f ranges = Ok g ->
  length xs = length per -> length orders = length per -> below_two64 g xs ->
  (exists v, interp_eval Fops g xs = Ok v) /\ (exists v, interp_derivative Fops on g xs orders = Ok v).
Proof. intros. eapply eval_made_total; eauto using F_total, F_order, below_convertible. Qed.

(** ** Witnesses *)
Local Open Scope float_scope.

(** Far apart and neighbouring points: the running sum that gives the knots
    loses the small ones (exact knots: 7.5 and 8.5, computed: 4 and 5). *)
Definition far_points : list float := [-0x1p60; -0x1p59; 7; 8; 9; 10].

Lemma lists_rejected : exists p l f,
  (forall i, (S i < length l)%nat -> (nth i l 0 <? nth (S i) l 0) = true) /\
  List.Forall (fun x => is_finite x = true) l /\
  sized_input false p [false] [length l] [Points l] /\ m_dims f = [length l] /\ wf_mesh f /\
  interp_make Fops true false p [false] f [Points l] = Throw AssertFailed /\
  interp_make Fops false false p [false] f [Points l] = Fault Wrapped.
Proof.
  exists 2%nat, far_points, (mkMesh [6%nat] [1; 2; 3; 4; 5; 6]).
  split; [|split; [|split; [|split; [|split; [|split]]]]].
  - intros i Hi. do 5 (destruct i as [|i]; [vm_compute; reflexivity|]). cbn in Hi. lia.
  - repeat constructor.
  - split; [discriminate|]. split; [reflexivity|]. split; [reflexivity|]. intros d Hd. destruct d; [|cbn in Hd; lia].
    split; [cbn; lia|]. split; [reflexivity|]. intros; lia.
  - reflexivity.
  - reflexivity.
  - vm_compute. reflexivity.
  - vm_compute. reflexivity.
Qed.

Definition unit_grid : list (xrange float) := [Uniform 0 1].

Lemma huge_coordinate : exists p f g x,
  sized_input false p [false] [5%nat] unit_grid /\ m_dims f = [5%nat] /\ wf_mesh f /\
  interp_make Fops true false p [false] f unit_grid = Ok g /\ is_finite x = true /\
  interp_eval Fops g [x] = Fault BadCast.
Proof.
  exists 3%nat, (mkMesh [5%nat] [1; 2; 4; 8; 16]).
  destruct (interp_make Fops true false 3 [false] (mkMesh [5%nat] [1; 2; 4; 8; 16]) unit_grid) as [g|e|u] eqn:E;
    [|vm_compute in E; discriminate|vm_compute in E; discriminate].
  exists g, 0x1p90. split; [|split; [|split; [|split; [|split]]]]; auto.
  - split; [discriminate|]. split; [reflexivity|]. split; [reflexivity|]. intros d Hd. destruct d; [|cbn in Hd; lia].
    split; [cbn; lia|exact I].
  - reflexivity.
  - vm_compute in E. injection E as <-. vm_compute. reflexivity.
Qed.

Lemma wide_identity : exists n p q h m f iter m0, (p < n /\ q < n)%nat /\ writes_in (in_ext n p q) h /\
  (forall i j, (i < n)%nat -> (j < n)%nat -> content 0 h i j = if Nat.eqb i j then 1 else 0) /\
  build_eband Fops true n p q h = Ok m /\ eband_lu Fops true m = Ok f /\ in_memory n iter m0 /\
  run (eband_solve Fops true f iter) m0 = Fault Wrapped.
Proof.
  set (h := [(0%nat, 0%nat, 1); (1%nat, 1%nat, 1); (2%nat, 2%nat, 1)]).
  destruct (build_eband Fops true 3 2 2 h) as [m|e|u] eqn:Em; [|vm_compute in Em; discriminate..].
  destruct (eband_lu Fops true m) as [f|e|u] eqn:Ef; [|vm_compute in Em; injection Em as <-; vm_compute in Ef; discriminate..].
  exists 3%nat, 2%nat, 2%nat, h, m, f, (fun i => (0%nat, i)), [[1; 2; 3]].
  split; [lia|]. split; [|split; [|split; [|split; [|split]]]]; auto.
  - unfold h. repeat constructor; unfold in_band; cbn [fst snd]; try lia.
  - intros i j Hi Hj. do 3 (destruct i as [|i]; [do 3 (destruct j as [|j]; [reflexivity|]); lia|]). lia.
  - intros i Hi. unfold mem_ok. cbn. lia.
  - vm_compute in Em. injection Em as <-. vm_compute in Ef. injection Ef as <-. vm_compute. reflexivity.
Qed.
