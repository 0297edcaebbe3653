(** The two branches of InterpolationTemplate.hpp build the same templates and
    functions (except for copies of templates). *)
From Coq Require Import List Arith Lia Bool ZArith QArith Reals.
From Verif Require Import Base Num MeshM ProgM BandM LUM SplineM InterpM Templ14M SpecInterp MeshProofs.
From Verif Require Import CoefProofs BuildProofs WeightProofs SafeProofs SafeLU SafeSolve SafeBuild SafeTop.
Import ListNotations.
Local Open Scope nat_scope.

(** ** Equal outcomes up to a relation *)
Definition rel_res {A B} (R : A -> B -> Prop) (x : res A) (y : res B) : Prop :=
  match x, y with
  | Ok a, Ok b => R a b
  | Throw e, Throw e' => e = e'
  | Fault u, Fault u' => u = u'
  | _, _ => False
  end.

Lemma rel_same {A B C} (R : B -> C -> Prop) (r : res A) f g :
  (forall a, r = Ok a -> rel_res R (f a) (g a)) -> rel_res R (bind r f) (bind r g).
Proof. destruct r; cbn [bind rel_res]; auto. Qed.

Lemma rel_bind {A B C D} (R : A -> B -> Prop) (Q : C -> D -> Prop) r s f g :
  rel_res R r s -> (forall a b, r = Ok a -> R a b -> rel_res Q (f a) (g b)) -> rel_res Q (bind r f) (bind s g).
Proof. destruct r, s; cbn [bind rel_res]; auto; try tauto. Qed.

Lemma rel_for {S S'} (R : S -> S' -> Prop) lo hi (f : S -> nat -> res S) (g : S' -> nat -> res S') : forall s s',
  R s s' -> (forall i s s', lo <= i < hi -> R s s' -> rel_res R (f s i) (g s' i)) -> rel_res R (for_ lo hi s f) (for_ lo hi s' g).
Proof.
  unfold for_. intros s s' H Hf. assert (G : forall i, In i (seq lo (hi - lo)) -> lo <= i < hi) by (intros i Hi; apply in_seq in Hi; lia).
  revert s s' H. induction (seq lo (hi - lo)) as [|i l IH]; intros s s' H; cbn [foldM rel_res]; auto.
  eapply rel_bind; [apply Hf; auto; apply G; left; auto|]. intros a b _ Hab. apply IH; auto. intros j Hj. apply G. right. auto.
Qed.

Lemma rel_refl {A} (r : res A) : rel_res eq r r.
Proof. destruct r; cbn; auto. Qed.
Lemma rel_eq {A} (r s : res A) : rel_res eq r s -> r = s.
Proof. destruct r, s; cbn; intros; subst; try tauto; auto. Qed.

(** Everything is allowed: partial correctness. *)
Definition any_fault : allowed := fun _ => True.
Definition never_throws {T} (o : ops T) : Prop :=
  forall a b e, odiv o a b <> Throw e /\ ofmod o a b <> Throw e.
Lemma any_quiet {T} (o : ops T) : never_throws o -> quiet any_fault o.
Proof.
  intros H a b. split; [destruct (odiv o a b) as [|e|] eqn:E|destruct (ofmod o a b) as [|e|] eqn:E]; cbn; auto;
    try exact I; destruct (H a b e); congruence.
Qed.

(** The bisection ends behind the last element only if that is not greater. *)
Lemma upper_bound_end {T} (o : ops T) knots x dflt : forall fuel first len u,
  len <= fuel -> upper_bound o knots x fuel first len = Ok u ->
  u <= first + len /\ (u = first + len -> 0 < len -> olt o x (nth (first + len - 1) knots dflt) = false).
Proof.
  induction fuel; intros first len u Hf; cbn [upper_bound].
  - intros E. injection E as <-. split; lia.
  - destruct (Nat.eqb_spec len 0) as [->|Hn]; [intros E; injection E as <-; split; lia|]. cbv zeta.
    assert (len / 2 < len) by (apply Nat.div_lt; lia). set (h := len / 2) in *. clearbody h.
    intros E. apply bind_Ok in E as (m & Em & E). apply vget_inv in Em as (Hm & Em). specialize (Em dflt).
    destruct (olt o x m) eqn:Ex.
    + apply IHfuel in E as (E1 & E2); [|lia]. split; lia.
    + apply IHfuel in E as (E1 & E2); [|lia]. split; [lia|]. intros Eu Hl.
      destruct (Nat.eq_dec (len - h - 1) 0).
      * replace (first + len - 1) with (first + h) by lia. rewrite Em. exact Ex.
      * replace (first + len - 1) with (first + h + 1 + (len - h - 1) - 1) by lia. apply E2; lia.
Qed.

Section Branches.
Context {T : Type} (o : ops T) (on nd : bool).
Notation z := (o0 o).

(** A matrix in the one branch and in the other. *)
Definition same_mat (per : bool) (m : solver T) (e : eband T) : Prop :=
  match m with Periodic e' => per = true /\ e = e' | Aperiodic b => per = false /\ e_base e = b end.

Lemma main_set_same m e i j v : same_mat false m e ->
  rel_res (same_mat false) (coef_set on m i j v) (eb_main_set on e i j v).
Proof using Type.
  destruct m as [b|e']; cbn [same_mat]; intros [H1 H2]; [|discriminate]. unfold coef_set, eb_main_set. rewrite H2.
  apply rel_same. intros b' _. cbn [rel_res same_mat e_base]. auto.
Qed.
Lemma set_same m e i j v : same_mat true m e ->
  rel_res (same_mat true) (coef_set on m i j v) (eb_set on e i j v).
Proof using Type.
  destruct m as [b|e']; cbn [same_mat]; intros [H1 H2]; [discriminate|]. unfold coef_set. subst.
  destruct (eb_set on e' i j v); cbn; auto.
Qed.

(** One row.  [n] rows; the knot at [n] of an aperiodic list is beyond all its
    interior points. *)
Lemma row_same (s : spline T) d u dx c n i m e vals :
  sp_order s + 1 <= n -> i < n ->
  (nth d (sp_per s) false = false -> length (nth d (sp_knots s) []) = n + (sp_order s + 1)) ->
  (nth d (sp_per s) false = false -> u = false ->
     length c = n /\ forall k, k < n - 1 -> olt o (nth k c z) (nth n (nth d (sp_knots s) []) z) = true) ->
  same_mat (nth d (sp_per s) false) m e ->
  rel_res (fun x y => same_mat (nth d (sp_per s) false) (fst x) (fst y) /\ snd x = snd y)
    (coef_row o on s d u dx c n i (m, vals)) (coef14_row o on s d u dx c n i (e, vals)).
Proof using Type.
  intros Hn Hi HK Hc Hm. unfold coef_row, coef14_row.
  apply rel_same. intros per Eper. apply vget_inv in Eper as (_ & Eper). specialize (Eper false). rewrite Eper in *.
  apply rel_same. intros K EK. apply vget_inv in EK as (_ & EK). specialize (EK []). rewrite EK in *.
  apply rel_same. intros rg _. rewrite usub_ok by lia. cbn [bind]. set (p := sp_order s) in *.
  destruct (negb per && ((i =? 0) || (i =? n - 1))) eqn:Eend.
  - apply andb_prop in Eend as [Ep _]. apply negb_true_iff in Ep. rewrite Ep in *.
    eapply rel_bind; [apply main_set_same; eauto|]. intros a b _ Hab. cbn [rel_res fst snd]. auto.
  - apply rel_same. intros b _. apply rel_same. intros [k v2] E.
    assert (Hk : per = false -> k <= n - 1).
    { intros ->. specialize (HK eq_refl). cbn [negb andb] in Eend. apply orb_false_iff in Eend as [E1 E2].
      apply Nat.eqb_neq in E1, E2. destruct u.
      - rewrite HK in E. rewrite usub_ok in E by lia. cbn [bind] in E. rewrite usub_ok in E by lia. cbn [bind] in E.
        apply bind_Ok in E as (out & _ & E). destruct out.
        + apply bind_Ok in E as (w & _ & E). injection E as <- <-. lia.
        + injection E as <- <-. lia.
      - destruct (Hc eq_refl eq_refl) as (Lc & Hlt). apply bind_Ok in E as (x & Ex & E).
        apply vget_inv in Ex as (_ & Ex). specialize (Ex z).
        apply bind_Ok in E as (k' & Ek & E). apply bind_Ok in E as (w & _ & E). injection E as <- <-.
        destruct (Nat.eqb_spec i 0); [lia|]. rewrite usub_ok in Ek by lia. cbn [bind] in Ek.
        destruct (Nat.eqb_spec i (length c - 1)); [lia|].
        rewrite HK in Ek. rewrite usub_ok in Ek by lia. cbn [bind] in Ek. rewrite usub_ok in Ek by lia. cbn [bind] in Ek.
        replace (n + (p + 1) - p - 1) with n in Ek by lia.
        apply bind_Ok in Ek as ([x' k''] & Ek & E). cbn [snd] in E. injection E as <-.
        unfold get_knot_iter_last, wrap_coord in Ek. cbn [bind] in Ek.
        apply bind_Ok in Ek as (a & _ & Ek). apply bind_Ok in Ek as (hit & _ & Ek). destruct hit; [injection Ek as <- <-; lia|].
        destruct (Nat.ltb_spec (Nat.min n (i + p)) p); [discriminate|].
        apply bind_Ok in Ek as (ub & Eu & Ek). apply bind_Ok in Ek as (k & Ek1 & Ek). injection Ek as <- <-.
        apply usub_inv in Ek1 as (? & ->). apply (upper_bound_end o K x z) in Eu as (U1 & U2); [|lia].
        destruct (Nat.le_gt_cases ub n); [lia|]. exfalso. specialize (U2 ltac:(lia) ltac:(lia)).
        replace (p + 1 + (Nat.min n (i + p) - p) - 1) with n in U2 by lia. rewrite <- Ex, Hlt in U2 by lia. discriminate. }
    set (s_num := if per then p + (1 - p mod 2) else if p =? 1 then 1 else if u && b then p + (1 - p mod 2) else p + 1).
    assert (Hs : s_num <= p + 1 /\ (p = 0 -> s_num <= 1)).
    { unfold s_num. pose proof (Nat.mod_upper_bound p 2 ltac:(lia)). destruct per, (Nat.eqb_spec p 1), (u && b); lia. }
    apply (rel_bind (same_mat per)); [|intros a b' _ Hab; cbn [rel_res fst snd]; auto].
    apply rel_for; auto. intros j m' e' Hj Hm'. destruct per.
    + apply rel_same. intros row _. apply rel_same. intros c' _. apply rel_same. intros col _. apply rel_same. intros v _. apply set_same. auto.
    + specialize (Hk eq_refl). rewrite umod_ok by lia. cbn [bind]. rewrite Nat.add_0_r, Nat.mod_small by lia.
      apply rel_same. intros c' Ec. apply usub_inv in Ec as (? & ->). rewrite umod_ok by lia. cbn [bind].
      rewrite Nat.mod_small by lia. apply rel_same. intros v _. apply main_set_same. auto.
Qed.

Lemma matrix_same (f : interp T) coords dims d :
  nth d dims 0 >= sp_order (if_spline f) + 1 ->
  (nth d (sp_per (if_spline f)) false = false -> length (nth d (sp_knots (if_spline f)) []) = nth d dims 0 + (sp_order (if_spline f) + 1)) ->
  (nth d (sp_per (if_spline f)) false = false -> nth d (if_uniform f) false = false ->
     length (nth d coords []) = nth d dims 0 /\
     forall k, k < nth d dims 0 - 1 -> olt o (nth k (nth d coords []) z) (nth (nth d dims 0) (nth d (sp_knots (if_spline f)) []) z) = true) ->
  rel_res (same_mat (nth d (sp_per (if_spline f)) false)) (coef_matrix o on f coords dims d) (coef14_matrix o on f coords dims d).
Proof using Type.
  intros Hn HK Hc. unfold coef_matrix, coef14_matrix.
  apply rel_same. intros per Eper. apply vget_inv in Eper as (_ & Eper). specialize (Eper false).
  apply rel_same. intros u Eu. apply vget_inv in Eu as (_ & Eu). specialize (Eu false).
  apply rel_same. intros dx _. apply rel_same. intros c Ec. apply vget_inv in Ec as (_ & Ec). specialize (Ec []).
  apply rel_same. intros n En. apply vget_inv in En as (_ & En). specialize (En 0).
  rewrite Eu, Ec, En in *. apply rel_same. intros cache _.
  set (s := if_spline f) in *. rewrite Eper in *.
  apply (rel_bind (same_mat per)).
  - unfold coef_make, coef14_make. destruct per.
    + destruct (eband_make _ _ _ _); cbn; auto.
    + set (bw := if sp_order s =? 0 then 0 else sp_order s - 1).
      assert (bw + 1 <= n) by (unfold bw; destruct (Nat.eqb_spec (sp_order s) 0); lia).
      unfold eband_make. rewrite usub_ok by lia. cbn [bind]. rewrite usub_ok by lia. cbn. auto.
  - intros m e _ Hm. apply (rel_bind (fun x y => same_mat per (fst x) (fst y) /\ snd x = snd y)).
    + apply rel_for; [cbn; auto|]. intros i [m' v] [e' v'] Hi [H1 H2]. cbn [fst snd] in H1, H2. subst v'.
      assert (G := row_same s d u dx c n i m' e' v). rewrite Eper in G. apply G; auto. lia.
    + intros [m' v] [e' v'] _ [H1 _]. cbn in *. auto.
Qed.

Lemma factor_same per m e : same_mat per m e -> coef_factor o on m = coef14_factor o on per e.
Proof using Type. destruct m; cbn [same_mat]; intros [-> H]; subst; reflexivity. Qed.

(** A template of the one branch as one of the other. *)
Definition as14 (t : templ T) : templ14 T :=
  mkTempl14 (tp_base t) (tp_dims t) (tp_coords t) (map Held (tp_solvers t)).

Definition of_kind (per : bool) (sv : solver T) : Prop := match sv with Periodic _ => per = true | Aperiodic _ => per = false end.

Lemma block_same per sv d odims ndims lo hi : of_kind per sv ->
  solve_block14 o on per (Held sv) d odims ndims lo hi = solve_block o on sv d odims ndims lo hi.
Proof using Type. destruct sv; cbn [of_kind]; intros ->; reflexivity. Qed.

Lemma run_plift_bind {A B} (r : res A) (f : A -> prog T B) m : run (pbind (plift r) f) m = bind r (fun a => run (f a) m).
Proof using Type. destruct r; reflexivity. Qed.

Lemma bind_ext {A B} (r : res A) (f g : A -> res B) : (forall a, r = Ok a -> f a = g a) -> bind r f = bind r g.
Proof using Type. destruct r; cbn; auto. Qed.

Lemma round_same per svs dims d m : length svs = length per ->
  (forall k, k < length per -> exists sv, nth_error svs k = Some sv /\ of_kind (nth k per false) sv) ->
  run (solve_round14 o on per (map Held svs) dims d) m = run (solve_round o on svs dims d) m.
Proof using Type.
  intros L Hk. unfold solve_round14, solve_round.
  rewrite !run_plift_bind. apply bind_ext. intros odims _.
  rewrite !run_plift_bind. apply bind_ext. intros ndims _. rewrite !run_plift_bind.
  destruct (usub (length dims) 1) as [k|e|w]; cbn [bind]; auto.
  destruct (usub k d) as [k'|e|w]; cbn [bind]; auto.
  destruct (Nat.lt_ge_cases k' (length per)) as [H|H].
  - destruct (Hk k' H) as (sv & E & K). unfold vget. rewrite nth_error_map, E. cbn [option_map bind].
    rewrite (nth_error_nth' per false) by auto. cbn [bind fst snd]. rewrite !run_plift_bind. apply bind_ext. intros h _.
    f_equal. apply block_same. auto.
  - rewrite !vget_oob by (rewrite ?map_length; lia). reflexivity.
Qed.

Lemma for_ext {S} lo hi (f g : S -> nat -> res S) : (forall i s, f s i = g s i) -> forall s, for_ lo hi s f = for_ lo hi s g.
Proof using Type.
  intros H s. unfold for_. revert s. induction (seq lo (hi - lo)) as [|i l IH]; intros s; cbn [foldM]; auto. rewrite H. apply bind_ext. auto.
Qed.

Lemma solve_ctrl_same t f : length (tp_solvers t) = length (sp_per (if_spline (tp_base t))) ->
  (forall k, k < length (tp_solvers t) -> exists sv, nth_error (tp_solvers t) k = Some sv /\
      of_kind (nth k (sp_per (if_spline (tp_base t))) false) sv) ->
  interpolate14 o on nd (as14 t) f = interpolate o on nd t f.
Proof using Type.
  intros L Hk. unfold interpolate14, interpolate, solve_ctrl14, solve_ctrl, as14. cbn [t14_base t14_dims t14_solvers].
  f_equal. apply bind_ext. intros w _. f_equal. rewrite !run_pfor. f_equal. apply for_ext. intros i s.
  rewrite round_same; auto. rewrite <- L. auto.
Qed.

(** Filling the array of idle solvers. *)
Lemma fill_held (F : nat -> res (solver T)) (body : list (either T) -> nat -> res (list (either T))) n :
  (forall svs d, d < n -> length svs = n -> nth_error svs d = Some Idle -> body svs d = (sv <- F d ;; vset svs d (Held sv))) ->
  for_ 0 n (repeat Idle n) body = (svs <- mapM F (seq 0 n) ;; Ok (map Held svs)).
Proof using Type.
  intros Hb. unfold for_. rewrite Nat.sub_0_r.
  assert (G : forall len a done, a + len = n -> length done = a ->
    foldM body (seq a len) (map Held done ++ repeat Idle len) = (svs <- mapM F (seq a len) ;; Ok (map Held done ++ map Held svs))).
  { induction len; intros a done Ha Hd; cbn [seq foldM mapM bind map repeat].
    - reflexivity.
    - rewrite Hb; [|lia|rewrite app_length, map_length; cbn [length]; rewrite repeat_length; lia|].
      2:{ rewrite nth_error_app2 by (rewrite map_length; lia). rewrite map_length, Hd, Nat.sub_diag. reflexivity. }
      destruct (F a) as [sv|e|w]; cbn [bind]; auto.
      rewrite vset_ok by (rewrite app_length, map_length; cbn [length]; lia). cbn [bind].
      assert (E : upd (map Held done ++ Idle :: repeat Idle len) a (Held sv) = map Held (done ++ [sv]) ++ repeat Idle len).
      { rewrite map_app, <- app_assoc. cbn [map app]. clear -Hd. revert a Hd. induction done as [|x l IH]; intros a Hd; cbn [length] in Hd; subst; cbn [map app upd]; auto.
        f_equal. apply IH. auto. }
      rewrite E, IHlen by (rewrite ?app_length; cbn [length]; lia).
      destruct (mapM F (seq (S a) len)) as [svs|e|w]; cbn [bind]; auto. rewrite map_app, <- app_assoc. reflexivity. }
  apply (G n 0 []); auto.
Qed.
End Branches.

(** ** Templates and functions *)
Section Input.
Context {T : Type} (o : ops T) (on nd : bool).
Hypothesis Ho : never_throws o.
Notation z := (o0 o).
Context (p : nat) (per : list bool) (dims : list nat) (ranges : list (xrange T)).
Hypothesis Hin : sized_input nd p per dims ranges.
Hypothesis Hlast : forall d l, nth_error ranges d = Some (Points l) -> nth d per false = false ->
  forall k, k < length l - 1 -> olt o (nth k l z) (last l z) = true.

Lemma last_nth (l : list T) : last l z = nth (length l - 1) l z.
Proof using Type.
  induction l as [|a l IH]; auto. destruct l as [|b l]; auto. cbn [last length] in *. rewrite IH. cbn [length].
  replace (S (S (length l)) - 1) with (S (S (length l) - 1)) by lia. reflexivity.
Qed.

Lemma base_shape st : interp_base o on nd p per dims ranges = Ok st -> bshape o nd p per dims ranges (length per) st.
Proof using Ho Hin.
  intros E. pose proof Hin as (_ & Ld & Lr & _).
  pose proof (@base_safe any_fault T o on nd (any_quiet o Ho) true p per dims ranges Ld Lr
    (sized_ok on nd p per dims ranges true Hin (fun _ _ => eq_refl))) as H. rewrite E in H. exact H.
Qed.

Lemma matrices_same f coords d : bshape o nd p per dims ranges (length per) (f, coords) -> d < length per ->
  rel_res (same_mat (nth d per false)) (coef_matrix o on f coords (ddims nd per dims) d) (coef14_matrix o on f coords (ddims nd per dims) d).
Proof using Hin Hlast.
  intros B Hd. pose proof Hin as (_ & Ld & Lr & Hs). destruct (Hs d Hd) as (S1 & _).
  destruct B as [B1 B2 B3 B4 B5 B6 B7 B8 B9 B10 B11]. cbn [fst snd] in *.
  pose proof (ddims_nth nd per dims d Hd) as En.
  assert (G := matrix_same o on f coords (ddims nd per dims) d). rewrite B1, B2, En in G. apply G.
  - auto.
  - intros E. rewrite B8 by auto. unfold klen. rewrite E. reflexivity.
  - intros E Eu. rewrite B9 in Eu by auto. destruct (nth d ranges (Points [])) as [|l] eqn:Er; [discriminate|].
    destruct (B11 d l Hd Er E) as (_ & Ec & Ek). specialize (B10 d l Hd Er). rewrite Ec in *.
    assert (El : length l = distinct nd (nth d per false) (nth d dims 0)) by (rewrite B10, E; reflexivity).
    split; auto. intros k Hk. rewrite <- El, Ek, <- last_nth. apply (Hlast d); auto; [|lia].
    rewrite (nth_error_nth' ranges (Points [])) by lia. congruence.
Qed.

Lemma factored_same f coords d : bshape o nd p per dims ranges (length per) (f, coords) -> d < length per ->
  (m <- coef_matrix o on f coords (ddims nd per dims) d ;; coef_factor o on m) =
  (m <- coef14_matrix o on f coords (ddims nd per dims) d ;; coef14_factor o on (nth d per false) m).
Proof using Hin Hlast.
  intros B Hd. apply rel_eq. eapply rel_bind; [exact (matrices_same f coords d B Hd)|].
  intros m e _ Hm. rewrite (factor_same o on _ m e Hm). apply rel_refl.
Qed.

Lemma factored_kind f coords d sv : bshape o nd p per dims ranges (length per) (f, coords) -> d < length per ->
  (m <- coef_matrix o on f coords (ddims nd per dims) d ;; coef_factor o on m) = Ok sv -> of_kind (nth d per false) sv.
Proof using Hin Hlast.
  intros B Hd E. apply bind_Ok in E as (m & Em & E). pose proof (matrices_same f coords d B Hd) as M. rewrite Em in M.
  destruct (coef14_matrix _ _ _ _ _ _) as [e|e|w]; cbn [rel_res] in M; [|tauto|tauto].
  destruct m; cbn [same_mat] in M; destruct M as [M _]; cbn [coef_factor] in E; apply bind_Ok in E as (x & _ & E); injection E as <-; exact M.
Qed.

Lemma templ_same : templ14_make o on nd p per dims ranges = (t <- templ_make o on nd p per dims ranges ;; Ok (as14 t)).
Proof using Ho Hin Hlast.
  pose proof Hin as (_ & Ld & Lr & Hs). unfold templ14_make, templ_make.
  destruct (interp_base o on nd p per dims ranges) as [[f coords]|e|w] eqn:Eb; cbn [bind]; auto.
  apply base_shape in Eb.
  rewrite (reduced_safe on nd true p per dims ranges Ld Lr (sized_ok on nd p per dims ranges true Hin (fun _ _ => eq_refl))). cbn [bind].
  rewrite (fill_held (fun d => m <- coef14_matrix o on f coords (ddims nd per dims) d ;; coef14_factor o on (nth d per false) m)).
  - assert (E : mapM (fun d => m <- coef14_matrix o on f coords (ddims nd per dims) d ;; coef14_factor o on (nth d per false) m) (seq 0 (length per)) =
        mapM (fun d => m <- coef_matrix o on f coords (ddims nd per dims) d ;; coef_factor o on m) (seq 0 (length per))).
    { assert (G : forall l, (forall d, In d l -> d < length per) -> mapM (fun d => m <- coef14_matrix o on f coords (ddims nd per dims) d ;; coef14_factor o on (nth d per false) m) l =
        mapM (fun d => m <- coef_matrix o on f coords (ddims nd per dims) d ;; coef_factor o on m) l).
      { induction l as [|d l IH]; intros Hl; cbn [mapM]; auto. rewrite factored_same by (auto; apply Hl; left; auto).
        rewrite IH by (intros; apply Hl; right; auto). reflexivity. }
      apply G. intros d Hd. apply in_seq in Hd. lia. }
    rewrite E. clear E. destruct (mapM _ (seq 0 (length per))); cbn [bind]; reflexivity.
  - intros svs d Hd L E. destruct (coef14_matrix _ _ _ _ _ _) as [m|e|w]; cbn [bind]; auto.
    unfold vget at 1. rewrite E. cbn [bind either_assign]. rewrite (vget_ok per _ false) by auto. reflexivity.
Qed.

Lemma templ_kinds t : templ_make o on nd p per dims ranges = Ok t ->
  sp_per (if_spline (tp_base t)) = per /\ tp_dims t = ddims nd per dims /\ length (tp_solvers t) = length per /\
  forall k, k < length per -> exists sv, nth_error (tp_solvers t) k = Some sv /\ of_kind (nth k per false) sv.
Proof using Ho Hin Hlast.
  pose proof Hin as (_ & Ld & Lr & Hs). unfold templ_make. intros E. apply bind_Ok in E as ([f coords] & Eb & E).
  apply base_shape in Eb.
  rewrite (reduced_safe on nd true p per dims ranges Ld Lr (sized_ok on nd p per dims ranges true Hin (fun _ _ => eq_refl))) in E. cbn [bind] in E.
  apply bind_Ok in E as (svs & EM & E). injection E as <-. cbn [tp_base tp_dims tp_solvers].
  split; [apply Eb|]. split; auto. pose proof (mapM_length _ _ _ EM) as L. rewrite seq_length in L. split; auto.
  intros k Hk. exists (nth k svs (Aperiodic (band_make o 0 0 0))).
  split; [apply nth_error_nth'; lia|].
  pose proof (mapM_nth _ _ _ k 0 (Aperiodic (band_make o 0 0 0)) EM ltac:(rewrite seq_length; auto)) as Ek.
  rewrite seq_nth in Ek by auto. cbn [Nat.add] in Ek. eapply factored_kind; eauto.
Qed.

Lemma interpolate_same t f : templ_make o on nd p per dims ranges = Ok t ->
  interpolate14 o on nd (as14 t) f = interpolate o on nd t f.
Proof using Ho Hin Hlast.
  intros E. apply templ_kinds in E as (E1 & _ & E2 & E3). apply solve_ctrl_same; rewrite E1, ?E2; auto.
Qed.

Lemma make_same f : m_dims f = dims -> interp14_make o on nd p per f ranges = interp_make o on nd p per f ranges.
Proof using Ho Hin Hlast.
  intros Ef. unfold interp14_make, interp_make. rewrite Ef, templ_same.
  destruct (templ_make o on nd p per dims ranges) as [t|e|w] eqn:E; cbn [bind]; auto.
  rewrite (interpolate_same t f E). unfold interpolate, interpolate_move.
  destruct (solve_ctrl o on nd t f); reflexivity.
Qed.

(** *** Copies *)
Lemma copied_idle t f g : templ14_make o on nd p per dims ranges = Ok t -> interpolate14 o on nd t f = Ok g ->
  interpolate14 o on nd (templ14_copy t) f = Fault Inactive.
Proof using Ho Hin Hlast.
  intros Et Eg. rewrite templ_same in Et. apply bind_Ok in Et as (t0 & Et & E). injection E as <-.
  apply templ_kinds in Et as (E1 & E2 & E3 & E4). pose proof Hin as (Hne & Ld & Lr & Hs).
  unfold interpolate14 in *. apply bind_Ok in Eg as (c & Ec & _). unfold solve_ctrl14 in *. cbn [templ14_copy as14 t14_base t14_dims t14_solvers] in *.
  apply bind_Ok in Ec as (w & Ew & Ec). rewrite Ew. cbn [bind]. apply bind_Ok in Ec as ([[] m'] & Er & _).
  rewrite E1, E2 in *. set (dd := ddims nd per dims) in *.
  assert (Ldd : length dd = length per) by (apply ddims_length).
  assert (Lp : 0 < length per) by (destruct per; [congruence|cbn; lia]).
  assert (X : run (pfor 0 (length dd) (solve_round14 o on per (map (fun _ => Idle) (map Held (tp_solvers t0))) dd)) (initial_mem o dd w) = Fault Inactive); [|rewrite X; reflexivity].
  rewrite run_pfor in *. unfold for_ in *. rewrite Ldd, Nat.sub_0_r in *.
  destruct (length per) as [|D] eqn:ED; [lia|]. cbn [seq foldM] in *.
  apply bind_Ok in Er as (m1 & Er & _). apply bind_Ok in Er as (m2 & Er & _). apply bind_Ok in Er as ([[] m3] & Er & _).
  enough (Y : run (solve_round14 o on per (map (fun _ => Idle) (map Held (tp_solvers t0))) dd 0) (initial_mem o dd w) = Fault Inactive) by (rewrite Y; reflexivity).
  unfold solve_round14 in *. rewrite !run_plift_bind in *. cbn [round_dims bind] in *.
  rewrite !run_plift_bind in *. apply bind_Ok in Er as (nd' & End & Er). rewrite End. cbn [bind].
  rewrite !run_plift_bind in *. apply bind_Ok in Er as ([pp sv] & Esv & Er). cbn [fst snd] in Er.
  rewrite Ldd in *. rewrite usub_ok in * by lia. cbn [bind] in *. rewrite usub_ok in * by lia. cbn [bind] in *.
  apply bind_Ok in Esv as (sv' & Es & Esv). apply bind_Ok in Esv as (p' & Ep & _).
  apply vget_inv in Es as (Hlen & _). rewrite map_length in Hlen. rewrite (vget_ok (map (fun _ => Idle) _) _ Idle) by (rewrite !map_length; auto). cbn [bind]. rewrite Ep. cbn [bind fst snd].
  assert (Ei : forall k, nth k (map (fun _ : either T => @Idle T) (map Held (tp_solvers t0))) Idle = Idle).
  { intros k. clear. generalize (map Held (tp_solvers t0)). intros l. revert k. induction l; intros [|k]; cbn; auto. }
  rewrite Ei. rewrite !run_plift_bind in *. apply bind_Ok in Er as (h & Eh & Er). rewrite Eh. cbn [bind].
  assert (Hh : 1 <= h).
  { unfold hyperplane_size in Eh. rewrite Ldd in Eh. rewrite usub_ok in Eh by lia. cbn [bind] in Eh.
    apply bind_Ok in Eh as (ls & Els & Eh). unfold udiv in Eh. destruct (Nat.eqb_spec ls 0); [discriminate|]. injection Eh as <-.
    assert (In ls dd). { apply vget_inv in Els as (H1 & H2). rewrite <- (H2 0). apply nth_In. auto. }
    apply Nat.div_le_lower_bound; auto. rewrite Nat.mul_1_r.
    assert (Pos : forall x, In x dd -> 0 < x).
    { intros x Hx. apply (In_nth _ _ 0) in Hx as (k & Hk & <-). unfold dd. rewrite ddims_nth by lia. destruct (Hs k ltac:(lia)). lia. }
    clear -H Pos. rewrite md_size_prod. revert H Pos. generalize dd. clear. intros l.
    induction l as [|x l IH]; intros H Pos; [destruct H|].
    assert (1 <= SpecMesh.prod l).
    { clear -Pos. induction l as [|y l IH]; cbn; auto. assert (0 < y) by (apply Pos; right; left; auto).
      assert (1 <= SpecMesh.prod l) by (apply IH; intros w [->|Hw]; apply Pos; [left|right; right]; auto). unfold SpecMesh.prod in *. nia. }
    assert (0 < x) by (apply Pos; left; auto). change (SpecMesh.prod (x :: l)) with (x * SpecMesh.prod l). destruct H as [->|H]; [nia|].
    assert (ls <= SpecMesh.prod l). { apply IH; auto. intros w Hw. apply Pos. right. auto. } nia. }
  unfold solve_block14 in *. rewrite run_plift_bind in Er |- *. apply bind_Ok in Er as (last & El & Er). rewrite El. cbn [bind].
  rewrite run_plift_bind in Er |- *. apply bind_Ok in Er as (ls & Els & Er). rewrite Els. cbn [bind].
  rewrite run_pfor in Er |- *. unfold for_ in Er |- *. rewrite (Nat.sub_0_r h) in Er |- *. destruct h as [|h]; [lia|]. cbn [seq foldM] in Er |- *.
  apply bind_Ok in Er as (m4 & Er & _). apply bind_Ok in Er as (m5 & Er & _). apply bind_Ok in Er as ([[] m6] & Er & _).
  rewrite run_plift_bind in Er |- *. apply bind_Ok in Er as (x1 & X1 & Er). rewrite X1. cbn [bind].
  rewrite run_plift_bind in Er |- *. apply bind_Ok in Er as (x2 & X2 & Er). rewrite X2. cbn [bind].
  rewrite run_plift_bind in Er |- *. apply bind_Ok in Er as (x3 & X3 & Er). rewrite X3. cbn [bind].
  rewrite run_plift_bind in Er |- *. apply bind_Ok in Er as (x4 & X4 & Er). rewrite X4. cbn [bind].
  rewrite run_plift_bind. reflexivity.
Qed.
End Input.

(** ** Exact arithmetic and concrete cases *)
Lemma R_never_throws : never_throws Rops.
Proof. intros a b e. cbn. split; destruct (Req_EM_T b 0); discriminate. Qed.
Lemma Q_never_throws : never_throws Qops.
Proof. intros a b e. cbn. split; destruct (Qeq_bool b 0); discriminate. Qed.

(** The last point of an aperiodic list lies beyond the others. *)
Definition ends_last {T} (o : ops T) (per : list bool) (ranges : list (xrange T)) : Prop :=
  forall d l, nth_error ranges d = Some (Points l) -> nth d per false = false ->
    forall k, k < length l - 1 -> olt o (nth k l (o0 o)) (last l (o0 o)) = true.

Lemma good_sized nd p per dims ranges : good_input nd p per dims ranges -> sized_input nd p per dims ranges /\ ends_last Rops per ranges.
Proof.
  intros (H1 & H2 & H3 & H). split.
  - split; auto. split; auto. split; auto. intros d Hd. destruct (H d Hd) as (A & B & C). split; auto.
    destruct (nth d ranges (Points [])); auto. tauto.
  - intros d l E Ep k Hk. assert (Hd : d < length per). { rewrite <- H3. apply nth_error_Some. congruence. }
    destruct (H d Hd) as (A & B & C). rewrite (nth_error_nth _ _ (Points []) E) in C. destruct C as (C1 & C2 & _).
    rewrite last_nth. cbn. apply Rltb_true. apply C2. lia.
Qed.

(** All calls on a template: construct it, then interpolate each of the data
    meshes. *)
Lemma templ_runs_same (T : Type) (o : ops T) on nd p per dims ranges fs :
  never_throws o -> sized_input nd p per dims ranges -> ends_last o per ranges ->
  (t <- templ14_make o on nd p per dims ranges ;; mapM (interpolate14 o on nd t) fs) =
  (t <- templ_make o on nd p per dims ranges ;; mapM (interpolate o on nd t) fs).
Proof.
  intros Ho Hi Hl. rewrite (templ_same o on nd Ho p per dims ranges Hi Hl).
  destruct (templ_make o on nd p per dims ranges) as [t|e|w] eqn:E; cbn [bind]; auto.
  induction fs as [|f fs IH]; cbn [mapM]; auto.
  rewrite (interpolate_same o on nd Ho p per dims ranges Hi Hl t f E), IH. reflexivity.
Qed.

Lemma make_runs_same (T : Type) (o : ops T) on nd p per ranges f :
  never_throws o -> sized_input nd p per (m_dims f) ranges -> ends_last o per ranges ->
  interp14_make o on nd p per f ranges = interp_make o on nd p per f ranges.
Proof. intros Ho Hi Hl. apply (make_same o on nd Ho p per (m_dims f) ranges Hi Hl f eq_refl). Qed.

Lemma make_runs_same_R on nd p per ranges f : good_input nd p per (m_dims f) ranges ->
  interp14_make Rops on nd p per f ranges = interp_make Rops on nd p per f ranges.
Proof. intros H. apply good_sized in H as [H1 H2]. apply make_runs_same; auto. apply R_never_throws. Qed.

Lemma copies_idle (T : Type) (o : ops T) on nd p per dims ranges t f g :
  never_throws o -> sized_input nd p per dims ranges -> ends_last o per ranges ->
  templ14_make o on nd p per dims ranges = Ok t -> interpolate14 o on nd t f = Ok g ->
  interpolate14 o on nd (templ14_copy t) f = Fault Inactive.
Proof. intros Ho Hi Hl. apply (copied_idle o on nd Ho p per dims ranges Hi Hl). Qed.

(** One periodic and one aperiodic dimension. *)
Definition mixed_ranges : list (xrange Q) := [Uniform 0 5; Points [0; 1; 3; 4; 5]]%Q.
Definition mixed_data : mesh Q := mkMesh [6; 5] (map (fun k => inject_Z (Z.of_nat (k * k mod 7))) (seq 0 30)).
Lemma mixed_sized : sized_input false 3 [true; false] (m_dims mixed_data) mixed_ranges /\ ends_last Qops [true; false] mixed_ranges.
Proof.
  split.
  - split; [discriminate|]. split; [reflexivity|]. split; [reflexivity|]. intros [|[|d]] Hd; cbn in Hd; [..|lia]; repeat split; cbn; auto; lia.
  - intros [|[|d]] l E Ep; cbn in E, Ep; try discriminate; [|destruct d; discriminate].
    injection E as <-. intros k Hk. cbn in Hk. do 4 (destruct k as [|k]; [reflexivity|]). lia.
Qed.
Lemma copies_differ : exists t f g, templ14_make Qops true false 3 [true; false] [6; 5] mixed_ranges = Ok t /\
  interpolate14 Qops true false t f = Ok g /\ interpolate14 Qops true false (templ14_copy t) f = Fault Inactive.
Proof.
  destruct (templ14_make Qops true false 3 [true; false] [6; 5] mixed_ranges) as [t|e|u] eqn:E; [|vm_compute in E; discriminate..].
  destruct (interpolate14 Qops true false t mixed_data) as [g|e|u] eqn:G.
  - exists t, mixed_data, g. split; auto. split; auto.
    destruct mixed_sized as [S1 S2]. exact (copies_idle _ Qops true false 3 _ _ _ t _ g Q_never_throws S1 S2 E G).
  - exfalso. vm_compute in E. injection E as <-. vm_compute in G. discriminate.
  - exfalso. vm_compute in E. injection E as <-. vm_compute in G. discriminate.
Qed.

(** Data of another shape than the template's. *)
Lemma other_shapes : exists t f g, templ_make Qops true false 1 [false] [5] [Uniform 0 4]%Q = Ok t /\
  m_dims f = [3] /\ interpolate Qops true false t f = Ok g /\
  interp_eval Qops g [2]%Q = Ok 3%Q /\ interp_eval Qops g [4]%Q = Ok 0%Q.
Proof.
  destruct (templ_make Qops true false 1 [false] [5] [Uniform 0 4]%Q) as [t|e|u] eqn:E; [|vm_compute in E; discriminate..].
  vm_compute in E. injection E as <-.
  do 2 eexists. eexists. split; [reflexivity|]. split; [|split; [|split]]; cycle 1.
  - instantiate (2 := mesh_of_list [1; 2; 3]%Q). vm_compute. reflexivity.
  - vm_compute. reflexivity.
  - vm_compute. reflexivity.
  - reflexivity.
Qed.
Lemma too_much_data : exists t f, templ_make Qops true false 1 [false] [5] [Uniform 0 4]%Q = Ok t /\
  m_dims f = [6] /\ interpolate Qops true false t f = Fault OutOfBounds.
Proof.
  destruct (templ_make Qops true false 1 [false] [5] [Uniform 0 4]%Q) as [t|e|u] eqn:E; [|vm_compute in E; discriminate..].
  vm_compute in E. injection E as <-.
  do 2 eexists. split; [reflexivity|]. split; cycle 1.
  - instantiate (1 := mesh_of_list [1; 2; 3; 4; 5; 6]%Q). vm_compute. reflexivity.
  - reflexivity.
Qed.

(** The copy of a C++17 template. *)
Lemma copies_same (T : Type) (o : ops T) on nd (t : templ T) f : interpolate o on nd (templ_copy t) f = interpolate o on nd t f.
Proof. destruct t. reflexivity. Qed.
