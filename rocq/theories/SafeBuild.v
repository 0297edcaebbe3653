(** Which steps of the construction of an interpolation function can fail, in
    any arithmetic. *)
From Coq Require Import List Arith Lia Bool.
From Verif Require Import Base Num MeshM SpecMesh MeshProofs ProgM BandM LUM SplineM InterpM.
From Verif Require Import SpecBand BandProofs SafeLU SplineProofs EvalProofs SpecSplineObj SafeProofs SpecInterp TensorR CoefProofs RoundProofs SolveProofs BuildProofs WeightProofs SafeSolve.
Import ListNotations.
Open Scope nat_scope.

Lemma ext_dom p n i a : p + 1 <= n -> i < n -> a < p + (1 - p mod 2) ->
  in_ext n (p / 2) (p / 2) ((i + p / 2) mod n) ((i + a) mod n).
Proof.
  intros Hp Hi Ha. pose proof (half_cases p) as HC. unfold in_ext, in_band. set (bw := p / 2) in *.
  assert (B : 2 * bw + 1 = p + (1 - p mod 2)) by (unfold bw; lia).
  assert (M : forall z, z < 2 * n -> (z mod n = z /\ z < n) \/ (z mod n = z - n /\ n <= z)).
  { intros z Hz. destruct (Nat.lt_ge_cases z n).
    - left. rewrite Nat.mod_small by auto. auto.
    - right. split; auto. replace z with (z - n + 1 * n) at 1 by lia. rewrite Nat.mod_add by lia. apply Nat.mod_small. lia. }
  destruct (M (i + bw) ltac:(lia)), (M (i + a) ltac:(lia)); lia.
Qed.

Section Any.
Context {FL : allowed} {T : Type} (o : ops T) (on nd : bool).
Hypothesis Hq : quiet may_fail o.
Notation z := (o0 o).

Lemma quiet_div : div_safe o.
Proof using Hq. intros a b. destruct (Hq a b) as [H _]. destruct (odiv o a b); cbn [post safely] in *; tauto. Qed.
Lemma post_safely {A} exc (P : A -> Prop) r : post may_fail P r -> safely exc P r.
Proof using Type. destruct r; cbn [post safely]; tauto. Qed.

Lemma upd_split {A} (v : list A) i j a d : i < length v -> nth j (upd v i a) d = if j =? i then a else nth j v d.
Proof using Type. intros H. rewrite nth_upd. destruct (Nat.ltb_spec i (length v)); [|lia]. rewrite andb_true_r. reflexivity. Qed.

Lemma vget_safe {A} exc (l : list A) i : i < length l -> safely exc (fun _ => True) (vget l i).
Proof using Type. intros H. destruct l as [|a l]; [simpl in H; lia|]. rewrite (vget_ok _ _ a) by auto. exact I. Qed.
Lemma vset_safe {A} exc (l : list A) i v : i < length l -> safely exc (fun l' => length l' = length l) (vset l i v).
Proof using Type. intros H. rewrite vset_ok by auto. apply upd_length. Qed.

(** Number of knots of a dimension with [N] different points. *)
Definition klen (p : nat) (per : bool) (N : nat) : nat :=
  if per then N + 1 + (2 * p + (1 - p mod 2)) else N + (p + 1).

(** ** Knots *)
Lemma fill_safe exc (g : nat -> T) lo hi (xs : list T) : hi <= length xs ->
  safely exc (fun l => length l = length xs) (for_ lo hi xs (fun xs i => vset xs i (g i))).
Proof using Type.
  intros Hh. apply (safely_for exc (fun l => length l = length xs)); auto. intros i s Hi Ls.
  eapply safely_mono; [apply vset_safe; lia|]. cbn. intros; lia.
Qed.

Lemma uniform_knots_safe exc p per size a b : p + 1 <= distinct nd per size ->
  safely exc (fun r => length (fst r) = klen p per (distinct nd per size)) (uniform_knots o nd p per size a b).
Proof using Hq.
  intros HN. unfold uniform_knots.
  assert (En : size + (if nd && per then 1 else 0) = if per then distinct nd per size + 1 else distinct nd per size).
  { unfold distinct in *. destruct per, nd; cbn [andb negb] in *; lia. }
  rewrite En. set (N := distinct nd per size) in *. clearbody N.
  rewrite usub_ok by (destruct per; lia). cbn [bind].
  apply (safely_bind exc (fun _ => True)); [apply safely_exc, quiet_div|]. intros dx _.
  set (n := if per then N + 1 else N). rewrite repeat_length.
  apply (safely_bind exc (fun l => length l = klen p per N)).
  - destruct per; unfold n, klen.
    + eapply safely_mono; [apply fill_safe; rewrite repeat_length; lia|]. cbn. intros l. rewrite repeat_length. auto.
    + rewrite usub_ok by lia. cbn [bind]. rewrite usub_ok by lia. cbn [bind].
      eapply safely_bind; [apply fill_safe; rewrite repeat_length; lia|]. cbn. intros l. rewrite repeat_length. intros Ll.
      eapply safely_mono; [apply fill_safe; lia|]. cbn. intros; lia.
  - intros l Ll. cbn [safely fst]. auto.
Qed.

Lemma periodic_points_safe exc p (l : list T) : p + 2 <= length l ->
  safely exc (fun r => length (fst r) = klen p true (length l - 1) /\ length (snd r) = length l) (periodic_points o p l).
Proof using Type.
  intros HN. unfold periodic_points. remember (length l) as n eqn:Hn.
  eapply safely_bind; [apply vget_safe; lia|]. intros c0 _.
  eapply safely_bind.
  - apply (safely_for_idx exc (fun i st => length (fst st) = n + 2 * p + (1 - p mod 2) /\ length (snd st) = i - p)
        (p + 1) (p + n)); [lia|cbn [fst snd length]; rewrite repeat_length; lia|].
    intros i [xs coord] Hi [L1 L2]. cbn [fst snd] in *.
    eapply safely_bind; [apply vget_safe; lia|]. intros pr _.
    eapply safely_bind; [apply vget_safe; lia|]. intros bk _.
    eapply safely_bind; [apply vset_safe; lia|]. cbn beta. intros xs' L'.
    cbn [safely fst snd]. rewrite app_length. cbn [length]. lia.
  - intros [xs coord] [L1 L2]. cbn [fst snd] in *.
    eapply safely_bind; [apply vget_safe; lia|]. intros bk _.
    eapply safely_bind; [apply vget_safe; lia|]. intros fr _.
    eapply safely_bind.
    + apply (safely_for exc (fun l' => length l' = length xs)); auto. intros i s Hi Ls.
      rewrite usub_ok by lia. cbn [bind].
      eapply safely_bind; [apply vget_safe; lia|]. intros v _.
      eapply safely_bind; [apply vset_safe; lia|]. cbn beta. intros s1 L1'.
      rewrite usub_ok by lia. cbn [bind]. rewrite usub_ok by lia. cbn [bind]. rewrite usub_ok by lia. cbn [bind].
      eapply safely_bind; [apply vget_safe; lia|]. intros w _.
      eapply safely_mono; [apply vset_safe; lia|]. cbn. intros; lia.
    + cbn beta. intros xs' L'. cbn [safely fst snd]. unfold klen. lia.
Qed.

Lemma firstn_snoc_nth (l : list T) k : k < length l -> firstn k l ++ [nth k l z] = firstn (k + 1) l.
Proof using Type.
  revert k. induction l as [|a l IH]; intros [|k] H; cbn [length] in H; try lia; auto.
  cbn [firstn app nth Nat.add]. f_equal. apply IH. lia.
Qed.

(** The first [p] + 1 knots are equal. *)
Definition heads (p : nat) (xs : list T) : Prop := forall i, i <= p -> nth i xs z = nth 0 xs z.

(** The knots and the coordinates kept of an aperiodic list of points. *)
Definition ends (p : nat) (l xs c : list T) : Prop :=
  heads p xs /\ c = l /\ nth (length l) xs z = nth (length l - 1) l z.

Lemma upd_heads p xs i v : p < i -> heads p xs -> heads p (upd xs i v).
Proof using Type. intros H Hh k Hk. rewrite !nth_upd_other by lia. auto. Qed.

Lemma fill_head exc p v (xs : list T) : p < length xs ->
  safely exc (fun l => length l = length xs /\ heads p l) (for_ 0 (p + 1) xs (fun xs i => vset xs i v)).
Proof using Type.
  intros H. eapply safely_mono.
  - apply (safely_for_idx exc (fun i l => length l = length xs /\ forall k, k < i -> nth k l z = v) 0 (p + 1)); [lia|split; auto; lia|].
    intros i s Hi [Ls Hs]. rewrite vset_ok by lia. cbn [safely]. rewrite upd_length. split; auto.
    intros k Hk. rewrite upd_split by lia. destruct (Nat.eqb_spec k i); auto. apply Hs. lia.
  - cbn beta. intros l [Ll Hl]. split; auto. intros i Hi. rewrite !Hl by lia. auto.
Qed.

Lemma aperiodic_points_safe exc p (l : list T) : 1 <= p -> p + 1 <= length l ->
  safely exc (fun r => length (fst r) = klen p false (length l) /\ length (snd r) = length l /\ ends p l (fst r) (snd r)) (aperiodic_points o p l).
Proof using Hq.
  intros H1 HN. unfold aperiodic_points. remember (length l) as n eqn:Hn.
  rewrite (vget_ok l 0 z) by lia. cbn [bind].
  eapply safely_bind; [apply (fill_head exc p (nth 0 l z)); rewrite repeat_length; lia|]. cbn beta. rewrite repeat_length. intros xs [Lx Hx].
  assert (FS : forall k, k < n -> firstn k l ++ [nth k l z] = firstn (k + 1) l).
  { intros k Hk. apply firstn_snoc_nth. lia. }
  assert (FL1 : forall k, k <= n -> length (firstn k l) = k) by (intros k Hk; rewrite firstn_length; lia).
  eapply safely_bind.
  - apply (safely_for_idx exc (fun i st => fst (fst st) = i - 1 /\ snd (fst st) = firstn i l) 1 p); [lia| |].
    { cbn [fst snd]. split; auto. change [nth 0 l z] with (firstn 0 l ++ [nth 0 l z]). rewrite FS by lia. auto. }
    intros i [[it coord] w] Hi [L1 L2]. cbn [fst snd] in *. subst it coord.
    rewrite (vget_ok l _ z) by lia. cbn [bind]. replace (i - 1 + 1) with i by lia. rewrite FS by lia.
    eapply safely_bind; [apply vget_safe; rewrite FL1; lia|]. intros c _.
    cbn [safely fst snd]. split; [lia|auto].
  - intros [[it coord] w] [L1 L2]. cbn [fst snd] in *.
    eapply safely_bind.
    + apply (safely_for_idx exc (fun i st => length (fst (fst (fst st))) = n + p + 1 /\ snd (fst (fst st)) = i - 2 /\ snd (fst st) = firstn (i - 1) l /\ heads p (fst (fst (fst st))))
        (p + 1) n); [lia|cbn [fst snd]; repeat split; auto; [lia|rewrite L2; f_equal; lia]|].
      intros i [[[xs1 it1] co1] w1] Hi (M1 & M2 & M3 & M4). cbn [fst snd] in *. subst it1 co1.
      rewrite (vget_ok l _ z) by lia. cbn [bind]. replace (i - 2 + 1) with (i - 1) by lia. rewrite FS by lia.
      replace (i - 1 + 1) with i by lia.
      eapply safely_bind; [apply vget_safe; rewrite FL1; lia|]. intros c _.
      apply (safely_bind exc (fun _ => True)); [apply safely_exc, quiet_div|]. intros k _.
      rewrite vset_ok by lia. cbn [bind].
      eapply safely_bind; [apply vget_safe; rewrite FL1; lia|]. intros c' _.
      cbn [safely fst snd]. rewrite upd_length. repeat split; try lia; [f_equal; lia|]. apply upd_heads; auto. lia.
    + intros [[[xs1 it1] co1] w1] (M1 & M2 & M3 & M4). cbn [fst snd] in *. subst it1 co1.
      rewrite (vget_ok l _ z) by lia. cbn [bind]. replace (n - 2 + 1) with (n - 1) by lia. rewrite FS by lia.
      apply (safely_bind exc (fun l' => length l' = n + p + 1 /\ heads p l' /\ nth n l' z = nth (n - 1) l z)).
      { eapply safely_mono.
        - apply (safely_for_idx exc (fun i l' => length l' = n + p + 1 /\ heads p l' /\ (n < i -> nth n l' z = nth (n - 1) l z)) n (n + p + 1)); [lia|repeat split; auto; lia|].
          intros i s Hi (Ls & Hs & Hl). rewrite vset_ok by lia. cbn [safely]. rewrite upd_length. split; auto. split; [apply upd_heads; auto; lia|].
          intros _. rewrite upd_split by lia. destruct (Nat.eqb_spec n i); auto. apply Hl. lia.
        - cbn beta. intros l' (A & B & C). repeat split; auto. apply C. lia. }
      cbn beta. intros xs2 (L' & H' & G'). cbn [safely fst snd]. replace (n - 1 + 1) with n by lia.
      unfold klen, ends. rewrite (FL1 n) by lia. rewrite Hn, firstn_all, <- Hn. repeat split; auto; lia.
Qed.

Lemma safely_le {A} (e1 e2 : bool) (P : A -> Prop) r : (e1 = true -> e2 = true) -> safely e1 P r -> safely e2 P r.
Proof using Type. destruct r; cbn [safely]; auto. Qed.

Lemma points_knots_safe p per size (l : list T) : p + 1 <= distinct nd per size ->
  (per = false -> 1 <= p) -> (on = false -> length l = coords_num nd per size) ->
  safely on (fun r => length (fst r) = klen p per (distinct nd per size) /\ length (snd r) = coords_num nd per size /\ (per = false -> ends p l (fst r) (snd r)))
    (points_knots o on nd p per size l).
Proof using Hq.
  intros HN H1 Hl. unfold points_knots.
  assert (En : size + (if nd && per then 1 else 0) = coords_num nd per size).
  { unfold coords_num, distinct in *. destruct per, nd; cbn [andb negb] in *; lia. }
  rewrite En. apply (safely_bind on (fun _ => length l = coords_num nd per size)).
  - unfold intp_assert. destruct on eqn:Eon; cbn [andb negb].
    + destruct (Nat.eqb_spec (length l) (coords_num nd per size)); cbn [negb safely]; auto.
    + cbn [safely]. auto.
  - intros _ El.
    apply (safely_bind on (fun r => length (fst r) = klen p per (distinct nd per size) /\ length (snd r) = coords_num nd per size /\ (per = false -> ends p l (fst r) (snd r)))).
    + destruct per; unfold coords_num in *.
      * eapply safely_mono; [apply periodic_points_safe; lia|]. intros r. rewrite El. rewrite Nat.add_sub. intros [A B]. repeat split; auto; discriminate.
      * eapply safely_mono; [apply aperiodic_points_safe; auto; unfold distinct in HN; cbn in HN; lia|]. intros r. rewrite El. intros (A & B & C). auto.
    + intros [xs coord] (L1 & L2 & L3). cbn [fst snd] in *.
      assert (Hc : 1 <= length coord) by (rewrite L2; unfold coords_num, distinct in *; destruct per, nd; cbn [andb negb] in *; lia).
      rewrite usub_ok by lia. cbn [bind].
      apply (safely_bind on (fun _ => True)); [|intros _ _; cbn [safely fst snd]; auto].
      apply safely_for; auto. intros i [] Hi _.
      eapply safely_bind; [apply vget_safe; lia|]. intros b _.
      eapply safely_bind; [apply vget_safe; lia|]. intros a _.
      unfold intp_assert. destruct on; [|exact I]. destruct (olt o a b); cbn; auto.
Qed.

(** ** Matrices *)
Lemma coef_make_safe q pr n : q + 1 <= n ->
  exists sv, coef_make o q pr n = Ok sv /\ sshape pr n (bw_of q pr) sv.
Proof using Type.
  intros H. unfold coef_make. change (if pr then (q / 2)%nat else _) with (bw_of q pr).
  pose proof (half_cases q). destruct pr.
  - destruct (eband_make_ok o z n (bw_of q true) (bw_of q true)) as (m & -> & Hw & _); [unfold bw_of; lia..|].
    cbn [bind]. exists (Periodic m). cbn [sshape]. auto.
  - eexists. split; [reflexivity|]. cbn [sshape]. split; auto. apply band_make_wf.
Qed.

Lemma coef_set_safe pr n bw (sv : solver T) i j v : sshape pr n bw sv -> (if pr then in_ext n bw bw i j else in_band n bw bw i j) ->
  exists sv', coef_set on sv i j v = Ok sv' /\ sshape pr n bw sv'.
Proof using o.
  destruct sv as [b|e]; cbn [sshape]; intros [-> Hw] Hd; unfold coef_set.
  - destruct (band_set_ok z on n bw bw b i j v Hw Hd) as (m' & -> & Hw' & _). cbn [bind]. eexists; split; [reflexivity|]. cbn [sshape]. auto.
  - destruct (eb_set_ok z on n bw bw e i j v Hw Hd) as (m' & -> & Hw' & _). cbn [bind]. eexists; split; [reflexivity|]. cbn [sshape]. auto.
Qed.

(** The row of a list of points without period: with assertions, positions outside
    the band are refused. *)
Lemma coef_set_checked n bw (sv : solver T) i j v : on = true -> sshape false n bw sv -> i < n -> j < n ->
  safely true (sshape false n bw) (coef_set on sv i j v).
Proof using o.
  intros Eon Hs Hi Hj. destruct (classic_band n bw i j) as [D|D].
  - destruct (coef_set_safe false n bw sv i j v Hs D) as (sv' & -> & S'). exact S'.
  - destruct sv as [b|e]; cbn [sshape] in Hs; destruct Hs as [E Hw]; [|discriminate]. unfold coef_set. rewrite Eon.
    pose proof Hw as (En & Ep & Eq & _). rewrite band_set_outside by (unfold in_band in D; lia). reflexivity.
Qed.


(** Constructor arguments of the right sizes for dimension [d]; [exc]: a list
    of points may be rejected. *)
Definition dim_ok (exc : bool) (p : nat) (per : bool) (n : nat) (r : xrange T) : Prop :=
  p + 1 <= distinct nd per n /\
  match r with
  | Uniform _ _ => True
  | Points l => (per = false -> 1 <= p) /\ (on = false -> length l = coords_num nd per n) /\
                (on = true -> exc = true)
  end.

Section Input.
Context (exc : bool) (p : nat) (per : list bool) (dims : list nat) (ranges : list (xrange T)).
Hypothesis Ld : length dims = length per.
Hypothesis Lr : length ranges = length per.
Hypothesis Hdim : forall d, d < length per -> dim_ok exc p (nth d per false) (nth d dims 0) (nth d ranges (Points [])).

Let N d := distinct nd (nth d per false) (nth d dims 0).

Record bshape (k : nat) (st : interp T * list (list T)) : Prop := {
  bs_order : sp_order (if_spline (fst st)) = p;
  bs_per : sp_per (if_spline (fst st)) = per;
  bs_knots : length (sp_knots (if_spline (fst st))) = length per;
  bs_range : length (sp_range (if_spline (fst st))) = length per;
  bs_uni : length (if_uniform (fst st)) = length per;
  bs_dx : length (if_dx (fst st)) = length per;
  bs_coords : length (snd st) = length per;
  bs_klen : forall d, d < k -> length (nth d (sp_knots (if_spline (fst st))) []) = klen p (nth d per false) (N d);
  bs_kind : forall d, d < k ->
    nth d (if_uniform (fst st)) false = match nth d ranges (Points []) with Uniform _ _ => true | Points _ => false end;
  bs_clen : forall d l, d < k -> nth d ranges (Points []) = Points l ->
    length (nth d (snd st) []) = coords_num nd (nth d per false) (nth d dims 0);
  bs_heads : forall d l, d < k -> nth d ranges (Points []) = Points l -> nth d per false = false ->
    ends p l (nth d (sp_knots (if_spline (fst st))) []) (nth d (snd st) [])
}.

Lemma klen_ge d : d < length per -> 2 * p + 2 <= klen p (nth d per false) (N d).
Proof using Hdim Ld Lr. intros Hd. destruct (Hdim d Hd) as [H _]. unfold klen, N. destruct (nth d per false); lia. Qed.

Lemma load_knots_safe (s : spline T) d kn : sp_order s = p -> d < length (sp_knots s) -> d < length (sp_range s) ->
  2 * p + 2 <= length kn ->
  exists a b, load_knots s d kn = Ok (mkSpline p (sp_per s) (upd (sp_knots s) d kn) (sp_ctrl s) (upd (sp_range s) d (a, b))).
Proof using o Ld Lr.
  intros Ep Hk Hr Hl. unfold load_knots. rewrite Ep. rewrite vset_ok by auto. cbn [bind].
  pose proof (Nat.mod_upper_bound p 2 ltac:(lia)).
  rewrite (vget_ok _ _ z) by lia. cbn [bind]. rewrite usub_ok by lia. cbn [bind]. rewrite usub_ok by lia. cbn [bind].
  rewrite (vget_ok _ _ z) by lia. cbn [bind]. rewrite vset_ok by auto. cbn [bind]. eauto.
Qed.

Lemma base_safe : safely exc (bshape (length per)) (interp_base o on nd p per dims ranges).
Proof using Hq Ld Lr Hdim.
  unfold interp_base, create_knots. cbn [if_spline spline_empty sp_per]. rewrite Lr.
  apply (safely_for_idx exc bshape 0 (length per)); [lia| |].
  - split; cbn [fst snd if_spline if_uniform if_dx spline_empty sp_order sp_per sp_knots sp_range];
      rewrite ?repeat_length; auto; intros; lia.
  - intros d [f coords] Hd S. destruct S as [S1 S2 S3 S4 S5 S6 S7 S8 S9 S10 S11]. cbn [fst snd] in *.
    pose proof (Hdim d ltac:(lia)) as (H1 & H2). pose proof (klen_ge d ltac:(lia)) as HK.
    rewrite (vget_ok ranges _ (Points [])) by lia. cbn [bind]. rewrite S1, S2.
    rewrite (vget_ok per _ false) by lia. cbn [bind]. rewrite (vget_ok dims _ 0) by lia. cbn [bind].
    destruct (nth d ranges (Points [])) as [a b|l] eqn:Er.
    + rewrite vset_ok by lia. cbn [bind].
      eapply safely_bind; [apply uniform_knots_safe; exact H1|]. intros [xs h] Lx. cbn [fst] in Lx. fold (N d) in Lx.
      rewrite vset_ok by lia. cbn [bind].
      destruct (load_knots_safe (if_spline f) d xs S1) as (ra & rb & E); [lia|lia|lia|]. rewrite E. cbn [bind safely].
      split; cbn [fst snd if_spline if_uniform if_dx sp_order sp_per sp_knots sp_range]; rewrite ?upd_length; auto.
      * intros e He. rewrite upd_split by lia. destruct (Nat.eqb_spec e d); [subst; auto|]. apply S8. lia.
      * intros e He. rewrite upd_split by lia. destruct (Nat.eqb_spec e d); [subst; rewrite Er; auto|]. apply S9. lia.
      * intros e l He E'. destruct (Nat.eq_dec e d); [subst; congruence|]. eapply S10; eauto. lia.
      * intros e l He E' Ep'. destruct (Nat.eq_dec e d); [subst; congruence|]. rewrite nth_upd_other by auto. eapply S11; eauto; lia.
    + destruct H2 as (H2 & H3 & H4).
      rewrite vset_ok by lia. cbn [bind].
      eapply safely_bind; [eapply safely_le; [exact H4|apply points_knots_safe; auto]|]. intros [xs c] (Lx & Lc & Lh). cbn [fst snd] in Lx, Lc, Lh. fold (N d) in Lx.
      rewrite vset_ok by lia. cbn [bind].
      destruct (load_knots_safe (if_spline f) d xs S1) as (ra & rb & E); [lia|lia|lia|]. rewrite E. cbn [bind safely].
      split; cbn [fst snd if_spline if_uniform if_dx sp_order sp_per sp_knots sp_range]; rewrite ?upd_length; auto.
      * intros e He. rewrite upd_split by lia. destruct (Nat.eqb_spec e d); [subst; auto|]. apply S8. lia.
      * intros e He. rewrite upd_split by lia. destruct (Nat.eqb_spec e d); [subst; rewrite Er; auto|]. apply S9. lia.
      * intros e l' He E'. rewrite upd_split by lia. destruct (Nat.eqb_spec e d); [subst; auto|]. eapply S10; eauto. lia.
      * intros e l' He E' Ep'. rewrite !upd_split by lia. destruct (Nat.eqb_spec e d); [subst; assert (l' = l) by congruence; subst; auto|]. eapply S11; eauto. lia.
Qed.

(** Without assertions only periodic lists of points. *)
Hypothesis Hoff : on = false -> forall d l, d < length per -> nth d ranges (Points []) = Points l -> nth d per false = true.

Section Row.
Hypothesis Hord : forall a x, ole o a x = true -> olt o x a = false.
Context (f : interp T) (coords : list (list T)) (d : nat).
Hypothesis B : bshape (length per) (f, coords).
Hypothesis Hd : d < length per.
Let pd := nth d per false.
Let n := N d.
Let u := nth d (if_uniform f) false.
Let c := nth d coords [].
Let K := nth d (sp_knots (if_spline f)) [].

Definition rinv (i : nat) (st : solver T * list T) : Prop :=
  sshape pd n (bw_of p pd) (fst st) /\ (u = true -> length (snd st) = p + 1 \/ (i <= 1 \/ i = n) /\ pd = false).

(** Filling one row from values at hand. *)
Lemma fill_row_safe (m : solver T) (vals : list T) i k s_num : sshape pd n (bw_of p pd) m -> 0 < n -> p <= k -> s_num <= length vals ->
  ((forall j, j < s_num -> if pd then in_ext n (bw_of p pd) (bw_of p pd) ((i + p / 2) mod n) ((k - p + j) mod n)
                           else in_band n (bw_of p pd) (bw_of p pd) i ((k - p + j) mod n)) \/
   pd = false /\ on = true /\ exc = true) -> i < n ->
  safely exc (sshape pd n (bw_of p pd)) (for_ 0 s_num m (fun m j =>
    row <- umod (i + (if pd then p / 2 else 0)) n ;;
    c <- usub k p ;;
    col <- umod (c + j) n ;;
    v <- vget vals j ;;
    coef_set on m row col v)).
Proof using o Ld Lr Hd.
  intros Hm Hn Hk Hs Hin Hi. apply safely_for; auto. intros j m' Hj Hm'.
  rewrite umod_ok by lia. cbn [bind]. rewrite usub_ok by lia. cbn [bind]. rewrite umod_ok by lia. cbn [bind].
  eapply safely_bind; [apply vget_safe; lia|]. intros v _.
  destruct Hin as [Hin|(Ep & Eon & Ee)].
  - specialize (Hin j ltac:(lia)).
    destruct (coef_set_safe pd n (bw_of p pd) m' ((i + (if pd then p / 2 else 0)) mod n) ((k - p + j) mod n) v Hm') as (m2 & -> & S2); [|exact S2].
    destruct pd; auto. rewrite Nat.add_0_r, Nat.mod_small by lia. auto.
  - rewrite Ep in *. rewrite Ee. rewrite Nat.add_0_r, Nat.mod_small by lia. apply coef_set_checked; auto.
    apply Nat.mod_upper_bound. lia.
Qed.

Lemma row_safe dx i st : i < n -> rinv i st ->
  safely exc (rinv (i + 1)) (coef_row o on (if_spline f) d u dx c n i st).
Proof using Hq Hord B Hd Hdim Hoff Ld Lr.
  intros Hi [Hm Hv]. destruct st as [m vals]. cbn [fst snd] in *.
  pose proof (Hdim d Hd) as (HN & HR). fold pd in HN, HR. change (p + 1 <= n) in HN.
  pose proof B as [B1 B2 B3 B4 B5 B6 B7 B8 B9 B10 B11]. cbn [fst snd] in *.
  specialize (B8 d Hd). fold pd K in B8. fold n in B8. specialize (B9 d Hd). fold u in B9.
  assert (Bc : forall l, nth d ranges (Points []) = Points l -> length c = if pd then n + 1 else n).
  { intros l El. unfold c. rewrite (B10 d l Hd El). unfold coords_num, n, N. fold pd. destruct pd; reflexivity. }
  unfold coef_row. rewrite B1, B2. rewrite (vget_ok per _ false) by auto. cbn [bind]. fold pd.
  rewrite (vget_ok (sp_knots (if_spline f)) _ []) by lia. cbn [bind]. fold K.
  rewrite (vget_ok (sp_range (if_spline f)) _ (z, z)) by lia. cbn [bind]. rewrite usub_ok by lia. cbn [bind].
  pose proof (half_cases p) as HC.
  destruct (negb pd && ((i =? 0) || (i =? n - 1))) eqn:Eend.
  - apply andb_prop in Eend as [Ep Ei]. apply negb_true_iff in Ep.
    destruct (coef_set_safe pd n (bw_of p pd) m i i (o1 o) Hm) as (m2 & -> & S2).
    { rewrite Ep. unfold in_band. lia. }
    cbn [bind safely]. split; cbn [fst snd]; auto. intros Eu. specialize (Hv Eu). destruct Hv as [Hv|[Hv1 Hv2]]; auto.
    right. split; auto. apply orb_prop in Ei as [Ei|Ei]; apply Nat.eqb_eq in Ei; lia.
  - assert (EI : exists b, (if p / 2 <? i then a <- usub n (p / 2) ;; a <- usub a 1 ;; Ok (i <? a) else Ok false) = Ok b /\
       (b = true -> p / 2 < i /\ i < n - p / 2 - 1)).
    { destruct (Nat.ltb_spec (p / 2) i).
      - rewrite usub_ok by lia. cbn [bind]. rewrite usub_ok by lia. cbn [bind]. eexists. split; [reflexivity|].
        intros E. apply Nat.ltb_lt in E. lia.
      - exists false. split; auto. discriminate. }
    destruct EI as (b & EI & Hb). rewrite EI. cbn [bind]. clear EI.
    set (s_num := if pd then p + (1 - p mod 2) else if p =? 1 then 1 else if u && b then p + (1 - p mod 2) else p + 1).
    assert (Hs : s_num <= p + 1) by (unfold s_num; destruct pd, (Nat.eqb_spec p 1), (u && b); lia).
    apply (safely_bind exc (fun r => length (snd r) = p + 1 /\ p <= fst r /\
      ((forall j, j < s_num -> if pd then in_ext n (bw_of p pd) (bw_of p pd) ((i + p / 2) mod n) ((fst r - p + j) mod n)
                           else in_band n (bw_of p pd) (bw_of p pd) i ((fst r - p + j) mod n)) \/
       pd = false /\ on = true /\ exc = true))).
    2:{ intros [k vals'] (Lv & Hk & Hdom). cbn [fst snd] in *.
        eapply safely_bind; [apply fill_row_safe; auto; lia|]. intros m' Hm'. cbn [safely]. split; cbn [fst snd]; auto. }
    destruct u eqn:Eu, pd eqn:Epd; rewrite ?Epd in *; cbn [negb andb] in *.
    + cbn [safely fst snd]. split; [destruct (Hv eq_refl) as [|[_ ?]]; [auto|discriminate]|]. split; [lia|]. left. intros j Hj.
      replace (i + p - p + j) with (i + j) by lia. apply ext_dom; auto.
    + assert (I1 : 1 <= i <= n - 2 /\ 3 <= n).
      { apply orb_false_iff in Eend as [E1 E2]. apply Nat.eqb_neq in E1, E2. lia. }
      unfold klen in B8. rewrite usub_ok by lia. cbn [bind]. rewrite usub_ok by lia. cbn [bind].
      rewrite B8. replace (n + (p + 1) - p - 2) with (n - 1) by lia.
      set (k := Nat.min (n - 1) (if p / 2 <? i then i + (p + 1) / 2 else p)).
      assert (Hk : p <= k <= n - 1) by (unfold k; destruct (Nat.ltb_spec (p / 2) i); lia).
      assert (Hdom : forall j, j < s_num -> in_band n (bw_of p false) (bw_of p false) i ((k - p + j) mod n)).
      { intros j Hj. rewrite Nat.mod_small by lia. unfold in_band, bw_of. unfold s_num in Hj.
        destruct (Nat.eqb_spec p 0) as [P0|P0].
        - destruct (Nat.eqb_spec p 1) as [P1|P1]; [lia|].
          assert (Eb : j = 0 \/ b = false) by (destruct b; cbn [andb] in Hj; [left; lia|right; auto]).
          unfold k. destruct (Nat.ltb_spec (p / 2) i); [|lia]. destruct Eb; [lia|]. destruct b; [discriminate|]. cbn [andb] in Hj. lia.
        - destruct (Nat.eqb_spec p 1) as [P1|P1].
          + unfold k. destruct (Nat.ltb_spec (p / 2) i); lia.
          + assert (p + (1 - p mod 2) <= p + 1) by lia. assert (j <= p) by (destruct b; cbn [andb] in Hj; lia).
            unfold k. destruct (Nat.ltb_spec (p / 2) i); lia. }
      assert (EO : exists b', (if k <=? 2 * p + 1 then Ok true else b0 <- usub (n + (p + 1)) (2 * p) ;; b0 <- usub b0 2 ;; Ok (b0 <=? k)) = Ok b' /\
         (b' = false -> 2 * p + 1 < k)).
      { destruct (Nat.leb_spec k (2 * p + 1)).
        - eexists; split; [reflexivity|discriminate].
        - rewrite usub_ok by lia. cbn [bind]. rewrite usub_ok by lia. cbn [bind]. eexists; split; [reflexivity|auto]. }
      destruct EO as (b' & EO & Hb'). rewrite EO. cbn [bind]. destruct b'.
      * apply (safely_bind exc (fun v => length v = p + 1)).
        { apply post_safely. apply base_spline_value_post; auto; lia. }
        intros v Lv. cbn [safely fst snd]. split; auto. split; [lia|]. left. auto.
      * cbn [safely fst snd]. split; [|split; [lia|left; auto]]. specialize (Hb' eq_refl).
        destruct (Hv eq_refl) as [Hv'|[Hv' _]]; auto. exfalso.
        destruct Hv' as [Hv'|Hv']; [|lia]. unfold k in Hb'. destruct (Nat.ltb_spec (p / 2) i); lia.
    + unfold klen in B8. symmetry in B9. destruct (nth d ranges (Points [])) as [|l] eqn:Er; [discriminate|].
      specialize (Bc l eq_refl).
      eapply safely_bind; [apply vget_safe; lia|]. intros x _. cbn [bind].
      apply (safely_bind exc (fun v => length v = p + 1)).
      { apply post_safely. apply base_spline_value_post; auto; lia. }
      intros v Lv. cbn [safely fst snd]. split; auto. split; [lia|]. left. intros j Hj.
      replace (i + p - p + j) with (i + j) by lia. apply ext_dom; auto.
    + assert (I1 : 1 <= i <= n - 2 /\ 3 <= n).
      { apply orb_false_iff in Eend as [E1 E2]. apply Nat.eqb_neq in E1, E2. lia. }
      unfold klen in B8. symmetry in B9. destruct (nth d ranges (Points [])) as [|l] eqn:Er; [discriminate|].
      destruct HR as (R1 & R2 & R3). specialize (R1 eq_refl).
      assert (Eon : on = true) by (destruct on; auto; specialize (Hoff eq_refl d l Hd Er); fold pd in Hoff; congruence).
      specialize (Bc l eq_refl).
      specialize (B11 d l Hd Er Epd). destruct B11 as (B11 & _). fold K in B11.
      eapply safely_bind; [apply vget_safe; lia|]. intros x _. cbn [bind].
      apply (safely_bind exc (fun k => p <= k /\ k + p < length K)).
      { destruct (Nat.eqb_spec i 0); [lia|]. rewrite usub_ok by lia. cbn [bind].
        destruct (Nat.eqb_spec i (length c - 1)); [lia|].
        rewrite usub_ok by lia. cbn [bind]. rewrite usub_ok by lia. cbn [bind].
        rewrite B8. replace (n + (p + 1) - p - 1) with n by lia.
        apply (safely_bind exc (fun r => p <= snd r /\ snd r + p < length K)); [|intros r Hr; cbn [safely]; lia].
        unfold get_knot_iter_last, wrap_coord. cbn [bind].
        rewrite (vget_ok K _ z) by lia. cbn [bind].
        assert (EH : exists h, (if ole o (nth (i + 1) K z) x then b0 <- vget K (i + 1 + 1) ;; Ok (olt o x b0) else Ok false) = Ok h /\
          (h = true -> p <= i + 1)).
        { destruct (ole o (nth (i + 1) K z) x) eqn:El.
          - rewrite (vget_ok K _ z) by lia. cbn [bind]. eexists; split; [reflexivity|]. intros Eh.
            destruct (Nat.le_gt_cases p (i + 1)); auto. exfalso.
            rewrite (B11 (i + 1)) in El by lia. rewrite (B11 (i + 1 + 1)) in Eh by lia.
            rewrite (Hord _ _ El) in Eh. discriminate.
          - exists false. split; auto. discriminate. }
        destruct EH as (h & EH & Hh). rewrite EH. cbn [bind]. destruct h.
        - cbn [safely snd]. specialize (Hh eq_refl). lia.
        - destruct (Nat.ltb_spec (Nat.min n (i + p)) p); [lia|].
          apply (safely_bind exc (fun v => p + 1 <= v <= p + 1 + (Nat.min n (i + p) - p))).
          { apply post_safely. apply upper_bound_post; lia. }
          intros v Hv'. rewrite usub_ok by lia. cbn [bind safely snd]. lia. }
      intros k Hk. 
      apply (safely_bind exc (fun v => length v = p + 1)).
      { apply post_safely. apply base_spline_value_post; auto; lia. }
      intros v Lv. cbn [safely fst snd]. split; auto. split; [lia|]. right. auto.
Qed.

Lemma matrix_safe dims' : length dims' = length per -> nth d dims' 0 = n ->
  safely exc (sshape pd n (bw_of p pd)) (coef_matrix o on f coords dims' d).
Proof using Hq Hord B Hd Hdim Hoff Ld Lr.
  intros L' En. pose proof (Hdim d Hd) as (HN & _). fold pd in HN. change (p + 1 <= n) in HN.
  pose proof B as [B1 B2 B3 B4 B5 B6 B7 B8 B9 B10 B11]. cbn [fst snd] in *.
  specialize (B8 d Hd). fold pd K in B8. fold n in B8.
  unfold coef_matrix, coef_cache. rewrite B1, B2.
  rewrite (vget_ok per _ false) by auto. cbn [bind]. rewrite (vget_ok (if_uniform f) _ false) by lia. cbn [bind].
  rewrite (vget_ok (if_dx f) _ z) by lia. cbn [bind]. rewrite (vget_ok coords _ []) by lia. cbn [bind].
  rewrite (vget_ok dims' _ 0) by lia. cbn [bind]. rewrite En. fold pd u c.
  apply (safely_bind exc (fun v => u = true -> length v = p + 1 \/ pd = false)).
  { destruct pd eqn:Epd, u eqn:Eu; cbn [andb]; try (cbn [safely]; intros; auto; discriminate).
    rewrite (vget_ok (sp_knots (if_spline f)) _ []) by lia. cbn [bind]. fold K. unfold klen in B8.
    rewrite (vget_ok K _ z) by lia. cbn [bind].
    eapply safely_mono; [apply post_safely; apply base_spline_value_post; auto; lia|]. auto. }
  intros cache Hc. destruct (coef_make_safe p pd n) as (sv & -> & Hsv); [auto|]. cbn [bind].
  apply (safely_bind exc (rinv n)).
  - apply safely_for_idx; [lia| |].
    + split; cbn [fst snd]; auto. intros Eu. destruct (Hc Eu); auto.
    + intros i st Hi Hr. apply row_safe; auto. lia.
  - intros [m v] [Hm _]. exact Hm.
Qed.
End Row.

(** ** The whole construction *)
Lemma svok_of d sv : d < length per -> sshape (nth d per false) (N d) (bw_of p (nth d per false)) sv -> @svok T (N d) sv.
Proof using Hdim Ld Lr.
  intros Hd H. exists (nth d per false), (bw_of p (nth d per false)). split; auto. intros Ep.
  destruct (Hdim d Hd) as (HN & _). fold (N d) in HN. rewrite Ep in *. unfold bw_of. pose proof (half_cases p). lia.
Qed.

Lemma reduced_safe : reduced_dims nd per dims = Ok (ddims nd per dims).
Proof using Hdim Ld Lr.
  unfold reduced_dims. destruct nd eqn:End.
  - rewrite ddims_nd; auto.
  - apply (mapM_ok_nth _ _ _ 0 0).
    + rewrite ddims_length, seq_length; auto.
    + rewrite seq_length. intros d Hd. rewrite seq_nth by auto. rewrite Nat.add_0_l.
      rewrite (vget_ok _ _ 0) by lia. cbn [bind]. rewrite (vget_ok _ _ false) by lia. cbn [bind].
      rewrite ddims_nth by auto. destruct (Hdim d Hd) as (G1 & _). rewrite End in G1. unfold distinct in *.
      destruct (nth d per false); cbn [andb negb] in *; rewrite usub_ok by lia; f_equal; lia.
Qed.

Record tshape (t : templ T) : Prop := {
  ts_base : bshape (length per) (tp_base t, tp_coords t);
  ts_dims : tp_dims t = ddims nd per dims;
  ts_len : length (tp_solvers t) = length per;
  ts_ok : forall k, k < length per -> svok (nth k (tp_dims t) 0) (nth k (tp_solvers t) (Aperiodic (band_make o 0 0 0)))
}.

Lemma templ_safe : (forall a x, ole o a x = true -> olt o x a = false) ->
  safely exc tshape (templ_make o on nd p per dims ranges).
Proof using Hq Hdim Hoff Ld Lr.
  intros Hord. unfold templ_make. eapply safely_bind; [apply base_safe|]. intros [f coords] B.
  rewrite reduced_safe. cbn [bind].
  assert (HS : forall d, d < length per -> safely exc (svok (nth d (ddims nd per dims) 0))
     (m <- coef_matrix o on f coords (ddims nd per dims) d ;; coef_factor o on m)).
  { intros d Hd. pose proof (ddims_nth nd per dims d Hd) as En.
    eapply safely_bind; [apply (matrix_safe Hord f coords d B Hd); [apply ddims_length|exact En]|].
    intros m Hm. rewrite En. pose proof (Hdim d Hd) as (HN & _).
    eapply safely_mono; [apply safely_exc; apply (factor_safe o z on quiet_div _ _ _ _ Hm); unfold N; lia|].
    intros sv Hsv. apply svok_of; auto. }
  set (F := fun d => m <- coef_matrix o on f coords (ddims nd per dims) d ;; coef_factor o on m) in *.
  assert (HM : safely exc (fun svs => length svs = length per /\
     forall k, k < length per -> svok (nth k (ddims nd per dims) 0) (nth k svs (Aperiodic (band_make o 0 0 0))))
     (mapM F (seq 0 (length per)))).
  { pose proof (safely_mapM exc (fun _ => True) F (seq 0 (length per))) as X.
    destruct (mapM F (seq 0 (length per))) as [svs|e|w] eqn:EM; cbn [safely] in *.
    - pose proof (mapM_length _ _ _ EM) as L. rewrite seq_length in L. split; auto. intros k Hk.
      pose proof (mapM_nth _ _ _ k 0 (Aperiodic (band_make o 0 0 0)) EM ltac:(rewrite seq_length; auto)) as Ek.
      rewrite seq_nth in Ek by auto. cbn [Nat.add] in Ek. specialize (HS k Hk). change (safely exc (svok (nth k (ddims nd per dims) 0)) (F k)) in HS.
      rewrite Ek in HS. exact HS.
    - apply X. intros d Hd. apply in_seq in Hd. eapply safely_mono; [apply HS; lia|auto].
    - apply X. intros d Hd. apply in_seq in Hd. eapply safely_mono; [apply HS; lia|auto]. }
  eapply safely_bind; [exact HM|]. intros svs [L1 L2]. cbn [safely]. split; cbn [tp_base tp_coords tp_dims tp_solvers]; auto.
Qed.

(** The functions made from the template. *)
Lemma interpolate_safe t f : per <> [] -> tshape t -> m_dims f = dims -> wf_mesh f ->
  safely false (fun g => wf_spline (if_spline g) /\ sp_order (if_spline g) = p /\ sp_per (if_spline g) = per /\
                   length (if_uniform g) = length per /\ length (if_dx g) = length per) (interpolate o on nd t f).
Proof using Hq Hdim Ld Lr.
  intros Hne [TB TD TL TS] Ef Wf. unfold interpolate. pose proof TB as [B1 B2 B3 B4 B5 B6 B7 B8 B9 B10 B11]. cbn [fst snd] in *.
  eapply safely_bind.
  - apply (solve_ctrl_safe o z on quiet_div nd p per); rewrite ?Ef; auto.
    intros d Hd. destruct (Hdim d Hd) as (HN & _). lia.
  - intros c [Dc Wc]. cbn [safely set_ctrl if_spline load_ctrl sp_order sp_per if_uniform if_dx].
    split; [|auto]. rewrite TD in Dc.
    split; unfold sp_dim, num_of, per_of, knot_of; cbn [load_ctrl sp_order sp_per sp_knots sp_ctrl sp_range]; rewrite ?B1, ?B2; auto.
    + rewrite Dc. apply ddims_length.
    + intros d Hd. rewrite B8 by auto. apply klen_ge. auto.
    + intros d Hd. rewrite Dc, ddims_nth by auto. fold (N d). destruct (Hdim d Hd) as (HN & _). fold (N d) in HN.
      rewrite B8 by auto. unfold klen. destruct (nth d per false); lia.
Qed.
End Input.

(** ** Evaluation *)

(** The grid position computed for the hint of a uniform dimension, and its
    conversion to an index. *)
Definition hint_cast (g : interp T) (d : nat) (x : T) : res nat :=
  let lo := fst (nth d (sp_range (if_spline g)) (z, z)) in
  q <- odiv o (osub o x lo) (nth d (if_dx g) z) ;;
  let v := osub o q (if nth d (sp_per (if_spline g)) false then o1 o else omul o (ohalf o) (onat o (sp_order (if_spline g) + 1))) in
  oceil o (if olt o z v then v else z).

Definition casts_safe (g : interp T) (xs : list T) : Prop :=
  forall d, d < length xs -> nth d (if_uniform g) false = true -> safely false (fun _ => True) (hint_cast g d (nth d xs z)).

Lemma hint_safe g d x : wf_spline (if_spline g) -> length (if_uniform g) = sp_dim (if_spline g) -> length (if_dx g) = sp_dim (if_spline g) ->
  d < sp_dim (if_spline g) -> (nth d (if_uniform g) false = true -> safely false (fun _ => True) (hint_cast g d x)) ->
  safely false (fun h => sp_order (if_spline g) <= h <= last_of (if_spline g) d) (hint_for o g d x).
Proof using Type.
  intros W Lu Lx Hd Hc. destruct W as [W1 W2 W3 W4 W5 W6]. specialize (W5 d Hd). unfold last_of.
  unfold hint_for. rewrite (vget_ok (if_uniform g) _ false) by lia. cbn [bind].
  destruct (nth d (if_uniform g) false).
  - specialize (Hc eq_refl). unfold hint_cast in Hc.
    rewrite (vget_ok (sp_knots (if_spline g)) _ []) by lia. cbn [bind].
    rewrite (vget_ok (sp_range (if_spline g)) _ (z, z)) by lia. cbn [bind].
    rewrite (vget_ok (sp_per (if_spline g)) _ false) by (unfold sp_dim in *; lia). cbn [bind].
    rewrite (vget_ok (if_dx g) _ z) by lia. cbn [bind]. fold (knot_of (if_spline g) d).
    destruct (odiv o (osub o x (fst (nth d (sp_range (if_spline g)) (z, z)))) (nth d (if_dx g) z)) as [q|e|w]; cbn [bind safely] in *; auto.
    match type of Hc with safely _ _ ?r => destruct r as [k|e|w] end; cbn [bind safely] in *; auto.
    rewrite usub_ok by lia. cbn [bind]. rewrite usub_ok by lia. cbn [bind safely]. lia.
  - cbn [safely]. lia.
Qed.

Lemma safely_list {A B} exc (P : nat -> B -> Prop) (f : A -> res B) l da db :
  (forall i, i < length l -> safely exc (P i) (f (nth i l da))) ->
  safely exc (fun l' => length l' = length l /\ forall i, i < length l -> P i (nth i l' db)) (mapM f l).
Proof using Type.
  revert P; induction l as [|a l IH]; intros P H; cbn [mapM].
  - split; auto. cbn [length]. lia.
  - apply (safely_bind exc (P 0)); [apply (H 0); cbn [length]; lia|]. intros b Hb.
    eapply safely_bind; [apply (IH (fun i => P (S i))); intros i Hi; apply (H (S i)); cbn [length]; lia|].
    cbn beta. intros l' [L Hl]. cbn [safely length]. split; [auto|]. intros [|i] Hi; [exact Hb|]. cbn [nth]. apply Hl. lia.
Qed.

Lemma interp_eval_safe g xs : wf_spline (if_spline g) -> length (if_uniform g) = sp_dim (if_spline g) -> length (if_dx g) = sp_dim (if_spline g) ->
  length xs = sp_dim (if_spline g) -> casts_safe g xs ->
  safely false (fun _ => True) (interp_eval o g xs).
Proof using Hq.
  intros W Lu Lx Ls Hc. unfold interp_eval, add_hints. set (D := sp_dim (if_spline g)) in *.
  eapply safely_bind.
  - apply (safely_list false (fun d c => sp_order (if_spline g) <= snd c <= last_of (if_spline g) d) _ (seq 0 D) 0 (z, 0)).
    intros d Hd. rewrite seq_length in Hd. rewrite seq_nth by auto. rewrite Nat.add_0_l.
    rewrite (vget_ok xs _ z) by lia. cbn [bind].
    eapply safely_bind; [apply hint_safe; auto; intros; apply Hc; auto; lia|]. intros h Hh. exact Hh.
  - cbn beta. rewrite seq_length. intros c [L Hl]. apply post_safely. apply spline_eval_safe; auto.
Qed.

Lemma interp_derivative_safe g xs orders : wf_spline (if_spline g) -> length (if_uniform g) = sp_dim (if_spline g) -> length (if_dx g) = sp_dim (if_spline g) ->
  length xs = sp_dim (if_spline g) -> length orders = sp_dim (if_spline g) -> casts_safe g xs ->
  safely false (fun _ => True) (interp_derivative o on g xs orders).
Proof using Hq.
  intros W Lu Lx Ls Lo Hc. unfold interp_derivative. set (D := sp_dim (if_spline g)) in *.
  eapply safely_bind.
  - apply (safely_list false (fun d c => sp_order (if_spline g) <= snd (fst c) <= last_of (if_spline g) d) _ (seq 0 D) 0 (z, 0, 0)).
    intros d Hd. rewrite seq_length in Hd. rewrite seq_nth by auto. rewrite Nat.add_0_l.
    rewrite (vget_ok xs _ z) by lia. cbn [bind].
    eapply safely_bind; [apply hint_safe; auto; intros; apply Hc; auto; lia|]. intros h Hh.
    rewrite (vget_ok orders _ 0) by lia. cbn [bind]. exact Hh.
  - cbn beta. rewrite seq_length. intros c [L Hl]. apply post_safely. apply spline_derivative_safe; auto.
Qed.
End Any.
