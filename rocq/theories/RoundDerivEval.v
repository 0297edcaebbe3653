(** derivative_at in rounded arithmetic. *)
From Coq Require Import List Arith Lia Bool ZArith Reals Lra Psatz.
From Verif Require Import Base Num MeshM SplineM SpecMesh SpecBand SpecSpline SpecSplineObj SpecRound SpecRoundD MeshProofs SumR MulProofs
  SplineProofs TensorR BasisProofs EvalProofs EvalR DerivProofs DerivLoops RoundSpline RoundEval RoundDeriv RoundDerivLoops LUConv.
Import ListNotations.
Local Open Scope R_scope.

(** ** Basis functions of lower order *)
Section Basis.
Context {T : Type} (o : ops T) (val : T -> R) (good : T -> Prop) (u eta big : R).
Context (RD : rounding o val good u eta big).
Variables (order : nat) (knots : list T) (k : nat) (x : T) (g : R).
Let z := o0 o.
Let t := kn (map val knots).
Hypothesis Hgk : forall i, (i < length knots)%nat -> good (nth i knots z).
Hypothesis Hnd : nondecreasing (map val knots).
Hypothesis Hko : (order <= k)%nat.
Hypothesis Hlen : (k + order + 1 < length knots)%nat.
Hypothesis Hg0 : 0 < g.
Hypothesis Hg : g <= t (k + 1)%nat - t k.
Hypothesis Hwide : t (k + order + 1)%nat - t (k - order)%nat <= big / 4.
Hypothesis Hx : good x.
Hypothesis Hin : t k <= val x <= t (k + 1)%nat.
Hypothesis Heta : eta <= g.
Hypothesis Hgrow : grow u eta order g order <= 2.

Lemma basis_round_so so : (so <= order)%nat ->
  exists b, base_spline_value o order knots k x so = Ok b /\ rlevel o val good u eta order knots k x g so b /\
    forall m, (m < order - so)%nat -> nth m b z = z.
Proof using All.
  intros Hso. unfold base_spline_value. rewrite vset_ok by (rewrite repeat_length; lia). cbn [bind].
  match goal with |- context[for_ 1 ?hi ?s0 ?f] =>
    destruct (for_inv (fun i b => rlevel o val good u eta order knots k x g (i - 1) b /\ forall m, (m < order - (i - 1))%nat -> nth m b z = z) 1 hi s0 f) as (b & E & H & H') end.
  - lia.
  - unfold rlevel. rewrite upd_length, repeat_length. split; [split; auto|].
    + destruct RD as [_ _ _ [G0 V0] [G1 V1] _ _ _ _ _ _]. fold z in G0, V0. split.
      * intros j Hj. fold z. destruct (Nat.eq_dec j order); [subst; rewrite nth_upd_same by (rewrite repeat_length; lia); auto|rewrite nth_upd_other by lia].
        destruct (nth_in_or_default j (repeat z (order + 1)) z) as [I|I]; [apply repeat_spec in I; rewrite I; auto|rewrite I; auto].
      * replace (1 - 1)%nat with 0%nat by lia. cbn [Nat.add sum]. replace (order - 0 + 0)%nat with order by lia. rewrite nth_upd_same by (rewrite repeat_length; lia).
        rewrite V1. unfold P, piece, grow. cbn [cox pow INR]. replace (k - 0 + 0)%nat with k by lia. rewrite Nat.eqb_refl. replace (1 - 1) with 0 by ring. rewrite Rabs_R0. lra.
    + intros m Hm. rewrite nth_upd_other by lia. destruct (nth_in_or_default m (repeat (o0 o) (order + 1)) z) as [I|I]; [apply repeat_spec in I; auto|auto].
  - intros i b Hi [HL HZ]. rewrite usub_ok by lia. cbn [bind].
    destruct (level_round o val good u eta big RD order knots k x g Hgk Hnd Hko Hlen Hg0 Hg Hwide Hx Hin Heta Hgrow (i - 1) b) as (b' & E & HL'); [lia|auto|].
    replace (S (i - 1)) with i in * by lia. exists b'. split; auto. replace (i + 1 - 1)%nat with i by lia. split; auto.
    intros m Hm. apply eq_trans with (nth m b z); [|apply HZ; lia].
    revert E. apply (for_post (fun _ b1 => nth m b1 z = nth m b z)); auto; [lia|].
    intros j s s' Hj I E. apply bind_Ok in E as (l & _ & E). apply bind_Ok in E as (r & _ & E). apply vset_inv in E as [_ ->].
    rewrite nth_upd_other by lia. auto.
  - exists b. split; auto. replace (so + 1 - 1)%nat with so in H, H' by lia. split; auto.
Qed.
End Basis.

(** ** The run of derivative_at (any arithmetic) *)
Lemma derivative_run {T} (o : ops T) on s coords iters vals (Pr : list nat -> T -> Prop) :
  let order := sp_order s in
  let dims := repeat (order + 1)%nat (sp_dim s) in
  let so := so_of s coords in
  wf_spline s -> length coords = sp_dim s ->
  (forall d, (d < sp_dim s)%nat -> (snd (nth d coords (o0 o, 0%nat, 0%nat)) <= order)%nat) ->
  get_knot_iters o s (map fst coords) = Ok iters -> calc_base_spline_vals o s iters so = Ok vals ->
  good_iters o s iters -> good_vals s vals ->
  (forall lcp, m_dims lcp = dims -> wf_mesh lcp ->
     (forall idx, valid dims idx -> mv (o0 o) lcp idx = ctrl_at o s (gmap o s iters idx)) ->
     exists m', for_ 0 (sp_dim s) lcp (fun lcp d =>
       q <- vget so d ;;
       if (q =? order)%nat then Ok lcp else
       n <- mesh_dim_size lcp d ;;
       hyper <- udiv (mesh_size lcp) n ;;
       for_ 0 hyper lcp (fun lcp i =>
         it <- mesh_begin on lcp d (digits_skip (order + 1) (sp_dim s) d i) ;;
         kn <- vget (sp_knots s) d ;;
         ki <- vget iters d ;;
         derive_line o order kn (snd ki) q lcp it)) = Ok m' /\
       m_dims m' = dims /\ wf_mesh m' /\ forall idx, valid dims idx -> Pr idx (mv (o0 o) m' idx)) ->
  exists c, (forall idx, valid dims idx -> Pr idx (c idx)) /\
    spline_derivative_at o on s coords =
      Ok (fold_left (fun v i => oadd o v (omul o (coef_of o s vals (unrank dims i)) (c (unrank dims i)))) (seq 0 (buf_size s)) (o0 o)).
Proof.
  intros order dims so W Hc Ho E1 E2 G V Hloop.
  unfold spline_derivative_at. fold (so_of s coords). fold so.
  replace (existsb (fun q => sp_order s <? q)%nat so) with false by (symmetry; apply (so_of_small o); rewrite Hc; auto).
  rewrite E1. cbn [bind]. rewrite E2. cbn [bind].
  destruct (fill_ok o s iters vals W G V) as (lsv & lcp & Ef & A & B & Cq & D & F).
  cbv zeta in Ef |- *. rewrite Ef. cbn [bind].
  destruct (Hloop lcp B D) as (m' & Em & Am & Bm & Cm). { intros idx Hi. apply (F idx Hi). }
  exists (mv (o0 o) m'). split; auto. unfold order in Em. rewrite Em. cbn [bind].
  apply (final_ok o s lsv m' (coef_of o s vals) (mv (o0 o) m')); auto. intros idx Hi. split; auto. apply (F idx Hi).
Qed.
