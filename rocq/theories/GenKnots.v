(** The knots of a constructed function, in any arithmetic. *)
From Coq Require Import List Arith Lia Bool ZArith.
From Verif Require Import Base Num MeshM SpecMesh MeshProofs ProgM BandM LUM SplineM InterpM LUConv.
Import ListNotations.
Open Scope nat_scope.

Section Gen.
Context {T : Type} (o : ops T) (on nd : bool).

Lemma vget_inv {A} (l : list A) i (x d : A) : vget l i = Ok x -> i < length l /\ nth_error l i = Some x /\ nth i l d = x.
Proof.
  unfold vget. destruct (nth_error l i) eqn:E; [|discriminate]. intros H; inversion H; subst.
  split; [apply nth_error_Some; congruence|]. split; auto. apply nth_error_nth; auto.
Qed.
Lemma vset_inv {A} (l l' : list A) i (x : A) : vset l i x = Ok l' -> i < length l /\ l' = upd l i x.
Proof. unfold vset. destruct (Nat.ltb_spec i (length l)); intros H'; inversion H'; auto. Qed.
Lemma nth_upd_same {A} (l : list A) i (x d : A) : i < length l -> nth i (upd l i x) d = x.
Proof. intros H. rewrite nth_upd, Nat.eqb_refl. destruct (Nat.ltb_spec i (length l)); [reflexivity|lia]. Qed.
Lemma nth_upd_other {A} (l : list A) i j (x d : A) : j <> i -> nth j (upd l i x) d = nth j l d.
Proof. intros H. rewrite nth_upd. destruct (Nat.eqb_spec j i); [lia|]. rewrite ?andb_false_r. reflexivity. Qed.

(** What dimension [d] of a function holds. *)
Definition dim_knots (order : nat) (per : list bool) (dims : list nat) (ranges : list (xrange T)) (f : interp T) (coords : list (list T)) (d : nat) : Prop :=
  exists r p n, nth_error ranges d = Some r /\ nth_error per d = Some p /\ nth_error dims d = Some n /\
  match r with
  | Uniform a b => uniform_knots o nd order p n a b = Ok (nth d (sp_knots (if_spline f)) [], nth d (if_dx f) (o0 o)) /\ nth d (if_uniform f) false = true
  | Points l => points_knots o on nd order p n l = Ok (nth d (sp_knots (if_spline f)) [], nth d coords []) /\ nth d (if_uniform f) true = false
  end.

Lemma base_knots order per dims ranges f coords :
  interp_base o on nd order per dims ranges = Ok (f, coords) ->
  sp_order (if_spline f) = order /\ sp_per (if_spline f) = per /\
  forall d, d < length ranges -> dim_knots order per dims ranges f coords d.
Proof.
  unfold interp_base, create_knots. cbn [if_spline spline_empty sp_per]. intros E.
  apply (for_post (fun i st => sp_order (if_spline (fst st)) = order /\ sp_per (if_spline (fst st)) = per /\
     forall d, d < i -> dim_knots order per dims ranges (fst st) (snd st) d)) in E.
  - cbn [fst snd] in E. exact E.
  - lia.
  - cbn. split; auto. split; auto. intros; lia.
  - intros i [g cs] s' Hi (IO & IP & IH) B. cbn [fst snd] in *.
    apply bind_Ok in B as (r & Er & B). apply bind_Ok in B as (p & Ep & B). apply bind_Ok in B as (n & En & B).
    pose proof (vget_inv _ _ _ r Er) as (_ & Er' & _). pose proof (vget_inv _ _ _ p Ep) as (_ & Ep' & _). pose proof (vget_inv _ _ _ n En) as (_ & En' & _).
    rewrite IP in Ep'. destruct r as [a b|l].
    + apply bind_Ok in B as (u & Eu & B). apply bind_Ok in B as ([xs h] & Ex & B). apply bind_Ok in B as (dx & Ed & B).
      apply bind_Ok in B as (s1 & E1 & B). inversion B; subst s'. cbn [fst snd if_spline if_dx if_uniform].
      unfold load_knots in E1. apply bind_Ok in E1 as (kn' & Ek & E1). repeat (apply bind_Ok in E1 as (? & _ & E1)). inversion E1; subst s1. cbn [sp_order sp_per sp_knots].
      apply vset_inv in Eu as (Lu & ->). apply vset_inv in Ed as (Ld & ->). apply vset_inv in Ek as (Lk & ->).
      split; auto. split; auto. intros d Hd. destruct (Nat.eq_dec d i) as [->|Ne].
      * exists (Uniform a b), p, n. cbn [if_spline if_dx if_uniform sp_knots]. rewrite !nth_upd_same by auto. rewrite <- IO. auto.
      * destruct (IH d ltac:(lia)) as (r & p' & n' & H1 & H2 & H3 & H4). exists r, p', n'. cbn [if_spline if_dx if_uniform sp_knots].
        rewrite !nth_upd_other by auto. destruct r; auto.
    + apply bind_Ok in B as (u & Eu & B). apply bind_Ok in B as ([xs h] & Ex & B). apply bind_Ok in B as (cs' & Ed & B).
      apply bind_Ok in B as (s1 & E1 & B). inversion B; subst s'. cbn [fst snd if_spline if_dx if_uniform].
      unfold load_knots in E1. apply bind_Ok in E1 as (kn' & Ek & E1). repeat (apply bind_Ok in E1 as (? & _ & E1)). inversion E1; subst s1. cbn [sp_order sp_per sp_knots].
      apply vset_inv in Eu as (Lu & ->). apply vset_inv in Ed as (Ld & ->). apply vset_inv in Ek as (Lk & ->).
      split; auto. split; auto. intros d Hd. destruct (Nat.eq_dec d i) as [->|Ne].
      * exists (Points l), p, n. cbn [if_spline if_dx if_uniform sp_knots]. rewrite !nth_upd_same by auto. rewrite <- IO. auto.
      * destruct (IH d ltac:(lia)) as (r & p' & n' & H1 & H2 & H3 & H4). exists r, p', n'. cbn [if_spline if_dx if_uniform sp_knots].
        rewrite !nth_upd_other by auto. destruct r; auto.
Qed.

Lemma make_knots order per f ranges g :
  interp_make o on nd order per f ranges = Ok g ->
  sp_order (if_spline g) = order /\ sp_per (if_spline g) = per /\
  exists coords, forall d, d < length ranges -> dim_knots order per (m_dims f) ranges g coords d.
Proof.
  unfold interp_make, templ_make, interpolate_move. intros E.
  apply bind_Ok in E as (t & Et & E). apply bind_Ok in E as (r & Er & E). inversion E; subst g; clear E.
  apply bind_Ok in Et as ([b cs] & Eb & Et). apply bind_Ok in Et as (W & _ & Et). apply bind_Ok in Et as (sv & _ & Et). inversion Et; subst t; clear Et.
  apply bind_Ok in Er as (c & _ & Er). inversion Er; subst r; clear Er. cbn [fst tp_base].
  apply base_knots in Eb as (H1 & H2 & H3). unfold set_ctrl, load_ctrl. cbn [if_spline sp_order sp_per]. split; auto. split; auto.
  exists cs. intros d Hd. exact (H3 d Hd).
Qed.

Lemma points_inv order p n l xs c : points_knots o on nd order p n l = Ok (xs, c) ->
  (if p then periodic_points o order l else aperiodic_points o order l) = Ok (xs, c).
Proof.
  unfold points_knots. intros E. apply bind_Ok in E as (u & _ & E). apply bind_Ok in E as ([xs' c'] & E1 & E).
  apply bind_Ok in E as (e & _ & E). apply bind_Ok in E as (u' & _ & E). inversion E; subst. exact E1.
Qed.
End Gen.
