(** Evaluation in rounded arithmetic. *)
From Coq Require Import List Arith Lia Bool ZArith Reals Lra Psatz.
From Verif Require Import Base Num MeshM SplineM SpecMesh SpecBand SpecSpline SpecSplineObj SpecRound MeshProofs SumR SplineProofs TensorR BasisProofs EvalProofs EvalR RoundSpline.
Import ListNotations.
Local Open Scope R_scope.

(** ** Sums over multi-indices *)
Definition isum (dims : list nat) (f : list nat -> R) : R := sum (prod dims) (fun i => f (unrank dims i)).

Lemma isum_cons n dims f : isum (n :: dims) f = sum n (fun i => isum dims (fun idx => f (i :: idx))).
Proof.
  unfold isum. cbn [prod unrank]. rewrite sum_mult. apply sum_ext. intros i Hi. apply sum_ext. intros j Hj. cbv beta.
  assert (E1 : ((i * prod dims + j) / prod dims = i)%nat).
  { rewrite Nat.div_add_l by lia. rewrite Nat.div_small by auto. lia. }
  assert (E2 : ((i * prod dims + j) mod prod dims = j)%nat).
  { rewrite Nat.add_comm, Nat.mod_add by lia. apply Nat.mod_small; auto. }
  rewrite E1, E2. reflexivity.
Qed.
Lemma isum_nil f : isum [] f = f [].
Proof. unfold isum. cbn. ring. Qed.
Lemma isum_scal dims a f : isum dims (fun idx => a * f idx) = a * isum dims f.
Proof. unfold isum. apply sum_scal. Qed.
Lemma isum_plus dims f h : isum dims (fun idx => f idx + h idx) = isum dims f + isum dims h.
Proof. unfold isum. apply sum_plus. Qed.
Lemma isum_const dims a : isum dims (fun _ => a) = INR (prod dims) * a.
Proof. unfold isum. apply sum_const. Qed.
Lemma isum_le dims f h : (forall idx, valid dims idx -> f idx <= h idx) -> isum dims f <= isum dims h.
Proof. intros H. unfold isum. apply sum_le. intros i Hi. apply H. apply unrank_valid; auto. Qed.
Lemma isum_pos dims f : (forall idx, 0 <= f idx) -> 0 <= isum dims f.
Proof. intros H. unfold isum. apply sum_pos. auto. Qed.

Lemma prodR_cons a l : prodR (a :: l) = a * prodR l.
Proof. reflexivity. Qed.
Lemma prodR_app l a : prodR (l ++ [a]) = prodR l * a.
Proof. induction l; cbn [app]; rewrite ?prodR_cons; [unfold prodR; cbn; ring|]. rewrite IHl. ring. Qed.
Lemma prodR_abs l : Rabs (prodR l) = prodR (map Rabs l).
Proof. induction l; cbn [map]; rewrite ?prodR_cons; [apply Rabs_R1|]. rewrite Rabs_mult, IHl. reflexivity. Qed.
Lemma prodR_bound l b : 0 <= b -> (forall a, In a l -> Rabs a <= b) -> Rabs (prodR l) <= b ^ length l.
Proof.
  intros Hb. induction l; intros H; [unfold prodR; cbn; rewrite Rabs_R1; lra|]. rewrite prodR_cons, Rabs_mult. cbn [length pow]. apply Rmult_le_compat; auto using Rabs_pos.
  - apply H. left; auto.
  - apply IHl. intros; apply H; right; auto.
Qed.

(** Functions per dimension: [b] computed, [p] exact. *)
Section Products.
Variables (n : nat) (beta : R).
Hypothesis B1 : 1 <= beta.

Definition close (b p : nat -> R) : Prop :=
  sum n (fun a => Rabs (b a - p a)) <= beta - 1 /\ (forall a, (a < n)%nat -> 0 <= p a) /\ sum n p = 1.

Lemma close_abs b p : close b p -> sum n (fun a => Rabs (b a)) <= beta.
Proof using All.
  intros (H1 & H2 & H3). apply Rle_trans with (sum n (fun a => Rabs (b a - p a) + p a)).
  - apply sum_le. intros a Ha. specialize (H2 a Ha). replace (b a) with ((b a - p a) + p a) at 1 by ring. eapply Rle_trans; [apply Rabs_triang|]. rewrite (Rabs_pos_eq (p a)) by auto. lra.
  - rewrite sum_plus. lra.
Qed.
Lemma close_each b p a : close b p -> (a < n)%nat -> Rabs (b a) <= beta.
Proof using All.
  intros H Ha. apply Rle_trans with (2 := close_abs b p H). 
  assert (X : forall m, (a < m)%nat -> Rabs (b a) <= sum m (fun a => Rabs (b a))); [|auto].
  induction m; intros Hm; [lia|]. cbn [sum]. destruct (Nat.eq_dec a m).
  - subst. assert (0 <= sum m (fun a => Rabs (b a))) by (apply sum_pos; intros; apply Rabs_pos). lra.
  - specialize (IHm ltac:(lia)). pose proof (Rabs_pos (b m)). lra.
Qed.

Definition pick (fs : list (nat -> R)) (idx : list nat) : list R := map2 (fun f a => f a) fs idx.

Lemma prod_sum_abs fs : (forall f, In f fs -> sum n (fun a => Rabs (f a)) <= beta) ->
  isum (repeat n (length fs)) (fun idx => Rabs (prodR (pick fs idx))) <= beta ^ length fs.
Proof using All.
  induction fs as [|f fs IH]; intros H; cbn [length repeat].
  - rewrite isum_nil. unfold prodR. cbn. rewrite Rabs_R1. lra.
  - rewrite isum_cons. cbn [pow].
    rewrite (sum_ext _ _ (fun i => isum (repeat n (length fs)) (fun idx => Rabs (prodR (pick fs idx))) * Rabs (f i))).
    2:{ intros i Hi. rewrite Rmult_comm, <- isum_scal. unfold isum. apply sum_ext. intros j Hj. unfold pick. cbn [map2]. rewrite prodR_cons, Rabs_mult. reflexivity. }
    rewrite sum_scal, Rmult_comm. apply Rmult_le_compat.
    + apply sum_pos. intros; apply Rabs_pos.
    + apply isum_pos. intros; apply Rabs_pos.
    + apply H. left; auto.
    + apply IH. intros; apply H; right; auto.
Qed.

Lemma prod_sum_diff fs ps : Forall2 close fs ps ->
  isum (repeat n (length fs)) (fun idx => Rabs (prodR (pick fs idx) - prodR (pick ps idx))) <= beta ^ length fs - 1.
Proof using All.
  induction 1 as [|f p fs ps C F IH]; cbn [length repeat].
  - rewrite isum_nil. unfold pick, prodR. cbn. replace (1 - 1) with 0 by ring. rewrite Rabs_R0. lra.
  - rewrite isum_cons. cbn [pow].
    assert (A : isum (repeat n (length fs)) (fun idx => Rabs (prodR (pick fs idx))) <= beta ^ length fs).
    { apply prod_sum_abs. intros h Hh. clear IH C. induction F; [destruct Hh|]. destruct Hh as [<-|Hh]; [eapply close_abs; eauto|auto]. }
    set (S1 := isum (repeat n (length fs)) (fun idx => Rabs (prodR (pick fs idx)))) in *.
    set (S2 := isum (repeat n (length fs)) (fun idx => Rabs (prodR (pick fs idx) - prodR (pick ps idx)))) in *.
    apply Rle_trans with (sum n (fun i => S1 * Rabs (f i - p i) + S2 * p i)).
    + apply sum_le. intros i Hi. unfold S1, S2. rewrite !(Rmult_comm (isum _ _)), <- !isum_scal, <- isum_plus. apply isum_le. intros idx Hv.
      unfold pick. cbn [map2]. rewrite !prodR_cons. destruct C as (_ & C2 & _). specialize (C2 i Hi).
      match goal with |- Rabs (_ * ?X - _ * ?Y) <= _ => replace (f i * X - p i * Y) with ((f i - p i) * X + p i * (X - Y)) by ring end.
      eapply Rle_trans; [apply Rabs_triang|]. rewrite !Rabs_mult, (Rabs_pos_eq (p i)) by auto. lra.
    + rewrite sum_plus, !sum_scal. destruct C as (C1 & _ & ->).
      assert (0 <= S1) by (apply isum_pos; intros; apply Rabs_pos).
      assert (S1 * sum n (fun i => Rabs (f i - p i)) <= beta ^ length fs * (beta - 1)) by (apply Rmult_le_compat; auto; apply sum_pos; intros; apply Rabs_pos). lra.
Qed.
End Products.

(** ** Products and sums in rounded arithmetic *)
Section Round.
Context {T : Type} (o : ops T) (val : T -> R) (good : T -> Prop) (u eta big : R).
Context (RD : rounding o val good u eta big).
Let z := o0 o.

Lemma pow1 a n : 1 <= a -> 1 <= a ^ n.
Proof. apply pow_R1_Rle. Qed.

Lemma product_round beta bs : 1 <= beta -> (forall b, In b bs -> good b /\ Rabs (val b) <= beta) ->
  ((1 + u) * beta) ^ length bs * (1 + INR (length bs) * eta) <= big ->
  let c := fold_left (omul o) bs (o1 o) in
  good c /\ Rabs (val c - prodR (map val bs)) <=
    ((1 + u) ^ length bs - 1) * Rabs (prodR (map val bs)) + ((1 + u) * beta) ^ length bs * (INR (length bs) * eta).
Proof using RD.
  intros Hb. destruct RD as [[u0 u1] e0 _ _ [G1 V1] _ _ RM _ _ _].
  assert (Q1 : 1 <= (1 + u) * beta) by nra.
  induction bs as [|b bs IH] using rev_ind; intros HB Hbig.
  - cbn. split; auto. rewrite V1. unfold prodR. cbn. replace (1 - 1) with 0 by ring. rewrite Rabs_R0. lra.
  - rewrite app_length in *. cbn [length] in *. rewrite Nat.add_1_r in *. cbn [pow] in Hbig. set (m := length bs) in *.
    pose proof (pow1 _ m Q1) as Qm. set (q := ((1 + u) * beta) ^ m) in *. rewrite S_INR in Hbig.
    pose proof (pos_INR m) as Im. assert (Ime : 0 <= INR m * eta) by (apply Rmult_le_pos; auto).
    assert (Hstep : q * (1 + INR m * eta) * beta <= big).
    { eapply Rle_trans; [|apply Hbig]. assert (0 <= q * beta) by nra. assert (q * beta * (1 + INR m * eta) <= q * beta * (1 + (INR m + 1) * eta)) by (apply Rmult_le_compat_l; lra).
      assert (0 <= u * (q * beta * (1 + (INR m + 1) * eta))) by (apply Rmult_le_pos; auto; apply Rmult_le_pos; auto; nra). lra. }
    destruct IH as [Gc Ec].
    { intros; apply HB; apply in_or_app; auto. }
    { eapply Rle_trans; [|apply Hstep]. assert (0 <= q * (1 + INR m * eta)) by (apply Rmult_le_pos; lra). nra. }
    rewrite fold_left_app. cbn [fold_left]. destruct (HB b) as [Gb Bb]; [apply in_or_app; right; left; auto|].
    rewrite map_app. cbn [map]. rewrite prodR_app. set (c := fold_left (omul o) bs (o1 o)) in *. set (p := prodR (map val bs)) in *.
    assert (Bp : Rabs p <= beta ^ m).
    { unfold p, m. rewrite <- (map_length val). apply prodR_bound; [lra|]. intros a Ha. apply in_map_iff in Ha as (b' & <- & Hb'). apply HB. apply in_or_app; auto. }
    pose proof (pow1 (1 + u) m ltac:(lra)) as Um. set (U := (1 + u) ^ m) in *.
    assert (Eq : q = U * beta ^ m) by (unfold q, U; apply Rpow_mult_distr).
    assert (Up : U * Rabs p <= q) by (rewrite Eq; apply Rmult_le_compat_l; lra).
    assert (Bc : Rabs (val c) <= U * Rabs p + q * (INR m * eta)).
    { replace (val c) with ((val c - p) + p) by ring. eapply Rle_trans; [apply Rabs_triang|]. lra. }
    pose proof (Rabs_pos (val c)) as Pc. pose proof (Rabs_pos (val b)) as Pb. pose proof (Rabs_pos p) as Pp.
    destruct (RM c b) as [G E]; auto.
    { rewrite Rabs_mult. eapply Rle_trans; [|apply Hstep]. apply Rmult_le_compat; auto. lra. }
    split; auto. rewrite Rabs_mult in E. rewrite Rabs_mult.
    replace (val (omul o c b) - p * val b) with ((val (omul o c b) - val c * val b) + (val c - p) * val b) by ring.
    eapply Rle_trans; [apply Rabs_triang|]. rewrite Rabs_mult. cbn [pow]. fold U. fold q. rewrite S_INR.
    assert (X1 : Rabs (val c) * Rabs (val b) <= (Rabs p + Rabs (val c - p)) * Rabs (val b)).
    { apply Rmult_le_compat_r; auto. replace (val c) with (p + (val c - p)) at 1 by ring. apply Rabs_triang. }
    set (dl := Rabs (val c - p)) in *. assert (0 <= dl) by apply Rabs_pos.
    assert (X2 : u * (Rabs (val c) * Rabs (val b)) <= u * ((Rabs p + dl) * Rabs (val b))) by (apply Rmult_le_compat_l; auto).
    assert (X3 : (1 + u) * (dl * Rabs (val b)) <= (1 + u) * (((U - 1) * Rabs p + q * (INR m * eta)) * Rabs (val b))) by (apply Rmult_le_compat_l; [lra|apply Rmult_le_compat_r; auto]).
    assert (X4 : (1 + u) * (q * (INR m * eta) * Rabs (val b)) <= (1 + u) * (q * (INR m * eta) * beta)) by (apply Rmult_le_compat_l; [lra|apply Rmult_le_compat_l; auto; apply Rmult_le_pos; lra]).
    assert (X5 : eta <= (1 + u) * beta * q * eta). { assert (1 <= (1 + u) * beta * q) by nra. assert (0 <= ((1 + u) * beta * q - 1) * eta) by (apply Rmult_le_pos; lra). lra. }
    nra.
Qed.

Lemma sum_acc_round n (f : nat -> T) (A : R) :
  (forall i, (i < n)%nat -> good (f i)) -> sum n (fun i => Rabs (val (f i))) <= A -> (1 + u) ^ n * A <= big ->
  let v := fold_left (fun v i => oadd o v (f i)) (seq 0 n) z in
  good v /\ Rabs (val v - sum n (fun i => val (f i))) <= ((1 + u) ^ n - 1) * sum n (fun i => Rabs (val (f i))).
Proof using RD.
  destruct RD as [[u0 u1] e0 _ [G0 V0] _ RA _ _ _ _ _]. fold z in G0, V0. cbn zeta.
  induction n; intros Hg Hs Hb.
  - cbn. split; auto. rewrite V0. replace (0 - 0) with 0 by ring. rewrite Rabs_R0. lra.
  - cbn [sum] in *. set (S0 := sum n (fun i => Rabs (val (f i)))) in *. pose proof (Rabs_pos (val (f n))) as Pf.
    assert (0 <= S0) as P0 by (apply sum_pos; intros; apply Rabs_pos). pose proof (pow1 (1 + u) n ltac:(lra)) as Un. cbn [pow] in *. set (U := (1 + u) ^ n) in *.
    assert (HUA : U * A <= big). { assert (0 <= u * (U * A)); [|lra]. apply Rmult_le_pos; auto. apply Rmult_le_pos; lra. }
    destruct IHn as [Gv Ev]; [intros; apply Hg; lia|lra|auto|].
    rewrite seq_S, fold_left_app. cbn [fold_left Nat.add]. set (v := fold_left (fun v i => oadd o v (f i)) (seq 0 n) z) in *. set (s := sum n (fun i => val (f i))) in *.
    assert (Bs : Rabs s <= S0) by apply sum_Rabs.
    assert (Bv : Rabs (val v + val (f n)) <= Rabs (val v - s) + (S0 + Rabs (val (f n)))).
    { replace (val v + val (f n)) with ((val v - s) + (s + val (f n))) by ring. eapply Rle_trans; [apply Rabs_triang|]. apply Rplus_le_compat_l. eapply Rle_trans; [apply Rabs_triang|]. lra. }
    destruct (RA v (f n)) as [G E]; auto.
    { eapply Rle_trans; [apply Bv|]. eapply Rle_trans; [|apply HUA]. assert (U * (S0 + Rabs (val (f n))) <= U * A) by (apply Rmult_le_compat_l; lra).
      assert (Rabs (val (f n)) <= U * Rabs (val (f n))) by nra. lra. }
    split; auto. replace (val (oadd o v (f n)) - (s + val (f n))) with ((val (oadd o v (f n)) - (val v + val (f n))) + (val v - s)) by ring.
    eapply Rle_trans; [apply Rabs_triang|]. 
    assert (u * Rabs (val v + val (f n)) <= u * (Rabs (val v - s) + (S0 + Rabs (val (f n))))) by (apply Rmult_le_compat_l; auto).
    assert ((1 + u) * Rabs (val v - s) <= (1 + u) * ((U - 1) * S0)) by (apply Rmult_le_compat_l; lra).
    assert (0 <= (1 + u) * ((U - 1) * Rabs (val (f n)))) by (apply Rmult_le_pos; [lra|apply Rmult_le_pos; lra]). lra.
Qed.
End Round.

(** ** Knot lookup *)
Section Lookup.
Context {T : Type} (o : ops T) (val : T -> R) (good : T -> Prop) (u eta big : R).
Context (RD : rounding o val good u eta big).

Lemma vget_map {A B} (f : A -> B) l i : vget (map f l) i = (a <- vget l i ;; Ok (f a)).
Proof. unfold vget. rewrite nth_error_map. destruct (nth_error l i); reflexivity. Qed.
Lemma vget_in {A} (l : list A) i a : vget l i = Ok a -> In a l.
Proof. unfold vget. destruct (nth_error l i) eqn:E; [|discriminate]. intros H. injection H as <-. eapply nth_error_In; eauto. Qed.
Lemma olt_val a b : good a -> good b -> olt o a b = Rltb (val a) (val b).
Proof using RD.
  intros Ga Gb. pose proof (rd_lt _ _ _ _ _ _ RD a b Ga Gb) as H. destruct (olt o a b) eqn:E, (Rltb (val a) (val b)) eqn:F; auto.
  - apply Rltb_false in F. exfalso. apply (Rle_not_lt _ _ F). apply H; auto.
  - apply Rltb_true in F. apply H in F. discriminate.
Qed.
Lemma ole_val a b : good a -> good b -> ole o a b = Rleb (val a) (val b).
Proof using RD.
  intros Ga Gb. pose proof (rd_le _ _ _ _ _ _ RD a b Ga Gb) as H. destruct (ole o a b) eqn:E, (Rleb (val a) (val b)) eqn:F; auto.
  - assert (Rleb (val a) (val b) = true) by (apply Rleb_true, H; auto). congruence.
  - apply Rleb_true in F. apply H in F. discriminate.
Qed.

Variables (knots : list T) (x : T).
Hypothesis Gk : forall a, In a knots -> good a.
Hypothesis Gx : good x.

Lemma upper_bound_val : forall fuel first len, upper_bound Rops (map val knots) (val x) fuel first len = upper_bound o knots x fuel first len.
Proof using All.
  induction fuel; intros first len; cbn [upper_bound]; auto. destruct (len =? 0)%nat; auto.
  rewrite vget_map. destruct (vget knots (first + len / 2)) as [m| |] eqn:E; cbn [bind]; auto.
  rewrite olt_val by (auto; apply Gk; eapply vget_in; eauto). change (olt Rops) with Rltb. rewrite !IHfuel. reflexivity.
Qed.

Lemma knot_iter_val order p r x0 rr y hint y' k :
  wrap_coord o p r x0 = Ok x -> wrap_coord Rops p rr y = Ok (val x) ->
  get_knot_iter Rops order p (map val knots) rr y hint = Ok (y', k) ->
  get_knot_iter o order p knots r x0 hint = Ok (x, k) /\ y' = val x.
Proof using All.
  intros E1 E2. unfold get_knot_iter, get_knot_iter_last. rewrite map_length.
  destruct (usub (length knots) order) as [l1| |]; cbn [bind]; try discriminate. destruct (usub l1 2) as [last| |]; cbn [bind]; try discriminate.
  rewrite E1, E2. cbn [bind]. rewrite vget_map. destruct (vget knots hint) as [a| |] eqn:Ea; cbn [bind]; try discriminate.
  change (ole Rops) with Rleb. change (olt Rops) with Rltb. rewrite ole_val by (auto; apply Gk; eapply vget_in; eauto).
  assert (Eh : (if Rleb (val a) (val x) then b <- vget (map val knots) (hint + 1) ;; Ok (Rltb (val x) b) else Ok false) =
               (if Rleb (val a) (val x) then b <- vget knots (hint + 1) ;; Ok (olt o x b) else Ok false)).
  { destruct (Rleb (val a) (val x)); auto. rewrite vget_map. destruct (vget knots (hint + 1)) as [b| |] eqn:Eb; cbn [bind]; auto.
    rewrite olt_val by (auto; apply Gk; eapply vget_in; eauto). reflexivity. }
  rewrite Eh. match goal with |- (hit <- ?c ;; _) = _ -> _ => destruct c as [[|]| |]; cbn [bind]; try discriminate end.
  - intros H. injection H as <- <-. auto.
  - destruct (last <? order)%nat; [discriminate|]. rewrite upper_bound_val. destruct (upper_bound o knots x (last - order) (order + 1) (last - order)) as [w| |]; cbn [bind]; try discriminate.
    destruct (usub w 1) as [k'| |]; cbn [bind]; try discriminate. intros H. injection H as <- <-. auto.
Qed.
End Lookup.

(** ** The whole evaluation *)
Section Eval.
Context {T : Type} (o : ops T) (val : T -> R) (good : T -> Prop) (u eta big : R).
Context (RD : rounding o val good u eta big).
Variables (s : spline T) (g C : R).
Hypothesis NS : number_spline val good big g C s.
Hypothesis Hg0 : 0 < g.
Hypothesis Hge : eta <= g.
Hypothesis HC : 0 <= C.
Let order := sp_order s.
Let D := sp_dim s.
Let N := ((order + 1) ^ D)%nat.
Let beta := basis_growth u eta g order.
Let Q := coef_growth u eta g order D.
Hypothesis Hbeta : beta <= 2.
Hypothesis HQ : Q <= big.
Hypothesis HV : value_bound u eta g order D C <= big.
Let z := o0 o.
Let rs := real_spline val s.

Lemma val0 : val z = 0.
Proof using RD. apply (rd_0 _ _ _ _ _ _ RD). Qed.
Lemma rs_knot d : knot_of rs d = map val (knot_of s d).
Proof using All. unfold knot_of, rs, real_spline. cbn [sp_knots]. change (@nil R) with (map val []). apply map_nth. Qed.
Lemma rs_dim : sp_dim rs = D.
Proof using All. reflexivity. Qed.
Lemma rs_last d : last_of rs d = last_of s d.
Proof using All. unfold last_of. rewrite rs_knot, map_length. reflexivity. Qed.
Lemma rs_num d : num_of rs d = num_of s d.
Proof using All. reflexivity. Qed.
Lemma s_wf : wf_spline s.
Proof using All.
  pose proof (gs_wf _ (ns_real _ _ _ _ _ _ NS)) as W. fold rs in W. constructor.
  - pose proof (wf_knots _ W) as H. unfold rs, real_spline in H. cbn [sp_knots] in H. rewrite map_length in H. apply H.
  - pose proof (wf_range _ W) as H. unfold rs, real_spline in H. cbn [sp_range] in H. rewrite map_length in H. apply H.
  - pose proof (wf_ctrl _ W) as H. unfold wf_mesh, rs, real_spline in H. cbn [sp_ctrl m_data m_dims] in H. rewrite map_length in H. apply H.
  - apply (wf_dims _ W).
  - intros d Hd. pose proof (wf_len _ W d Hd) as H. rewrite rs_knot, map_length in H. apply H.
  - intros d Hd. pose proof (wf_num _ W d Hd) as H. rewrite rs_knot, map_length in H. apply H.
Qed.
Lemma knot_in d : (d < D)%nat -> In (knot_of s d) (sp_knots s).
Proof using All. intros Hd. unfold knot_of. apply nth_In. rewrite (wf_knots _ s_wf). apply Hd. Qed.
Lemma ctrl_val idx : ctrl_at Rops rs idx = val (ctrl_at o s idx).
Proof using All. unfold ctrl_at, rs, real_spline. cbn [sp_ctrl m_dims m_data]. change (o0 Rops) with 0. rewrite <- val0. apply map_nth. Qed.
Lemma ctrl_good idx : good (ctrl_at o s idx) /\ Rabs (val (ctrl_at o s idx)) <= C.
Proof using All.
  unfold ctrl_at. match goal with |- context[nth ?i ?l ?d] => destruct (nth_in_or_default i l d) as [I|E] end.
  - apply (ns_ctrl _ _ _ _ _ _ NS _ I).
  - rewrite E. fold z. rewrite val0, Rabs_R0. split; auto. apply (rd_0 _ _ _ _ _ _ RD).
Qed.

Variables (xs xs' : list T) (hints : list nat).
Hypothesis Lx : length xs = D.
Hypothesis Lx' : length xs' = D.
Hypothesis Lh : length hints = D.
Hypothesis Hh : forall d, (d < D)%nat -> (order <= nth d hints 0 <= last_of s d)%nat.
Hypothesis Hwrap : forall d, (d < D)%nat -> wrap_coord o (per_of s d) (nth d (sp_range s) (z, z)) (nth d xs z) = Ok (nth d xs' z).
Hypothesis Gx' : forall d, (d < D)%nat -> good (nth d xs' z).
Hypothesis Hin : forall d, (d < D)%nat -> kn (knot_of rs d) order <= val (nth d xs' z) <= kn (knot_of rs d) (last_of s d + 1).
Hypothesis Hper : forall d, (d < D)%nat -> per_of s d = true -> fst (rng rs d) <= val (nth d xs' z) < snd (rng rs d).

Lemma rs_rng d : (d < D)%nat -> rng rs d = (val (fst (nth d (sp_range s) (z, z))), val (snd (nth d (sp_range s) (z, z)))).
Proof using All.
  intros Hd. unfold rs, real_spline. cbn [sp_range].
  rewrite (nth_indep _ (0, 0) ((fun r => (val (fst r), val (snd r))) (z, z))) by (rewrite map_length, (wf_range _ s_wf); apply Hd).
  rewrite (map_nth (fun r => (val (fst r), val (snd r)))). reflexivity.
Qed.

Let coords := combine xs hints.
Let rcoords := combine (map val xs') hints.

Lemma nth_combine {A B} (l : list A) (l' : list B) d a b : length l = length l' -> nth d (combine l l') (a, b) = (nth d l a, nth d l' b).
Proof. apply combine_nth. Qed.

Lemma wrap_real d : (d < D)%nat -> wrap_coord Rops (per_of rs d) (rng rs d) (val (nth d xs' z)) = Ok (val (nth d xs' z)).
Proof using All.
  intros Hd. destruct (wrap_coord_R (per_of rs d) (rng rs d) (val (nth d xs' z))) as (y & E & Hw).
  { apply (gs_range _ (ns_real _ _ _ _ _ _ NS)). apply Hd. }
  rewrite E. f_equal. change (per_of rs d) with (per_of s d) in *. destruct (per_of s d) eqn:Ep.
  - specialize (Hper d Hd Ep). eapply (wrapped_unique true (rng rs d)); [left; lra|apply Hw|]. unfold wrapped. split.
    + exists 0%Z. ring.
    + destruct (Rle_dec (fst (rng rs d)) (val (nth d xs' z))); lra.
  - apply Hw.
Qed.

Lemma iters_val : exists riters iters,
  get_knot_iters Rops rs rcoords = Ok riters /\ get_knot_iters o s coords = Ok iters /\
  good_iters Rops rs riters /\ good_iters o s iters /\
  forall d, (d < D)%nat ->
    fst (nth d riters (0, 0%nat)) = val (nth d xs' z) /\ fst (nth d iters (z, 0%nat)) = nth d xs' z /\
    snd (nth d iters (z, 0%nat)) = snd (nth d riters (0, 0%nat)) /\
    segment (kn (knot_of rs d)) order (last_of s d) (val (nth d xs' z)) (snd (nth d riters (0, 0%nat))).
Proof using All.
  destruct (spline_iters_ok rs rcoords) as (riters & E & Gi & H).
  { apply (ns_real _ _ _ _ _ _ NS). }
  { unfold rcoords. rewrite combine_length, map_length, Lx', Lh. apply Nat.min_id. }
  { intros d Hd. unfold rcoords. rewrite nth_combine by (rewrite map_length; congruence). cbn [snd]. rewrite rs_last. apply Hh. apply Hd. }
  set (k := fun d => snd (nth d riters (0, 0%nat))) in *.
  assert (EF : forall d, (d < D)%nat -> get_knot_iter o order (per_of s d) (knot_of s d) (nth d (sp_range s) (z, z)) (nth d xs z) (nth d hints 0%nat) = Ok (nth d xs' z, k d) /\ fst (nth d riters (0, 0%nat)) = val (nth d xs' z)).
  { intros d Hd. unfold get_knot_iters in E. pose proof (mapM_nth _ _ _ d 0%nat (0, 0%nat) E) as Ed. rewrite seq_length in Ed. specialize (Ed Hd). cbv beta in Ed. rewrite seq_nth in Ed by apply Hd. cbn [Nat.add] in Ed.
    rewrite (vget_ok rcoords d (0, 0%nat)) in Ed by (unfold rcoords; rewrite combine_length, map_length, Lx', Lh, Nat.min_id; auto). cbn [bind] in Ed.
    rewrite vget_per in Ed by apply Hd. cbn [bind] in Ed.
    rewrite (vget_ok (sp_knots rs) d []) in Ed by (rewrite (wf_knots rs (gs_wf _ (ns_real _ _ _ _ _ _ NS))); auto). cbn [bind] in Ed.
    rewrite (vget_ok (sp_range rs) d (0, 0)) in Ed by (rewrite (wf_range rs (gs_wf _ (ns_real _ _ _ _ _ _ NS))); auto). cbn [bind] in Ed.
    fold (knot_of rs d) in Ed. rewrite rs_knot in Ed. unfold rcoords in Ed. rewrite nth_combine in Ed by (rewrite map_length; congruence). cbn [fst snd] in Ed.
    replace (nth d (map val xs') 0) with (val (nth d xs' z)) in Ed by (rewrite <- val0; symmetry; apply map_nth).
    change (per_of rs d) with (per_of s d) in Ed. change (sp_order rs) with order in Ed.
    destruct (nth d riters (0, 0%nat)) as [y' k'] eqn:Er.
    destruct (knot_iter_val o val good u eta big RD (knot_of s d) (nth d xs' z)) with (order := order) (p := per_of s d) (r := nth d (sp_range s) (z, z)) (x0 := nth d xs z) (rr := rng rs d) (y := val (nth d xs' z)) (hint := nth d hints 0%nat) (y' := y') (k := k') as [R1 R2]; auto.
    - intros a Ha. apply (ns_knots _ _ _ _ _ _ NS (knot_of s d) a); auto. apply knot_in; auto.
    - apply (wrap_real d Hd).
    - unfold k. rewrite Er. cbn [fst snd]. auto. }
  exists riters, (map (fun d => (nth d xs' z, k d)) (seq 0 D)). split; auto. split; [|split; [|split]]; auto.
  - unfold get_knot_iters. apply (mapM_ok_nth _ _ _ 0%nat (z, 0%nat)).
    + rewrite length_map_seq, seq_length. reflexivity.
    + rewrite seq_length. intros d Hd. rewrite seq_nth by auto. cbn [Nat.add]. rewrite nth_map_seq by apply Hd.
      rewrite (vget_ok coords d (z, 0%nat)) by (unfold coords; rewrite combine_length, Lx, Lh, Nat.min_id; auto). cbn [bind].
      rewrite vget_per by auto. cbn [bind]. rewrite (vget_ok (sp_knots s) d []) by (rewrite (wf_knots _ s_wf); auto). cbn [bind].
      rewrite (vget_ok (sp_range s) d (z, z)) by (rewrite (wf_range _ s_wf); auto). cbn [bind]. unfold coords. rewrite nth_combine by congruence. cbn [fst snd]. apply EF; auto.
  - split; [apply length_map_seq|]. intros d Hd. fold z. rewrite nth_map_seq by apply Hd. cbn [snd]. destruct Gi as [_ Gi]. specialize (Gi d Hd). rewrite rs_last in Gi. apply Gi.
  - intros d Hd. rewrite nth_map_seq by auto. cbn [fst snd]. destruct (EF d Hd) as [_ E2]. destruct (H d Hd) as [_ Hs]. rewrite E2, rs_last in Hs. auto.
Qed.

Lemma mapM_exists {B} (F : nat -> res B) (db : B) (Pr : nat -> B -> Prop) n :
  (forall d, (d < n)%nat -> exists b, F d = Ok b /\ Pr d b) ->
  exists l, mapM F (seq 0 n) = Ok l /\ length l = n /\ forall d, (d < n)%nat -> Pr d (nth d l db).
Proof.
  induction n; intros H.
  - exists []. split; auto. split; auto. intros; lia.
  - destruct IHn as (l & El & Hll & Hl); [intros; apply H; lia|]. destruct (H n) as (b & Eb & Hb); [lia|].
    exists (l ++ [b]). split; [|split].
    + apply (mapM_ok_nth _ _ _ 0%nat db).
      * rewrite app_length, seq_length. cbn. lia.
      * rewrite seq_length. intros i Hi. rewrite seq_nth by auto. cbn [Nat.add]. destruct (Nat.eq_dec i n).
        -- subst i. rewrite app_nth2 by lia. rewrite Hll, Nat.sub_diag. auto.
        -- rewrite app_nth1 by lia. rewrite <- (mapM_nth _ _ _ i 0%nat db El) by (rewrite seq_length; lia). rewrite seq_nth by lia. reflexivity.
    + rewrite app_length. cbn. lia.
    + intros d Hd. destruct (Nat.eq_dec d n).
      * subst d. rewrite app_nth2 by lia. rewrite Hll, Nat.sub_diag. auto.
      * rewrite app_nth1 by lia. apply Hl. lia.
Qed.

Lemma beta_1 : 1 <= beta.
Proof using All.
  unfold beta, basis_growth. destruct RD as [[u0 u1] e0 _ _ _ _ _ _ _ _ _].
  pose proof (pow_R1_Rle (1 + 7 * u) order ltac:(lra)). assert (0 <= eta * (17/15) / g) by (apply Rmult_le_pos; [lra|apply Rlt_le, Rinv_0_lt_compat; auto]).
  assert (0 <= INR order * (INR (order + 1) * (2 * (1 + u) * (eta * (17 / 15) / g + eta)))); [|nra].
  apply Rmult_le_pos; [apply pos_INR|]. apply Rmult_le_pos; [apply pos_INR|]. apply Rmult_le_pos; lra.
Qed.

Lemma vals_round riters iters :
  good_iters Rops rs riters -> good_iters o s iters ->
  (forall d, (d < D)%nat ->
    fst (nth d riters (0, 0%nat)) = val (nth d xs' z) /\ fst (nth d iters (z, 0%nat)) = nth d xs' z /\
    snd (nth d iters (z, 0%nat)) = snd (nth d riters (0, 0%nat)) /\
    segment (kn (knot_of rs d)) order (last_of s d) (val (nth d xs' z)) (snd (nth d riters (0, 0%nat)))) ->
  exists rvals vals,
    calc_base_spline_vals Rops rs riters (repeat order D) = Ok rvals /\ calc_base_spline_vals o s iters (repeat order D) = Ok vals /\
    good_vals rs rvals /\ good_vals s vals /\
    forall d, (d < D)%nat -> (forall a, (a < order + 1)%nat -> good (nth a (nth d vals []) z)) /\
      close (order + 1) beta (fun a => val (nth a (nth d vals []) z)) (fun a => nth a (nth d rvals []) 0).
Proof using All.
  intros Gr Gi H.
  destruct (calc_vals_ok rs riters (repeat order D)) as (rvals & Er & Grv & Hrv); auto.
  { apply (ns_real _ _ _ _ _ _ NS). } { apply repeat_length. } { intros d Hd. rewrite nth_repeat_lt by apply Hd. auto. }
  { intros d Hd. destruct (H d Hd) as (_ & _ & _ & _ & ? & _). auto. }
  unfold calc_base_spline_vals at 2.
  destruct (mapM_exists (fun d => it <- vget iters d ;; kn <- vget (sp_knots s) d ;; q <- vget (repeat order D) d ;; base_spline_value o (sp_order s) kn (snd it) (fst it) q) []
    (fun d b => length b = (order + 1)%nat /\ (forall a, (a < order + 1)%nat -> good (nth a b z)) /\
       close (order + 1) beta (fun a => val (nth a b z)) (fun a => nth a (nth d rvals []) 0)) D) as (vals & E & Hl & Hv).
  { intros d Hd. destruct (H d Hd) as (E1 & E2 & E3 & Hseg). destruct Gi as [Gl Gi]. specialize (Gi d Hd). fold z in Gi.
    rewrite (vget_ok iters d (z, 0%nat)) by (rewrite Gl; auto). cbn [bind]. rewrite (vget_ok (sp_knots s) d []) by (rewrite (wf_knots _ s_wf); auto). cbn [bind].
    rewrite (vget_ok (repeat order D) d 0%nat) by (rewrite repeat_length; auto). cbn [bind]. rewrite nth_repeat_lt by auto. fold (knot_of s d). fold order.
    rewrite E2. set (k := snd (nth d iters (z, 0%nat))) in *. rewrite <- E3 in Hseg. pose proof (wf_len _ s_wf d Hd) as HL. fold order in HL, Gi. unfold last_of in Gi. fold order in Gi.
    assert (Hxk : kn (map val (knot_of s d)) k <= val (nth d xs' z) <= kn (map val (knot_of s d)) (k + 1)).
    { destruct Hseg as (_ & _ & A & B). specialize (Hin d Hd). rewrite <- rs_knot. split; [destruct A as [->|]; lra|destruct B as [->|]; lra]. }
    assert (Hkk : kn (map val (knot_of s d)) k < kn (map val (knot_of s d)) (k + 1)) by (rewrite <- rs_knot; apply Hseg).
    assert (Hnd : nondecreasing (map val (knot_of s d))) by (rewrite <- rs_knot; apply (gs_sorted _ (ns_real _ _ _ _ _ _ NS)); auto).
    assert (Hgk : forall i, (i < length (knot_of s d))%nat -> good (nth i (knot_of s d) (o0 o))) by (intros i Hi; apply (ns_knots _ _ _ _ _ _ NS (knot_of s d)); [apply knot_in; auto|apply nth_In; auto]).
    assert (Hgap : g <= kn (map val (knot_of s d)) (k + 1) - kn (map val (knot_of s d)) k) by (apply (ns_gap _ _ _ _ _ _ NS (knot_of s d)); auto; apply knot_in; auto).
    assert (Hwide : kn (map val (knot_of s d)) (k + order + 1) - kn (map val (knot_of s d)) (k - order) <= big / 4).
    { unfold kn. rewrite <- val0, !map_nth. apply (ns_wide _ _ _ _ _ _ NS (knot_of s d)); [apply knot_in; auto|apply nth_In; lia|apply nth_In; lia]. }
    destruct (basis_round o val good u eta big RD order (knot_of s d) k (nth d xs' z) g) as (b & Eb & Hb1 & Hb2 & Hb3); auto; try lia.
    exists b. split; auto. split; auto. split; auto.
    assert (EP : forall a, (a < order + 1)%nat -> nth a (nth d rvals []) 0 = P val (knot_of s d) k (nth d xs' z) order a).
    { intros a Ha. destruct (Hrv d Hd) as (_ & _ & Hl). rewrite nth_repeat_lt in Hl by auto. specialize (Hl a ltac:(lia)). change (sp_order rs) with order in Hl.
      replace (order - order + a)%nat with a in Hl by lia. rewrite Hl. unfold P. rewrite rs_knot, E1, <- E3. reflexivity. }
    split; [|split].
    - erewrite sum_ext; [apply Hb3|]. intros a Ha. cbv beta. rewrite EP by auto. replace (order - order + a)%nat with a by lia. reflexivity.
    - intros a Ha. rewrite EP by auto. apply (P_nonneg o val good u eta big RD order (knot_of s d) k (nth d xs' z) g); auto; lia.
    - rewrite (sum_ext _ _ (P val (knot_of s d) k (nth d xs' z) order)) by auto. apply (P_unity o val good u eta big RD order (knot_of s d) k (nth d xs' z) g); auto; lia. }
  exists rvals, vals. split; auto. split; auto. split; auto. split.
  - split; auto. intros d Hd. apply Hv; auto.
  - intros d Hd. destruct (Hv d Hd) as (_ & ? & ?). auto.
Qed.

Lemma fold_left_map {A B X} (f : X -> B -> X) (h : A -> B) l a : fold_left (fun c d => f c (h d)) l a = fold_left f (map h l) a.
Proof. revert a; induction l; intros a0; cbn [map fold_left]; auto. Qed.

Lemma map2_map_seq_nth {A} (fs : nat -> A -> R) (idx : list A) n (da : A) : length idx = n ->
  map2 (fun f a => f a) (map fs (seq 0 n)) idx = map (fun d => fs d (nth d idx da)) (seq 0 n).
Proof.
  intros Hl. apply (nth_ext' _ _ 0).
  - rewrite map2_length, !length_map_seq; rewrite ?length_map_seq; auto.
  - intros d Hd. rewrite map2_length, length_map_seq in Hd by (rewrite length_map_seq; auto).
    rewrite (map2_nth _ _ _ d (fs 0%nat) da 0) by (rewrite ?length_map_seq; lia).
    rewrite !nth_map_seq by lia. reflexivity.
Qed.

Lemma eval_round : exists v w,
  spline_eval o s coords = Ok v /\ spline_eval Rops rs rcoords = Ok w /\ good v /\
  Rabs (val v - w) <= value_bound u eta g order D C - C.
Proof using All.
  destruct iters_val as (riters & iters & E1 & E2 & Gr & Gi & Hit).
  destruct (vals_round riters iters Gr Gi Hit) as (rvals & vals & E3 & E4 & Gr4 & Gv & Hv).
  exists (eval_value o s iters vals), (eval_value Rops rs riters rvals).
  split. { apply spline_eval_run; auto using s_wf. }
  split. { apply spline_eval_run; auto. apply (gs_wf _ (ns_real _ _ _ _ _ _ NS)). }
  pose proof beta_1 as B1. pose proof RD as [[u0 u1] e0 _ _ _ RA _ RM _ _ _].
  set (dims := repeat (order + 1)%nat D).
  set (fs := map (fun d a => val (nth a (nth d vals []) z)) (seq 0 D)).
  set (ps := map (fun d a => nth a (nth d rvals []) 0) (seq 0 D)).
  assert (Lf : length fs = D) by apply length_map_seq.
  assert (Ep : prod dims = N) by apply prod_repeat.
  set (q := ((1 + u) * beta) ^ D). assert (Q1 : 1 <= (1 + u) * beta) by nra. assert (Hq1 : 1 <= q) by (apply pow_R1_Rle; auto).
  pose proof (pos_INR N) as IN. pose proof (pos_INR D) as ID. assert (Ide : 0 <= INR D * eta) by (apply Rmult_le_pos; auto).
  assert (EQ : Q = q * (1 + INR N * (INR D * eta))) by reflexivity.
  assert (N1 : 1 <= INR N). { apply (le_INR 1). unfold N. assert ((order + 1) ^ D <> 0)%nat by (apply Nat.pow_nonzero; lia). lia. }
  assert (Hqb : q * (1 + INR D * eta) <= big). { eapply Rle_trans; [|apply HQ]. rewrite EQ. apply Rmult_le_compat_l; [lra|]. nra. }
  (* coefficients *)
  set (cf := coef_of o s vals). set (pf := fun idx => prodR (pick ps idx)). set (bf := fun idx => prodR (pick fs idx)).
  assert (HCf : forall idx, valid dims idx -> good (cf idx) /\ Rabs (val (cf idx) - bf idx) <= ((1 + u) ^ D - 1) * Rabs (bf idx) + q * (INR D * eta)).
  { intros idx Hi. assert (Hl := valid_length _ _ Hi). unfold dims in Hl. rewrite repeat_length in Hl.
    unfold cf, coef_of. rewrite (fold_left_map (omul o) (fun d => nth (nth d idx 0%nat) (nth d vals []) (o0 o))). fold D. fold z.
    set (bs := map (fun d => nth (nth d idx 0%nat) (nth d vals []) z) (seq 0 D)).
    assert (Lb : length bs = D) by apply length_map_seq.
    assert (Eb : bf idx = prodR (map val bs)).
    { unfold bf, pick, fs. rewrite (map2_map_seq_nth _ idx D 0%nat) by auto. unfold bs. rewrite map_map. reflexivity. }
    rewrite Eb. unfold q. rewrite <- Lb. apply (product_round o val good u eta big RD beta bs); auto.
    - intros b Hb. unfold bs in Hb. apply in_map_iff in Hb as (d & <- & Hd). apply in_seq in Hd. destruct (Hv d ltac:(lia)) as [H1 H2].
      pose proof (local_lt s idx d Hi ltac:(lia)) as Hlt. split; [apply H1; apply Hlt|].
      apply (close_each (order + 1) beta B1 _ _ _ H2 Hlt).
    - rewrite Lb. fold q. auto. }
  assert (HF2 : Forall2 (close (order + 1) beta) fs ps).
  { unfold fs, ps. assert (X : forall n off, (off + n <= D)%nat -> Forall2 (close (order + 1) beta) (map (fun d a => val (nth a (nth d vals []) z)) (seq off n)) (map (fun d a => nth a (nth d rvals []) 0) (seq off n))).
    { induction n; intros off Ho; cbn [seq map]; constructor. apply Hv; lia. apply IHn; lia. }
    apply X. lia. }
  assert (S1 : isum dims (fun idx => Rabs (bf idx)) <= beta ^ D).
  { unfold bf, dims. rewrite <- Lf. apply prod_sum_abs; auto. intros f Hf. apply in_map_iff in Hf as (d & <- & Hd). apply in_seq in Hd. apply (close_abs (order + 1) beta B1 _ _ (proj2 (Hv d ltac:(lia)))). }
  assert (S2 : isum dims (fun idx => Rabs (bf idx - pf idx)) <= beta ^ D - 1).
  { unfold bf, pf, dims. rewrite <- Lf. apply prod_sum_diff; auto. }
  pose proof (pow_R1_Rle (1 + u) D ltac:(lra)) as UD. assert (Eqd : q = (1 + u) ^ D * beta ^ D) by apply Rpow_mult_distr.
  assert (S3 : isum dims (fun idx => Rabs (val (cf idx) - pf idx)) <= Q - 1).
  { apply Rle_trans with (isum dims (fun idx => ((1 + u) ^ D - 1) * Rabs (bf idx) + q * (INR D * eta) + Rabs (bf idx - pf idx))).
    - apply isum_le. intros idx Hi. destruct (HCf idx Hi) as [_ HE]. replace (val (cf idx) - pf idx) with ((val (cf idx) - bf idx) + (bf idx - pf idx)) by ring. eapply Rle_trans; [apply Rabs_triang|]. lra.
    - rewrite !isum_plus, isum_scal, isum_const, Ep, EQ, Eqd.
      assert (((1 + u) ^ D - 1) * isum dims (fun idx => Rabs (bf idx)) <= ((1 + u) ^ D - 1) * beta ^ D) by (apply Rmult_le_compat_l; lra). lra. }
  assert (S4 : isum dims (fun idx => Rabs (val (cf idx))) <= Q).
  { assert (isum dims pf = 1).
    { unfold pf, dims. rewrite <- Lf. clear - HF2. induction HF2; cbn [length repeat]; [rewrite isum_nil; reflexivity|]. rewrite isum_cons.
      rewrite (sum_ext _ _ (fun i => 1 * y i)). rewrite sum_scal. destruct H as (_ & _ & ->). ring.
      intros i Hi. rewrite <- IHHF2, Rmult_comm, <- isum_scal. unfold isum. apply sum_ext. intros j Hj. unfold pick. cbn [map2]. apply prodR_cons. }
    assert (forall idx, valid dims idx -> 0 <= pf idx).
    { unfold pf, dims. rewrite <- Lf. clear - HF2. induction HF2; cbn [length repeat]; intros idx Hi.
      - destruct idx; unfold pick, prodR; cbn; lra.
      - destruct idx as [|i idx]; [apply valid_length in Hi; discriminate|]. apply valid_cons in Hi as [Hi1 Hi2]. unfold pick. cbn [map2]. rewrite prodR_cons. apply Rmult_le_pos.
        + apply H. auto.
        + apply IHHF2. auto. }
    apply Rle_trans with (isum dims (fun idx => Rabs (val (cf idx) - pf idx) + pf idx)).
    - apply isum_le. intros idx Hi. specialize (H0 idx Hi). replace (val (cf idx)) with ((val (cf idx) - pf idx) + pf idx) at 1 by ring. eapply Rle_trans; [apply Rabs_triang|]. rewrite (Rabs_pos_eq (pf idx)) by auto. lra.
    - rewrite isum_plus, H. lra. }
  (* terms *)
  set (ct := fun idx => ctrl_at o s (gmap o s iters idx)).
  set (tm := fun idx => omul o (cf idx) (ct idx)).
  assert (HQC : C * Q <= big /\ (1 + u) * (C * Q) + INR N * eta <= big /\ (1 + u) ^ N * ((1 + u) * (C * Q) + INR N * eta) <= big).
  { assert (0 <= Q). { rewrite EQ. apply Rmult_le_pos; [lra|]. assert (0 <= INR N * (INR D * eta)) by (apply Rmult_le_pos; auto). lra. }
    assert (0 <= C * Q) by (apply Rmult_le_pos; auto). assert (0 <= INR N * eta) by (apply Rmult_le_pos; auto). assert (0 <= u * (C * Q)) by (apply Rmult_le_pos; auto).
    pose proof (pow_R1_Rle (1 + u) N ltac:(lra)) as UN. change ((1 + u) ^ N * ((1 + u) * (C * Q) + INR N * eta) <= big) in HV. 
    assert (0 <= ((1 + u) ^ N - 1) * ((1 + u) * (C * Q) + INR N * eta)) by (apply Rmult_le_pos; lra). repeat split; lra. }
  destruct HQC as (HB1 & HB2 & HB3).
  assert (CfQ : forall idx, valid dims idx -> Rabs (val (cf idx)) <= Q).
  { intros idx Hi. apply Rle_trans with (2 := S4). unfold isum. rewrite <- (rank_unrank dims idx Hi) at 1. pose proof (row_major_lt dims idx Hi) as Hr. set (i0 := row_major dims idx) in *. 
    assert (X : forall m, (i0 < m)%nat -> Rabs (val (cf (unrank dims i0))) <= sum m (fun i => Rabs (val (cf (unrank dims i))))); [|auto].
    induction m; intros Hm; [lia|]. cbn [sum]. destruct (Nat.eq_dec i0 m).
    - rewrite e. assert (0 <= sum m (fun i => Rabs (val (cf (unrank dims i))))) by (apply sum_pos; intros; apply Rabs_pos). lra.
    - specialize (IHm ltac:(lia)). pose proof (Rabs_pos (val (cf (unrank dims m)))). lra. }
  assert (HT : forall idx, valid dims idx -> good (tm idx) /\ Rabs (val (tm idx) - val (cf idx) * val (ct idx)) <= u * (C * Rabs (val (cf idx))) + eta).
  { intros idx Hi. destruct (ctrl_good (gmap o s iters idx)) as [Gc Bc]. fold (ct idx) in Gc, Bc. destruct (HCf idx Hi) as [Gf _]. specialize (CfQ idx Hi).
    pose proof (Rabs_pos (val (cf idx))). pose proof (Rabs_pos (val (ct idx))).
    assert (Hp : Rabs (val (cf idx)) * Rabs (val (ct idx)) <= C * Rabs (val (cf idx))) by (rewrite Rmult_comm; apply Rmult_le_compat_r; auto).
    destruct (RM (cf idx) (ct idx)) as [G E]; auto.
    - rewrite Rabs_mult. eapply Rle_trans; [apply Hp|]. eapply Rle_trans; [|apply HB1]. apply Rmult_le_compat_l; auto.
    - split; auto. rewrite Rabs_mult in E. eapply Rle_trans; [apply E|]. apply Rplus_le_compat_r. apply Rmult_le_compat_l; auto. }
  assert (HTa : sum N (fun i => Rabs (val (tm (unrank dims i)))) <= (1 + u) * (C * Q) + INR N * eta).
  { rewrite <- Ep. fold (isum dims (fun idx => Rabs (val (tm idx)))). apply Rle_trans with (isum dims (fun idx => ((1 + u) * C) * Rabs (val (cf idx)) + eta)).
    - apply isum_le. intros idx Hi. destruct (HT idx Hi) as [_ E]. destruct (ctrl_good (gmap o s iters idx)) as [Gc Bc]. fold (ct idx) in Gc, Bc.
      replace (val (tm idx)) with ((val (tm idx) - val (cf idx) * val (ct idx)) + val (cf idx) * val (ct idx)) by ring. eapply Rle_trans; [apply Rabs_triang|]. rewrite Rabs_mult.
      assert (Hp : Rabs (val (cf idx)) * Rabs (val (ct idx)) <= C * Rabs (val (cf idx))) by (rewrite Rmult_comm; apply Rmult_le_compat_r; auto using Rabs_pos). lra.
    - rewrite isum_plus, isum_scal, isum_const. assert (((1 + u) * C) * isum dims (fun idx => Rabs (val (cf idx))) <= ((1 + u) * C) * Q) by (apply Rmult_le_compat_l; auto; apply Rmult_le_pos; lra). lra. }
  (* the sum *)
  assert (Hgt : forall i, (i < N)%nat -> good (tm (unrank dims i))) by (intros i Hi; apply HT; apply unrank_valid; rewrite Ep; auto).
  destruct (sum_acc_round o val good u eta big RD N (fun i => tm (unrank dims i)) ((1 + u) * (C * Q) + INR N * eta)) as [GV EV]; auto.
  fold z in GV, EV. split; [exact GV|].
  change (eval_value o s iters vals) with (fold_left (fun v i => oadd o v (tm (unrank dims i))) (seq 0 N) z).
  set (v := fold_left (fun v i => oadd o v (tm (unrank dims i))) (seq 0 N) z) in *.
  assert (EW : eval_value Rops rs riters rvals = sum N (fun i => pf (unrank dims i) * val (ct (unrank dims i)))).
  { rewrite eval_value_tensor, tensor_flat, map_fst_local. change (repeat (sp_order rs + 1)%nat (sp_dim rs)) with dims. rewrite Ep. apply sum_ext. intros i Hi.
    assert (Hiv : valid dims (unrank dims i)) by (apply unrank_valid; rewrite Ep; auto). assert (Hl : length (unrank dims i) = D) by (rewrite (valid_length _ _ Hiv); apply repeat_length). f_equal.
    - unfold pf, pick, vals_at, local_bs, ps. f_equal. change (sp_dim rs) with D. rewrite (map2_map_seq_nth _ (unrank dims i) D 0%nat) by auto.
      apply (nth_ext' _ _ 0).
      + rewrite map2_length, !length_map_seq; rewrite ?length_map_seq; auto.
      + intros d Hd. rewrite map2_length, length_map_seq in Hd by (rewrite length_map_seq; auto).
        rewrite (map2_nth _ _ _ d (0%nat, fun _ => 0) 0%nat 0) by (rewrite ?length_map_seq; lia). rewrite !nth_map_seq by lia. reflexivity.
    - unfold ct. rewrite ctrl_val. f_equal. f_equal. unfold gmap. change (sp_dim rs) with D. fold D. apply map_ext_in. intros d Hd. apply in_seq in Hd. unfold gidx. change (sp_order rs) with (sp_order s). change (per_of rs d) with (per_of s d). change (num_of rs d) with (num_of s d).
      destruct (Hit d ltac:(lia)) as (_ & _ & E5 & _). change (o0 Rops) with 0. fold z. rewrite E5. reflexivity. }
  rewrite EW.
  assert (ET : Rabs (sum N (fun i => val (tm (unrank dims i))) - sum N (fun i => pf (unrank dims i) * val (ct (unrank dims i)))) <= u * (C * Q) + INR N * eta + C * (Q - 1)).
  { rewrite <- sum_minus. eapply Rle_trans; [apply sum_Rabs|]. rewrite <- Ep. fold (isum dims (fun idx => Rabs (val (tm idx) - pf idx * val (ct idx)))).
    apply Rle_trans with (isum dims (fun idx => (u * C) * Rabs (val (cf idx)) + eta + C * Rabs (val (cf idx) - pf idx))).
    - apply isum_le. intros idx Hi. destruct (HT idx Hi) as [_ E]. destruct (ctrl_good (gmap o s iters idx)) as [Gc Bc]. fold (ct idx) in Gc, Bc.
      replace (val (tm idx) - pf idx * val (ct idx)) with ((val (tm idx) - val (cf idx) * val (ct idx)) + (val (cf idx) - pf idx) * val (ct idx)) by ring. eapply Rle_trans; [apply Rabs_triang|]. rewrite Rabs_mult.
      assert (Rabs (val (cf idx) - pf idx) * Rabs (val (ct idx)) <= C * Rabs (val (cf idx) - pf idx)) by (rewrite Rmult_comm; apply Rmult_le_compat_r; auto using Rabs_pos). lra.
    - rewrite !isum_plus, !isum_scal, isum_const. assert ((u * C) * isum dims (fun idx => Rabs (val (cf idx))) <= (u * C) * Q) by (apply Rmult_le_compat_l; auto; apply Rmult_le_pos; lra).
      assert (C * isum dims (fun idx => Rabs (val (cf idx) - pf idx)) <= C * (Q - 1)) by (apply Rmult_le_compat_l; auto). lra. }
  match goal with |- Rabs (val v - ?w) <= _ => replace (val v - w) with ((val v - sum N (fun i => val (tm (unrank dims i)))) + (sum N (fun i => val (tm (unrank dims i))) - w)) by ring end.
  eapply Rle_trans; [apply Rabs_triang|]. pose proof (pow_R1_Rle (1 + u) N ltac:(lra)) as UN.
  assert (((1 + u) ^ N - 1) * sum N (fun i => Rabs (val (tm (unrank dims i)))) <= ((1 + u) ^ N - 1) * ((1 + u) * (C * Q) + INR N * eta)) by (apply Rmult_le_compat_l; lra).
  change (value_bound u eta g order D C) with ((1 + u) ^ N * ((1 + u) * (C * Q) + INR N * eta)). lra.
Qed.
End Eval.
