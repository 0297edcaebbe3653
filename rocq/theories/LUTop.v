(** Band matrices and LU at the level of the public interface. *)
From Coq Require Import List Arith Lia Bool Reals Lra.
From Verif Require Import Base Num MeshM BandM ProgM LUM SpecBand SumR DenseLU BandProofs MulProofs LUProofs.
Import ListNotations.
Local Open Scope R_scope.

(** A client that constructs a matrix and then performs the writes of [h]
    (latest first in the list) through [operator()]. *)
Definition build_band {T} (o : ops T) on n p q (h : list (nat * nat * T)) : res (band T) :=
  foldM (fun m w => band_set on m (fst (fst w)) (snd (fst w)) (snd w)) (rev h) (band_make o n p q).
Definition build_eband {T} (o : ops T) on n p q (h : list (nat * nat * T)) : res (eband T) :=
  m <- eband_make o n p q ;;
  foldM (fun m w => eb_set on m (fst (fst w)) (snd (fst w)) (snd w)) (rev h) m.

Definition writes_in (S : nat -> nat -> Prop) {T} (h : list (nat * nat * T)) : Prop :=
  Forall (fun w => S (fst (fst w)) (snd (fst w))) h.

(** The vector behind an iterator: cell [iter i] holds [x i]; every other
    cell of the memory is as in [m0]. *)
Definition vector_at {T} (n : nat) (iter : nat -> loc) (m0 m : mem T) (x : nat -> T) : Prop :=
  map (@length T) m = map (@length T) m0 /\
  (forall i, (i < n)%nat -> mem_get m (iter i) = Ok (x i)) /\
  (forall l, (forall i, (i < n)%nat -> l <> iter i) -> mem_get m l = mem_get m0 l).

(** A random access iterator over n distinct valid cells. *)
Definition good_iter {T} (n : nat) (iter : nat -> loc) (m : mem T) : Prop :=
  (forall i j, (i < n)%nat -> (j < n)%nat -> iter i = iter j -> i = j) /\
  (forall i, (i < n)%nat -> exists v, mem_get m (iter i) = Ok v).

Lemma mem_get_cases {T} (d : T) m l :
  mem_get m l = if (snd l <? length (nth (fst l) m []))%nat then Ok (mval d m l) else Fault OutOfBounds.
Proof.
  destruct (Nat.ltb_spec (snd l) (length (nth (fst l) m []))).
  - apply mem_get_ok. auto.
  - unfold mem_get. destruct (nth_error m (fst l)) eqn:E; auto.
    apply (nth_error_nth _ _ []) in E. rewrite E in H. apply vget_oob; auto.
Qed.

Lemma mem_get_ok_inv {T} (m : mem T) l v : mem_get m l = Ok v -> mem_ok m l /\ mval v m l = v.
Proof.
  rewrite (mem_get_cases v). destruct (Nat.ltb_spec (snd l) (length (nth (fst l) m []))); intros E; inversion E.
  split; auto. congruence.
Qed.

Lemma holds_vector_at n iter m0 m x :
  (forall i, (i < n)%nat -> mem_ok m0 (iter i)) ->
  holds n iter m0 m x -> vector_at n iter m0 m x.
Proof.
  intros Hok (Hm & Hl & Hv & Ho). split; [|split]; auto.
  - intros i Hi. rewrite (mem_get_ok 0). rewrite Hv; auto. apply Hm; auto.
  - intros l Hne. rewrite !(mem_get_cases 0). rewrite (Ho l Hne).
    specialize (Hm l). unfold mem_ok in Hm.
    bdr; auto; lia.
Qed.

Lemma good_iter_ok {T} n iter (m : mem T) : good_iter n iter m -> forall i, (i < n)%nat -> mem_ok m (iter i).
Proof. intros (_ & H) i Hi. destruct (H i Hi) as (v & E). apply mem_get_ok_inv in E. tauto. Qed.

Lemma content_out {T} (d : T) S h i j : writes_in S h -> ~ S i j -> content d h i j = d.
Proof.
  intros H Hn. induction h as [|[[a b] v] h IH]; simpl; auto.
  inversion H; subst. destruct (Nat.eqb_spec a i), (Nat.eqb_spec b j); simpl; auto.
  subst. contradiction.
Qed.

Lemma band_history_dense on n p q h m :
  writes_in (in_band n p q) h -> build_band Rops on n p q h = Ok m ->
  wfb n p q m /\ forall i j, babs 0 m i j = content 0 h i j.
Proof.
  intros H E. destruct (band_history Rops 0 on n p q h H) as (m' & E' & Hw & Hc).
  unfold build_band in E. rewrite E in E'. inversion E'; subst m'. split; auto.
  intros i j. destruct (Nat.lt_ge_cases i n) as [Hi|Hi], (Nat.lt_ge_cases j n) as [Hj|Hj],
    (Nat.le_gt_cases i (j + p)) as [Hip|Hip], (Nat.le_gt_cases j (i + q)) as [Hjq|Hjq];
  try (rewrite (babs_out 0 n p q m i j Hw), (content_out 0 (in_band n p q) h) by (auto; unfold in_band; lia); auto).
  apply Hc. unfold in_band; auto.
Qed.

Lemma eband_history_dense on n p q h m :
  (p < n)%nat -> (q < n)%nat ->
  writes_in (in_ext n p q) h -> build_eband Rops on n p q h = Ok m ->
  wfe n p q m /\ forall i j, eabs 0 m i j = content 0 h i j.
Proof.
  intros Hp Hq H E. destruct (eband_history Rops 0 on n p q h Hp Hq H) as (m0 & m' & E0 & E' & Hw & Hc).
  unfold build_eband in E. rewrite E0 in E. cbn [bind] in E. rewrite E in E'. inversion E'; subst m'. split; auto.
  intros i j.
  assert (in_ext n p q i j \/ ~ in_ext n p q i j) as [Hx|Hx] by (unfold in_ext, in_band; lia).
  - apply Hc; auto.
  - rewrite (eabs_out 0 n p q m i j Hw Hx), (content_out 0 (in_ext n p q) h) by auto. auto.
Qed.

(** Reads and writes of the structured storage (any element type). *)
Lemma band_read_after_writes {T} (o : ops T) on n p q h :
  writes_in (in_band n p q) h ->
  exists m, build_band o on n p q h = Ok m /\
    (forall i j, in_band n p q i j -> band_get on m i j = Ok (content (o0 o) h i j)) /\
    (forall i j v, (j + p < i \/ i + q < j)%nat ->
       band_get true m i j = Throw AssertFailed /\ band_set true m i j v = Throw AssertFailed).
Proof.
  intros H. destruct (band_history o (o0 o) on n p q h H) as (m & E & Hw & Hc).
  exists m. split; auto. split.
  - intros i j Hij. rewrite (band_get_ok (o0 o) on n p q) by auto. rewrite Hc; auto.
  - destruct Hw as (En & Ep & Eq & _). intros i j v Hout. split.
    apply band_get_outside; lia. apply band_set_outside; lia.
Qed.

Lemma eband_read_after_writes {T} (o : ops T) on n p q h :
  (p < n)%nat -> (q < n)%nat ->
  writes_in (in_ext n p q) h ->
  exists m, build_eband o on n p q h = Ok m /\
    forall i j, in_ext n p q i j -> eb_get on m i j = Ok (content (o0 o) h i j).
Proof.
  intros Hp Hq H. destruct (eband_history o (o0 o) on n p q h Hp Hq H) as (m0 & m & E0 & E & Hw & Hc).
  exists m. split. unfold build_eband. rewrite E0. auto.
  intros i j Hij. rewrite (eb_get_ok (o0 o) on n p q) by auto. rewrite Hc; auto.
Qed.

(** Products. *)
Lemma band_product_is_transposed on n p h x :
  writes_in (in_band n p p) h -> length x = n ->
  exists m y, build_band Rops on n p p h = Ok m /\ band_mul Rops on m x = Ok y /\ length y = n /\
    forall i, (i < n)%nat -> nth i y 0 = Rsum n (fun j => content 0 h j i * nth j x 0).
Proof.
  intros H Hx. destruct (band_history Rops 0 on n p p h H) as (m & E & Hw & _).
  destruct (band_history_dense on n p p h m H E) as (_ & Hc).
  destruct (band_mul_transposed on n p m x Hw Hx) as (y & Ey & Hl & Hy).
  exists m, y. split; auto. split; auto. split; auto. intros i Hi. rewrite Hy by auto.
  etransitivity; [|symmetry; apply Rsum_sum]. apply sum_ext. intros. rewrite Hc. auto.
Qed.

Lemma eband_product on n p q h x :
  (p < n)%nat -> (q < n)%nat -> writes_in (in_ext n p q) h -> length x = n ->
  exists m y, build_eband Rops on n p q h = Ok m /\ eband_mul Rops on m x = Ok y /\ length y = n /\
    forall i, (i < n)%nat -> nth i y 0 = Rsum n (fun j => content 0 h i j * nth j x 0).
Proof.
  intros Hp Hq H Hx. destruct (eband_history Rops 0 on n p q h Hp Hq H) as (m0 & m & E0 & E & Hw & _).
  assert (Eb : build_eband Rops on n p q h = Ok m) by (unfold build_eband; rewrite E0; auto).
  destruct (eband_history_dense on n p q h m Hp Hq H Eb) as (_ & Hc).
  destruct (eband_mul_correct on n p q m x Hw Hx) as (y & Ey & Hl & Hy).
  exists m, y. split; auto. split; auto. split; auto. intros i Hi. rewrite Hy by auto.
  etransitivity; [|symmetry; apply Rsum_sum]. apply sum_ext. intros. rewrite Hc. auto.
Qed.

(** Solving. *)
Lemma solves_mv n A x b : solves n A x b <-> forall i, (i < n)%nat -> mv n A x i = b i.
Proof. unfold solves, mv. split; intros H i Hi. rewrite <- Rsum_sum; auto. rewrite Rsum_sum; auto. Qed.

Lemma leading_nonsingular_pivots n A : leading_nonsingular n A -> pivots_ok A n.
Proof.
  intros H. apply leading_pivots. intros k x Hk Hx. apply (H k x Hk).
  apply solves_mv. intros i Hi. apply Hx. lia.
Qed.

Lemma row_dominant_pivots n A : row_dominant n A -> pivots_ok A n.
Proof.
  intros H. apply dominant_lead. intros i Hi. rewrite <- Rsum_sum. apply H; auto.
Qed.

Lemma band_lu_solves_pivots on n p q h iter m0 b :
  (0 < n)%nat -> writes_in (in_band n p q) h -> pivots_ok (content 0 h) n ->
  good_iter n iter m0 -> vector_at n iter m0 m0 b ->
  exists m f m1 x,
    build_band Rops on n p q h = Ok m /\ band_lu Rops on m = Ok f /\
    run (band_solve Rops on f iter) m0 = Ok (tt, m1) /\
    vector_at n iter m0 m1 x /\ solves n (content 0 h) x b /\
    forall y, solves n (content 0 h) y b -> forall i, (i < n)%nat -> y i = x i.
Proof.
  intros Hn H Hp Hg Hb.
  destruct (band_history Rops 0 on n p q h H) as (m & E & Hw & _).
  destruct (band_history_dense on n p q h m H E) as (_ & Hc).
  assert (Hok := good_iter_ok _ _ _ Hg).
  destruct (band_lu_solve on n p q m iter m0 b) as (f & m1 & x & Ef & Er & Hh & Hx); auto.
  - apply Hg.
  - eapply pivots_ext; [|exact Hp]. intros; symmetry; apply Hc.
  - intros i Hi. destruct Hb as (_ & Hb & _). specialize (Hb i Hi).
    rewrite (mem_get_ok 0) in Hb by auto. congruence.
  - assert (Hs : solves n (content 0 h) x b).
    { apply solves_mv. intros i Hi. rewrite <- (Hx i Hi). apply sum_ext. intros. rewrite Hc; auto. }
    assert (Hva := holds_vector_at n iter m0 m1 x Hok Hh).
    exists m, f, m1, x. do 5 (split; [solve [auto]|]). intros y Hy i Hi. apply (pivots_unique (content 0 h) n); auto.
    rewrite solves_mv in Hy, Hs. intros k Hk. rewrite Hy, Hs; auto.
Qed.

Lemma eband_lu_solves_pivots on n p q h iter m0 b :
  (p < n)%nat -> (q < n)%nat -> (p + q <= n)%nat ->
  writes_in (in_ext n p q) h -> pivots_ok (content 0 h) n ->
  good_iter n iter m0 -> vector_at n iter m0 m0 b ->
  exists m f m1 x,
    build_eband Rops on n p q h = Ok m /\ eband_lu Rops on m = Ok f /\
    run (eband_solve Rops on f iter) m0 = Ok (tt, m1) /\
    vector_at n iter m0 m1 x /\ solves n (content 0 h) x b /\
    forall y, solves n (content 0 h) y b -> forall i, (i < n)%nat -> y i = x i.
Proof.
  intros Hpn Hqn Hpq H Hp Hg Hb.
  destruct (eband_history Rops 0 on n p q h Hpn Hqn H) as (e0 & m & E0 & E & Hw & _).
  assert (Eb : build_eband Rops on n p q h = Ok m) by (unfold build_eband; rewrite E0; auto).
  destruct (eband_history_dense on n p q h m Hpn Hqn H Eb) as (_ & Hc).
  assert (Hok := good_iter_ok _ _ _ Hg).
  destruct (eband_lu_solve on n p q m iter m0 b) as (f & m1 & x & Ef & Er & Hh & Hx); auto.
  - apply Hg.
  - eapply pivots_ext; [|exact Hp]. intros; symmetry; apply Hc.
  - intros i Hi. destruct Hb as (_ & Hb & _). specialize (Hb i Hi).
    rewrite (mem_get_ok 0) in Hb by auto. congruence.
  - assert (Hs : solves n (content 0 h) x b).
    { apply solves_mv. intros i Hi. rewrite <- (Hx i Hi). apply sum_ext. intros. rewrite Hc; auto. }
    assert (Hva := holds_vector_at n iter m0 m1 x Hok Hh).
    exists m, f, m1, x. do 5 (split; [solve [auto]|]). intros y Hy i Hi. apply (pivots_unique (content 0 h) n); auto.
    rewrite solves_mv in Hy, Hs. intros k Hk. rewrite Hy, Hs; auto.
Qed.

Lemma band_lu_solves on n p q h iter m0 b :
  (0 < n)%nat -> writes_in (in_band n p q) h -> leading_nonsingular n (content 0 h) ->
  good_iter n iter m0 -> vector_at n iter m0 m0 b ->
  exists m f m1 x,
    build_band Rops on n p q h = Ok m /\ band_lu Rops on m = Ok f /\
    run (band_solve Rops on f iter) m0 = Ok (tt, m1) /\
    vector_at n iter m0 m1 x /\ solves n (content 0 h) x b /\
    forall y, solves n (content 0 h) y b -> forall i, (i < n)%nat -> y i = x i.
Proof. intros. apply band_lu_solves_pivots; auto. apply leading_nonsingular_pivots; auto. Qed.

Lemma eband_lu_solves on n p q h iter m0 b :
  (p < n)%nat -> (q < n)%nat -> (p + q <= n)%nat ->
  writes_in (in_ext n p q) h -> leading_nonsingular n (content 0 h) ->
  good_iter n iter m0 -> vector_at n iter m0 m0 b ->
  exists m f m1 x,
    build_eband Rops on n p q h = Ok m /\ eband_lu Rops on m = Ok f /\
    run (eband_solve Rops on f iter) m0 = Ok (tt, m1) /\
    vector_at n iter m0 m1 x /\ solves n (content 0 h) x b /\
    forall y, solves n (content 0 h) y b -> forall i, (i < n)%nat -> y i = x i.
Proof. intros. apply eband_lu_solves_pivots; auto. apply leading_nonsingular_pivots; auto. Qed.

Lemma band_dominant_solves on n p q h iter m0 b :
  (0 < n)%nat -> writes_in (in_band n p q) h -> row_dominant n (content 0 h) ->
  good_iter n iter m0 -> vector_at n iter m0 m0 b ->
  exists m f m1 x,
    build_band Rops on n p q h = Ok m /\ band_lu Rops on m = Ok f /\
    run (band_solve Rops on f iter) m0 = Ok (tt, m1) /\
    vector_at n iter m0 m1 x /\ solves n (content 0 h) x b /\
    forall y, solves n (content 0 h) y b -> forall i, (i < n)%nat -> y i = x i.
Proof. intros. apply band_lu_solves_pivots; auto. apply row_dominant_pivots; auto. Qed.

Lemma eband_dominant_solves on n p q h iter m0 b :
  (p < n)%nat -> (q < n)%nat -> (p + q <= n)%nat ->
  writes_in (in_ext n p q) h -> row_dominant n (content 0 h) ->
  good_iter n iter m0 -> vector_at n iter m0 m0 b ->
  exists m f m1 x,
    build_eband Rops on n p q h = Ok m /\ eband_lu Rops on m = Ok f /\
    run (eband_solve Rops on f iter) m0 = Ok (tt, m1) /\
    vector_at n iter m0 m1 x /\ solves n (content 0 h) x b /\
    forall y, solves n (content 0 h) y b -> forall i, (i < n)%nat -> y i = x i.
Proof. intros. apply eband_lu_solves_pivots; auto. apply row_dominant_pivots; auto. Qed.

(** A solver object: only the first matrix given to [compute] matters. *)
Lemma compute_once {M} (factor : M -> res M) store first rest s :
  lu_compute factor (mkLU false store) first = Ok s ->
  exists f, factor first = Ok f /\
    foldM (lu_compute factor) rest s = Ok (mkLU true f).
Proof.
  unfold lu_compute at 1. simpl. intros E. apply bind_Ok in E as (f & Ef & E). inversion E; subst; clear E.
  exists f. split; auto. induction rest; simpl; auto.
Qed.

(** ** Concrete instances used by the examples *)
(** History (latest first) writing a tridiagonal matrix with diagonal [a],
    sub-diagonal [b] and super-diagonal [c]. *)
Definition tri_history {T} (a b c : T) : list (nat * nat * T) :=
  [(2, 2, a); (2, 1, b); (1, 2, c); (1, 1, a); (1, 0, b); (0, 1, c); (0, 0, a)]%nat.
(** The same, with corner entries [e] (upper right) and [f] (lower left), 4 x 4. *)
Definition corner_history {T} (a b c e f : T) : list (nat * nat * T) :=
  [(3, 0, f); (0, 3, e); (3, 3, a); (3, 2, b); (2, 3, c);
   (2, 2, a); (2, 1, b); (1, 2, c); (1, 1, a); (1, 0, b); (0, 1, c); (0, 0, a)]%nat.
Definition line_iter (i : nat) : loc := (0%nat, i).

Lemma tri_writes {T} (a b c : T) : writes_in (in_band 3 1 1) (tri_history a b c).
Proof. repeat constructor; unfold in_band; simpl; lia. Qed.
Lemma corner_writes {T} (a b c e f : T) : writes_in (in_ext 4 1 1) (corner_history a b c e f).
Proof. unfold writes_in, corner_history. repeat (apply Forall_cons; [unfold in_ext, in_band; simpl; lia|]). apply Forall_nil. Qed.

Lemma tri_dominant : row_dominant 3 (content 0 (tri_history 4 1 2)).
Proof.
  intros i Hi. assert (i = 0 \/ i = 1 \/ i = 2)%nat as [->|[->| ->]] by lia; simpl;
  unfold Rabs; repeat destruct Rcase_abs; lra.
Qed.
Lemma corner_dominant : row_dominant 4 (content 0 (corner_history 4 1 2 (-1) (1/2))).
Proof.
  intros i Hi. assert (i = 0 \/ i = 1 \/ i = 2 \/ i = 3)%nat as [->|[->|[->| ->]]] by lia; simpl;
  unfold Rabs; repeat destruct Rcase_abs; lra.
Qed.
Lemma dominant_leading n A : row_dominant n A -> leading_nonsingular n A.
Proof.
  intros H k x Hk Hx. rewrite solves_mv in Hx. intros i Hi.
  assert (row_dominant (S k) A) as Hk'.
  { intros a Ha. eapply Rle_lt_trans; [|apply (H a); lia].
    rewrite !Rsum_sum. replace n with (S k + (n - S k))%nat by lia. rewrite sum_app.
    match goal with |- ?u <= ?u + ?v => assert (0 <= v); [|lra] end.
    apply sum_pos. intros. destruct (_ =? _)%nat; [lra|apply Rabs_pos]. }
  apply (pivots_ker A (S k)); auto; try lia. apply row_dominant_pivots; auto.
Qed.
Lemma line_iter_good a b c : @good_iter R 3 line_iter [[a; b; c]].
Proof.
  split. intros i j _ _ E. inversion E; auto.
  intros i Hi. assert (i = 0 \/ i = 1 \/ i = 2)%nat as [->|[->| ->]] by lia; eexists; reflexivity.
Qed.
Lemma line_iter_good4 a b c d : @good_iter R 4 line_iter [[a; b; c; d]].
Proof.
  split. intros i j _ _ E. inversion E; auto.
  intros i Hi. assert (i = 0 \/ i = 1 \/ i = 2 \/ i = 3)%nat as [->|[->|[->| ->]]] by lia; eexists; reflexivity.
Qed.
Lemma line_iter_vector (l : list R) : vector_at (length l) line_iter [l] [l] (fun i => nth i l 0).
Proof. split; [|split]; auto. intros i Hi. unfold mem_get; simpl. apply vget_ok; auto. Qed.

(** [BandMatrix::operator*] on A = [[1 2] [0 1]] and x = (1,1): the product is
    (3,1), the function returns (1,3). *)
Lemma band_product_wrong :
  exists n p q h x m y,
    writes_in (in_band n p q) h /\ length x = n /\
    build_band Rops true n p q h = Ok m /\ band_mul Rops true m x = Ok y /\
    exists i, (i < n)%nat /\ nth i y 0 <> Rsum n (fun j => content 0 h i j * nth j x 0).
Proof.
  pose (h := [(0%nat, 0%nat, 1); (0%nat, 1%nat, 2); (1%nat, 1%nat, 1)] : list (nat * nat * R)).
  assert (H : writes_in (in_band 2 1 1) h) by (repeat constructor; unfold in_band; simpl; lia).
  destruct (band_product_is_transposed true 2 1 h [1; 1] H eq_refl) as (m & y & Em & Ey & Hl & Hy).
  exists 2%nat, 1%nat, 1%nat, h, [1; 1], m, y. do 4 (split; auto).
  exists 0%nat. split; [lia|]. rewrite Hy by lia. simpl. lra.
Qed.
