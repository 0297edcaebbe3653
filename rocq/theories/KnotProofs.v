(** The knot vectors built by the interpolation classes. *)
From Coq Require Import List Arith Lia Bool ZArith Reals Lra.
From Verif Require Import Base Num MeshM ProgM BandM LUM SplineM InterpM SpecBand SpecSpline SpecInterp.
From Verif Require Import SumR BandProofs MulProofs LUTop.
Import ListNotations.
Open Scope R_scope.

Lemma fill_loop {A} (d : A) lo hi (xs : list A) (g : nat -> A) : (lo <= hi <= length xs)%nat ->
  exists xs', for_ lo hi xs (fun xs i => vset xs i (g i)) = Ok xs' /\ length xs' = length xs /\
    forall k, nth k xs' d = if ((lo <=? k) && (k <? hi))%nat then g k else nth k xs d.
Proof.
  intros H.
  destruct (for_inv (fun c ys => length ys = length xs /\
      forall k, nth k ys d = if ((lo <=? k) && (k <? c))%nat then g k else nth k xs d)
    lo hi xs (fun xs i => vset xs i (g i))) as (ys & E & H1 & H2); try lia.
  - split; auto. intros k. destruct (Nat.leb_spec lo k), (Nat.ltb_spec k lo); auto; lia.
  - intros i ys Hi (Hl & Hn). rewrite vset_ok by lia. eexists; split; [reflexivity|].
    split; [rewrite upd_length; auto|]. intros k. rewrite nth_upd, Hl.
    destruct (Nat.ltb_spec i (length xs)); [|lia]. rewrite Hn.
    destruct (Nat.eqb_spec k i), (Nat.leb_spec lo k), (Nat.ltb_spec k i), (Nat.ltb_spec k (i + 1)); simpl; subst; auto; lia.
  - eauto.
Qed.

Lemma list_eq_map (l : list R) n g : length l = n -> (forall k, (k < n)%nat -> nth k l 0 = g k) -> l = map g (seq 0 n).
Proof.
  intros Hl H. apply (nth_ext' _ _ 0).
  - rewrite map_length, seq_length. auto.
  - intros k Hk. rewrite H by lia. rewrite (nth_indep _ 0 (g 0%nat)) by (rewrite map_length, seq_length; lia).
    rewrite map_nth, seq_nth by lia. auto.
Qed.

Lemma mean_affine p a h : (0 < p)%nat -> mean p (fun j => a + INR j * h) = a + (INR p - 1) / 2 * h.
Proof.
  intros Hp. unfold mean. rewrite Rsum_sum.
  assert (E : sum p (fun j => a + INR j * h) = INR p * (a + (INR p - 1) / 2 * h)).
  { induction p; [lia|]. destruct p.
    - simpl. lra.
    - cbn [sum] in *. rewrite IHp by lia. rewrite !S_INR. lra. }
  rewrite E. field. apply not_0_INR. lia.
Qed.

Lemma mean_ext p f g : (forall i, (i < p)%nat -> f i = g i) -> mean p f = mean p g.
Proof. intros H. unfold mean. rewrite !Rsum_sum. rewrite (sum_ext p f g); auto. Qed.

Lemma div_ok a b : b <> 0 -> odiv Rops a b = Ok (a / b).
Proof. intros. simpl. destruct (Req_EM_T b 0); auto. contradiction. Qed.

(** ** Uniform grids *)
Lemma uniform_ap nd order n a b : (2 <= n)%nat -> (order + 1 <= n)%nat ->
  uniform_knots Rops nd order false n a b =
  Ok (map (ap_knot order n (grid_of (Uniform a b) n)) (seq 0 (n + order + 1)), (b - a) / INR (n - 1)).
Proof.
  intros Hn Ho. unfold uniform_knots. rewrite andb_false_r, Nat.add_0_r.
  rewrite usub_ok by lia. cbn [bind].
  assert (Hn0 : INR (n - 1) <> 0) by (apply not_0_INR; lia).
  change (odiv Rops (osub Rops b a) (onat Rops (n - 1))) with (odiv Rops (b - a) (INR (n - 1))).
  rewrite div_ok by auto. cbn [bind]. set (dx := (b - a) / INR (n - 1)).
  rewrite repeat_length. rewrite (usub_ok (n + (order + 1)) order) by lia. cbn [bind].
  rewrite usub_ok by lia. cbn [bind].
  set (kf := fun i => oadd Rops a (omul Rops (osub Rops (onat Rops i) (omul Rops (ohalf Rops) (onat Rops (order + 1)))) dx)).
  destruct (fill_loop 0 (order + 1) (n + (order + 1) - order - 1) (repeat a (n + (order + 1))) kf) as (xs1 & E1 & L1 & N1).
  { rewrite repeat_length. lia. }
  change (for_ (order + 1) (n + (order + 1) - order - 1) (repeat a (n + (order + 1))) (fun xs i => vset xs i (kf i)))
    with (for_ (order + 1) (n + (order + 1) - order - 1) (repeat a (n + (order + 1))) (fun xs i =>
       vset xs i (oadd Rops a (omul Rops (osub Rops (onat Rops i) (omul Rops (ohalf Rops) (onat Rops (order + 1)))) dx)))) in E1.
  rewrite E1. cbn [bind]. rewrite repeat_length in L1.
  destruct (fill_loop 0 (n + (order + 1) - order - 1) (length xs1) xs1 (fun _ => b)) as (xs2 & E2 & L2 & N2); [lia|].
  rewrite E2. cbn [bind]. do 2 f_equal.
  apply list_eq_map; [lia|]. intros k Hk. rewrite N2, N1. rewrite L1.
  unfold ap_knot. replace (n + (order + 1) - order - 1)%nat with n by lia.
  destruct (Nat.leb_spec n k) as [L|L].
  - destruct (Nat.ltb_spec k (n + (order + 1))); [|lia]. cbn [andb].
    destruct (Nat.leb_spec k order); [lia|]. destruct (Nat.ltb_spec k n); [lia|].
    unfold grid_of. field. auto.
  - cbn [andb]. destruct (Nat.leb_spec (order + 1) k) as [L'|L'].
    + destruct (Nat.ltb_spec k n); [|lia]. cbn [andb]. destruct (Nat.leb_spec k order); [lia|].
      unfold kf; simpl. fold dx. destruct (Nat.eqb_spec order 0) as [->|Ho0].
      * rewrite minus_INR by lia. simpl. lra.
      * rewrite (mean_ext _ _ (fun j => (a + INR (k - order) * dx) + INR j * dx)).
        2:{ intros i Hi. rewrite plus_INR. ring. }
        rewrite mean_affine by lia. rewrite minus_INR, plus_INR by lia. simpl. field.
    + cbn [andb]. rewrite nth_repeat_lt by lia. destruct (Nat.leb_spec k order); [|lia].
      unfold grid_of. simpl. ring.
Qed.

Lemma pext_uniform m a dx i : (0 < m)%nat ->
  pext m (INR m * dx) (fun i => a + INR i * dx) i = a + INR i * dx.
Proof.
  intros Hm. unfold pext. rewrite (Nat.div_mod i m) at 3 by lia.
  rewrite plus_INR, mult_INR. ring.
Qed.

Lemma pext_ext m P x y i : (0 < m)%nat -> (forall j, (j < m)%nat -> x j = y j) -> pext m P x i = pext m P y i.
Proof. intros Hm H. unfold pext. rewrite H; auto. apply Nat.mod_upper_bound. lia. Qed.

Lemma even_mod2 n : Nat.even n = (n mod 2 =? 0)%nat.
Proof.
  pose proof (Nat.div_mod n 2 ltac:(lia)). destruct (Nat.eqb_spec (n mod 2) 0) as [E|E].
  - apply Nat.even_spec. exists (n / 2)%nat. lia.
  - pose proof (Nat.mod_upper_bound n 2 ltac:(lia)). rewrite <- Nat.negb_odd.
    assert (O : Nat.odd n = true) by (apply Nat.odd_spec; exists (n / 2)%nat; lia). rewrite O. auto.
Qed.

Lemma mod2_cases n : (n mod 2 = 0 \/ n mod 2 = 1)%nat.
Proof. pose proof (Nat.mod_upper_bound n 2). lia. Qed.

(** [m] distinct points; [size] + [nd] = m + 1 in both modes. *)
Lemma uniform_per (nd : bool) order m a b : (1 <= m)%nat -> (order + 1 <= m)%nat ->
  uniform_knots Rops nd order true (m + (if nd then 0 else 1)) a b =
  Ok (map (per_knot order m (b - a) (grid_of (Uniform a b) (m + 1))) (seq 0 (m + 2 * order + 1 + (1 - order mod 2))), (b - a) / INR m).
Proof.
  intros Hm Ho. unfold uniform_knots. rewrite andb_true_r.
  replace (m + (if nd then 0 else 1) + (if nd then 1 else 0))%nat with (m + 1)%nat by (destruct nd; lia).
  rewrite usub_ok by lia. cbn [bind]. replace (m + 1 - 1)%nat with m by lia.
  assert (Hn0 : INR m <> 0) by (apply not_0_INR; lia).
  change (odiv Rops (osub Rops b a) (onat Rops m)) with (odiv Rops (b - a) (INR m)).
  rewrite div_ok by auto. cbn [bind]. set (dx := (b - a) / INR m).
  set (extra := (2 * order + (1 - order mod 2))%nat).
  set (kf := fun i => oadd Rops a (omul Rops (osub Rops (onat Rops i) (omul Rops (ohalf Rops) (onat Rops extra))) dx)).
  destruct (fill_loop 0 0 (length (repeat a (m + 1 + extra))) (repeat a (m + 1 + extra)) kf) as (xs1 & E1 & L1 & N1); [lia|].
  unfold kf in E1 at 1. rewrite E1. cbn [bind]. rewrite repeat_length in *. do 2 f_equal.
  apply list_eq_map; [lia|]. intros k Hk. rewrite N1. destruct (Nat.ltb_spec k (m + 1 + extra)); [|lia].
  cbn [andb Nat.leb]. unfold kf; simpl. unfold per_knot, extra. rewrite even_mod2.
  assert (EP : b - a = INR m * dx) by (unfold dx; field; auto).
  assert (Ex : forall i, pext m (b - a) (fun i => a + INR i * ((b - a) / INR (m + 1 - 1))) i = a + INR i * dx).
  { intros i. rewrite EP at 1. replace (m + 1 - 1)%nat with m by lia. fold dx. apply pext_uniform. lia. }
  unfold grid_of. rewrite !Ex. rewrite EP.
  destruct (mod2_cases order) as [E|E]; rewrite E; cbn [Nat.eqb Nat.sub].
  - rewrite ?mult_INR, !minus_INR, ?plus_INR, ?mult_INR by lia. simpl. rewrite ?plus_INR. simpl. clearbody dx. field.
  - rewrite ?mult_INR, !minus_INR, ?plus_INR, ?mult_INR by lia. simpl. rewrite ?plus_INR. simpl. clearbody dx. field.
Qed.

(** ** Points given by iterators *)
Lemma firstn_snoc (l : list R) k : (k < length l)%nat -> firstn k l ++ [nth k l 0] = firstn (k + 1) l.
Proof.
  intros H. rewrite <- (firstn_skipn k l) at 3. rewrite firstn_app, firstn_firstn, firstn_length.
  replace (Nat.min (k + 1) k) with k by lia. replace (k + 1 - Nat.min k (length l))%nat with 1%nat by lia.
  f_equal. rewrite (MeshProofs.skipn_nth _ _ 0) by auto. reflexivity.
Qed.

Lemma vget_firstn (l : list R) k m : (k < m)%nat -> (m <= length l)%nat -> vget (firstn m l) k = Ok (nth k l 0).
Proof.
  intros H1 H2. rewrite (vget_ok _ _ 0) by (rewrite firstn_length; lia). f_equal.
  rewrite <- (firstn_skipn m l) at 2. rewrite app_nth1; auto. rewrite firstn_length; lia.
Qed.

Lemma window_add (x : nat -> R) p i : (1 <= p)%nat -> (p <= i)%nat ->
  sum (p - 1) (fun j => x (i - p + j)%nat) + x (i - 1)%nat = sum p (fun j => x (i - p + j)%nat).
Proof.
  intros H1 H2. destruct p; [lia|]. cbn [sum]. replace (S p - 1)%nat with p by lia.
  f_equal. f_equal. lia.
Qed.

Lemma window_sub (x : nat -> R) p i : (1 <= p)%nat -> (p <= i)%nat ->
  sum p (fun j => x (i - p + j)%nat) - x (i - p)%nat = sum (p - 1) (fun j => x (i + 1 - p + j)%nat).
Proof.
  intros H1 H2. destruct p; [lia|]. rewrite sum_S_l, Nat.add_0_r. replace (S p - 1)%nat with p by lia.
  ring_simplify. apply sum_ext. intros j Hj. f_equal. lia.
Qed.

Lemma points_ap order l : (1 <= order)%nat -> (order + 1 <= length l)%nat ->
  aperiodic_points Rops order l =
  Ok (map (ap_knot order (length l) (grid_of (Points l) (length l))) (seq 0 (length l + order + 1)), l).
Proof.
  intros Ho Hn. unfold aperiodic_points. set (n := length l) in *.
  rewrite (vget_ok l 0 0) by lia. cbn [bind]. set (x := fun i => nth i l 0).
  change (nth 0 l 0) with (x 0%nat).
  change (o0 Rops) with 0.
  destruct (fill_loop 0 0 (order + 1) (repeat 0 (n + order + 1)) (fun _ => x 0%nat)) as (xs1 & E1 & L1 & N1).
  { rewrite repeat_length. lia. }
  rewrite E1. cbn [bind]. rewrite repeat_length in L1.
  set (body1 := fun st i => let '(it, coord, window) := st in
      v <- vget l (it + 1) ;; let coord := coord ++ [v] in c <- vget coord i ;;
      Ok ((it + 1)%nat, coord, oadd Rops window c)).
  destruct (for_inv (fun i (st : nat * list R * R) => st = ((i - 1)%nat, firstn i l, sum (i - 1) (fun j => x (1 + j)%nat))) 1 order
    (0%nat, [x 0%nat], 0) body1) as (st1 & E2 & H2); [lia|..].
  - destruct l; [unfold n in Hn; simpl in Hn; lia|]. reflexivity.
  - intros i st Hi ->. unfold body1. replace (i - 1 + 1)%nat with i by lia.
    rewrite (vget_ok l i 0) by (fold n; lia). cbn [bind]. rewrite firstn_snoc by (fold n; lia).
    rewrite vget_firstn by (fold n; lia). cbn [bind]. eexists; split; [reflexivity|].
    f_equal; [f_equal; lia|]. replace (i + 1 - 1)%nat with (S (i - 1)) by lia. cbn [sum]. simpl.
    replace (S (i - 1)) with i by lia. reflexivity.
  - rewrite E2. subst st1. cbn [bind].
    set (body2 := fun st i => let '(xs, it, coord, window) := st in
      v <- vget l (it + 1) ;; let coord := coord ++ [v] in
      c <- vget coord (i - 1) ;; let window := oadd Rops window c in
      k <- odiv Rops window (onat Rops order) ;; xs <- vset xs i k ;;
      c <- vget coord (i - order) ;; Ok (xs, (it + 1)%nat, coord, osub Rops window c)).
    destruct (for_inv (fun i (st : list R * nat * list R * R) => exists xs,
       st = (xs, (i - 2)%nat, firstn (i - 1) l, sum (order - 1) (fun j => x (i - order + j)%nat)) /\
       length xs = (n + order + 1)%nat /\
       forall k, (k < n + order + 1)%nat -> nth k xs 0 = if (k <? i)%nat then ap_knot order n x k else nth k xs1 0)
       (order + 1) n (xs1, (order - 1)%nat, firstn order l, sum (order - 1) (fun j => x (1 + j)%nat)) body2) as (st2 & E3 & H3); [lia|..].
    + exists xs1. split; [|split; [lia|]].
      * replace (order + 1 - 2)%nat with (order - 1)%nat by lia. replace (order + 1 - 1)%nat with order by lia.
        replace (order + 1 - order)%nat with 1%nat by lia. reflexivity.
      * intros k Hk. destruct (Nat.ltb_spec k (order + 1)); auto. rewrite N1.
        destruct (Nat.ltb_spec k (order + 1)); [|lia]. cbn [andb Nat.leb].
        unfold ap_knot. destruct (Nat.leb_spec k order); [auto|lia].
    + intros i st Hi (xs & -> & Lx & Nx). unfold body2. replace (i - 2 + 1)%nat with (i - 1)%nat by lia.
      rewrite (vget_ok l (i - 1) 0) by (fold n; lia). cbn [bind]. rewrite firstn_snoc by (fold n; lia).
      replace (i - 1 + 1)%nat with i by lia.
      rewrite vget_firstn by (fold n; lia). cbn [bind].
      change (oadd Rops (sum (order - 1) (fun j => x (i - order + j)%nat)) (nth (i - 1) l 0))
        with (sum (order - 1) (fun j => x (i - order + j)%nat) + x (i - 1)%nat).
      assert (W : sum (order - 1) (fun j => x (i - order + j)%nat) + x (i - 1)%nat = sum order (fun j => x (i - order + j)%nat)).
      { apply window_add; lia. }
      rewrite W. change (onat Rops order) with (INR order). rewrite div_ok by (apply not_0_INR; lia). cbn [bind].
      rewrite vset_ok by lia. cbn [bind]. rewrite vget_firstn by (fold n; lia). cbn [bind].
      eexists; split; [reflexivity|]. eexists; split; [|split].
      * f_equal; [f_equal; [f_equal; lia|f_equal; lia]|]. simpl.
        apply (window_sub x); lia.
      * rewrite upd_length. auto.
      * intros k Hk. rewrite nth_upd, Lx. destruct (Nat.ltb_spec i (n + order + 1)); [|lia].
        rewrite Nx by auto. destruct (Nat.eqb_spec k i) as [->|Ne]; cbn [andb].
        -- destruct (Nat.ltb_spec i (i + 1)); [|lia]. unfold ap_knot.
           destruct (Nat.leb_spec i order); [lia|]. destruct (Nat.ltb_spec i n); [|lia].
           destruct (Nat.eqb_spec order 0); [lia|]. unfold mean. reflexivity.
        -- destruct (Nat.ltb_spec k i), (Nat.ltb_spec k (i + 1)); auto; lia.
    + rewrite E3 || (unfold body2 in E3; rewrite E3). destruct H3 as (xs & -> & Lx & Nx). cbn [bind].
      replace (n - 2 + 1)%nat with (n - 1)%nat by lia.
      rewrite (vget_ok l (n - 1) 0) by (fold n; lia). cbn [bind].
      destruct (fill_loop 0 n (n + order + 1) xs (fun _ => nth (n - 1) l 0)) as (xs2 & E4 & L4 & N4); [lia|].
      rewrite E4. cbn [bind]. f_equal. f_equal.
      * apply list_eq_map; [lia|]. intros k Hk. rewrite N4. destruct (Nat.ltb_spec k (n + order + 1)); [|lia].
        rewrite andb_true_r. destruct (Nat.leb_spec n k).
        -- unfold ap_knot. destruct (Nat.leb_spec k order); [lia|]. destruct (Nat.ltb_spec k n); [lia|]. reflexivity.
        -- rewrite Nx by lia. destruct (Nat.ltb_spec k n); [|lia]. reflexivity.
      * rewrite firstn_snoc by (fold n; lia). replace (n - 1 + 1)%nat with n by lia. apply firstn_all.
Qed.

Lemma pext_add m P x i : (0 < m)%nat -> pext m P x (i + m) = pext m P x i + P.
Proof.
  intros Hm. unfold pext. replace (i + m)%nat with (i + 1 * m)%nat by lia.
  rewrite Nat.mod_add, Nat.div_add by lia. rewrite plus_INR. simpl. ring.
Qed.

Lemma pext_in m x i : (0 < m)%nat -> (i <= m)%nat -> pext m (x m - x 0%nat) x i = x i.
Proof.
  intros Hm Hi. destruct (Nat.eq_dec i m) as [->|Ne].
  - unfold pext. rewrite Nat.mod_same, Nat.div_same by lia. simpl. ring.
  - unfold pext. rewrite Nat.mod_small, Nat.div_small by lia. simpl. ring.
Qed.

Lemma per_knot_add order m P x i : (order + 1 <= m)%nat ->
  per_knot order m P x (i + m) = per_knot order m P x i + P.
Proof.
  intros Hm. unfold per_knot. destruct (Nat.even order).
  - replace (i + m + m - order - 1)%nat with (i + m - order - 1 + m)%nat by lia.
    replace (i + m + m - order)%nat with (i + m - order + m)%nat by lia.
    rewrite !pext_add by lia. field.
  - replace (i + m + m - order)%nat with (i + m - order + m)%nat by lia.
    rewrite !pext_add by lia. ring.
Qed.

(** Knots in the first period. *)
Lemma per_knot_in order m x i : (order + 1 <= m)%nat -> (order + 1 <= i <= order + m)%nat ->
  per_knot order m (x m - x 0%nat) x i =
  if Nat.even order then (x (i - order - 1)%nat + x (i - order)%nat) / 2 else x (i - order)%nat.
Proof.
  intros Hm Hi. unfold per_knot.
  replace (i + m - order - 1)%nat with (i - order - 1 + m)%nat by lia.
  replace (i + m - order)%nat with (i - order + m)%nat by lia.
  rewrite !pext_add, !pext_in by lia. destruct (Nat.even order); field.
Qed.

Lemma points_per order l : (order + 2 <= length l)%nat ->
  let m := (length l - 1)%nat in
  periodic_points Rops order l =
  Ok (map (per_knot order m (nth m l 0 - nth 0 l 0) (grid_of (Points l) (m + 1))) (seq 0 (m + 2 * order + 1 + (1 - order mod 2))), l).
Proof.
  intros Hn m. unfold periodic_points. set (n := length l) in *.
  set (len := (n + 2 * order + (1 - order mod 2))%nat).
  rewrite (vget_ok l 0 0) by lia. cbn [bind]. set (x := fun i => nth i l 0).
  change (grid_of (Points l) (m + 1)) with x. change (nth m l 0) with (x m). change (nth 0 l 0) with (x 0%nat).
  set (P := x m - x 0%nat). set (K := per_knot order m P x).
  set (body1 := fun (st : list R * list R) i => let '(xs, coord) := st in
      present <- vget l (i - order) ;; back <- vget coord (length coord - 1) ;;
      xs <- vset xs i (if (order mod 2 =? 0)%nat then omul Rops (ohalf Rops) (oadd Rops back present) else present) ;;
      Ok (xs, coord ++ [present])).
  destruct (for_inv (fun i (st : list R * list R) => exists xs, st = (xs, firstn (i - order) l) /\ length xs = len /\
      forall k, (order + 1 <= k < i)%nat -> nth k xs 0 = K k) (order + 1) (order + n) (repeat (o0 Rops) len, [x 0%nat]) body1)
    as (st1 & E1 & xs1 & -> & L1 & N1); [lia|..].
  - exists (repeat (o0 Rops) len). split; [|split].
    + f_equal. replace (order + 1 - order)%nat with 1%nat by lia. destruct l; [unfold n in Hn; simpl in Hn; lia|]. reflexivity.
    + apply repeat_length.
    + intros; lia.
  - intros i st Hi (xs & -> & Lx & Nx). unfold body1.
    rewrite (vget_ok l (i - order) 0) by (fold n; lia). cbn [bind].
    rewrite firstn_length_le by (fold n; lia). rewrite vget_firstn by (fold n; lia). cbn [bind].
    rewrite vset_ok by (unfold len in *; lia). cbn [bind]. eexists; split; [reflexivity|].
    eexists; split; [|split].
    + f_equal. rewrite firstn_snoc by (fold n; lia). f_equal. lia.
    + rewrite upd_length. auto.
    + intros k Hk. rewrite nth_upd, Lx. destruct (Nat.ltb_spec i len); [|unfold len in *; lia].
      destruct (Nat.eqb_spec k i) as [->|Ne]; cbn [andb].
      * unfold K, P. rewrite per_knot_in by lia. rewrite even_mod2. unfold x.
        destruct (order mod 2 =? 0)%nat; auto. simpl. lra.
      * apply Nx. lia.
  - rewrite E1. cbn [bind]. replace (order + n - order)%nat with n by lia.
    assert (FA : firstn n l = l) by (apply firstn_all). rewrite !FA. fold n.
    rewrite (vget_ok l (n - 1) 0), (vget_ok l 0 0) by (fold n; lia). cbn [bind].
    change (osub Rops (nth (n - 1) l 0) (nth 0 l 0)) with P.
    set (body2 := fun xs i => k <- usub (n + i) 1 ;; v <- vget xs k ;; xs <- vset xs i (osub Rops v P) ;;
      a <- usub (length xs) i ;; a1 <- usub a 1 ;; an <- usub a n ;; w <- vget xs an ;; vset xs a1 (oadd Rops w P)).
    destruct (for_inv (fun i (xs : list R) => length xs = len /\
      forall k, (k < len)%nat -> (k < i \/ order + 1 <= k <= order + m \/ len - i <= k)%nat -> nth k xs 0 = K k) 0 (order + 1) xs1 body2)
      as (xs2 & E2 & L2 & N2); [lia|..].
    + split; auto. intros k Hk Hk'. apply N1. lia.
    + intros i xs Hi (Lx & Nx). unfold body2. rewrite usub_ok by lia. cbn [bind].
      assert (Hl : len = (m + 1 + 2 * order + (1 - order mod 2))%nat) by (unfold len; lia).
      assert (Hm2 : order mod 2 = 0%nat \/ order mod 2 = 1%nat) by apply mod2_cases.
      rewrite (vget_ok xs _ 0) by lia. cbn [bind]. rewrite vset_ok by lia. cbn [bind]. rewrite upd_length, Lx.
      rewrite (usub_ok len i) by lia. cbn [bind]. rewrite (usub_ok (len - i) 1) by lia. cbn [bind].
      rewrite (usub_ok (len - i) n) by lia. cbn [bind].
      assert (V : osub Rops (nth (n + i - 1) xs 0) P = K i).
      { rewrite Nx by lia. replace (n + i - 1)%nat with (i + m)%nat by lia. unfold K. rewrite per_knot_add by lia. simpl. ring. }
      rewrite V. assert (Nx' : forall k, (k < len)%nat -> (k < i + 1 \/ order + 1 <= k <= order + m \/ len - i <= k)%nat ->
          nth k (upd xs i (K i)) 0 = K k).
      { intros k Hk Hk'. rewrite nth_upd, Lx. destruct (Nat.ltb_spec i len); [|lia].
        destruct (Nat.eqb_spec k i) as [->|Ne]; cbn [andb]; auto. apply Nx; auto. lia. }
      rewrite (vget_ok _ _ 0) by (rewrite upd_length; lia). cbn [bind].
      rewrite vset_ok by (rewrite upd_length; lia). eexists; split; [reflexivity|].
      split; [rewrite !upd_length; auto|]. intros k Hk Hk'.
      rewrite nth_upd, upd_length, Lx. destruct (Nat.ltb_spec (len - i - 1) len); [|lia].
      destruct (Nat.eqb_spec k (len - i - 1)) as [->|Ne]; cbn [andb].
      * rewrite Nx' by lia. replace (len - i - 1)%nat with (len - i - n + m)%nat by lia.
        unfold K. rewrite per_knot_add by lia. reflexivity.
      * apply Nx'; auto. lia.
    + rewrite E2. cbn [bind]. do 2 f_equal. apply list_eq_map; [lia|].
      intros k Hk. apply N2; [lia|]. pose proof (mod2_cases order). lia.
Qed.
