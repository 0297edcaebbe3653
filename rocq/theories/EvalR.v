(** Value of operator() over the reals. *)
From Coq Require Import List Arith Lia Bool ZArith Reals Lra.
From Verif Require Import Base Num MeshM SplineM SpecMesh SpecBand SpecSpline MeshProofs SumR MulProofs
  SplineProofs TensorR BasisProofs EvalProofs.
Import ListNotations.
Open Scope R_scope.

Lemma Int_part_bounds y : IZR (Int_part y) <= y < IZR (Int_part y) + 1.
Proof. destruct (base_Int_part y). split; lra. Qed.

Lemma fmod_pos y P : 0 < P -> 0 <= y -> 0 <= y - IZR (Rtrunc (y / P)) * P < P.
Proof.
  intros HP Hy. unfold Rtrunc. assert (0 <= y / P) by (apply Rmult_le_pos; [lra|left; apply Rinv_0_lt_compat; lra]).
  destruct (Rle_dec 0 (y / P)); [|lra]. destruct (Int_part_bounds (y / P)).
  assert (E : y = y / P * P) by (field; lra). set (q := IZR (Int_part (y / P))) in *.
  clearbody q. set (u := y / P) in *. clearbody u. rewrite E. split; nra.
Qed.

Lemma fmod_neg y P : 0 < P -> y < 0 -> - P < y - IZR (Rtrunc (y / P)) * P <= 0.
Proof.
  intros HP Hy. unfold Rtrunc.
  assert (y / P < 0). { unfold Rdiv. assert (0 < / P) by (apply Rinv_0_lt_compat; lra). nra. }
  destruct (Rle_dec 0 (y / P)); [lra|]. destruct (Int_part_bounds (- (y / P))).
  assert (E : y = y / P * P) by (field; lra). rewrite opp_IZR. set (q := IZR (Int_part (- (y / P)))) in *.
  clearbody q. set (u := y / P) in *. clearbody u. rewrite E. split; nra.
Qed.

Lemma wrap_coord_R periodic r x :
  (periodic = true -> fst r < snd r) ->
  exists x', wrap_coord Rops periodic r x = Ok x' /\ wrapped periodic r x x'.
Proof.
  intros H. unfold wrap_coord, wrapped. destruct periodic; [|eauto].
  specialize (H eq_refl). destruct r as [a b]; cbn [fst snd] in *. simpl ofmod. cbn [osub Rops].
  destruct (Req_EM_T (b - a) 0); [lra|]. cbn [bind].
  eexists; split; [reflexivity|]. simpl olt. simpl oadd. simpl o0.
  destruct (Rle_dec a x).
  - destruct (Rltb x a) eqn:E; [apply Rltb_true in E; lra|].
    pose proof (fmod_pos (x - a) (b - a) ltac:(lra) ltac:(lra)).
    split; [|lra]. exists (- Rtrunc ((x - a) / (b - a)))%Z. rewrite opp_IZR. ring.
  - destruct (Rltb x a) eqn:E; [|apply Rltb_false in E; lra].
    pose proof (fmod_neg (x - a) (b - a) ltac:(lra) ltac:(lra)).
    split; [|lra]. exists (1 - Rtrunc ((x - a) / (b - a)))%Z. rewrite minus_IZR. ring.
Qed.

Lemma wrapped_unique periodic r x y z :
  fst r < snd r \/ periodic = false -> wrapped periodic r x y -> wrapped periodic r x z -> y = z.
Proof.
  unfold wrapped. destruct periodic; [|intros; congruence].
  intros [Hr|?] [[m Hm] H1] [[n Hn] H2]; [|discriminate].
  assert (E : m = n); [|rewrite Hm, Hn, E; auto].
  assert (D : y - z = (IZR m - IZR n) * (snd r - fst r)) by (rewrite Hm, Hn; ring).
  assert (- (snd r - fst r) < y - z < snd r - fst r) by (destruct (Rle_dec (fst r) x); lra).
  rewrite <- minus_IZR in D.
  assert (-1 < IZR (m - n) < 1) by (split; nra).
  destruct H0 as [Ha Hb]. apply lt_IZR in Ha, Hb. lia.
Qed.

(** Base spline values of all dimensions. *)
Lemma calc_vals_ok s iters so :
  good_spline s -> good_iters Rops s iters -> length so = sp_dim s ->
  (forall d, (d < sp_dim s)%nat -> (nth d so 0 <= sp_order s)%nat) ->
  (forall d, (d < sp_dim s)%nat ->
     kn (knot_of s d) (snd (nth d iters (0%R, 0%nat))) < kn (knot_of s d) (snd (nth d iters (0%R, 0%nat)) + 1)) ->
  exists vals, calc_base_spline_vals Rops s iters so = Ok vals /\ good_vals s vals /\
    forall d, (d < sp_dim s)%nat ->
      bsv_level (sp_order s) (knot_of s d) (snd (nth d iters (0%R, 0%nat))) (fst (nth d iters (0%R, 0%nat)))
        (nth d so 0%nat) (nth d vals []).
Proof.
  intros G [Hl Hg] Hso Hq Hs. unfold calc_base_spline_vals.
  assert (W := gs_wf _ G).
  set (F := fun d : nat => _).
  assert (Hd : forall d, (d < sp_dim s)%nat -> exists b, F d = Ok b /\
     bsv_level (sp_order s) (knot_of s d) (snd (nth d iters (0%R, 0%nat))) (fst (nth d iters (0%R, 0%nat))) (nth d so 0%nat) b).
  { intros d Hd. unfold F. rewrite (vget_ok iters d (0%R, 0%nat)) by lia. cbn [bind].
    rewrite (vget_ok (sp_knots s) d []) by (rewrite (wf_knots _ W); auto). cbn [bind].
    rewrite (vget_ok so d 0%nat) by lia. cbn [bind]. fold (knot_of s d).
    specialize (Hg d Hd). pose proof (wf_len _ W d Hd). unfold last_of in Hg. simpl in Hg.
    apply base_spline_value_ok; auto; try lia. apply (gs_sorted _ G); auto. }
  assert (Hex : forall n, (n <= sp_dim s)%nat -> exists l, mapM F (seq 0 n) = Ok l /\ length l = n /\
     forall d, (d < n)%nat ->
       bsv_level (sp_order s) (knot_of s d) (snd (nth d iters (0%R, 0%nat))) (fst (nth d iters (0%R, 0%nat))) (nth d so 0%nat) (nth d l [])).
  { induction n; intros Hn.
    - exists []. split; auto. split; auto. intros; lia.
    - destruct IHn as (l & El & Hll & H); [lia|]. destruct (Hd n) as (b & Eb & Hb); [lia|].
      exists (l ++ [b]). split; [|split].
      + apply (mapM_ok_nth _ _ _ 0%nat []).
        * rewrite app_length, seq_length. simpl. lia.
        * rewrite seq_length. intros i Hi. rewrite seq_nth by auto. cbn [plus].
          destruct (Nat.eq_dec i n).
          -- subst i. rewrite app_nth2 by lia. rewrite Hll, Nat.sub_diag. auto.
          -- rewrite app_nth1 by lia.
             rewrite <- (mapM_nth _ _ _ i 0%nat [] El) by (rewrite seq_length; lia).
             rewrite seq_nth by lia. reflexivity.
      + rewrite app_length. simpl. lia.
      + intros d Hdn. destruct (Nat.eq_dec d n).
        * subst d. rewrite app_nth2 by lia. rewrite Hll, Nat.sub_diag. auto.
        * rewrite app_nth1 by lia. apply H. lia. }
  destruct (Hex (sp_dim s)) as (l & El & Hll & H); auto.
  exists l. split; auto. split; auto. split; auto.
  intros d Hdd. destruct (H d Hdd) as (? & _). auto.
Qed.

(** The accumulated sum as a tensor product over local indices. *)
Definition local_bs (s : spline R) (vals : list (list R)) : list (nat * (nat -> R)) :=
  map (fun d => ((sp_order s + 1)%nat, fun a => nth a (nth d vals []) 0)) (seq 0 (sp_dim s)).

Lemma map_fst_local s vals : map fst (local_bs s vals) = repeat (sp_order s + 1)%nat (sp_dim s).
Proof.
  unfold local_bs. rewrite map_map. cbn [fst]. 
  assert (H : forall (c : nat) n off, map (fun _ => c) (seq off n) = repeat c n).
  { intros c n. induction n as [|n IH]; intros off; cbn [seq map repeat]; auto. rewrite IH. reflexivity. }
  apply H.
Qed.

Lemma coef_of_prod s vals idx :
  length idx = sp_dim s ->
  coef_of Rops s vals idx = prodR (vals_at (local_bs s vals) idx).
Proof.
  intros Hl. unfold coef_of, vals_at, local_bs.
  change (o1 Rops) with 1. 
  assert (H : forall n off idx0 a, length idx0 = n -> (forall d, (d < n)%nat -> nth d idx0 0%nat = nth (off + d) idx 0%nat) ->
    fold_left (fun c d => omul Rops c (nth (nth d idx 0%nat) (nth d vals []) (o0 Rops))) (seq off n) a =
    a * prodR (map2 (fun b i => snd b i) (map (fun d => ((sp_order s + 1)%nat, fun i => nth i (nth d vals []) 0)) (seq off n)) idx0)).
  { induction n; intros off idx0 a Hn Hi; cbn [seq fold_left map map2].
    - unfold prodR; simpl; ring.
    - destruct idx0 as [|i0 idx0]; [discriminate|]. cbn [map2].
      rewrite (IHn (S off) idx0).
      + unfold prodR. cbn [fold_right snd]. pose proof (Hi 0%nat ltac:(lia)) as H0. cbn [nth] in H0.
        rewrite Nat.add_0_r in H0. rewrite <- H0. simpl omul. simpl o0. ring.
      + simpl in Hn. lia.
      + intros d Hd. replace (S off + d)%nat with (off + S d)%nat by lia. rewrite <- (Hi (S d)) by lia. reflexivity. }
  rewrite (H (sp_dim s) 0%nat idx) by auto. ring.
Qed.

Lemma fold_left_sum (g : nat -> R) n a :
  fold_left (fun v i => v + g i) (seq 0 n) a = a + sum n g.
Proof.
  induction n; [simpl; ring|].
  rewrite seq_S, fold_left_app, IHn. simpl. ring.
Qed.

Lemma eval_value_tensor s iters vals :
  eval_value Rops s iters vals =
  tensor (local_bs s vals) (fun idx => ctrl_at Rops s (gmap Rops s iters idx)).
Proof.
  rewrite tensor_flat, map_fst_local, prod_repeat. unfold eval_value.
  change (o0 Rops) with 0.
  rewrite (fold_left_sum (fun i => omul Rops (coef_of Rops s vals (unrank (repeat (sp_order s + 1)%nat (sp_dim s)) i))
     (ctrl_at Rops s (gmap Rops s iters (unrank (repeat (sp_order s + 1)%nat (sp_dim s)) i))))).
  rewrite Rplus_0_l. unfold buf_size. apply sum_ext. intros i Hi. simpl omul.
  rewrite coef_of_prod; auto.
  rewrite (valid_length (repeat (sp_order s + 1)%nat (sp_dim s))), repeat_length; auto.
  apply unrank_valid. rewrite prod_repeat. auto.
Qed.

Lemma nth_map_seq' {A} (f : nat -> A) n i d : (i < n)%nat -> nth i (map f (seq 0 n)) d = f i.
Proof. apply nth_map_seq. Qed.

Lemma map2_map_seq {C} (f : nat -> nat -> C) n idx :
  length idx = n -> map2 f (seq 0 n) idx = map (fun d => f d (nth d idx 0%nat)) (seq 0 n).
Proof.
  intros Hl. apply (nth_ext' _ _ (f 0 0)%nat).
  - rewrite map2_length, map_length; auto. rewrite seq_length; auto.
  - intros i Hi. rewrite map2_length, seq_length in Hi by (rewrite seq_length; auto).
    rewrite (map2_nth f _ _ i 0%nat 0%nat) by (rewrite ?seq_length; lia).
    rewrite nth_map_seq by auto. rewrite seq_nth by auto. reflexivity.
Qed.

Lemma map2_map_l {A A' B C} (f : A' -> B -> C) (g : A -> A') l m :
  map2 f (map g l) m = map2 (fun a b => f (g a) b) l m.
Proof. revert m; induction l; intros [|b m]; simpl; auto. f_equal; auto. Qed.

Lemma map_ext_seq {A} (f g : nat -> A) n :
  (forall i, (i < n)%nat -> f i = g i) -> map f (seq 0 n) = map g (seq 0 n).
Proof. intros. apply map_ext_in. intros i Hi. apply in_seq in Hi. apply H. lia. Qed.

(** From local windows to all basis functions. *)
Lemma tensor_global (s : spline R) (iters : list (R * nat)) (B : nat -> nat -> R) c :
  good_spline s -> good_iters Rops s iters ->
  (forall d i, (d < sp_dim s)%nat -> (i < snd (nth d iters (0%R, 0%nat)) - sp_order s \/ snd (nth d iters (0%R, 0%nat)) < i)%nat -> B d i = 0) ->
  tensor (map (fun d => (nbasis s d, B d)) (seq 0 (sp_dim s))) (fun idx => c (wrap_idx s idx)) =
  tensor (map (fun d => ((sp_order s + 1)%nat, fun a => B d (snd (nth d iters (0%R, 0%nat)) - sp_order s + a)%nat)) (seq 0 (sp_dim s)))
         (fun idx => c (gmap Rops s iters idx)).
Proof.
  intros G [Hl Hg] HB. set (k := fun d => snd (nth d iters (0%R, 0%nat))) in *.
  set (Ds := map (fun d => (nbasis s d, B d, (k d - sp_order s)%nat)) (seq 0 (sp_dim s))).
  pose proof (tensor_window Ds (sp_order s + 1) (fun idx => c (wrap_idx s idx))) as H.
  unfold Ds in H. rewrite !map_map in H. cbn [fst snd] in H. rewrite H.
  - apply tensor_ext. intros idx Hv. f_equal.
    assert (Hlen : length idx = sp_dim s).
    { apply valid_length in Hv. rewrite !map_length, seq_length in Hv. auto. }
    rewrite map2_map_l. cbn [snd]. rewrite map2_map_seq by auto.
    unfold wrap_idx, gmap. apply map_ext_seq. intros d Hd. rewrite nth_map_seq by auto.
    unfold gidx. simpl o0. fold (k d). replace (k d - sp_order s + nth d idx 0)%nat with (nth d idx 0 + (k d - sp_order s))%nat by lia.
    reflexivity.
  - intros m b kk Hin. apply in_map_iff in Hin as (d & E & Hd). apply in_seq in Hd.
    injection E as <- <- <-. specialize (Hg d ltac:(lia)). simpl o0 in Hg. fold (k d) in Hg.
    pose proof (wf_len _ (gs_wf _ G) d ltac:(lia)). unfold nbasis, last_of in *. split; [lia|].
    intros i Hi Hn. apply HB; [lia|]. fold (k d). lia.
Qed.

(** Everything together. *)
Lemma spline_iters_ok s coords :
  good_spline s -> length coords = sp_dim s ->
  (forall d, (d < sp_dim s)%nat -> (sp_order s <= snd (nth d coords (0%R, 0%nat)) <= last_of s d)%nat) ->
  exists iters, get_knot_iters Rops s coords = Ok iters /\ good_iters Rops s iters /\
    (forall d, (d < sp_dim s)%nat ->
       wrapped (per_of s d) (rng s d) (fst (nth d coords (0%R, 0%nat))) (fst (nth d iters (0%R, 0%nat))) /\
       segment (kn (knot_of s d)) (sp_order s) (last_of s d) (fst (nth d iters (0%R, 0%nat))) (snd (nth d iters (0%R, 0%nat)))).
Proof.
  intros G Hc Hh. assert (W := gs_wf _ G).
  assert (Hx : exists xs', length xs' = sp_dim s /\ forall d, (d < sp_dim s)%nat ->
    wrap_coord Rops (per_of s d) (rng s d) (fst (nth d coords (0%R, 0%nat))) = Ok (nth d xs' 0) /\
    wrapped (per_of s d) (rng s d) (fst (nth d coords (0%R, 0%nat))) (nth d xs' 0)).
  { assert (Hex : forall n, (n <= sp_dim s)%nat -> exists l, length l = n /\ forall d, (d < n)%nat ->
      wrap_coord Rops (per_of s d) (rng s d) (fst (nth d coords (0%R, 0%nat))) = Ok (nth d l 0) /\
      wrapped (per_of s d) (rng s d) (fst (nth d coords (0%R, 0%nat))) (nth d l 0)).
    { induction n; intros Hn.
      - exists []. split; auto. intros; lia.
      - destruct IHn as (l & Hll & H); [lia|].
        destruct (wrap_coord_R (per_of s n) (rng s n) (fst (nth n coords (0%R, 0%nat)))) as (x' & E1 & E2).
        { apply (gs_range _ G). lia. }
        exists (l ++ [x']). split. rewrite app_length; simpl; lia.
        intros d Hd. destruct (Nat.eq_dec d n).
        + subst d. rewrite app_nth2 by lia. rewrite Hll, Nat.sub_diag. auto.
        + rewrite app_nth1 by lia. apply H. lia. }
    apply Hex; auto. }
  destruct Hx as (xs' & Hxl & Hx).
  destruct (get_knot_iters_ok Rops s coords xs') as (iters & E & Gi & H); auto using Rops_total.
  { intros d Hd. destruct (Hx d Hd). split; auto. split; auto.
    apply sorted_on_R. apply (gs_sorted _ G); auto. pose proof (wf_len _ W d Hd). unfold last_of. lia. }
  exists iters. split; auto. split; auto. intros d Hd. simpl o0 in H.
  destruct (H d Hd) as (E1 & E2). rewrite E1. destruct (Hx d Hd) as [_ Hw]. split; auto.
  apply seg_in_R in E2; auto.
  - apply (gs_sorted _ G); auto.
  - pose proof (wf_len _ W d Hd). unfold last_of. lia.
  - apply (gs_first _ G); auto.
  - apply (gs_last _ G); auto.
Qed.

Lemma eval_tensor s coords :
  good_spline s -> length coords = sp_dim s ->
  (forall d, (d < sp_dim s)%nat -> (sp_order s <= snd (nth d coords (0%R, 0%nat)) <= last_of s d)%nat) ->
  exists iters,
    length iters = sp_dim s /\
    (forall d, (d < sp_dim s)%nat ->
       wrapped (per_of s d) (rng s d) (fst (nth d coords (0%R, 0%nat))) (fst (nth d iters (0%R, 0%nat))) /\
       segment (kn (knot_of s d)) (sp_order s) (last_of s d) (fst (nth d iters (0%R, 0%nat))) (snd (nth d iters (0%R, 0%nat)))) /\
    spline_eval Rops s coords = Ok (
      tensor (map (fun d => (nbasis s d, fun i => piece (kn (knot_of s d)) (snd (nth d iters (0%R, 0%nat))) (sp_order s) i (fst (nth d iters (0%R, 0%nat)))))
                  (seq 0 (sp_dim s)))
             (fun idx => ctrl_at Rops s (wrap_idx s idx))).
Proof.
  intros G Hc Hh. destruct (spline_iters_ok s coords G Hc Hh) as (iters & E & Gi & H).
  exists iters. split. apply Gi. split; auto.
  destruct (calc_vals_ok s iters (repeat (sp_order s) (sp_dim s))) as (vals & Ev & Gv & Hv); auto.
  { apply repeat_length. }
  { intros d Hd. rewrite nth_repeat_lt by auto. auto. }
  { intros d Hd. destruct (H d Hd) as [_ (_ & ? & _)]. auto. }
  rewrite (spline_eval_run Rops s coords iters vals) by (auto; apply (gs_wf _ G)).
  rewrite eval_value_tensor. f_equal.
  rewrite (tensor_global s iters (fun d i => piece (kn (knot_of s d)) (snd (nth d iters (0%R, 0%nat))) (sp_order s) i (fst (nth d iters (0%R, 0%nat)))))
    with (c := ctrl_at Rops s); auto.
  - apply tensor_ext_gen.
    + unfold local_bs. rewrite !map_map. reflexivity.
    + intros d a Hd Ha. unfold local_bs in *. rewrite length_map_seq in Hd.
      rewrite map_map in Ha. cbn [fst] in Ha. rewrite nth_map_seq in Ha by auto.
      rewrite !nth_map_seq by auto. cbn [snd].
      destruct (Hv d Hd) as (_ & _ & Hl). rewrite nth_repeat_lt in Hl by auto.
      rewrite <- (Hl a) by lia. f_equal. lia.
    + auto.
  - intros d i Hd Hi. apply piece_support. destruct Gi as [_ Gi]. specialize (Gi d Hd). simpl in Gi. lia.
Qed.
