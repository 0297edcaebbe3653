(** The MEX function computes one function: the interpolant of the array. *)
From Coq Require Import List Arith Lia Bool ZArith Reals Lra FunctionalExtensionality.
From Coquelicot Require Import Coquelicot.
From Verif Require Import Base Num MeshM SpecMesh MeshProofs ProgM BandM LUM SplineM InterpM.
From Verif Require Import SumR DenseLU SpecBand BandProofs MulProofs LUProofs LUConv SpecSpline SpecSplineObj SpecCalc SplineProofs BasisProofs BetaProofs TensorR EvalProofs EvalR SplineTop SplineCalc SpecInterp KnotProofs KnotShape CoefProofs SolverProofs RoundProofs SolveProofs BuildProofs WeightProofs InterpProofs PerDom PerPD InterpTop InterpFinal InterpMore.
From Verif Require Import MatlabM SpecMatlab MatlabProofs.
Import ListNotations.
Open Scope R_scope.

(** ** Reversing the dimensions of a tensor product *)
Lemma tensor_snoc bs m b : forall c,
  tensor (bs ++ [(m, b)]) c = tensor bs (fun idx => Rsum m (fun i => b i * c (idx ++ [i]))).
Proof.
  induction bs as [|[n a] bs IH]; intros c; cbn [app tensor]; auto.
  rewrite !Rsum_sum. apply sum_ext. intros i Hi. rewrite IH. reflexivity.
Qed.

Lemma tensor_rev bs : forall c, tensor (rev bs) (fun idx => c (rev idx)) = tensor bs c.
Proof.
  induction bs as [|[n a] bs IH]; intros c; cbn [rev]; auto.
  rewrite tensor_snoc. cbn [tensor]. rewrite Rsum_sum.
  rewrite (tensor_ext (rev bs) _ (fun idx => sum n (fun i => a i * c (i :: rev idx)))).
  - rewrite tensor_sum. apply sum_ext. intros i Hi. f_equal.
    apply (IH (fun idx => c (i :: idx))).
  - intros idx V. rewrite Rsum_sum. apply sum_ext. intros i Hi. rewrite rev_app_distr. reflexivity.
Qed.

Lemma map2_app {A B C} (f : A -> B -> C) l1 : forall l2 m1 m2, length l1 = length m1 ->
  map2 f (l1 ++ l2) (m1 ++ m2) = map2 f l1 m1 ++ map2 f l2 m2.
Proof.
  induction l1 as [|a l1 IH]; intros l2 [|b m1] m2 H; try discriminate; cbn [app map2]; auto.
  rewrite IH by (simpl in H; lia). reflexivity.
Qed.

Lemma map2_rev {A B C} (f : A -> B -> C) l : forall m, length l = length m -> map2 f (rev l) (rev m) = rev (map2 f l m).
Proof.
  induction l as [|a l IH]; intros [|b m] H; try discriminate; cbn [rev map2]; auto.
  rewrite map2_app by (rewrite !rev_length; simpl in H; lia). rewrite IH by (simpl in H; lia). reflexivity.
Qed.

Lemma tensorf_rev fs ys c : length fs = length ys ->
  tensorf (rev fs) ys (fun idx => c (rev idx)) = tensorf fs (rev ys) c.
Proof.
  intros H. unfold tensorf. rewrite <- (rev_involutive ys) at 1.
  rewrite map2_rev by (rewrite rev_length; auto). apply tensor_rev.
Qed.

Lemma rev_seq_nth {A} (g : nat -> A) n d a : (d < n)%nat -> nth d (rev (map g (seq 0 n))) a = g (n - S d)%nat.
Proof.
  intros H. rewrite rev_nth by (rewrite map_length, seq_length; auto).
  rewrite map_length, seq_length. rewrite nth_map_seq by lia. reflexivity.
Qed.

(** The derivative with respect to the coordinates in reverse order. *)
Lemma mixed_reversed s xs orders :
  good_spline s -> length xs = sp_dim s -> length orders = sp_dim s ->
  (forall d, (d < sp_dim s)%nat -> off_knots s d (nth d (rev xs) 0)) ->
  is_mixed orders (fun ys => sval s (rev ys)) xs (tensor (dbas s (rev xs) (rev orders)) (ctrl_at Rops s)).
Proof.
  intros G Hl Ho Hoff.
  set (fs := map (fun d => (num_of s d, beta s d)) (seq 0 (sp_dim s))).
  set (x := fun d => nth d (rev xs) 0).
  set (qs := map (fun d => (num_of s d, fun j y => bpoly s d (snd (loc s d (x d))) j (y + (fst (loc s d (x d)) - x d)))) (seq 0 (sp_dim s))).
  apply (is_mixed_ext orders (fun ys => tensorf (rev fs) ys (fun idx => ctrl_at Rops s (rev idx)))).
  - congruence.
  - intros ys Hy. rewrite Hl in Hy. rewrite tensorf_rev by (unfold fs; rewrite map_length, seq_length; auto).
    unfold tensorf, sval, fs. f_equal. rewrite map2_map_l.
    apply (nth_ext' _ _ (0%nat, fun _ => 0)).
    + rewrite map2_length, map_length; rewrite ?seq_length, ?rev_length; auto.
    + intros d Hd. rewrite map2_length, seq_length in Hd by (rewrite seq_length, rev_length; auto).
      rewrite (map2_nth _ _ _ d 0%nat 0) by (rewrite ?seq_length, ?rev_length; lia). rewrite seq_nth by auto. rewrite nth_map_seq by auto.
      reflexivity.
  - pose proof (is_mixed_tensor (rev fs) (rev qs) xs orders (fun idx => ctrl_at Rops s (rev idx))) as H.
    assert (Lq : length qs = sp_dim s) by (unfold qs; rewrite map_length, seq_length; auto).
    assert (Lf : length fs = sp_dim s) by (unfold fs; rewrite map_length, seq_length; auto).
    replace (tensor _ _) with (tensor (map2 (fun f ax => (fst f, fun j => Derive_n (snd f j) (fst ax) (snd ax))) (rev qs) (combine orders xs)) (fun idx => ctrl_at Rops s (rev idx))).
    + apply H.
      * rewrite rev_length. congruence.
      * congruence.
      * rewrite !map_rev. f_equal. unfold fs, qs. rewrite !map_map. reflexivity.
      * intros d j Hd Hj. rewrite Hl in Hd. unfold fs, qs in *. rewrite rev_seq_nth in * by auto.
        rewrite rev_seq_nth by auto. cbn [fst snd] in *.
        assert (Ex : x (sp_dim s - S d)%nat = nth d xs 0).
        { unfold x. rewrite rev_nth by lia. f_equal. lia. }
        rewrite <- Ex. assert (Hd' : (sp_dim s - S d < sp_dim s)%nat) by lia. split.
        -- apply beta_local; auto. apply (Hoff (sp_dim s - S d)%nat); auto.
        -- intros b y. apply (ex_derive_n_shift (bpoly s _ (snd (loc s _ (x _))) j)).
           destruct (loc_spec s (sp_dim s - S d)%nat (x (sp_dim s - S d)%nat) G Hd') as [_ (H1 & H2 & _)].
           apply bpoly_ex_derive_n; auto.
    + rewrite <- (rev_involutive (combine orders xs)).
      rewrite map2_rev by (rewrite rev_length, combine_length; lia). rewrite tensor_rev.
      f_equal. unfold qs. rewrite map2_map_l. cbn [fst snd]. unfold dbas.
      apply (nth_ext' _ _ (0%nat, fun _ => 0)).
      * rewrite map2_length, map_length; rewrite ?seq_length, ?rev_length, ?combine_length; auto; lia.
      * intros d Hd. rewrite map2_length, seq_length in Hd by (rewrite seq_length, rev_length, combine_length; lia).
        rewrite (map2_nth _ _ _ d 0%nat (0%nat, 0)) by (rewrite ?seq_length, ?rev_length, ?combine_length; lia).
        rewrite seq_nth by auto. rewrite nth_map_seq by auto.
        rewrite rev_nth by (rewrite combine_length; lia). rewrite combine_nth by congruence. cbn [fst snd plus].
        rewrite combine_length, Ho, Hl, Nat.min_id.
        assert (Ex : nth (sp_dim s - S d) xs 0 = x d). { unfold x. rewrite rev_nth by lia. rewrite Hl. auto. }
        assert (Eo : nth (sp_dim s - S d) orders 0%nat = nth d (rev orders) 0%nat). { rewrite rev_nth by lia. rewrite Ho. auto. }
        rewrite Ex, Eo. f_equal. apply functional_extensionality. intros j. fold (x d).
        rewrite (Derive_n_shift (bpoly s d (snd (loc s d (x d))) j)). f_equal. change (0 + d)%nat with d. ring.
Qed.

(** ** Knots of equally spaced data lie on half steps *)
Lemma sum_steps a h n m : sum n (fun j => a + INR (m + j) * h) = INR n * (a + INR m * h) + INR n * (INR n - 1) / 2 * h.
Proof.
  induction n as [|n IH]; [cbn [sum INR]; lra|].
  cbn [sum]. rewrite IH, plus_INR, S_INR. lra.
Qed.

Lemma ap_half p n a h i : exists k : Z, ap_knot p n (fun i => a + INR i * h) i = a + IZR k * (h / 2).
Proof.
  unfold ap_knot. destruct (i <=? p)%nat eqn:E1; [exists 0%Z; cbn [INR]; lra|].
  apply Nat.leb_gt in E1. destruct (i <? n)%nat eqn:E2.
  - destruct (p =? 0)%nat eqn:E3.
    + exists (2 * Z.of_nat i - 1)%Z. rewrite minus_IZR, mult_IZR, <- INR_IZR_INZ. rewrite minus_INR by lia. cbn [INR]. lra.
    + apply Nat.eqb_neq in E3. exists (2 * Z.of_nat (i - p) + Z.of_nat p - 1)%Z. unfold mean. rewrite Rsum_sum, sum_steps.
      rewrite minus_IZR, plus_IZR, mult_IZR, <- !INR_IZR_INZ.
      assert (0 < INR p) by (apply lt_0_INR; lia). field. lra.
  - exists (2 * Z.of_nat (n - 1))%Z. rewrite mult_IZR, <- INR_IZR_INZ. lra.
Qed.

Lemma pext_step n a h i : (0 < n)%nat -> pext n (INR n * h) (fun i => a + INR i * h) i = a + INR i * h.
Proof.
  intros H. unfold pext. rewrite (Nat.div_mod i n) at 3 by lia. rewrite plus_INR, mult_INR. lra.
Qed.

Lemma per_half p n a h i : (p < n)%nat -> exists k : Z,
  per_knot p n (INR n * h) (fun i => a + INR i * h) i = a + IZR k * (h / 2).
Proof.
  intros H. unfold per_knot. rewrite !pext_step by lia.
  assert (E : INR n = IZR (Z.of_nat n)) by apply INR_IZR_INZ. destruct (Nat.even p).
  - exists (2 * Z.of_nat (i + n - p) - 1 - 2 * Z.of_nat n)%Z.
    rewrite !minus_IZR, !mult_IZR, <- !INR_IZR_INZ. rewrite (minus_INR (i + n - p) 1) by lia. cbn [INR]. lra.
  - exists (2 * Z.of_nat (i + n - p) - 2 * Z.of_nat n)%Z. rewrite !minus_IZR, !mult_IZR, <- !INR_IZR_INZ. lra.
Qed.

(** ** The arguments of the constructor *)
Section Call.
Variables (order D : nat) (per : marray bool) (range mesh : marray R).
Hypothesis HD : (1 <= D <= 3)%nat.
Hypothesis HS : shaped_data D per range mesh.
Hypothesis HG : good_data order D range mesh.

Definition flags : list bool := rev (map (fun d => flag_of per d) (seq 0 D)).
Definition spans : list (xrange R) := rev (map (fun d => Uniform (lo_of range d) (hi_of range d)) (seq 0 D)).
Let sizes := mesh_sizes D per mesh.

Lemma flags_len : length flags = D.
Proof. unfold flags. rewrite rev_length, map_length, seq_length. auto. Qed.
Lemma sizes_len : length sizes = D.
Proof. unfold sizes, mesh_sizes. rewrite map_length, rev_length, seq_length. auto. Qed.
Lemma spans_len : length spans = D.
Proof. unfold spans. rewrite rev_length, map_length, seq_length. auto. Qed.
Lemma flags_nth d : (d < D)%nat -> nth d flags false = flag_of per (D - S d).
Proof. intros H. unfold flags. apply rev_seq_nth. auto. Qed.
Lemma spans_nth d : (d < D)%nat -> nth d spans (Points []) = Uniform (lo_of range (D - S d)) (hi_of range (D - S d)).
Proof. intros H. unfold spans. apply (rev_seq_nth (fun d => Uniform (lo_of range d) (hi_of range d))). auto. Qed.

Lemma distinct_nth d : (d < D)%nat -> distinct false (nth d flags false) (nth d sizes 0%nat) = size_of mesh (D - S d).
Proof.
  intros H. unfold sizes. rewrite flags_nth, sizes_nth by auto. unfold distinct.
  destruct (flag_of per (D - S d)); cbn [andb negb]; lia.
Qed.
Lemma coords_nth d : (d < D)%nat -> coords_num false (nth d flags false) (nth d sizes 0%nat) =
  (size_of mesh (D - S d) + (if flag_of per (D - S d) then 1 else 0))%nat.
Proof.
  intros H. unfold coords_num. rewrite distinct_nth by auto. unfold sizes. rewrite flags_nth, sizes_nth by auto.
  destruct (flag_of per (D - S d)); lia.
Qed.
Lemma size_two d : (d < D)%nat -> (2 <= size_of mesh d)%nat.
Proof.
  intros H. destruct HS as (_ & _ & _ & _ & _ & ns & k & L & F & E). unfold size_of. rewrite E, app_nth1 by lia.
  rewrite Forall_forall in F. apply F. apply nth_In. lia.
Qed.
Lemma coords_pred d : (d < D)%nat -> (coords_num false (nth d flags false) (nth d sizes 0%nat) - 1)%nat =
  (if flag_of per (D - S d) then size_of mesh (D - S d) else size_of mesh (D - S d) - 1)%nat.
Proof. intros H. rewrite coords_nth by auto. destruct (flag_of per (D - S d)); lia. Qed.

Lemma step_nth d : (d < D)%nat ->
  (hi_of range (D - S d) - lo_of range (D - S d)) / INR (coords_num false (nth d flags false) (nth d sizes 0%nat) - 1) =
  step_of per range mesh (D - S d).
Proof. intros H. rewrite coords_pred by auto. reflexivity. Qed.

Lemma call_input : good_input false order flags sizes spans.
Proof.
  split. { intros E. pose proof flags_len as L. rewrite E in L. simpl in L. lia. }
  rewrite flags_len. split; [apply sizes_len|]. split; [apply spans_len|].
  intros d Hd. destruct (HG (D - S d)%nat ltac:(lia)) as (G1 & G2 & G3).
  pose proof (size_two (D - S d) ltac:(lia)).
  unfold good_dim. rewrite distinct_nth, coords_nth, spans_nth by auto. repeat split; auto; lia.
Qed.

Lemma call_small : small_dims sizes.
Proof.
  intros n Hn. apply (In_nth _ _ 0%nat) in Hn as (d & Hd & <-). rewrite sizes_len in Hd. unfold sizes. rewrite sizes_nth by auto.
  destruct (HG (D - S d)%nat ltac:(lia)) as (G1 & G2 & G3). destruct (flag_of per (D - S d)); lia.
Qed.

Lemma call_coordinate d i : (d < D)%nat -> coordinate false flags sizes spans d i =
  lo_of range (D - S d) + INR i * step_of per range mesh (D - S d).
Proof. intros H. unfold coordinate. rewrite spans_nth by auto. cbn [grid_of]. rewrite step_nth by auto. reflexivity. Qed.

Lemma call_point idx : length idx = D -> grid_point false flags sizes spans (rev idx) = rev (node D per range mesh idx).
Proof.
  intros L. apply (nth_ext' _ _ 0).
  - unfold grid_point, node. rewrite rev_length, !map_length, !seq_length. apply flags_len.
  - intros d Hd. unfold grid_point in *. rewrite map_length, seq_length, flags_len in Hd. rewrite flags_len.
    rewrite nth_map_seq by auto. unfold node. rewrite rev_seq_nth by auto. rewrite call_coordinate by auto.
    rewrite rev_nth by lia. rewrite L. reflexivity.
Qed.

Lemma call_representative idx : length idx = D -> (forall d, (d < D)%nat -> (nth d idx 0 < size_of mesh d)%nat) ->
  representative false flags sizes (rev idx) = rev idx.
Proof.
  intros L H. apply (nth_ext' _ _ 0%nat).
  - unfold representative. rewrite rev_length, map_length, seq_length, flags_len. auto.
  - intros d Hd. unfold representative in *. rewrite map_length, seq_length, flags_len in Hd. rewrite flags_len.
    rewrite nth_map_seq by auto. pose proof (distinct_nth d Hd) as E. destruct (nth d flags false); auto. rewrite E.
    apply Nat.mod_small. rewrite rev_nth by lia. rewrite L. apply H. lia.
Qed.

Lemma call_countable N coor i : good_points D N per range mesh coor -> (i < N)%nat -> countable_point false flags sizes spans (rev (row_of D coor i)).
Proof.
  intros HP Hi d Hd. rewrite flags_len in Hd. rewrite spans_nth by auto. cbn [countable]. rewrite step_nth by auto.
  unfold row_of. rewrite rev_seq_nth by auto. apply HP; auto. lia.
Qed.

Section Made.
Variables (f : MeshM.mesh R) (g : interp R) (mats : list mat).
Hypothesis Df : m_dims f = sizes.
Hypothesis IP : interpolant false order flags sizes spans f g mats.
Let s := if_spline g.

Lemma call_xs d : (d < D)%nat -> xs_of false flags sizes spans d =
  (fun i => lo_of range (D - S d) + INR i * step_of per range mesh (D - S d)).
Proof. intros H. apply functional_extensionality. intros i. apply (call_coordinate d i H). Qed.

Lemma call_width d : (d < D)%nat -> nth d (ddims false flags sizes) 0%nat = size_of mesh (D - S d).
Proof. intros H. rewrite ddims_nth by (rewrite flags_len; auto). apply distinct_nth; auto. Qed.

Lemma call_period d : (d < D)%nat -> flag_of per (D - S d) = true ->
  snd (rng s d) - fst (rng s d) = hi_of range (D - S d) - lo_of range (D - S d) /\
  snd (rng s d) - fst (rng s d) = INR (size_of mesh (D - S d)) * step_of per range mesh (D - S d).
Proof.
  intros H E. pose proof (size_two (D - S d) ltac:(lia)) as H2.
  destruct (s_period false order flags sizes spans f g mats call_input IP d) as (P & _).
  { rewrite flags_len; auto. } { rewrite flags_nth; auto. }
  fold s in P. rewrite call_xs, call_width in P by auto. cbv beta in P. cbn [INR] in P. rewrite P.
  assert (0 < INR (size_of mesh (D - S d))) by (apply lt_0_INR; lia).
  split; [|lra]. unfold step_of. rewrite E. field. lra.
Qed.

Lemma call_knot d i : (d < D)%nat -> (i < length (knot_of s d))%nat ->
  exists k : Z, kn (knot_of s d) i = lo_of range (D - S d) + IZR k * (step_of per range mesh (D - S d) / 2).
Proof.
  intros H Hi. pose proof (s_N false order flags sizes spans call_input d ltac:(rewrite flags_len; auto)) as HN.
  rewrite call_width in HN by auto.
  destruct (flag_of per (D - S d)) eqn:E.
  - destruct (s_pk false order flags sizes spans f g mats IP d) as [L V]. { rewrite flags_len; auto. } { rewrite flags_nth; auto. }
    fold s in L, V. rewrite L in Hi. rewrite V by auto. rewrite call_xs, call_width by auto. cbv beta.
    replace (lo_of range (D - S d) + INR (size_of mesh (D - S d)) * step_of per range mesh (D - S d) - (lo_of range (D - S d) + INR 0 * step_of per range mesh (D - S d)))
      with (INR (size_of mesh (D - S d)) * step_of per range mesh (D - S d)) by (cbn [INR]; ring).
    apply per_half. lia.
  - destruct (s_ap false order flags sizes spans f g mats IP d) as [L V]. { rewrite flags_len; auto. } { rewrite flags_nth; auto. }
    fold s in L, V. rewrite L in Hi. rewrite V by auto. rewrite call_xs by auto. apply ap_half.
Qed.

Lemma call_off d x : (d < D)%nat ->
  off_half_steps per range mesh (D - S d) x -> off_knots s d x.
Proof.
  intros H Hx x' W i Hi E.
  assert (Hl : (i < length (knot_of s d))%nat).
  { pose proof (s_len false order flags sizes spans f g mats call_input IP d ltac:(rewrite flags_len; auto)) as HL. fold s in HL.
    pose proof (s_order false order flags sizes spans f g mats IP) as HO. fold s in HO. unfold last_of in Hi. rewrite HO in Hi. lia. }
  destruct (call_knot d i H Hl) as (k & Ek). rewrite Ek in E. clear Ek.
  unfold wrapped in W. unfold s in W. rewrite (s_per_of false order flags sizes spans f g mats IP d), flags_nth in W by auto. fold s in W.
  destruct (flag_of per (D - S d)) eqn:Ef.
  - destruct W as [(m & Em) _]. destruct (call_period d H Ef) as [_ P]. rewrite P in Em.
    apply (Hx (k - m * (2 * Z.of_nat (size_of mesh (D - S d))))%Z).
    rewrite minus_IZR, !mult_IZR, <- INR_IZR_INZ. lra.
  - apply (Hx k). lra.
Qed.
Lemma call_good : good_spline s.
Proof. apply (s_good false order flags sizes spans f g mats call_input IP). Qed.
Lemma call_dim : sp_dim s = D.
Proof. unfold s. rewrite (s_dim false order flags sizes spans f g mats IP). apply flags_len. Qed.

Lemma call_pk d : (d < D)%nat -> flag_of per (D - S d) = true -> periodic_knots s d.
Proof.
  intros Hd E. assert (HL : (d < length flags)%nat) by (rewrite flags_len; auto).
  assert (HF : nth d flags false = true) by (rewrite flags_nth; auto).
  destruct (s_pk false order flags sizes spans f g mats IP d HL HF) as [L V].
  pose proof (s_N false order flags sizes spans call_input d HL) as HN.
  pose proof (s_incr false order flags sizes spans call_input d HL) as Hx. rewrite HF in Hx.
  pose proof (s_num false order flags sizes spans f g mats IP d) as En. fold s in L, V, En.
  constructor.
  - unfold s. rewrite (s_per_of false order flags sizes spans f g mats IP d). auto.
  - intros i Hi. rewrite En in *. rewrite L in Hi. rewrite !V by lia.
    destruct (s_period false order flags sizes spans f g mats call_input IP d HL HF) as (P & _). fold s in P. rewrite P.
    apply per_shift; auto.
  - rewrite En, L. unfold s. rewrite (s_order false order flags sizes spans f g mats IP). pose proof (half_cases order). lia.
Qed.

Lemma call_periodic xs ys d (m : Z) : length xs = D -> length ys = D -> (d < D)%nat -> flag_of per d = true ->
  (forall e, (e < D)%nat -> e <> d -> nth e ys 0 = nth e xs 0) ->
  nth d ys 0 = nth d xs 0 + IZR m * (hi_of range d - lo_of range d) -> sval s (rev ys) = sval s (rev xs).
Proof.
  intros Lx Ly Hd Hp He E. apply sval_ext. intros e j He'. rewrite call_dim in He'. rewrite !rev_nth by lia. rewrite Lx, Ly.
  destruct (Nat.eq_dec (D - S e) d) as [Ed|Nd].
  - rewrite Ed, E. assert (Fe : flag_of per (D - S e) = true) by (rewrite Ed; auto).
    destruct (call_period e He' Fe) as [P _]. rewrite Ed in P. rewrite <- P.
    apply beta_periodic; [apply call_good|rewrite call_dim; auto| |].
    + apply call_pk; auto.
    + destruct (s_pk false order flags sizes spans f g mats IP e) as [L V]. { rewrite flags_len; auto. } { rewrite flags_nth; auto. }
      fold s in L. unfold s at 1. rewrite (s_order false order flags sizes spans f g mats IP).
      destruct order as [|q]; [|left; lia]. right. rewrite L.
      unfold s. rewrite (s_num false 0 flags sizes spans f g mats IP e). change (0 mod 2)%nat with 0%nat. fold s. pose proof (s_order false 0 flags sizes spans f g mats IP) as SO. fold s in SO. rewrite ?SO. unfold sizes. lia.
  - rewrite He; auto. lia.
Qed.
End Made.
End Call.

Lemma mapM_all {A B} (f : A -> res B) (P : A -> B -> Prop) l :
  (forall a, In a l -> exists b, f a = Ok b /\ P a b) -> exists bs, mapM f l = Ok bs /\ Forall2 P l bs.
Proof.
  induction l as [|a l IH]; intros H.
  - exists []. split; constructor.
  - destruct (H a) as (b & E & Pb); [simpl; auto|]. destruct IH as (bs & Es & Ps); [intros; apply H; simpl; auto|].
    exists (b :: bs). cbn [mapM]. rewrite E. cbn [bind]. rewrite Es. split; auto.
Qed.

Lemma Forall2_len {A B} (P : A -> B -> Prop) l m : Forall2 P l m -> length l = length m.
Proof. induction 1; cbn [length]; auto. Qed.

Lemma Forall2_nth {A B} (P : A -> B -> Prop) l m da db : Forall2 P l m -> forall i, (i < length l)%nat -> P (nth i l da) (nth i m db).
Proof. induction 1; intros [|i] Hi; cbn [length nth] in *; try lia; auto. apply IHForall2. lia. Qed.

Lemma mex_function on order D per range mesh :
  (1 <= D <= 3)%nat -> shaped_data D per range mesh -> good_data order D range mesh ->
  exists F : list R -> R,
    (forall idx, length idx = D -> (forall d, (d < D)%nat -> (nth d idx 0 < size_of mesh d)%nat) ->
       F (node D per range mesh idx) = elem 0 mesh idx) /\
    (forall xs ys d (m : Z), length xs = D -> length ys = D -> (d < D)%nat -> flag_of per d = true ->
       (forall e, (e < D)%nat -> e <> d -> nth e ys 0 = nth e xs 0) ->
       nth d ys 0 = nth d xs 0 + IZR m * (hi_of range d - lo_of range d) -> F ys = F xs) /\
    forall N coor deriv, shaped_points D N coor deriv -> good_points D N per range mesh coor ->
      exists vs, mex Rops on false order per range mesh coor deriv = Done (Ok vs) /\ length vs = N /\
        forall i, (i < N)%nat ->
          ((forall d, (d < D)%nat -> order_of deriv d = 0%nat) -> nth i vs 0 = F (row_of D coor i)) /\
          ((forall d, (d < D)%nat -> off_half_steps per range mesh d (elem 0 coor [i; d])) ->
             is_mixed (map (order_of deriv) (seq 0 D)) F (row_of D coor i) (nth i vs 0)).
Proof.
  intros HD HS HG.
  pose proof (call_input order D per range mesh HD HS HG) as GI.
  pose proof (call_small order D per range mesh HD HG) as SM.
  destruct (mex_mesh_ok Rops on D per range mesh HS) as (f & Ef & Df & Wf & Vf).
  set (fl := flags D per) in *. set (sz := mesh_sizes D per mesh) in *. set (sp := spans D range) in *.
  assert (Lf : length fl = D) by apply flags_len.
  destruct (make_ok on false order fl sz sp f GI) as (g & Eg); auto.
  { intros d Hd. right; right. exists (lo_of range (D - S d)), (hi_of range (D - S d)). apply spans_nth. congruence. }
  destruct (get_interpolant on false order fl sz sp f g GI Df Wf Eg) as (mats & IP).
  set (s := if_spline g).
  exists (fun ys => sval s (rev ys)). split; [|split].
  - intros idx Li Hi. rewrite <- (call_point D per range mesh) by auto.
    assert (V : valid sz (rev idx)).
    { apply valid_nth; [rewrite rev_length, Li; symmetry; apply sizes_len|]. unfold sz. rewrite sizes_len. intros d Hd.
      rewrite rev_nth, sizes_nth by lia. rewrite Li. specialize (Hi (D - S d)%nat ltac:(lia)). lia. }
    unfold s. rewrite (s_value false order fl sz sp f g mats GI IP); [|unfold sz; rewrite sizes_len; auto|auto].
    unfold fl, sz. rewrite call_representative by auto. unfold val_at. apply Vf; auto.
  - intros xs ys d m Lx Ly Hd Hp He E. apply (call_periodic order D per range mesh HD HS HG f g mats IP xs ys d m); auto.
  - intros N coor deriv SP GP. rewrite (mex_shaped Rops on false order D N) by auto.
    rewrite (mex_nd_eq Rops on false order D N per range mesh coor deriv f) by auto.
    change (rev (map (fun d => flag_of per d) (seq 0 D))) with fl.
    change (rev (map (fun d => Uniform (elem (o0 Rops) range [d; 0%nat]) (elem (o0 Rops) range [d; 1%nat])) (seq 0 D))) with sp.
    rewrite Eg. cbn [bind].
    set (os := map (order_of deriv) (seq 0 D)).
    assert (Lo : length os = D) by (unfold os; rewrite map_length, seq_length; auto).
    assert (Lr : forall i, length (row_of D coor i) = D) by (intros; unfold row_of; rewrite map_length, seq_length; auto).
    destruct (mapM_all (fun i => interp_derivative Rops on g (rev (row_of D coor i)) (rev os))
      (fun i v => v = tensor (dbas s (rev (row_of D coor i)) (rev os)) (ctrl_at Rops s)) (seq 0 N)) as (vs & Ev & Hv).
    { intros i Hi. apply in_seq in Hi. eexists; split; [|reflexivity].
      apply (s_derivative false order fl sz sp f g mats GI IP); rewrite ?rev_length, ?Lr, ?Lo; auto.
      apply (call_countable D per range mesh HD N); auto. lia. }
    exists vs. unfold row_of in Ev. change (@elem R (o0 Rops)) with (@elem R 0).
    change (map (fun d => order_of deriv d) (seq 0 D)) with os. rewrite Ev. split; auto.
    pose proof (Forall2_len _ _ _ Hv) as LV. rewrite seq_length in LV. split; auto.
    intros i Hi. pose proof (Forall2_nth _ _ _ 0%nat 0 Hv i ltac:(rewrite seq_length; auto)) as E. cbv beta in E.
    rewrite seq_nth in E by auto. cbn [plus] in E. change (0 + i)%nat with i in E.
    assert (Ds : sp_dim s = D) by apply (call_dim order D per range mesh f g mats IP).
    split.
    + intros HZ. rewrite E, sval_dbas. do 2 f_equal. rewrite Ds.
      apply (nth_ext' _ _ 0%nat); [rewrite rev_length, repeat_length; auto|].
      intros d Hd. rewrite rev_length, Lo in Hd. rewrite nth_repeat. unfold os. rewrite rev_seq_nth by auto. apply HZ. lia.
    + intros HO. rewrite E. apply mixed_reversed; rewrite ?Lr, ?Lo; auto.
      * apply (call_good order D per range mesh HD HS HG f g mats IP).
      * intros d Hd. rewrite Ds in Hd. unfold row_of. rewrite rev_seq_nth by auto.
        apply (call_off order D per range mesh HD HS HG f g mats IP d); auto. apply HO. lia.
Qed.
