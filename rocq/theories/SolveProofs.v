(** All rounds together: the control points solve the tensor-product system. *)
From Coq Require Import List Arith Lia Bool ZArith Reals Lra.
From Verif Require Import Base Num MeshM SpecMesh MeshProofs ProgM BandM LUM SplineM InterpM.
From Verif Require Import SumR DenseLU SpecBand MulProofs LUProofs LUConv SpecSpline TensorR SolverProofs RoundProofs.
Import ListNotations.
Open Scope nat_scope.

(** Row [idx] of a tensor product of matrices, one factor per dimension. *)
Fixpoint mrow (dims : list nat) (mats : list mat) (idx : list nat) : list (nat * (nat -> R)) :=
  match dims, mats, idx with
  | n :: dims, A :: mats, i :: idx => (n, A i) :: mrow dims mats idx
  | _, _, _ => []
  end.

Lemma mrow_dims dims mats idx : length mats = length dims -> length idx = length dims ->
  map fst (mrow dims mats idx) = dims.
Proof.
  revert mats idx; induction dims as [|n dims IH]; intros [|A mats] [|i idx] H1 H2; try discriminate; auto.
  cbn [mrow map fst]. f_equal. apply IH; simpl in *; lia.
Qed.

Lemma tensor_sum bs n (a : nat -> R) (c : nat -> list nat -> R) :
  tensor bs (fun idx => sum n (fun k => a k * c k idx)%R) = sum n (fun k => a k * tensor bs (c k))%R.
Proof.
  induction n; cbn [sum].
  - transitivity (0 * tensor bs (fun _ => 0))%R; [|ring]. rewrite <- tensor_scal. apply tensor_ext. intros. ring.
  - rewrite tensor_plus, IHn, tensor_scal. reflexivity.
Qed.

(** Unisolvence of tensor products. *)
Lemma tensor_ker dims mats c :
  Forall2 (fun n A => pivots_ok A n) dims mats ->
  (forall idx, valid dims idx -> tensor (mrow dims mats idx) c = 0%R) ->
  forall idx, valid dims idx -> c idx = 0%R.
Proof.
  intros H; revert c; induction H as [|n A dims mats Hp HF IH]; intros c Hc idx Hv.
  - inversion Hv; subst. apply (Hc []). constructor.
  - destruct idx as [|k idx]; [inversion Hv|]. apply valid_cons in Hv as [Hk Hv].
    apply (IH (fun idx => c (k :: idx))); auto. intros idx' Hv'.
    apply (pivots_ker A n (fun k => tensor (mrow dims mats idx') (fun idx => c (k :: idx)))); auto.
    intros i Hi. rewrite <- (Hc (i :: idx')) by (apply valid_cons; auto).
    cbn [mrow tensor]. rewrite Rsum_sum. reflexivity.
Qed.

Lemma tensor_unique dims mats c c' :
  Forall2 (fun n A => pivots_ok A n) dims mats ->
  (forall idx, valid dims idx -> tensor (mrow dims mats idx) c = tensor (mrow dims mats idx) c') ->
  forall idx, valid dims idx -> c idx = c' idx.
Proof.
  intros H Hc idx Hv.
  assert (E : (c idx + -1 * c' idx = 0)%R); [|lra].
  apply (tensor_ker dims mats (fun idx => c idx + -1 * c' idx)%R); auto.
  intros i Hi. rewrite tensor_plus, tensor_scal, Hc by auto. ring.
Qed.

(** The array holding the data before round [d]. *)
Definition arr (D d : nat) : nat := if 1 <? D then d mod 2 else 0.

Lemma round_dims_ok pre suf : round_dims (pre ++ suf) (length suf) = Ok (suf ++ pre).
Proof.
  assert (G : forall s p, round_dims (p ++ s) (length s) = Ok (s ++ p)).
  { induction s as [|n s IH]; intros p; cbn [length round_dims app].
    - rewrite app_nil_r. auto.
    - change (n :: s) with ([n] ++ s). rewrite app_assoc. rewrite IH. cbn [bind].
      rewrite app_assoc. apply right_shift_ok. }
  apply G.
Qed.

Definition good_mem (dims : list nat) (m : mem R) : Prop :=
  map (@length R) m = [prod dims; if 1 <? length dims then prod dims else 1].

Lemma good_mem_nth dims m a : good_mem dims m -> a < 2 -> (a = 0 \/ 1 < length dims) -> length (nth a m []) = prod dims.
Proof.
  intros H Ha Hc. rewrite <- (map_nth (@length R)), H. destruct a as [|[|]]; try lia; auto.
  cbn [nth]. destruct (Nat.ltb_spec 1 (length dims)); auto. lia.
Qed.

Lemma split_at {A} (l : list A) k d : k < length l -> l = firstn k l ++ nth k l d :: skipn (S k) l.
Proof.
  revert k; induction l as [|a l IH]; intros k L; [simpl in L; lia|].
  destruct k; auto. cbn [firstn nth app]. change (skipn (S (S k)) (a :: l)) with (skipn (S k) l).
  f_equal. apply IH. simpl in L. lia.
Qed.

Lemma split_app_inv {A} (a b a' b' : list A) : a ++ b = a' ++ b' -> length a = length a' -> a = a' /\ b = b'.
Proof.
  revert a'; induction a as [|x a IH]; intros [|x' a'] E H; try discriminate; auto.
  injection E as -> E. apply IH in E as [-> ->]; auto.
Qed.

Section Rounds.
Variables (on : bool) (dims : list nat) (mats : list mat) (solvers : list (solver R)) (w : list nat -> R).
Hypothesis Hpos : 0 < prod dims.
Hypothesis Lm : length mats = length dims.
Hypothesis Ls : length solvers = length dims.
Let D := length dims.

(** What the data array means after [d] rounds. *)
Definition round_inv (d : nat) (m : mem R) : Prop :=
  good_mem dims m /\
  forall pre suf mpre msuf ip is,
  dims = pre ++ suf -> mats = mpre ++ msuf -> length mpre = length pre -> length suf = d ->
  valid pre ip -> valid suf is ->
  tensor (mrow suf msuf is) (fun ks => mval 0%R m (arr D d, row_major (suf ++ pre) (ks ++ ip))) = w (ip ++ is).

Definition sv_at (k : nat) : solver R := nth k solvers (Aperiodic (band_make Rops 0 0 0)).
Definition n_at (k : nat) : nat := nth k dims 0.
Definition A_at (k : nat) : mat := nth k mats (fun _ _ => 0%R).

Lemma split_dims d : d < D ->
  exists pre suf, dims = (pre ++ [n_at (D - 1 - d)]) ++ suf /\ length suf = d /\ length pre = D - 1 - d.
Proof.
  intros Hd. exists (firstn (D - 1 - d) dims), (skipn (S (D - 1 - d)) dims).
  assert (HD : D = length dims) by reflexivity. split; [|split].
  - rewrite <- app_assoc. cbn [app]. apply split_at. lia.
  - rewrite skipn_length. lia.
  - rewrite firstn_length. lia.
Qed.

Lemma solve_round_eq d pre suf n : d < D ->
  dims = (pre ++ [n]) ++ suf -> length suf = d -> length pre = D - 1 - d ->
  solve_round Rops on solvers dims d =
  pfor 0 (prod (suf ++ pre)) (line_prog Rops on (sv_at (D - 1 - d)) (d mod 2) (1 - d mod 2) n (prod (suf ++ pre)) (1 <? D)).
Proof.
  intros Hd Ed Hs Hp. assert (HD : D = length dims) by reflexivity.
  assert (Hall : 0 < n /\ 0 < prod (suf ++ pre)).
  { pose proof Hpos as P. rewrite Ed in P. rewrite !prod_app in *. cbn [prod] in P. nia. }
  destruct Hall as [Hn Hh].
  unfold solve_round. replace d with (length suf) at 1. rewrite Ed at 1. rewrite round_dims_ok. cbn [plift pbind].
  rewrite app_assoc. rewrite right_shift_ok. cbn [plift pbind].
  rewrite <- HD. rewrite usub_ok by lia. cbn [bind]. rewrite usub_ok by lia. cbn [bind].
  rewrite (vget_ok _ _ (Aperiodic (band_make Rops 0 0 0))) by lia. fold (sv_at (D - 1 - d)). cbn [plift pbind].
  assert (LD : length ((suf ++ pre) ++ [n]) = D).
  { rewrite HD, Ed. rewrite !app_length. simpl. lia. }
  assert (LD' : length (suf ++ pre) = D - 1) by (rewrite (app_length (suf ++ pre)) in LD; simpl in LD; lia).
  unfold hyperplane_size. rewrite usub_ok by lia. cbn [bind].
  rewrite (vget_ok _ _ 0) by lia. cbn [bind].
  rewrite app_nth2 by lia.
  replace (length ((suf ++ pre) ++ [n]) - 1 - length (suf ++ pre)) with 0 by lia.
  cbn [nth]. unfold udiv. destruct (Nat.eqb_spec n 0); [lia|]. rewrite md_size_prod, prod_app. cbn [prod].
  replace (prod (suf ++ pre) * (n * 1)) with (prod (suf ++ pre) * n) by lia. rewrite Nat.div_mul by lia. cbn [plift pbind].
  replace (1 <? D) with (1 <? length ((suf ++ pre) ++ [n])) by (rewrite LD; reflexivity).
  rewrite (solve_block_lines Rops on (sv_at (D - 1 - d)) d (suf ++ pre) n).
  - reflexivity.
  - auto.
  - apply prod_pos. auto.
  - lia.
Qed.

Lemma round_step d m : d < D -> round_inv d m ->
  solver_spec on (n_at (D - 1 - d)) (A_at (D - 1 - d)) (sv_at (D - 1 - d)) ->
  exists m1, run (solve_round Rops on solvers dims d) m = Ok (tt, m1) /\ round_inv (d + 1) m1.
Proof.
  intros Hd [Hm HI] HS. assert (HD : D = length dims) by reflexivity.
  destruct (split_dims d Hd) as (pre & suf & Ed & Hs & Hp).
  set (n := n_at (D - 1 - d)) in *. set (A := A_at (D - 1 - d)) in *.
  set (h := prod (suf ++ pre)).
  rewrite (solve_round_eq d pre suf n) by auto. fold h.
  assert (Hall : 0 < n /\ 0 < h /\ prod dims = h * n).
  { pose proof Hpos as P. assert (EP : prod dims = h * n).
    { unfold h. rewrite (f_equal prod Ed). rewrite !prod_app. cbn [prod]. ring. }
    rewrite EP in P. nia. }
  destruct Hall as (Hn & Hh & EP).
  pose proof (Nat.mod_upper_bound d 2) as Hd2.
  assert (D1 : (1 <? D) = false -> d = 0 /\ pre = [] /\ suf = []).
  { intros E. apply Nat.ltb_ge in E. split; [lia|]. split; apply length_zero_iff_nil; lia. }
  assert (Harr : arr D d = d mod 2).
  { unfold arr. destruct (1 <? D) eqn:E; auto. destruct (D1 eq_refl) as [-> _]. auto. }
  destruct (block_effect on n h (d mod 2) (1 - d mod 2) (1 <? D) A (sv_at (D - 1 - d)) HS) with (m0 := m) (lo := 0) (hi := h)
    as (m1 & E & EL & EV & _).
  - lia.
  - split.
    + rewrite (good_mem_nth dims); auto.
      destruct (1 <? D) eqn:E; [right; apply Nat.ltb_lt in E; lia|]. destruct (D1 eq_refl) as [-> _]. auto.
    + intros E. apply Nat.ltb_lt in E. rewrite (good_mem_nth dims); auto; lia.
  - lia.
  - exists m1. split; auto. split; [unfold good_mem in *; congruence|].
    intros pre0 suf0 mpre msuf ip is E1 E2 L1 L2 V1 V2.
    assert (X : pre0 = pre /\ suf0 = n :: suf).
    { rewrite Ed in E1. rewrite <- app_assoc in E1. symmetry in E1. apply split_app_inv in E1; auto.
      apply (f_equal (@length nat)) in E1. rewrite !app_length in E1. simpl in E1. lia. }
    destruct X as [-> ->]. destruct is as [|i is]; [inversion V2|]. apply valid_cons in V2 as [Hi V2].
    destruct msuf as [|A' msuf].
    { apply (f_equal (@length mat)) in E2. rewrite app_length in E2. simpl in E2, L2. lia. }
    assert (EA : A' = A).
    { unfold A, A_at. rewrite E2. rewrite app_nth2 by lia. replace (D - 1 - d - length mpre) with 0 by lia. auto. }
    subst A'. cbn [mrow tensor app]. rewrite Rsum_sum.
    assert (Li : length ip = length pre) by (apply valid_length; auto).
    assert (Hout : forall ks k, valid suf ks -> k < n ->
       (arr D (d + 1), row_major (n :: suf ++ pre) (k :: ks ++ ip)) =
       out_cell n h (d mod 2) (1 - d mod 2) (1 <? D) (row_major (suf ++ pre) (ks ++ ip)) k).
    { intros ks k Vk Hk. unfold out_cell, arr. cbn [row_major]. fold h. destruct (1 <? D) eqn:E1D.
      - f_equal. replace (d + 1) with (S d) by lia. pose proof (Nat.div_mod d 2). pose proof (Nat.div_mod (S d) 2).
        pose proof (Nat.mod_upper_bound (S d) 2). lia.
      - destruct (D1 eq_refl) as (-> & -> & ->). cbn [app row_major prod] in *. f_equal. unfold h. cbn [app prod].
        destruct ks as [|? ks]; [|inversion Vk]. destruct ip; [|discriminate]. cbn [app row_major]. lia. }
    transitivity (tensor (mrow suf msuf is) (fun ks => sum n (fun k => A i k * mval 0 m1 (out_cell n h (d mod 2) (1 - d mod 2) (1 <? D) (row_major (suf ++ pre) (ks ++ ip)) k))%R)).
    + rewrite tensor_sum. apply sum_ext. intros k Hk. f_equal. apply tensor_ext. intros ks Vk.
      rewrite mrow_dims in Vk.
      * rewrite Hout by auto. reflexivity.
      * apply (f_equal (@length mat)) in E2. rewrite app_length in E2. simpl in E2, L2. lia.
      * apply valid_length; auto.
    + assert (Lsuf : length msuf = length suf).
      { apply (f_equal (@length mat)) in E2. rewrite app_length in E2. simpl in E2, L2. lia. }
      assert (E2' : mats = (mpre ++ [A]) ++ msuf) by (rewrite <- app_assoc; auto).
      replace (ip ++ i :: is) with ((ip ++ [i]) ++ is) by (rewrite <- app_assoc; auto).
      rewrite <- (HI (pre ++ [n]) suf (mpre ++ [A]) msuf (ip ++ [i]) is); auto.
      * apply tensor_ext. intros ks Vk. rewrite mrow_dims in Vk; auto; [|apply valid_length; auto].
        rewrite EV; auto.
        { rewrite Harr. f_equal. f_equal. rewrite !app_assoc. rewrite (row_major_app (suf ++ pre) [n]).
          - cbn [prod row_major]. lia.
          - rewrite !app_length. rewrite (valid_length _ _ Vk). lia. }
        { split; [lia|]. apply row_major_lt. apply valid_app; auto. }
      * rewrite !app_length. simpl. lia.
      * apply valid_app; auto. constructor; auto.
Qed.

Definition rounds : prog R unit := pfor 0 D (solve_round Rops on solvers dims).

Lemma rounds_ok m : round_inv 0 m ->
  (forall k, k < D -> solver_spec on (n_at k) (A_at k) (sv_at k)) ->
  exists m1, run rounds m = Ok (tt, m1) /\ round_inv D m1.
Proof.
  intros H0 HS. unfold rounds. rewrite run_pfor.
  destruct (for_inv round_inv 0 D m (fun m i => r <- run (solve_round Rops on solvers dims i) m ;; Ok (snd r))) as (m1 & E & I).
  - lia.
  - auto.
  - intros d m' Hd I. destruct (round_step d m') as (m1 & E & I1); auto; try lia.
    { apply HS. lia. }
    exists m1. rewrite E. auto.
  - exists m1. split; auto. etransitivity; [apply (f_equal (fun r => bind r (fun m => Ok (tt, m))) E)|]. reflexivity.
Qed.

Lemma rounds_inv m u m1 : round_inv 0 m ->
  (forall k, k < D -> lufac (sv_at k) (n_at k) (A_at k)) ->
  run rounds m = Ok (u, m1) ->
  round_inv D m1 /\ (forall k, k < D -> pivots_ok (A_at k) (n_at k)).
Proof.
  intros H0 HF E. unfold rounds in E. rewrite run_pfor in E. apply bind_Ok in E as (m2 & E & E'). inversion E'; subst m2 u; clear E'.
  assert (HD : D = length dims) by reflexivity.
  apply (for_post (fun d m => round_inv d m /\ forall k, D - d <= k < D -> pivots_ok (A_at k) (n_at k))) in E.
  - destruct E as [E1 E2]. split; auto. intros. apply E2. lia.
  - lia.
  - split; auto. intros; lia.
  - clear m m1 H0 E. intros d m m1 Hd [I HP] E. apply bind_Ok in E as ([u m2] & E & E'). inversion E'; subst m2; clear E'.
    assert (Hd' : d < D) by lia.
    destruct (split_dims d Hd') as (pre & suf & Ed & Hs & Hp).
    assert (Hh : 0 < prod (suf ++ pre)).
    { pose proof Hpos as P. rewrite Ed in P. rewrite !prod_app in *. cbn [prod] in P. nia. }
    assert (PV : pivots_ok (A_at (D - 1 - d)) (n_at (D - 1 - d))).
    { rewrite (solve_round_eq d pre suf _ Hd' Ed Hs Hp) in E. rewrite run_pfor in E.
      apply bind_Ok in E as (m2 & E & _). unfold for_ in E.
      replace (prod (suf ++ pre) - 0) with (S (prod (suf ++ pre) - 1)) in E by lia. cbn [seq foldM] in E.
      apply bind_Ok in E as (m3 & E & _). apply bind_Ok in E as ([u3 m4] & E & _).
      unfold line_prog in E at 1. rewrite run_bind in E. apply bind_Ok in E as (r & E & _).
      eapply lufac_inv; [|exact E]. apply HF. lia. }
    destruct (round_step d m) as (m2 & E2 & I2); auto.
    { apply lufac_spec; auto. apply HF. lia. }
    rewrite E in E2. cbn [snd]. assert (m2 = m1) by congruence. subst m2. split; auto.
    intros k Hk. destruct (Nat.eq_dec k (D - 1 - d)) as [->|]; auto. apply HP. lia.
Qed.

Lemma final_ok m : 0 < D -> round_inv D m ->
  exists c, final_mesh dims m = Ok c /\ m_dims c = dims /\ length (m_data c) = prod dims /\
    forall is, valid dims is -> tensor (mrow dims mats is) (fun ks => nth (row_major dims ks) (m_data c) 0%R) = w is.
Proof.
  intros HD0 [Hm HI]. assert (HD : D = length dims) by reflexivity.
  assert (Lmem : length m = 2).
  { pose proof (f_equal (@length nat) Hm) as E. rewrite map_length in E. auto. }
  unfold final_mesh. rewrite <- HD. set (a := if (D mod 2 =? 0) || (D =? 1) then 0 else 1).
  assert (Ea : a = arr D D).
  { unfold a, arr. pose proof (Nat.mod_upper_bound D 2). destruct (Nat.eqb_spec (D mod 2) 0) as [E|E]; cbn [orb].
    - destruct (1 <? D); auto.
    - destruct (Nat.eqb_spec D 1) as [E1|E1]; destruct (Nat.ltb_spec 1 D); lia. }
  assert (Ha : a < 2) by (unfold a; destruct ((D mod 2 =? 0) || (D =? 1)); lia).
  rewrite (vget_ok _ _ []) by lia. cbn [bind].
  assert (Er : (if D =? 1 then Ok dims else round_dims dims D) = Ok dims).
  { destruct (D =? 1); auto. rewrite HD. pose proof (round_dims_ok [] dims) as X. cbn [app] in X. rewrite app_nil_r in X. auto. }
  rewrite Er. cbn [bind]. eexists. split; [reflexivity|]. cbn [m_dims m_data]. split; auto. split.
  - apply good_mem_nth; auto. unfold a. destruct (Nat.eqb_spec (D mod 2) 0); cbn [orb]; auto.
    destruct (Nat.eqb_spec D 1); auto. right. lia.
  - intros is V. change (w is) with (w ([] ++ is)). rewrite <- (HI [] dims [] mats [] is); auto; [|constructor].
    apply tensor_ext. intros ks Vk. cbn [app]. rewrite !app_nil_r. unfold mval. cbn [fst snd]. rewrite Ea. reflexivity.
Qed.

Lemma initial_inv (wm : mesh R) : m_dims wm = dims -> length (m_data wm) = prod dims ->
  (forall idx, valid dims idx -> nth (row_major dims idx) (m_data wm) 0%R = w idx) ->
  round_inv 0 (initial_mem Rops dims wm).
Proof.
  intros E1 E2 Hw. unfold initial_mem. split.
  - unfold good_mem. cbn [map]. f_equal; auto. f_equal. destruct (1 <? length dims); auto. rewrite repeat_length. apply md_size_prod.
  - intros pre suf mpre msuf ip is F1 F2 F3 F4 V1 V2. apply length_zero_iff_nil in F4. subst suf.
    assert (is = []) by (inversion V2; auto). subst is. rewrite !app_nil_r in *. subst pre. cbn [mrow tensor].
    rewrite <- Hw by auto. cbn [app]. unfold mval, arr. cbn [fst snd]. change (0 mod 2) with 0.
    destruct (1 <? D); reflexivity.
Qed.
End Rounds.
