(** Rounding errors of the solves along all dimensions. *)
From Coq Require Import FunctionalExtensionality List Arith Lia Bool ZArith Reals Lra Psatz.
From Verif Require Import Base Num MeshM SpecMesh MeshProofs ProgM BandM LUM SplineM InterpM.
From Verif Require Import SumR DenseLU SpecBand BandProofs MulProofs LUProofs SpecSpline TensorR SpecRound GenLU RoundLU RoundLUTop CoefProofs RoundProofs SolveProofs GenSolve.
Import ListNotations.
Local Open Scope R_scope.

(** ** Tensor products of rows with bounded sums *)
Lemma sum_abs_le n f : Rabs (sum n f) <= sum n (fun i => Rabs (f i)).
Proof. induction n; cbn [sum]; [rewrite Rabs_R0; lra|]. eapply Rle_trans; [apply Rabs_triang|]. lra. Qed.

Lemma sum_le n f g : (forall i, (i < n)%nat -> f i <= g i) -> sum n f <= sum n g.
Proof. induction n; intros H; cbn [sum]; [lra|]. pose proof (H n ltac:(lia)). pose proof (IHn ltac:(intros; apply H; lia)). lra. Qed.

Lemma tensor_abs bs rho M c : 0 <= rho -> 0 <= M ->
  Forall (fun b => sum (fst b) (fun i => Rabs (snd b i)) <= rho) bs ->
  (forall idx, valid (map fst bs) idx -> Rabs (c idx) <= M) -> Rabs (tensor bs c) <= rho ^ length bs * M.
Proof.
  intros Hr HM H. revert c. induction H as [|[n b] bs Hb Hs IH]; intros c Hc; cbn [tensor length pow map fst snd] in *.
  - rewrite Rmult_1_l. apply Hc. constructor.
  - change Rsum with sum. eapply Rle_trans; [apply sum_abs_le|].
    apply Rle_trans with (sum n (fun i => Rabs (b i) * (rho ^ length bs * M))).
    + apply sum_le. intros i Hi. rewrite Rabs_mult. apply Rmult_le_compat_l; [apply Rabs_pos|].
      apply IH. intros idx V. apply Hc. apply valid_cons. auto.
    + rewrite sum_scal_r. assert (0 <= rho ^ length bs * M) by (apply Rmult_le_pos; auto; apply pow_le; auto). nra.
Qed.

Lemma tensor_minus bs c c' : tensor bs c - tensor bs c' = tensor bs (fun idx => c idx - c' idx).
Proof.
  rewrite (tensor_ext bs (fun idx => c idx - c' idx) (fun idx => c idx + -1 * c' idx)) by (intros; ring).
  rewrite tensor_plus, tensor_scal. ring.
Qed.

Section Round.
Context {T : Type} (o : ops T) (val : T -> R) (good : T -> Prop).
Local Notation z := (o0 o).
Local Notation gsabs := (gsabs o).

(** ** One line *)
Section Line.
Context (u eta : R) (Hr : strict_rounding o val good u eta).

(** What a solve with the factors [F] of [A] means for a right-hand side and a
    result. *)
Definition line_rel (n : nat) (A F : nat -> nat -> T) (b x : nat -> T) : Prop :=
  (forall i j, (i < n)%nat -> (j < n)%nat -> good (F i j)) -> (forall i, (i < n)%nat -> good (x i)) ->
  forall i, (i < n)%nat -> good (b i) /\ (forall j, (j < n)%nat -> good (A i j)) /\
    Rabs (sum n (fun j => val (A i j) * val (x j)) - val (b i)) <= residual_bound u eta n (fun i j => val (F i j)) (fun j => val (x j)) i.

Lemma line_rel_ext n A F : Qext n (line_rel n A F).
Proof using Type.
  intros b b' x x' Hb Hx H GF GX i Hi.
  destruct (H GF ltac:(intros; rewrite Hx by auto; auto) i Hi) as (H1 & H2 & H3).
  rewrite <- Hb by auto. split; auto. split; auto.
  rewrite (sum_ext n _ (fun j => val (A i j) * val (x j))) by (intros; rewrite Hx by auto; reflexivity).
  eapply Rle_trans; [exact H3|]. right. unfold residual_bound. change Rsum with sum. f_equal; f_equal.
  - apply sum_ext. intros k Hk. f_equal. apply sum_ext. intros j Hj. rewrite Hx by auto. reflexivity.
  - f_equal. apply sum_ext. intros j Hj. rewrite Hx by auto. reflexivity.
Qed.

Lemma factor_solves on per n bw m f : gsinv per n bw m -> (0 < n)%nat -> (per = true -> 2 * bw <= n)%nat ->
  coef_factor o on m = Ok f -> gsinv per n bw f /\ solves o on n (line_rel n (gsabs m) (gsabs f)) f.
Proof using All.
  intros I Hn Hb E. destruct m as [m|m]; cbn [gsinv coef_factor] in *; destruct I as [-> Hw]; apply bind_Ok in E as (f' & E & E'); injection E' as <-.
  - destruct (gband_lu o (dvo o) (dvo_ok o val good u eta Hr) on n bw bw m Hw Hn) as (f0 & Ef & Hwf & Hf).
    assert (f0 = f') by congruence. subst f0. split; [split; auto|].
    intros iter m0 Hi Hok. cbn [solver_solve].
    destruct (gband_solve o (dvo o) (dvo_ok o val good u eta Hr) on n bw bw f' iter m0 (fun i => mval z m0 (iter i)) Hi Hok Hwf) as (m1 & Es & Hh); auto.
    eexists m1, _. split; [exact Es|]. split; [exact Hh|].
    intros GF GX i Hi'. cbn [GenSolve.gsabs] in *.
    assert (EF : babs z f' = giter o (dvo o) (brow n bw) (brow n bw) (babs z m) (n - 1)).
    { apply functional_extensionality. intros a. apply functional_extensionality. intros b. apply Hf. }
    rewrite EF in *. change sum with Rsum.
    apply (solve_inputs o val good u eta Hr n (brow n bw) (brow n bw) (babs z m) (fun i => mval z m0 (iter i))); auto; try apply brow_range; try apply brow_mono.
    + intros a k Hk Ho. apply brow_false in Ho; auto. apply (babs_out z n bw bw); auto. unfold in_band. lia.
    + intros a k Hk Ho. apply brow_false in Ho; auto. apply (babs_out z n bw bw); auto. unfold in_band. lia.
  - specialize (Hb eq_refl). destruct (geband_lu o (dvo o) (dvo_ok o val good u eta Hr) on n bw bw m Hw) as (f0 & Ef & Hwf & Hf).
    assert (f0 = f') by congruence. subst f0. split; [split; auto|].
    intros iter m0 Hi Hok. cbn [solver_solve].
    destruct (geband_solve o (dvo o) (dvo_ok o val good u eta Hr) on n bw bw f' iter m0 (fun i => mval z m0 (iter i)) Hi Hok Hwf) as (m1 & Es & Hh); auto; [lia|].
    eexists m1, _. split; [exact Es|]. split; [exact Hh|].
    intros GF GX i Hi'. cbn [GenSolve.gsabs] in *.
    assert (EF : eabs z f' = giter o (dvo o) (erow n bw bw) (erow n bw bw) (eabs z m) (n - 1)).
    { apply functional_extensionality. intros a. apply functional_extensionality. intros b. apply Hf. }
    rewrite EF in *. change sum with Rsum.
    apply (solve_inputs o val good u eta Hr n (erow n bw bw) (erow n bw bw) (eabs z m) (fun i => mval z m0 (iter i))); auto; try apply erow_range; try apply erow_mono.
    + intros a k Hk Ho. apply erow_false in Ho; auto. apply (eabs_out z n bw bw); auto. unfold in_ext, in_band. lia.
    + intros a k Hk Ho. apply erow_false in Ho; auto. apply (eabs_out z n bw bw); auto. unfold in_ext, in_band. lia.
Qed.
End Line.

(** ** All rounds *)
Definition bounded_rel (nu tau : R) (n : nat) (A : mat) (b x : nat -> T) : Prop :=
  forall C, 0 <= C -> (forall i, (i < n)%nat -> good (x i) /\ Rabs (val (x i)) <= C) ->
  forall i, (i < n)%nat -> good (b i) /\ Rabs (sum n (fun j => A i j * val (x j)) - val (b i)) <= nu * C + tau.

Lemma bounded_rel_ext nu tau n A : Qext n (bounded_rel nu tau n A).
Proof using Type.
  intros b b' x x' Hb Hx H C HC GX i Hi. destruct (H C HC ltac:(intros; rewrite Hx by auto; auto) i Hi) as (H1 & H2).
  rewrite <- Hb by auto. split; auto.
  rewrite (sum_ext n _ (fun j => A i j * val (x j))) by (intros; rewrite Hx by auto; reflexivity). exact H2.
Qed.

Section Rounds.
Context (on : bool) (dims : list nat) (mats : list mat) (solvers : list (solver T)) (w : list nat -> T) (nu tau rho : R).
Context (Hpos : (0 < prod dims)%nat) (Lm : length mats = length dims) (Ls : length solvers = length dims).
Context (Hnu : 0 <= nu) (Htau : 0 <= tau) (Hrho : 1 <= rho).
Let D := length dims.
Let kap := rho + nu.
Local Notation n_at := (n_at dims).
Local Notation A_at := (A_at mats).
Local Notation sv_at := (gsv_at o solvers).
Context (Hrow : forall k i, (k < D)%nat -> (i < n_at k)%nat -> sum (n_at k) (fun j => Rabs (A_at k i j)) <= rho).

Definition err (d : nat) (C : R) : R := INR d * kap ^ d * (nu * C + tau).

Definition rinv (d : nat) (m : mem T) : Prop :=
  good_mem dims m /\
  forall C, 0 <= C -> (forall l, (l < prod dims)%nat -> good (mval z m (arr D d, l)) /\ Rabs (val (mval z m (arr D d, l))) <= C) ->
  forall pre suf mpre msuf ip is,
  dims = pre ++ suf -> mats = mpre ++ msuf -> length mpre = length pre -> length suf = d ->
  valid pre ip -> valid suf is ->
  good (w (ip ++ is)) /\
  Rabs (tensor (mrow suf msuf is) (fun ks => val (mval z m (arr D d, row_major (suf ++ pre) (ks ++ ip)))) - val (w (ip ++ is))) <= err d C.

Lemma kap_1 : 1 <= kap.
Proof using Hnu Hrho. unfold kap. lra. Qed.

Lemma err_step d C : 0 <= C -> err d (kap * C + tau) + rho ^ d * (nu * C + tau) <= err (S d) C.
Proof using Hnu Htau Hrho.
  intros HC. unfold err. pose proof kap_1 as K1. rewrite S_INR. cbn [pow].
  assert (KD : 1 <= kap ^ d) by (apply pow_R1_Rle; auto).
  assert (RD : rho ^ d <= kap ^ d) by (apply pow_incr; unfold kap; lra).
  pose proof (pos_INR d) as Pd. set (q := kap ^ d) in *. set (r := rho ^ d) in *.
  assert (EK : kap = rho + nu) by reflexivity.
  assert (S0 : 0 <= nu * C) by (apply Rmult_le_pos; auto).
  assert (N1 : 0 <= nu * (nu * C)) by (apply Rmult_le_pos; auto). assert (N2 : 0 <= nu * tau) by (apply Rmult_le_pos; auto).
  set (S := nu * C + tau) in *.
  assert (E2 : nu * (kap * C + tau) + tau <= kap * S) by (unfold S; rewrite EK; nra).
  assert (E1 : r * S <= q * (kap * S)).
  { apply Rmult_le_compat; try lra; [unfold r; apply pow_le; lra|unfold S; lra|]. assert (1 * S <= kap * S) by (apply Rmult_le_compat_r; unfold S; lra). lra. }
  assert (E3 : INR d * q * (nu * (kap * C + tau) + tau) <= INR d * q * (kap * S)).
  { apply Rmult_le_compat_l; auto. apply Rmult_le_pos; lra. }
  replace ((INR d + 1) * (kap * q) * S) with (INR d * q * (kap * S) + q * (kap * S)) by ring. lra.
Qed.

Lemma mrow_bound pre suf mpre msuf is : dims = pre ++ suf -> mats = mpre ++ msuf -> length mpre = length pre -> valid suf is ->
  Forall (fun b => sum (fst b) (fun i => Rabs (snd b i)) <= rho) (mrow suf msuf is).
Proof using All.
  assert (HD : D = length dims) by reflexivity.
  revert pre mpre msuf is. induction suf as [|n suf IH]; intros pre mpre msuf is Ed Em Hl V; [constructor|].
  destruct is as [|i is]; [inversion V|]. apply valid_cons in V as [Hi V].
  destruct msuf as [|A msuf]; cbn [mrow]; [constructor|].
  constructor.
  - cbn [fst snd]. pose proof (Hrow (length pre) i) as H. unfold SolveProofs.n_at, SolveProofs.A_at in H.
    rewrite Ed, Em, <- Hl in H. rewrite !app_nth2 in H by lia. rewrite Hl, Nat.sub_diag in H. cbn [nth] in H.
    apply H; auto. rewrite HD, Ed, app_length. simpl. lia.
  - apply (IH (pre ++ [n]) (mpre ++ [A]) msuf is); auto; try (rewrite <- app_assoc; auto). rewrite !app_length. simpl. lia.
Qed.

Lemma rstep d m : (d < D)%nat -> rinv d m ->
  solves o on (n_at (D - 1 - d)) (bounded_rel nu tau (n_at (D - 1 - d)) (A_at (D - 1 - d))) (sv_at (D - 1 - d)) ->
  exists m1, run (solve_round o on solvers dims d) m = Ok (tt, m1) /\ rinv (d + 1) m1.
Proof using All.
  intros Hd [Hm HI] HS. assert (HD : D = length dims) by reflexivity.
  destruct (GenSolve.split_dims dims solvers Hpos Ls d Hd) as (pre & suf & Ed & Hs & Hp).
  fold D in Ed, Hp.
  set (n := n_at (D - 1 - d)) in *. set (A := A_at (D - 1 - d)) in *.
  set (h := prod (suf ++ pre)).
  rewrite (solve_round_eq o on dims solvers Hpos Ls d pre suf n) by auto. fold h. fold D.
  assert (Hall : (0 < n /\ 0 < h /\ prod dims = h * n)%nat).
  { pose proof Hpos as P. assert (EP : (prod dims = h * n)%nat).
    { unfold h. rewrite (f_equal prod Ed). rewrite !prod_app. cbn [prod]. ring. }
    rewrite EP in P. nia. }
  destruct Hall as (Hn & Hh & EP).
  pose proof (Nat.mod_upper_bound d 2) as Hd2.
  assert (D1 : (1 <? D)%nat = false -> d = 0%nat /\ pre = [] /\ suf = []).
  { intros E. apply Nat.ltb_ge in E. split; [lia|]. split; apply length_zero_iff_nil; lia. }
  assert (Harr : arr D d = (d mod 2)%nat).
  { unfold arr. destruct (1 <? D)%nat eqn:E; auto. destruct (D1 eq_refl) as [-> _]. auto. }
  destruct (block_effect o on n h (d mod 2) (1 - d mod 2) (1 <? D)%nat _ (sv_at (D - 1 - d)) HS (bounded_rel_ext nu tau n A)) with (m0 := m) (lo := 0%nat) (hi := h)
    as (m1 & E & EL & EV & _).
  - lia.
  - split.
    + rewrite (good_mem_nth dims); auto.
      destruct (1 <? D)%nat eqn:E; [right; apply Nat.ltb_lt in E; lia|]. destruct (D1 eq_refl) as [-> _]. auto.
    + intros E. apply Nat.ltb_lt in E. rewrite (good_mem_nth dims); auto; lia.
  - lia.
  - exists m1. split; auto. split; [unfold good_mem in *; congruence|].
    intros C HC Hcells.
    (* the cells of the solved lines *)
    assert (Cell : forall j k, (j < h)%nat -> (k < n)%nat ->
      good (mval z m1 (out_cell n h (d mod 2) (1 - d mod 2) (1 <? D)%nat j k)) /\
      Rabs (val (mval z m1 (out_cell n h (d mod 2) (1 - d mod 2) (1 <? D)%nat j k))) <= C).
    { intros j k Hj Hk.
      assert (exists l, (l < prod dims)%nat /\ out_cell n h (d mod 2) (1 - d mod 2) (1 <? D)%nat j k = (arr D (d + 1), l)) as (l & Hl & ->); [|auto].
      unfold out_cell, arr. destruct (1 <? D)%nat eqn:E1D.
      - exists (k * h + j)%nat. split; [rewrite EP; nia|]. f_equal. replace (d + 1)%nat with (S d) by lia. pose proof (Nat.div_mod d 2). pose proof (Nat.div_mod (S d) 2).
        pose proof (Nat.mod_upper_bound (S d) 2). lia.
      - exists (j * n + k)%nat. split; [rewrite EP; nia|]. destruct (D1 eq_refl) as (-> & _). reflexivity. }
    assert (Lines : forall j i, (j < h)%nat -> (i < n)%nat -> good (mval z m (d mod 2, j * n + i)%nat) /\
       Rabs (sum n (fun k => A i k * val (mval z m1 (out_cell n h (d mod 2) (1 - d mod 2) (1 <? D)%nat j k))) - val (mval z m (d mod 2, j * n + i)%nat)) <= nu * C + tau).
    { intros j i Hj Hi. exact (EV j ltac:(lia) C HC (fun k Hk => Cell j k Hj Hk) i Hi). }
    assert (RowA : forall i, (i < n)%nat -> sum n (fun k => Rabs (A i k)) <= rho) by (intros i Hi; apply Hrow; auto; lia).
    assert (Old : forall l, (l < prod dims)%nat -> good (mval z m (arr D d, l)) /\ Rabs (val (mval z m (arr D d, l))) <= kap * C + tau).
    { intros l Hl. rewrite Harr. rewrite EP in Hl. pose proof (Nat.div_mod l n ltac:(lia)) as Q. pose proof (Nat.mod_upper_bound l n ltac:(lia)) as Q'.
      assert (Hj : (l / n < h)%nat) by (apply Nat.div_lt_upper_bound; lia).
      destruct (Lines (l / n)%nat (l mod n)%nat Hj Q') as [G B]. replace (l / n * n + l mod n)%nat with l in * by lia.
      split; auto. set (v := val (mval z m (d mod 2, l)%nat)) in *.
      set (S := sum n _) in B.
      assert (SB : Rabs S <= rho * C).
      { unfold S. eapply Rle_trans; [apply sum_abs_le|].
        apply Rle_trans with (sum n (fun k => Rabs (A (l mod n)%nat k) * C)).
        - apply sum_le. intros k Hk. rewrite Rabs_mult. apply Rmult_le_compat_l; [apply Rabs_pos|]. apply Cell; auto.
        - rewrite sum_scal_r. apply Rmult_le_compat_r; auto. }
      replace v with (S - (S - v)) by ring. eapply Rle_trans; [apply Rabs_triang|]. rewrite Rabs_Ropp. unfold kap. lra. }
    intros pre0 suf0 mpre msuf ip is E1 E2 L1 L2 V1 V2.
    assert (X : pre0 = pre /\ suf0 = n :: suf).
    { rewrite Ed in E1. rewrite <- app_assoc in E1. symmetry in E1. apply split_app_inv in E1; auto.
      apply (f_equal (@length nat)) in E1. rewrite !app_length in E1. simpl in E1. lia. }
    destruct X as [-> ->]. destruct is as [|i is]; [inversion V2|]. apply valid_cons in V2 as [Hi V2].
    destruct msuf as [|A' msuf].
    { apply (f_equal (@length mat)) in E2. rewrite app_length in E2. simpl in E2, L2. lia. }
    assert (EA : A' = A).
    { unfold A, SolveProofs.A_at. rewrite E2. rewrite app_nth2 by lia. replace (D - 1 - d - length mpre)%nat with 0%nat by lia. auto. }
    subst A'. cbn [mrow tensor app]. change Rsum with sum.
    assert (Li : length ip = length pre) by (apply valid_length; auto).
    assert (Hout : forall ks k, valid suf ks -> (k < n)%nat ->
       (arr D (d + 1), row_major (n :: suf ++ pre) (k :: ks ++ ip)) =
       out_cell n h (d mod 2) (1 - d mod 2) (1 <? D)%nat (row_major (suf ++ pre) (ks ++ ip)) k).
    { intros ks k Vk Hk. unfold out_cell, arr. cbn [row_major]. fold h. destruct (1 <? D)%nat eqn:E1D.
      - f_equal. replace (d + 1)%nat with (S d) by lia. pose proof (Nat.div_mod d 2). pose proof (Nat.div_mod (S d) 2).
        pose proof (Nat.mod_upper_bound (S d) 2). lia.
      - destruct (D1 eq_refl) as (-> & -> & ->). cbn [app row_major prod] in *. f_equal. unfold h. cbn [app prod].
        destruct ks as [|? ks]; [|inversion Vk]. destruct ip; [|discriminate]. cbn [app row_major]. lia. }
    assert (Lsuf : length msuf = length suf).
    { apply (f_equal (@length mat)) in E2. rewrite app_length in E2. simpl in E2, L2. lia. }
    set (cell := fun ks k => val (mval z m1 (out_cell n h (d mod 2) (1 - d mod 2) (1 <? D)%nat (row_major (suf ++ pre) (ks ++ ip)) k))).
    replace (sum n (fun i0 => A i i0 * tensor (mrow suf msuf is) (fun idx => val (mval z m1 (arr D (d + 1), row_major (n :: suf ++ pre) (i0 :: idx ++ ip))))))
      with (tensor (mrow suf msuf is) (fun ks => sum n (fun k => A i k * cell ks k))).
    2:{ rewrite tensor_sum. apply sum_ext. intros k Hk. f_equal. apply tensor_ext. intros ks Vk.
        rewrite mrow_dims in Vk by (auto; apply valid_length; auto). unfold cell. rewrite <- Hout by auto. reflexivity. }
    assert (E2' : mats = (mpre ++ [A]) ++ msuf) by (rewrite <- app_assoc; auto).
    replace (ip ++ i :: is) with ((ip ++ [i]) ++ is) by (rewrite <- app_assoc; auto).
    destruct (HI (kap * C + tau) ltac:(pose proof kap_1; nra) Old (pre ++ [n]) suf (mpre ++ [A]) msuf (ip ++ [i]) is) as [GW BW]; auto.
    { rewrite !app_length. simpl. lia. }
    { apply valid_app; auto. constructor; auto. }
    split; [exact GW|].
    set (old := fun ks => val (mval z m (arr D d, row_major (suf ++ pre ++ [n]) (ks ++ ip ++ [i])))) in *.
    replace (tensor (mrow suf msuf is) (fun ks => sum n (fun k => A i k * cell ks k)) - val (w ((ip ++ [i]) ++ is)))
      with ((tensor (mrow suf msuf is) (fun ks => sum n (fun k => A i k * cell ks k)) - tensor (mrow suf msuf is) old) + (tensor (mrow suf msuf is) old - val (w ((ip ++ [i]) ++ is)))) by ring.
    eapply Rle_trans; [apply Rabs_triang|]. replace (d + 1)%nat with (S d) by lia.
    eapply Rle_trans; [|apply err_step; exact HC]. rewrite Rplus_comm. apply Rplus_le_compat; [exact BW|].
    rewrite tensor_minus.
    assert (Lrow : length (mrow suf msuf is) = d).
    { rewrite <- (map_length fst), mrow_dims; auto. apply valid_length; auto. }
    rewrite <- Lrow at 1. apply tensor_abs; try nra.
    { apply (mrow_bound (pre ++ [n]) suf (mpre ++ [A]) msuf is); auto. rewrite !app_length. simpl. lia. }
    intros ks Vk. rewrite mrow_dims in Vk by (auto; apply valid_length; auto).
    assert (Vj : (row_major (suf ++ pre) (ks ++ ip) < h)%nat) by (apply row_major_lt; apply valid_app; auto).
    destruct (Lines (row_major (suf ++ pre) (ks ++ ip)) i Vj Hi) as [_ B]. unfold old, cell. rewrite Harr.
    replace (row_major (suf ++ pre ++ [n]) (ks ++ ip ++ [i])) with (row_major (suf ++ pre) (ks ++ ip) * n + i)%nat; [exact B|].
    rewrite !app_assoc. rewrite (row_major_app (suf ++ pre) [n]).
    + cbn [prod row_major]. lia.
    + rewrite !app_length. rewrite (valid_length _ _ Vk). lia.
Qed.

Lemma rounds_all m : rinv 0 m ->
  (forall k, (k < D)%nat -> solves o on (n_at k) (bounded_rel nu tau (n_at k) (A_at k)) (sv_at k)) ->
  exists m1, run (pfor 0 D (solve_round o on solvers dims)) m = Ok (tt, m1) /\ rinv D m1.
Proof using All.
  intros H0 HS. rewrite run_pfor.
  destruct (for_inv rinv 0 D m (fun m i => r <- run (solve_round o on solvers dims i) m ;; Ok (snd r))) as (m1 & E & I).
  - lia.
  - auto.
  - intros d m' Hd I. destruct (rstep d m') as (m1 & E & I1); auto; try lia.
    { apply HS. lia. }
    exists m1. rewrite E. replace (S d) with (d + 1)%nat by lia. auto.
  - exists m1. split; auto. etransitivity; [apply (f_equal (fun r => bind r (fun m => Ok (tt, m))) E)|]. reflexivity.
Qed.

Lemma final_error m : (0 < D)%nat -> rinv D m ->
  exists c, final_mesh dims m = Ok c /\ m_dims c = dims /\ length (m_data c) = prod dims /\
    forall C, 0 <= C -> (forall a, In a (m_data c) -> good a /\ Rabs (val a) <= C) ->
    forall is, valid dims is -> good (w is) /\
      Rabs (tensor (mrow dims mats is) (fun ks => val (nth (row_major dims ks) (m_data c) z)) - val (w is)) <= err D C.
Proof using All.
  intros HD0 [Hm HI]. assert (HD : D = length dims) by reflexivity.
  assert (Lmem : length m = 2%nat).
  { pose proof (f_equal (@length nat) Hm) as E. rewrite map_length in E. auto. }
  unfold final_mesh. rewrite <- HD. set (a := if ((D mod 2 =? 0) || (D =? 1))%nat then 0%nat else 1%nat).
  assert (Ea : a = arr D D).
  { unfold a, arr. pose proof (Nat.mod_upper_bound D 2). destruct (Nat.eqb_spec (D mod 2) 0) as [E|E]; cbn [orb].
    - destruct (1 <? D)%nat; auto.
    - destruct (Nat.eqb_spec D 1) as [E1|E1]; destruct (Nat.ltb_spec 1 D); lia. }
  assert (Ha : (a < 2)%nat) by (unfold a; destruct ((D mod 2 =? 0) || (D =? 1))%nat; lia).
  rewrite (vget_ok _ _ []) by lia. cbn [bind].
  assert (Er : (if (D =? 1)%nat then Ok dims else round_dims dims D) = Ok dims).
  { destruct (D =? 1)%nat; auto. rewrite HD. pose proof (round_dims_ok [] dims) as X. cbn [app] in X. rewrite app_nil_r in X. auto. }
  rewrite Er. cbn [bind].
  assert (La : length (nth a m []) = prod dims).
  { apply good_mem_nth; auto. unfold a. destruct (Nat.eqb_spec (D mod 2) 0); cbn [orb]; auto.
    destruct (Nat.eqb_spec D 1); auto. right. lia. }
  eexists. split; [reflexivity|]. cbn [m_dims m_data]. split; auto. split; auto.
  intros C HC Hc is V. 
  destruct (HI C HC) with (pre := @nil nat) (suf := dims) (mpre := @nil mat) (msuf := mats) (ip := @nil nat) (is := is) as [G B]; auto.
  { intros l Hl. unfold mval. cbn [fst snd]. rewrite <- Ea. apply Hc. apply nth_In. lia. }
  { constructor. }
  cbn [app] in *. split; auto. eapply Rle_trans; [|exact B]. right. f_equal. f_equal.
  apply tensor_ext. intros ks Vk. rewrite !app_nil_r. unfold mval. cbn [fst snd]. rewrite Ea. reflexivity.
Qed.

Lemma initial_rinv (wm : mesh T) : m_dims wm = dims -> length (m_data wm) = prod dims ->
  (forall idx, valid dims idx -> nth (row_major dims idx) (m_data wm) z = w idx) ->
  rinv 0 (initial_mem o dims wm).
Proof using All.
  intros E1 E2 Hw. unfold initial_mem. split.
  - unfold good_mem. cbn [map]. f_equal; auto. f_equal. destruct (1 <? length dims)%nat; auto. rewrite repeat_length. apply md_size_prod.
  - intros C HC Hc pre suf mpre msuf ip is F1 F2 F3 F4 V1 V2. apply length_zero_iff_nil in F4. subst suf.
    assert (is = []) by (inversion V2; auto). subst is. rewrite !app_nil_r in *. subst pre. cbn [mrow tensor].
    assert (X : mval z [m_data wm; if (1 <? length dims)%nat then repeat (o0 o) (md_size dims) else [o0 o]] (arr D 0, row_major dims ip) = w ip).
    { rewrite <- Hw by auto. unfold mval, arr. cbn [fst snd]. change (0 mod 2)%nat with 0%nat. destruct (1 <? D)%nat; reflexivity. }
    cbn [app]. split.
    + rewrite <- X. apply Hc. apply row_major_lt. auto.
    + rewrite X. unfold err. rewrite Rminus_diag_eq by auto. rewrite Rabs_R0. cbn [INR]. lra.
Qed.
End Rounds.
End Round.
