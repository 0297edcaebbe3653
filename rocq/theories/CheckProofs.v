(** Which element accesses are refused when assertions are enabled; iterator
    arithmetic; resizing. *)
From Coq Require Import List Arith Lia Bool ZArith QArith.
From Verif Require Import Base Num MeshM BandM SpecMesh MeshProofs SpecBand BandProofs LUTop.
Import ListNotations.
Open Scope nat_scope.

Lemma mesh_safe_off {T} (m : mesh T) idx v : mesh_get_safe false m idx = mesh_get m idx /\ mesh_set_safe false m idx v = mesh_set m idx v.
Proof. split; reflexivity. Qed.

Lemma mesh_checked_element {T} (m : mesh T) idx v :
  wf_mesh m -> length idx = length (m_dims m) ->
  (valid (m_dims m) idx -> mesh_get_safe true m idx = mesh_get m idx /\ mesh_set_safe true m idx v = mesh_set m idx v /\
     exists w, mesh_get m idx = Ok w) /\
  (~ valid (m_dims m) idx -> mesh_get_safe true m idx = Throw AssertFailed /\ mesh_set_safe true m idx v = Throw AssertFailed) /\
  mesh_get_safe false m idx = mesh_get m idx /\ mesh_set_safe false m idx v = mesh_set m idx v.
Proof.
  intros Hw Hl. split; [|split; [|apply mesh_safe_off]].
  - intros Hv. rewrite (mesh_get_safe_ok m v Hw) by auto. rewrite (mesh_get_ok m v Hw) by auto.
    rewrite mesh_set_safe_ok, mesh_set_ok by auto. eauto.
  - intros Hv. unfold mesh_get_safe, mesh_set_safe. rewrite md_indexing_safe_invalid by auto. auto.
Qed.

Lemma sk_incs_off k it : sk_off (sk_incs k it) = (sk_off it + Z.of_nat k * sk_step it)%Z /\ sk_step (sk_incs k it) = sk_step it.
Proof.
  revert it; induction k as [|k IH]; intros it; cbn [sk_incs].
  - split; auto. lia.
  - destruct (IH (sk_inc it)) as [-> ->]. unfold sk_inc. cbn [sk_off sk_step]. split; auto. lia.
Qed.
Lemma skip_eq a b : sk_off a = sk_off b -> sk_step a = sk_step b -> a = b.
Proof. destruct a, b; simpl; congruence. Qed.

Lemma iter_arithmetic it n k :
  sk_dec (sk_inc it) = it /\ sk_inc (sk_dec it) = it /\
  sk_sub (sk_add it n) n = it /\ sk_sub it n = sk_add it (- n) /\
  sk_add it (Z.of_nat k) = sk_incs k it /\ sk_incs k (sk_sub it (Z.of_nat k)) = it /\
  (sk_step it <> 0%Z -> sk_diff (sk_add it n) it = Ok n /\ sk_diff it (sk_sub it n) = Ok n).
Proof.
  pose proof (sk_incs_off k it) as [H1 H2]. pose proof (sk_incs_off k (sk_sub it (Z.of_nat k))) as [H3 H4].
  repeat match goal with |- _ /\ _ => split end.
  - apply skip_eq; cbn; lia.
  - apply skip_eq; cbn; lia.
  - apply skip_eq; cbn; lia.
  - apply skip_eq; cbn [sk_off sk_step sk_sub sk_add]; lia.
  - apply skip_eq; cbn [sk_off sk_step sk_add]; lia.
  - apply skip_eq; rewrite ?H3, ?H4; cbn [sk_off sk_step sk_sub]; lia.
  - intros Hs. unfold sk_diff. cbn [sk_off sk_step sk_sub sk_add]. apply Z.eqb_neq in Hs. rewrite Hs. apply Z.eqb_neq in Hs.
    split; f_equal; [replace (sk_off it + n * sk_step it - sk_off it)%Z with (n * sk_step it)%Z by lia
                    |replace (sk_off it - (sk_off it - n * sk_step it))%Z with (n * sk_step it)%Z by lia]; apply Z.quot_mul; auto.
Qed.

(** Resizing. *)
Lemma row_major_first a b dims i idx : row_major (a :: dims) (i :: idx) = row_major (b :: dims) (i :: idx).
Proof. reflexivity. Qed.

Lemma resize_ok {T} (pad : T) (m : mesh T) sizes : wf_mesh m ->
  wf_mesh (mesh_resize pad m sizes) /\ m_dims (mesh_resize pad m sizes) = sizes /\
  (forall a b dims idx, m_dims m = a :: dims -> sizes = b :: dims ->
     (valid (a :: dims) idx -> valid (b :: dims) idx -> mesh_get (mesh_resize pad m sizes) idx = mesh_get m idx) /\
     (~ valid (a :: dims) idx -> valid (b :: dims) idx -> mesh_get (mesh_resize pad m sizes) idx = Ok pad)).
Proof.
  intros Hw. split; [apply wf_mesh_resize|]. split; [reflexivity|]. intros a b dims idx Ea Eb.
  pose proof (wf_mesh_resize pad m sizes) as Hr. split; intros Ha Hb.
  - rewrite (mesh_get_ok (mesh_resize pad m sizes) pad Hr) by (cbn [m_dims mesh_resize]; rewrite Eb; auto).
    rewrite (mesh_get_ok m pad Hw) by (rewrite Ea; auto). f_equal. cbn [m_dims m_data mesh_resize]. rewrite Ea.
    pose proof (row_major_lt _ _ Ha) as La. pose proof (row_major_lt _ _ Hb) as Lb.
    assert (E : row_major sizes idx = row_major (a :: dims) idx). { rewrite Eb. destruct idx; auto. }
    rewrite E. unfold wf_mesh in Hw. rewrite Ea in Hw.
    rewrite app_nth1 by (rewrite firstn_length, md_size_prod, Eb, Hw; rewrite <- Eb, E in Lb; rewrite Eb in Lb; lia).
    rewrite md_size_prod. rewrite <- Eb, E in Lb.
    clear - Lb. revert Lb. generalize (prod sizes) (row_major (a :: dims) idx) (m_data m). clear.
    intros k. induction k; intros i l H; [lia|]. destruct l; [rewrite firstn_nil; auto|]. destruct i; auto. cbn [firstn nth]. apply IHk. lia.
  - rewrite (mesh_get_ok (mesh_resize pad m sizes) pad Hr) by (cbn [m_dims mesh_resize]; rewrite Eb; auto). f_equal.
    cbn [m_dims m_data mesh_resize]. pose proof (row_major_lt _ _ Hb) as Lb.
    destruct idx as [|i idx]; [inversion Hb|]. apply valid_cons in Hb as [Hi Hv].
    assert (Hia : a <= i). { destruct (Nat.le_gt_cases a i); auto. exfalso. apply Ha. apply valid_cons. auto. }
    unfold wf_mesh in Hw. rewrite Ea in Hw. cbn [prod] in Hw.
    assert (Hge : length (m_data m) <= row_major sizes (i :: idx)). { rewrite Hw, Eb. cbn [row_major]. nia. }
    rewrite app_nth2 by (rewrite firstn_length; lia). apply nth_repeat.
Qed.

(** Band matrices. *)
Section Band.
Context {T : Type} (o : ops T).

Lemma valid2_iff a b i j : valid [a; b] [i; j] <-> i < a /\ j < b.
Proof.
  split.
  - intros H. apply valid_cons in H as [H1 H]. apply valid_cons in H as [H2 _]. auto.
  - intros [H1 H2]. apply valid2; auto.
Qed.

Lemma safe2 (m : mesh T) a b i j v : wf2 a b m ->
  (i < a /\ j < b -> (exists w, mesh_get_safe true m [i; j] = Ok w) /\ exists m', mesh_set_safe true m [i; j] v = Ok m') /\
  (~ (i < a /\ j < b) -> mesh_get_safe true m [i; j] = Throw AssertFailed /\ mesh_set_safe true m [i; j] v = Throw AssertFailed).
Proof.
  intros [Hd Hw]. destruct (mesh_checked_element m [i; j] v Hw) as (H1 & H2 & _); [rewrite Hd; reflexivity|].
  rewrite Hd, valid2_iff in *. split.
  - intros H. destruct (H1 H) as (E1 & E2 & w & E3). rewrite E1, E2. split; eauto.
    rewrite (mesh_set_ok m Hw) by (rewrite Hd; apply valid2; tauto). eauto.
  - auto.
Qed.

Definition band_accepts (n p q i j : nat) : Prop := i <= j + p /\ j <= i + q /\ j < n.

Lemma band_check n p q m i j v : wfb n p q m ->
  (band_accepts n p q i j -> (exists w, band_get true m i j = Ok w) /\ exists m', band_set (T := T) true m i j v = Ok m') /\
  (~ band_accepts n p q i j -> band_get true m i j = Throw AssertFailed /\ band_set true m i j v = Throw AssertFailed).
Proof.
  intros (En & Ep & Eq & Hw). unfold band_accepts, band_get, band_set. rewrite Ep, Eq.
  destruct (Nat.leb_spec i (j + p)), (Nat.leb_spec j (i + q)); cbn [andb]; unfold intp_assert; cbn [andb negb bind]; split; try lia; auto.
  - intros Ha. rewrite usub_ok by lia. cbn [bind]. destruct (safe2 (b_bands m) n (1 + p + q) j (i + q - j) v Hw) as [S1 _].
    destruct S1 as ((w & ->) & (m' & ->)); [lia|]. cbn [bind]. eauto.
  - intros Ha. rewrite usub_ok by lia. cbn [bind]. destruct (safe2 (b_bands m) n (1 + p + q) j (i + q - j) v Hw) as [_ S2].
    destruct S2 as [-> ->]; [lia|]. auto.
Qed.

Lemma side_check n p q m i j v : wfe n p q m ->
  (in_side n p q i j -> (exists w, eb_side_get true m i j = Ok w) /\ exists m', eb_side_set (T := T) true m i j v = Ok m') /\
  (~ in_side n p q i j -> eb_side_get true m i j = Throw AssertFailed /\ eb_side_set true m i j v = Throw AssertFailed).
Proof.
  intros Hw. split.
  - intros Hs. rewrite (eb_side_get_ok v true n p q) by auto.
    destruct (eb_side_set_ok v true n p q m i j v Hw Hs) as (m' & E & _). split; eauto.
  - intros Hs. destruct (wfe_npq _ _ _ _ Hw) as (En & Ep & Eq). destruct Hw as (Hb & Hp & Hq & Hr & Hbo).
    unfold eb_side_get, eb_side_set, eb_side_check. rewrite En, Ep, Eq. cbn match. rewrite (usub_ok n p) by lia. cbn [bind].
    rewrite (usub_ok n q) by lia. cbn [bind].
    unfold in_side in Hs.
    destruct (Nat.leb_spec (Nat.max (n - p) (i + q + 1)) j), (Nat.leb_spec (Nat.max (n - q) (j + p + 1)) i); cbn [orb]; unfold intp_assert; cbn [andb negb bind].
    1: lia.
    + destruct (Nat.ltb_spec (i + q) j); [|lia]. rewrite usub_ok by lia. cbn [bind].
      destruct (safe2 (e_right m) (n - q - 1) p i (j + p - n) v Hr) as [_ S2]. destruct S2 as [-> ->]; [lia|]. auto.
    + destruct (Nat.ltb_spec (i + q) j); [lia|]. rewrite usub_ok by lia. cbn [bind].
      destruct (safe2 (e_bottom m) (n - p - 1) q j (i + q - n) v Hbo) as [_ S2]. destruct S2 as [-> ->]; [lia|]. auto.
    + auto.
Qed.
End Band.

Lemma band_checks {T} (o : ops T) on n p q h : writes_in (in_band n p q) h ->
  exists m, build_band o on n p q h = Ok m /\ forall i j v,
    (i <= j + p /\ j <= i + q /\ j < n -> (exists w, band_get true m i j = Ok w) /\ exists m', band_set true m i j v = Ok m') /\
    (~ (i <= j + p /\ j <= i + q /\ j < n) -> band_get true m i j = Throw AssertFailed /\ band_set true m i j v = Throw AssertFailed).
Proof.
  intros H. destruct (band_history o (o0 o) on n p q h H) as (m & E & Hw & _).
  exists m. split; auto. intros i j v. apply (band_check n p q m i j v Hw).
Qed.

Lemma eband_checks {T} (o : ops T) on n p q h : p < n -> q < n -> writes_in (in_ext n p q) h ->
  exists m, build_eband o on n p q h = Ok m /\
    (forall i j, in_band n p q i j -> eb_main_get on m i j = Ok (content (o0 o) h i j)) /\
    (forall i j, in_ext n p q i j -> ~ in_band n p q i j -> eb_side_get on m i j = Ok (content (o0 o) h i j)) /\
    (forall i j v, ~ (in_ext n p q i j /\ ~ in_band n p q i j) ->
       eb_side_get true m i j = Throw AssertFailed /\ eb_side_set true m i j v = Throw AssertFailed) /\
    (forall i j v, ~ in_ext n p q i j -> ~ (i <= j + p /\ j < n) ->
       eb_get true m i j = Throw AssertFailed /\ eb_set true m i j v = Throw AssertFailed).
Proof.
  intros Hp Hq H. destruct (eband_history o (o0 o) on n p q h Hp Hq H) as (m0 & m & E0 & E & Hw & Hc).
  exists m. split; [unfold build_eband; rewrite E0; auto|].
  assert (Hside : forall i j, in_side n p q i j <-> in_ext n p q i j /\ ~ in_band n p q i j).
  { intros i j. unfold in_side, in_ext, in_band. lia. }
  split; [|split; [|split]].
  - intros i j Hij. rewrite (eb_main_get_ok (o0 o) on n p q) by auto. rewrite Hc; auto. apply in_ext_cases. auto.
  - intros i j Hij Hb. rewrite (eb_side_get_ok (o0 o) on n p q) by (auto; apply Hside; auto). rewrite Hc; auto.
  - intros i j v Hn. apply (side_check n p q m i j v Hw). rewrite Hside. auto.
  - intros i j v Hn Hb. destruct (wfe_npq _ _ _ _ Hw) as (En & Ep & Eq). unfold eb_get, eb_set. rewrite Ep, Eq.
    destruct (Nat.ltb_spec (i + q) j), (Nat.ltb_spec (j + p) i); cbn [orb].
    1-3: apply (side_check n p q m i j v Hw); rewrite Hside; tauto.
    unfold eb_main_get, eb_main_set. destruct (band_check n p q (e_base m) i j v) as [_ B]; [apply Hw|].
    destruct B as [-> ->]; auto. unfold band_accepts. lia.
Qed.

(** A row outside the matrix that is not refused. *)
Lemma outside_row : exists n p q h m i j w,
  writes_in (in_band n p q) h /\ build_band Qops true n p q h = Ok m /\ n <= i /\ j < n /\ band_get true m i j = Ok w.
Proof.
  exists 3, 1, 1, [(2, 2, 5%Q); (1, 2, 7%Q)]. eexists. exists 3, 2. eexists.
  split. { repeat constructor. } split; [vm_compute; reflexivity|]. split; [lia|]. split; [lia|]. vm_compute. reflexivity.
Qed.
