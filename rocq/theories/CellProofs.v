(** Correctness of the cell layout. *)
From Coq Require Import List Arith Lia Bool ZArith.
From Verif Require Import Base Num MeshM SpecMesh MeshProofs ProgM SplineM InterpM CellM.
From Verif Require Import TensorR SplineProofs EvalProofs RoundProofs.
Import ListNotations.
Open Scope nat_scope.

Lemma row_major_digits b n l : valid (repeat b n) l -> row_major (repeat b n) (rev l) = rank_low b l.
Proof.
  revert l; induction n; intros [|a l] H; try (inversion H; fail); auto.
  cbn [repeat] in H. apply valid_cons in H as [H1 H2]. cbn [rev rank_low].
  assert (E : repeat b (S n) = repeat b n ++ [b]) by (rewrite <- repeat_cons; reflexivity).
  rewrite E. rewrite row_major_app.
  - rewrite IHn by auto. cbn [prod row_major]. lia.
  - rewrite rev_length. apply valid_length; auto.
Qed.

Lemma valid_rev b n l : valid (repeat b n) l -> valid (repeat b n) (rev l).
Proof.
  revert l; induction n; intros [|a l] H; try (inversion H; fail); auto.
  cbn [repeat] in H. apply valid_cons in H as [H1 H2]. cbn [rev].
  replace (repeat b (S n)) with (repeat b n ++ [b]) by (rewrite <- repeat_cons; reflexivity).
  apply valid_app; auto. repeat constructor; auto.
Qed.

Lemma unrank_digits b n i : i < b ^ n -> unrank (repeat b n) i = rev (digits b n i).
Proof.
  intros H. assert (V := digits_valid b n i H).
  rewrite <- (rank_unrank (repeat b n) (rev (digits b n i))) by (apply valid_rev; auto).
  rewrite row_major_digits by auto. rewrite rank_digits by auto. reflexivity.
Qed.

Lemma digits_length b n i : length (digits b n i) = n.
Proof. revert i; induction n; intros i; cbn [digits length]; auto. Qed.

(** All digits but the last, and the last. *)
Lemma digits_low b n i d : d < n -> 0 < b -> nth d (digits b (S n) i) 0 = nth d (digits b n (i mod b ^ n)) 0.
Proof.
  revert n i; induction d; intros [|n] i Hd Hb; try lia.
  - cbn [digits nth]. rewrite Nat.pow_succ_r'. rewrite Nat.mod_mul_r by (try lia; apply Nat.pow_nonzero; lia).
    rewrite Nat.mul_comm, Nat.mod_add by lia. rewrite Nat.mod_mod by lia. auto.
  - cbn [digits nth]. change (i mod b :: digits b n (i / b)) with (digits b (S n) i) in *.
    transitivity (nth d (digits b (S n) (i / b)) 0); auto.
    rewrite (IHd n (i / b)) by lia. f_equal. f_equal.
    rewrite Nat.pow_succ_r'. assert (b ^ n <> 0) by (apply Nat.pow_nonzero; lia).
    rewrite Nat.mod_mul_r by lia. rewrite (Nat.mul_comm b ((i / b) mod b ^ n)), Nat.div_add by lia.
    rewrite (Nat.div_small (i mod b) b) by (apply Nat.mod_upper_bound; lia). lia.
Qed.

Lemma digits_high b n i : 0 < b -> i < b ^ S n -> nth n (digits b (S n) i) 0 = i / b ^ n.
Proof.
  revert i; induction n; intros i Hb Hi.
  - cbn [digits nth Nat.pow] in *. rewrite Nat.div_1_r. apply Nat.mod_small. lia.
  - change (nth (S n) (digits b (S (S n)) i) 0) with (nth n (digits b (S n) (i / b)) 0).
    rewrite IHn; auto.
    + rewrite Nat.pow_succ_r'. apply Nat.div_div; try lia. apply Nat.pow_nonzero; lia.
    + apply Nat.div_lt_upper_bound; try lia. rewrite Nat.pow_succ_r' in Hi. auto.
Qed.

Lemma set_nth_app2 l x y v : set_nth (l ++ [x; y]) (length l) v = l ++ [v; y].
Proof. induction l; cbn [app length set_nth]; auto. rewrite IHl. auto. Qed.
Lemma upd_app2 {A} (l : list A) x y v : upd (l ++ [x; y]) (length l + 1) v = l ++ [x; v].
Proof. induction l; cbn [app length upd plus]; auto. rewrite IHl. auto. Qed.

Section Cell.
Context {T : Type} (o : ops T) (on : bool).
Notation z := (o0 o).
Variable s : spline T.
Hypothesis W : wf_spline s.
Hypothesis HD : 1 <= sp_dim s.
Let p := sp_order s.
Let D := sp_dim s.

(** Number of cells in dimension [d], and the shape of the cell mesh. *)
Definition cdim (d : nat) : nat :=
  num_of s d + (if per_of s d then p else 0) - (if d =? D - 1 then 0 else p).
Let A := map cdim (seq 0 (D - 1)).
Let n := cdim (D - 1).
Let st := (p + 1) ^ (D - 1).

Lemma num_ge d : d < D -> per_of s d = false -> p + 1 <= num_of s d.
Proof using W HD.
  intros Hd E. pose proof (wf_num _ W d Hd) as H. rewrite E in H. pose proof (wf_len _ W d Hd). unfold p. lia.
Qed.
Lemma num_pos d : d < D -> 0 < num_of s d.
Proof using W HD.
  intros Hd. pose proof (wf_num _ W d Hd) as H. destruct (per_of s d) eqn:E; auto. pose proof (num_ge d Hd E). lia.
Qed.
Lemma cdim_pos d : d < D -> 0 < cdim d.
Proof using W HD.
  intros Hd. unfold cdim. pose proof (num_pos d Hd).
  destruct (per_of s d) eqn:E; [|pose proof (num_ge d Hd E)]; destruct (d =? D - 1); lia.
Qed.
Lemma st_pos : 0 < st.
Proof using HD. unfold st. assert ((p + 1) ^ (D - 1) <> 0) by (apply Nat.pow_nonzero; lia). lia. Qed.

Definition the_cdims : list nat := A ++ [n; st].

Lemma cdims_eq : the_cdims = map cdim (seq 0 D) ++ [st].
Proof using HD.
  unfold the_cdims, A, n. replace D with (S (D - 1)) at 3 by (unfold D; lia).
  rewrite seq_S, map_app. cbn [map plus]. rewrite <- app_assoc. reflexivity.
Qed.
Lemma A_len : length A = D - 1.
Proof using W HD. unfold A. rewrite map_length, seq_length. auto. Qed.

Lemma cell_dims_ok : cell_dims s (sp_ctrl s) = Ok the_cdims.
Proof using W HD.
  unfold cell_dims. fold p D st.
  rewrite (mapM_ok_nth _ _ (map cdim (seq 0 D)) 0 0).
  - cbn [bind]. rewrite cdims_eq. reflexivity.
  - rewrite map_length; auto.
  - rewrite seq_length. intros d Hd. rewrite seq_nth by auto. cbn [plus].
    unfold mesh_dim_size. rewrite (vget_ok _ _ 0) by (rewrite (wf_dims _ W); auto). cbn [bind].
    rewrite vget_per by auto. cbn [bind]. fold (num_of s d). rewrite nth_map_seq by auto.
    rewrite usub_ok. reflexivity.
    pose proof (num_pos d Hd). destruct (per_of s d) eqn:E; [|pose proof (num_ge d Hd E)]; destruct (d =? D - 1); lia.
Qed.

(** The control point stored at entry [i] of cell [u ++ [k]]. *)
Definition csrc (u : list nat) (k i : nat) : list nat :=
  map (fun d => (nth d (u ++ [k]) 0 + (if d =? D - 1 then 0 else nth d (digits (p + 1) (D - 1) i) 0)) mod num_of s d)
      (seq 0 D).

Lemma csrc_valid u k i : valid (m_dims (sp_ctrl s)) (csrc u k i).
Proof using W HD.
  apply valid_nth.
  - unfold csrc. rewrite length_map_seq. symmetry. apply (wf_dims _ W).
  - rewrite (wf_dims _ W). intros d Hd. unfold csrc. rewrite nth_map_seq by auto.
    apply Nat.mod_upper_bound. pose proof (num_pos d Hd) as Hp. unfold num_of in *. lia.
Qed.

Lemma cell_source_ok u k i : length u = D - 1 -> i < st ->
  cell_source s (sp_ctrl s) (u ++ [k; i]) i = Ok (csrc u k i).
Proof using W HD.
  intros Hu Hi. unfold cell_source. fold p D.
  rewrite md_dimwise_unrank by (rewrite prod_repeat; auto). cbn [bind].
  rewrite unrank_digits by auto.
  apply (mapM_ok_nth _ _ _ 0 0).
  - unfold csrc. rewrite map_length; auto.
  - rewrite seq_length. intros d Hd. rewrite seq_nth by auto. cbn [plus].
    rewrite (vget_ok _ _ 0) by (rewrite app_length; simpl; unfold D in *; lia). cbn [bind].
    unfold csrc. rewrite nth_map_seq by auto.
    replace (nth d (u ++ [k; i]) 0) with (nth d (u ++ [k]) 0).
    2:{ replace (u ++ [k; i]) with ((u ++ [k]) ++ [i]) by (rewrite <- app_assoc; reflexivity).
        rewrite (app_nth1 (u ++ [k])); auto. rewrite app_length. simpl. unfold D in *. lia. }
    assert (E : (if d =? D - 1 then Ok 0 else e <- usub D (S (S d));; vget (rev (digits (p + 1) (D - 1) i)) e)
      = Ok (if d =? D - 1 then 0 else nth d (digits (p + 1) (D - 1) i) 0)).
    { destruct (Nat.eqb_spec d (D - 1)); auto. rewrite usub_ok by lia. cbn [bind].
      rewrite (vget_ok _ _ 0) by (rewrite rev_length, digits_length; lia).
      rewrite rev_nth by (rewrite digits_length; lia). rewrite digits_length. f_equal. f_equal. lia. }
    rewrite E. cbn [bind]. unfold mesh_dim_size. rewrite (vget_ok _ _ 0) by (rewrite (wf_dims _ W); auto). cbn [bind].
    fold (num_of s d). unfold umod. pose proof (num_pos d Hd). destruct (Nat.eqb_spec (num_of s d) 0); [lia|]. reflexivity.
Qed.

(** What [fill_cell] does: plain writes in storage order. *)
Lemma fill_cell_writes lo hi : hi <= prod A ->
  fill_cell on s (sp_ctrl s) the_cdims lo hi =
  pfor lo hi (fun h => pfor 0 n (fun k => pfor 0 st (fun i =>
    pwrite (0, (h * n + k) * st + i) (ctrl_at o s (csrc (unrank A h) k i))))).
Proof using W HD.
  intros Hhi. unfold fill_cell. fold p D. pose proof A_len as LA.
  assert (Vn : nth (D - 1) the_cdims 0 = n).
  { unfold the_cdims. rewrite app_nth2 by lia. replace (D - 1 - length A) with 0 by lia. reflexivity. }
  assert (Vs : nth D the_cdims 0 = st).
  { unfold the_cdims. rewrite app_nth2 by lia. replace (D - length A) with 1 by (unfold D in *; lia). reflexivity. }
  assert (LC : length the_cdims = D + 1).
  { unfold the_cdims. rewrite app_length. simpl. unfold D in *. lia. }
  rewrite (vget_ok the_cdims (D - 1) 0), (vget_ok the_cdims D 0) by lia. cbn [bind plift pbind]. rewrite Vn, Vs.
  assert (Pn : 0 < n) by (apply cdim_pos; unfold D; lia). pose proof st_pos as Ps.
  apply pfor_ext. intros h Hh. assert (Hp : h < prod A) by lia.
  set (u := unrank A h). assert (Vu : valid A u) by (apply unrank_valid; auto).
  assert (Ru : row_major A u = h) by (apply unrank_rank; auto).
  assert (Lu : length u = D - 1) by (rewrite (valid_length _ _ Vu); auto).
  assert (Vk : forall k i, k < n -> i < st -> valid the_cdims (u ++ [k; i])).
  { intros k i Hk Hi. apply valid_app; auto. constructor; auto. }
  assert (Rk : forall k i, row_major the_cdims (u ++ [k; i]) = (h * n + k) * st + i).
  { intros k i. unfold the_cdims. rewrite row_major_app by lia. rewrite Ru. cbn [prod row_major]. nia. }
  assert (E : md_dimwise_indices the_cdims (h * (n * st)) = Ok (u ++ [0; 0])).
  { rewrite <- (md_dimwise_indices_row_major the_cdims (u ++ [0; 0])) by auto. f_equal. rewrite Rk. nia. }
  rewrite E. cbn [plift pbind].
  rewrite mesh_begin_ok; cbn [m_dims]; [|lia|].
  2:{ rewrite <- Lu, set_nth_app2. auto. }
  rewrite mesh_end_ok; cbn [m_dims]; [|lia|].
  2:{ rewrite app_length. simpl. lia. }
  rewrite Vn. rewrite <- Lu, !set_nth_app2, !Rk, Lu. cbn [plift pbind].
  assert (Es : prod (skipn (S (D - 1)) the_cdims) = st).
  { unfold the_cdims. rewrite skipn_app. rewrite skipn_all2 by lia. replace (S (D - 1) - length A) with 1 by lia.
    cbn [skipn app prod]. lia. }
  rewrite Es. unfold sk_diff. cbn [sk_step sk_off].
  destruct (Z.eqb_spec (Z.of_nat st) 0); [lia|]. cbn [plift pbind].
  assert (Eq : Z.to_nat (Z.quot (Z.of_nat ((h * n + n) * st + 0) - Z.of_nat ((h * n + 0) * st + 0)) (Z.of_nat st)) = n).
  { replace (Z.of_nat ((h * n + n) * st + 0) - Z.of_nat ((h * n + 0) * st + 0))%Z with (Z.of_nat n * Z.of_nat st)%Z by nia.
    rewrite Z.quot_mul by lia. lia. }
  rewrite Eq. apply pfor_ext. intros k Hk. cbn [m_dims].
  unfold mesh_iter_indices. cbn [m_dims]. unfold sk_add. cbn [sk_off sk_step].
  replace (Z.to_nat (Z.of_nat ((h * n + 0) * st + 0) + Z.of_nat k * Z.of_nat st)) with ((h * n + k) * st + 0) by nia.
  rewrite <- (Rk k 0). rewrite md_dimwise_indices_row_major by (apply Vk; lia). cbn [plift pbind].
  rewrite md_size_prod, prod_repeat. fold st.
  apply pfor_ext. intros i Hi.
  rewrite vset_ok by (rewrite app_length; simpl; unfold D in *; lia). cbn [plift pbind].
  replace (upd (u ++ [k; 0]) D i) with (u ++ [k; i]).
  2:{ rewrite <- (upd_app2 u k 0 i). f_equal. unfold D in *; lia. }
  rewrite cell_source_ok by (auto; lia). cbn [plift pbind].
  rewrite (mesh_get_ok _ z (wf_ctrl _ W)) by apply csrc_valid. cbn [plift pbind].
  rewrite md_indexing_spec by (rewrite app_length, LC; simpl; unfold D in *; lia). cbn [plift pbind]. rewrite Rk. reflexivity.
Qed.

Lemma cell_hyper_ok : cell_hyper s the_cdims = Ok (prod A).
Proof using W HD.
  unfold cell_hyper. fold D. pose proof A_len as LA.
  rewrite (vget_ok the_cdims (D - 1) 0), (vget_ok the_cdims D 0) by (unfold the_cdims; rewrite app_length; simpl; lia).
  cbn [bind]. unfold the_cdims. rewrite !app_nth2 by lia.
  replace (D - 1 - length A) with 0 by lia. replace (D - length A) with 1 by (unfold D in *; lia). cbn [nth].
  assert (Pn : 0 < n) by (apply cdim_pos; unfold D; lia). pose proof st_pos as Ps.
  unfold udiv. destruct (Nat.eqb_spec (n * st) 0); [nia|]. f_equal.
  rewrite md_size_prod, prod_app. cbn [prod]. rewrite Nat.mul_1_r. apply Nat.div_mul. auto.
Qed.

(** Running the writes. *)
Lemma radix_unique h k i h' k' i' : k < n -> k' < n -> i < st -> i' < st ->
  (h * n + k) * st + i = (h' * n + k') * st + i' -> h = h' /\ k = k' /\ i = i'.
Proof using W HD.
  intros Hk Hk' Hi Hi' E. clearbody n st.
  assert (E1 : h * n + k = h' * n + k' /\ i = i').
  { apply (Nat.div_mod_unique st (h * n + k) (h' * n + k') i i'); auto. lia. }
  destruct E1 as [E1 E2]. split; [|split]; auto.
  - apply (Nat.div_mod_unique n h h' k k'); auto. lia.
  - apply (Nat.div_mod_unique n h h' k k'); auto. lia.
Qed.

Definition filled (x : nat) (m : mem T) : Prop :=
  exists l, m = [l] /\ length l = prod the_cdims /\
  forall h k i, h < prod A -> k < n -> i < st -> (h * n + k) * st + i < x ->
    nth ((h * n + k) * st + i) l z = ctrl_at o s (csrc (unrank A h) k i).

Lemma prod_cdims : prod the_cdims = prod A * n * st.
Proof using W HD. unfold the_cdims. rewrite prod_app. cbn [prod]. nia. Qed.

Lemma offset_lt h k i : h < prod A -> k < n -> i < st -> (h * n + k) * st + i < prod the_cdims.
Proof using W HD.
  intros. rewrite prod_cdims. clearbody A n st.
  assert ((h * n + k) + 1 <= prod A * n) by nia. nia.
Qed.

Lemma run_fill m : filled 0 m ->
  exists m', run (fill_cell on s (sp_ctrl s) the_cdims 0 (prod A)) m = Ok (tt, m') /\ filled (prod the_cdims) m'.
Proof using W HD.
  intros H0. rewrite fill_cell_writes by auto. pose proof st_pos as Ps.
  rewrite run_pfor.
  match goal with |- context[for_ ?lo ?hi ?s0 ?f] =>
    destruct (for_inv (fun h m => filled (h * n * st) m) lo hi s0 f) as (m1 & E1 & F1); [lia|exact H0| |] end.
  2:{ rewrite E1. cbn [bind]. exists m1. split; auto. rewrite prod_cdims. auto. }
  intros h m1 Hh F1. rewrite run_pfor.
  match goal with |- context[for_ ?lo ?hi ?s0 ?f] =>
    destruct (for_inv (fun k m => filled ((h * n + k) * st) m) lo hi s0 f) as (m2 & E2 & F2);
      [lia|rewrite Nat.add_0_r; exact F1| |] end.
  2:{ rewrite E2. cbn [bind]. eexists; split; [reflexivity|]. cbn [snd].
      replace ((h + 1) * n) with (h * n + n) by lia. auto. }
  intros k m2 Hk F2. rewrite run_pfor.
  match goal with |- context[for_ ?lo ?hi ?s0 ?f] =>
    destruct (for_inv (fun i m => filled ((h * n + k) * st + i) m) lo hi s0 f) as (m3 & E3 & F3);
      [lia|rewrite Nat.add_0_r; exact F2| |] end.
  2:{ rewrite E3. cbn [bind]. eexists; split; [reflexivity|]. cbn [snd].
      replace ((h * n + (k + 1)) * st) with ((h * n + k) * st + st) by lia. auto. }
  intros i m3 Hi (l & -> & Ll & F3).
  assert (Ho : (h * n + k) * st + i < prod the_cdims) by (apply offset_lt; lia).
  set (off := (h * n + k) * st + i) in *.
  cbn [pwrite run]. unfold mem_set. cbn [fst snd nth_error].
  rewrite vset_ok by lia. cbn [bind upd]. eexists; split; [reflexivity|]. cbn [snd].
  eexists; split; [reflexivity|]. split. rewrite upd_length; auto.
  intros h' k' i' Hh' Hk' Hi' Hx. rewrite nth_upd.
  destruct (Nat.eqb_spec ((h' * n + k') * st + i') off) as [Eo|Eo].
  - unfold off in Eo. apply radix_unique in Eo as (-> & -> & ->); auto; try lia.
    destruct (Nat.ltb_spec off (length l)); [reflexivity|lia].
  - apply F3; auto. lia.
Qed.

Lemma generate_cells_ok : exists c, generate_cells o on s (sp_ctrl s) = Ok c /\ m_dims c = the_cdims /\ wf_mesh c /\
  forall u k i, valid A u -> k < n -> i < st ->
    nth (row_major the_cdims (u ++ [k; i])) (m_data c) z = ctrl_at o s (csrc u k i).
Proof using W HD.
  unfold generate_cells. rewrite cell_dims_ok. cbn [bind]. rewrite cell_hyper_ok. cbn [bind].
  destruct (run_fill [repeat z (md_size the_cdims)]) as (m' & E & l & -> & Ll & F).
  { exists (repeat z (md_size the_cdims)). split; auto. split. rewrite repeat_length. apply md_size_prod. intros; lia. }
  rewrite E. cbn [bind snd]. exists (mkMesh the_cdims l). split; [reflexivity|].
  split; [reflexivity|]. split; [exact Ll|].
  intros u k i Hu Hk Hi. cbn [m_data].
  assert (Lu : length u = length A) by (apply valid_length; auto).
  assert (Hr : row_major A u < prod A) by (apply row_major_lt; auto).
  assert (Er : row_major the_cdims (u ++ [k; i]) = (row_major A u * n + k) * st + i).
  { unfold the_cdims. rewrite row_major_app by auto. cbn [prod row_major]. nia. }
  rewrite Er. rewrite F; auto.
  - rewrite rank_unrank by auto. reflexivity.
  - apply offset_lt; auto.
Qed.

(** Segments whose cell exists: in periodic dimensions the cells are those of
    the first [num_of s d] segments. *)
Definition reach (iters : list (T * nat)) : Prop :=
  forall d, d < D -> per_of s d = true -> snd (nth d iters (z, 0)) < p + num_of s d.

Let K iters d := snd (nth d iters (z, 0)) - p.

Lemma cell_index_ok iters : good_iters o s iters ->
  cell_index s iters = Ok (map (K iters) (seq 0 (D - 1)) ++ [K iters (D - 1); 0]).
Proof using HD.
  intros [Hl Hg]. unfold cell_index. fold p D.
  rewrite (mapM_ok_nth _ _ (map (K iters) (seq 0 D)) 0 0).
  - cbn [bind]. f_equal. replace D with (S (D - 1)) at 1 by (unfold D; lia).
    rewrite seq_S, map_app. cbn [map plus]. rewrite <- app_assoc. reflexivity.
  - rewrite map_length; auto.
  - rewrite seq_length. intros d Hd. rewrite seq_nth by auto. cbn [plus].
    rewrite (vget_ok _ _ (z, 0)) by (unfold D in *; lia). cbn [bind].
    rewrite nth_map_seq by auto. specialize (Hg d Hd). rewrite usub_ok by (unfold p; lia). reflexivity.
Qed.

Lemma K_lt iters d : good_iters o s iters -> reach iters -> d < D - 1 -> K iters d < cdim d.
Proof using W HD.
  intros [Hl Hg] Hr Hd. assert (Hd' : d < D) by lia. specialize (Hg d Hd'). specialize (Hr d Hd').
  unfold K, cdim. destruct (Nat.eqb_spec d (D - 1)); [lia|].
  pose proof (wf_num _ W d Hd') as H. destruct (per_of s d).
  - specialize (Hr eq_refl). unfold p in *. lia.
  - pose proof (wf_len _ W d Hd'). unfold last_of in Hg. unfold p in *. lia.
Qed.
Lemma K_last iters q : good_iters o s iters -> reach iters -> q <= p -> K iters (D - 1) + q < n.
Proof using W HD.
  intros [Hl Hg] Hr Hq. assert (Hd' : D - 1 < D) by (unfold D; lia). specialize (Hg _ Hd'). specialize (Hr _ Hd').
  unfold K, n, cdim. rewrite Nat.eqb_refl.
  pose proof (wf_num _ W _ Hd') as H. destruct (per_of s (D - 1)).
  - specialize (Hr eq_refl). unfold p in *. lia.
  - pose proof (wf_len _ W _ Hd'). unfold last_of in Hg. unfold p in *. lia.
Qed.

(** Entry [i] counted from the start of the cell is the control point of
    local index [digits i]. *)
Lemma cell_read_at c iters : generate_cells o on s (sp_ctrl s) = Ok c -> good_iters o s iters -> reach iters ->
  exists ind, cell_index s iters = Ok ind /\ length ind = D + 1 /\ nth D (m_dims c) 0 = st /\ length (m_dims c) = D + 1 /\
  mesh_begin on c D ind = Ok (mkSkip (Z.of_nat (row_major the_cdims ind)) 1) /\
  forall i, i < (p + 1) ^ D ->
    vget (m_data c) (row_major the_cdims ind + i) = Ok (ctrl_at o s (gmap o s iters (digits (p + 1) D i))).
Proof using W HD.
  intros Ec G R. destruct generate_cells_ok as (c' & Ec' & Dc & Wc & Hc).
  rewrite Ec in Ec'. injection Ec' as <-.
  rewrite cell_index_ok by auto.
  set (u := map (K iters) (seq 0 (D - 1))). set (k := K iters (D - 1)).
  assert (Lu : length u = D - 1) by (unfold u; rewrite map_length, seq_length; auto).
  assert (LA := A_len). pose proof st_pos as Ps.
  assert (Vu : valid A u).
  { apply valid_nth. lia. intros d Hd. unfold u, A. rewrite LA in Hd. rewrite !nth_map_seq by auto. apply K_lt; auto. }
  assert (Hk : forall q, q <= p -> k + q < n) by (intros; apply K_last; auto).
  assert (V0 : forall q r, q <= p -> r < st -> valid the_cdims (u ++ [k + q; r])).
  { intros. apply valid_app; auto. constructor; auto. }
  assert (LD : length the_cdims = D + 1) by (unfold the_cdims; rewrite app_length; simpl; unfold D in *; lia).
  assert (E0 : set_nth (u ++ [k; 0]) D 0 = u ++ [k; 0]).
  { rewrite <- upd_set_nth. rewrite <- (upd_app2 u k 0 0) at 2. f_equal. unfold D in *; lia. }
  exists (u ++ [k; 0]). split; [reflexivity|]. split; [rewrite app_length; simpl; unfold D in *; lia|].
  split; [rewrite Dc; unfold the_cdims; rewrite app_nth2 by lia; replace (D - length A) with 1 by (unfold D in *; lia); reflexivity|].
  split; [rewrite Dc; auto|]. rewrite mesh_begin_ok.
  2:{ rewrite Dc, LD. lia. }
  2:{ rewrite Dc, E0. replace k with (k + 0) by lia. apply V0; lia. }
  rewrite Dc, E0, skipn_all2 by lia. cbn [prod]. split; [reflexivity|].
  intros i Hi.
  assert (Er : forall q r, row_major the_cdims (u ++ [k + q; r]) = row_major the_cdims (u ++ [k; 0]) + (q * st + r)).
  { intros q r. unfold the_cdims. rewrite !row_major_app by lia. cbn [row_major prod]. nia. }
  set (b := row_major the_cdims (u ++ [k; 0])) in *.
  assert (Ep : (p + 1) ^ D = (p + 1) * st).
  { unfold st. replace D with (S (D - 1)) at 1 by (unfold D; lia). apply Nat.pow_succ_r'. }
  rewrite Ep in Hi.
  set (q := i / st). set (r := i mod st).
  assert (Hqr : i = q * st + r) by (unfold q, r; pose proof (Nat.div_mod i st ltac:(lia)); lia).
  assert (Hr : r < st) by (apply Nat.mod_upper_bound; lia).
  assert (Hq : q < p + 1) by (apply Nat.div_lt_upper_bound; lia).
  replace (b + i) with (b + (q * st + r)) by lia.
  rewrite <- Er. assert (Vq : valid the_cdims (u ++ [k + q; r])) by (apply V0; lia).
  rewrite (vget_ok _ _ z).
  2:{ rewrite Wc, Dc. apply row_major_lt. auto. }
  rewrite Hc by (auto; apply Hk; lia). f_equal. f_equal.
  unfold csrc, gmap. fold D. apply map_ext_in. intros d Hd. apply in_seq in Hd. cbn [plus] in Hd.
  assert (Hd' : d < D) by lia. clear Hd.
  unfold gidx. fold p. set (kd := snd (nth d iters (z, 0))).
  assert (Ea : nth d (u ++ [k + q]) 0 + (if d =? D - 1 then 0 else nth d (digits (p + 1) (D - 1) r) 0) =
               nth d (digits (p + 1) D i) 0 + (kd - p)).
  { replace D with (S (D - 1)) at 3 by lia. destruct (Nat.eqb_spec d (D - 1)) as [->|Hne].
    - rewrite digits_high; try lia.
      2:{ rewrite Nat.pow_succ_r'. fold st. lia. }
      fold st. fold q. rewrite app_nth2 by lia. rewrite Lu, Nat.sub_diag. cbn [nth]. unfold k, K, kd. lia.
    - rewrite digits_low by lia. fold st. fold r. rewrite app_nth1 by lia. unfold u. rewrite nth_map_seq by lia.
      unfold K, kd. lia. }
  rewrite Ea. destruct (per_of s d) eqn:Epd; auto. apply Nat.mod_small.
  destruct G as [_ G]. specialize (G d Hd'). fold kd in G. pose proof (wf_num _ W d Hd') as Hn. rewrite Epd in Hn.
  assert (Hdig : nth d (digits (p + 1) D i) 0 < p + 1).
  { apply (local_lt s); auto. apply digits_valid. rewrite Ep. auto. }
  pose proof (wf_len _ W d Hd'). unfold last_of in G. unfold p in *. lia.
Qed.

Lemma cell_read c iters : generate_cells o on s (sp_ctrl s) = Ok c -> good_iters o s iters -> reach iters ->
  exists it, (ind <- cell_index s iters ;; mesh_begin on c D ind) = Ok it /\
  forall i, i < (p + 1) ^ D -> sk_at c it (Z.of_nat i) = Ok (ctrl_at o s (gmap o s iters (digits (p + 1) D i))).
Proof using W HD.
  intros Ec G R. destruct (cell_read_at c iters Ec G R) as (ind & E1 & _ & _ & _ & E2 & H).
  rewrite E1. cbn [bind]. rewrite E2. eexists; split; [reflexivity|]. intros i Hi.
  unfold sk_at, sk_deref, sk_add. cbn [sk_off sk_step]. set (b := row_major the_cdims ind) in *.
  destruct (Z.ltb_spec (Z.of_nat b + Z.of_nat i * 1) 0); [lia|].
  replace (Z.to_nat (Z.of_nat b + Z.of_nat i * 1)) with (b + i) by lia. auto.
Qed.

End Cell.
