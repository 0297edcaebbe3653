(** The rounds of solve_for_control_points_. *)
From Coq Require Import List Arith Lia Bool ZArith Reals Lra.
From Verif Require Import Base Num MeshM SpecMesh MeshProofs ProgM BandM LUM SplineM InterpM.
From Verif Require Import SumR DenseLU SpecBand LUProofs SpecSpline TensorR SolverProofs.
Import ListNotations.
Open Scope nat_scope.

Lemma prod_app a b : prod (a ++ b) = prod a * prod b.
Proof. induction a; cbn [prod app]; [lia|]. rewrite IHa. ring. Qed.

Lemma row_major_app d1 d2 i1 i2 : length i1 = length d1 ->
  row_major (d1 ++ d2) (i1 ++ i2) = row_major d1 i1 * prod d2 + row_major d2 i2.
Proof.
  revert i1; induction d1 as [|n d1 IH]; intros [|i i1] H; try discriminate; cbn [app row_major]; auto.
  rewrite IH by (simpl in H; lia). rewrite prod_app. ring.
Qed.

Lemma valid_app_inv d1 d2 idx : valid (d1 ++ d2) idx ->
  exists i1 i2, idx = i1 ++ i2 /\ valid d1 i1 /\ valid d2 i2.
Proof.
  revert idx; induction d1 as [|n d1 IH]; intros idx H; cbn [app] in H.
  - exists [], idx. split; auto. split; auto. constructor.
  - destruct idx as [|i idx]; [inversion H|]. apply valid_cons in H as [H1 H2].
    destruct (IH idx H2) as (i1 & i2 & -> & V1 & V2). exists (i :: i1), i2. split; auto. split; auto.
    apply valid_cons. auto.
Qed.

Lemma right_shift_ok init n : right_shift (init ++ [n]) = Ok (n :: init).
Proof.
  unfold right_shift. rewrite app_length. cbn [length]. set (D := length init + 1).
  apply (mapM_ok_nth _ _ _ 0 0).
  - rewrite seq_length. cbn [length]. unfold D. lia.
  - rewrite seq_length. intros i Hi. rewrite seq_nth by auto. cbn [Nat.add].
    rewrite usub_ok by lia. cbn [bind]. unfold umod. destruct (Nat.eqb_spec D 0); [unfold D in *; lia|]. cbn [bind].
    destruct (Nat.eq_dec i 0) as [->|Hi0].
    + rewrite Nat.mod_small by lia. rewrite (vget_ok _ _ 0) by (rewrite app_length; unfold D; simpl; lia).
      rewrite app_nth2 by (unfold D; lia). replace (0 + D - 1 - length init) with 0 by (unfold D; lia). reflexivity.
    + replace (i + D - 1) with (i - 1 + 1 * D) by lia. rewrite Nat.mod_add by lia. rewrite Nat.mod_small by lia.
      rewrite (vget_ok _ _ 0) by (rewrite app_length; unfold D in *; simpl; lia).
      rewrite app_nth1 by (unfold D in *; lia). destruct i; [lia|]. cbn [nth]. f_equal. f_equal. lia.
Qed.

Lemma prod_pos dims : List.Forall (fun n => 0 < n) dims <-> 0 < prod dims.
Proof.
  induction dims as [|n dims IH]; cbn [prod].
  - split; auto; lia.
  - split.
    + intros H. inversion H; subst. apply IH in H3. nia.
    + intros H. constructor; [nia|]. apply IH. nia.
Qed.

Section Lines.
Context {T : Type} (o : ops T) (on : bool).

(** The work on line [j]: solve in place in array [old] (h lines of n
    numbers), then store the line as column [j] of array [new]. *)
Definition line_prog (sv : solver T) (old new n h : nat) (copy : bool) (j : nat) : prog T unit :=
  pbind (solver_solve o on sv (line_cell old (mkSkip (Z.of_nat (j * n)) 1))) (fun _ =>
  if copy then
    pfor 0 n (fun k =>
      pbind (pread (line_cell old (mkSkip (Z.of_nat (j * n)) 1) k)) (fun v =>
      pwrite (line_cell new (mkSkip (Z.of_nat j) (Z.of_nat h)) k) v))
  else Ret tt).

Lemma pfor_ext lo hi (f g : nat -> prog T unit) :
  (forall i, lo <= i < hi -> f i = g i) -> pfor lo hi f = pfor lo hi g.
Proof.
  intros H. unfold pfor.
  assert (G : forall i, In i (seq lo (hi - lo)) -> f i = g i).
  { intros i Hi. apply in_seq in Hi. apply H. lia. }
  clear H. induction (seq lo (hi - lo)) as [|i l IH]; cbn [piter]; auto.
  rewrite (G i) by (simpl; auto). f_equal.
  rewrite IH by (intros; apply G; simpl; auto). reflexivity.
Qed.

Lemma line_cell_eq arr b s k : line_cell arr (mkSkip (Z.of_nat b) (Z.of_nat s)) k = (arr, b + k * s).
Proof. unfold line_cell, sk_add. cbn [sk_off sk_step]. f_equal. lia. Qed.

Lemma set_nth_app l x v : set_nth (l ++ [x]) (length l) v = l ++ [v].
Proof. induction l; cbn [app length set_nth]; auto. rewrite IHl. auto. Qed.

Lemma solve_block_lines sv d init n lo hi :
  0 < n -> List.Forall (fun n => 0 < n) init -> hi <= prod init ->
  solve_block o on sv d (init ++ [n]) (if 1 <? length (init ++ [n]) then n :: init else [1]) lo hi =
  pfor lo hi (line_prog sv (d mod 2) (1 - d mod 2) n (prod init) (1 <? length (init ++ [n]))).
Proof.
  intros Hn Hi Hh. unfold solve_block. rewrite app_length. cbn [length].
  rewrite usub_ok by lia. cbn [plift pbind]. replace (length init + 1 - 1) with (length init) by lia.
  rewrite (vget_ok _ _ 0) by (rewrite app_length; simpl; lia). rewrite app_nth2 by lia. rewrite Nat.sub_diag. cbn [nth plift pbind].
  apply pfor_ext. intros j Hj.
  assert (Hjp : j < prod init) by lia.
  set (idx := unrank init j). assert (Vi : valid init idx) by (apply unrank_valid; auto).
  assert (Ri : row_major init idx = j) by (apply unrank_rank; auto).
  assert (V0 : valid (init ++ [n]) (idx ++ [0])) by (apply valid_app; auto; repeat constructor; auto).
  assert (Li : length idx = length init) by (apply valid_length; auto).
  assert (E : md_dimwise_indices (init ++ [n]) (j * n) = Ok (idx ++ [0])).
  { rewrite <- (md_dimwise_indices_row_major (init ++ [n]) (idx ++ [0])) by auto. f_equal.
    rewrite row_major_app by auto. rewrite Ri. cbn [prod row_major]. lia. }
  rewrite E. cbn [plift pbind].
  rewrite mesh_begin_ok; cbn [m_dims].
  2:{ rewrite app_length. simpl. lia. }
  2:{ rewrite <- Li. rewrite set_nth_app. auto. }
  rewrite <- Li at 1 2. rewrite set_nth_app. rewrite row_major_app by auto. rewrite Ri.
  rewrite skipn_all2 by (rewrite app_length; simpl; lia). cbn [prod row_major plift pbind].
  replace (j * (n * 1) + (0 * 1 + 0)) with (j * n) by lia.
  rewrite mesh_end_ok; cbn [m_dims].
  2:{ rewrite app_length. simpl. lia. }
  2:{ rewrite !app_length. simpl. lia. }
  rewrite app_nth2 by lia. rewrite Nat.sub_diag. cbn [nth].
  rewrite <- Li at 1. rewrite set_nth_app. rewrite row_major_app by auto. rewrite Ri.
  rewrite skipn_all2 by (rewrite app_length; simpl; lia). cbn [prod row_major plift pbind].
  rewrite right_shift_ok. cbn [bind].
  assert (Pp : 0 < prod init) by (apply prod_pos; auto).
  assert (Eb : exists b, mesh_begin on (mkMesh (if 1 <? length init + 1 then n :: init else [1]) (@nil T)) 0 (0 :: idx) = Ok b /\
     (1 < length init + 1 -> b = mkSkip (Z.of_nat j) (Z.of_nat (prod init)))).
  { destruct (Nat.ltb_spec 1 (length init + 1)).
    - rewrite mesh_begin_ok; cbn [m_dims].
      + eexists; split; [reflexivity|]. intros _. cbn [set_nth row_major skipn]. rewrite Ri. f_equal; f_equal; lia.
      + simpl. lia.
      + cbn [set_nth]. apply valid_cons. auto.
    - destruct init; [|simpl in *; lia]. destruct idx; [|discriminate].
      rewrite mesh_begin_ok; cbn [m_dims].
      + eexists; split; [reflexivity|]. intros; lia.
      + simpl. lia.
      + repeat constructor. }
  destruct Eb as (b & Eb & Eb2). rewrite Eb. cbn [plift pbind].
  unfold line_prog. f_equal.
  destruct (Nat.ltb_spec 1 (length init + 1)) as [L|L]; auto. rewrite (Eb2 L).
  unfold sk_diff. cbn [sk_step sk_off].
  change (Z.of_nat 1) with 1%Z. cbn [Z.eqb plift pbind].
  replace (Z.to_nat (Z.quot (Z.of_nat (j * (n * 1) + (n * 1 + 0)) - Z.of_nat (j * n)) 1)) with n.
  2:{ rewrite Z.quot_1_r. lia. }
  reflexivity.
Qed.
End Lines.

Lemma mem_ok_len (m m' : mem R) l : map (@length R) m = map (@length R) m' -> mem_ok m l <-> mem_ok m' l.
Proof.
  intros E. unfold mem_ok.
  assert (G : forall i, length (nth i m []) = length (nth i m' [])).
  { intros i. rewrite <- !(map_nth (@length R)). rewrite E. reflexivity. }
  rewrite G. tauto.
Qed.

Lemma lin_inj a b n k k' : k < n -> k' < n -> a * n + k = b * n + k' -> a = b /\ k = k'.
Proof.
  intros Hk Hk' E. destruct (lt_eq_lt_dec a b) as [[L|L]|L].
  - pose proof (Nat.mul_le_mono_r (a + 1) b n). lia.
  - subst. lia.
  - pose proof (Nat.mul_le_mono_r (b + 1) a n). lia.
Qed.

Section Effect.
Variables (on : bool) (n h old new : nat) (copy : bool) (A : mat) (sv : solver R).
Hypothesis HS : solver_spec on n A sv.
Hypothesis Hne : old <> new.

(** Where the solution of line [j] is found. *)
Definition out_cell (j k : nat) : nat * nat := if copy then (new, k * h + j) else (old, j * n + k).

Definition sized (m : mem R) : Prop :=
  length (nth old m []) = h * n /\ (copy = true -> length (nth new m []) = n * h).

Lemma sized_len m m' : map (@length R) m = map (@length R) m' -> sized m' -> sized m.
Proof.
  intros E. assert (G : forall i, length (nth i m []) = length (nth i m' [])).
  { intros i. rewrite <- !(map_nth (@length R)). rewrite E. reflexivity. }
  unfold sized. rewrite !G. auto.
Qed.

Lemma line_effect m j : sized m -> j < h ->
  exists m1, run (line_prog Rops on sv old new n h copy j) m = Ok (tt, m1) /\
    map (@length R) m1 = map (@length R) m /\
    (forall i, i < n -> sum n (fun k => A i k * mval 0%R m1 (out_cell j k))%R = mval 0%R m (old, j * n + i)) /\
    (forall l, (forall k, k < n -> l <> (old, j * n + k)) -> (forall k, k < n -> l <> out_cell j k) ->
       mval 0%R m1 l = mval 0%R m l).
Proof.
  intros (L1 & L2) Hj. unfold line_prog. rewrite run_bind.
  set (iter := line_cell old (mkSkip (Z.of_nat (j * n)) 1)).
  assert (EI : forall k, iter k = (old, j * n + k)).
  { intros k. unfold iter. change 1%Z with (Z.of_nat 1). rewrite line_cell_eq. f_equal. lia. }
  destruct (HS iter m) as (m1 & x & E & (Hok & Hlen & Hv & Hu) & Hx).
  - intros a b Ha Hb. rewrite !EI. intros E. injection E. lia.
  - intros i Hi. rewrite EI. unfold mem_ok. cbn [fst snd]. rewrite L1. nia.
  - rewrite E. cbn [bind fst snd].
    assert (Hx' : forall i, i < n -> sum n (fun k => A i k * x k)%R = mval 0%R m (old, j * n + i)).
    { intros i Hi. rewrite <- (EI i). apply Hx. auto. }
    unfold out_cell. destruct copy eqn:Ec.
    + specialize (L2 eq_refl). rewrite run_pfor.
      set (body := fun (m : mem R) (i : nat) => r <- run _ m ;; Ok (snd r)).
      destruct (for_inv (fun k m2 => map (@length R) m2 = map (@length R) m /\
         (forall i, i < n -> mval 0%R m2 (old, j * n + i) = x i) /\
         (forall i, i < k -> mval 0%R m2 (new, i * h + j) = x i) /\
         (forall l, (forall k, k < n -> l <> (old, j * n + k)) -> (forall k, k < n -> l <> (new, k * h + j)) ->
            mval 0%R m2 l = mval 0%R m l)) 0 n m1 body) as (m2 & E2 & (I1 & I2 & I3 & I4)).
      * lia.
      * split; auto. split; [intros; rewrite <- EI; auto|]. split; [intros; lia|].
        intros l A1 A2. apply Hu. intros i Hi. rewrite EI. apply A1; auto.
      * intros k m2 Hk (I1 & I2 & I3 & I4). unfold body. rewrite run_bind. cbn [pread run].
        assert (Ok2 : forall l, mem_ok m2 l <-> mem_ok m l) by (intros; apply mem_ok_len; auto).
        fold iter. rewrite EI. rewrite (mem_get_ok 0%R) by (apply Ok2; unfold mem_ok; cbn [fst snd]; rewrite L1; nia).
        cbn [bind fst snd pwrite run]. rewrite line_cell_eq. rewrite I2 by lia.
        destruct (mem_set_ok 0%R m2 (new, j + k * h) (x k)) as (m3 & E3 & O3 & Len3 & V3).
        { apply Ok2. unfold mem_ok. cbn [fst snd]. rewrite L2. nia. }
        rewrite E3. cbn [bind snd]. exists m3. split; auto. split; [congruence|].
        assert (V3' : forall l, mval 0%R m3 l = if (fst l =? new) && (snd l =? j + k * h) then x k else mval 0%R m2 l) by apply V3.
        clear V3. split; [|split].
        { intros i Hi. rewrite V3'. cbn [fst snd]. destruct (Nat.eqb_spec old new); [congruence|]. apply I2; auto. }
        { intros i Hi. rewrite V3'. cbn [fst snd]. rewrite Nat.eqb_refl. cbn [andb].
          destruct (Nat.eqb_spec (i * h + j) (j + k * h)) as [Eq|Eq].
          - replace i with k by nia. auto.
          - apply I3. destruct (Nat.eq_dec i k); [subst; lia|lia]. }
        { intros l A1 A2. rewrite V3'. destruct (Nat.eqb_spec (fst l) new); cbn [andb]; auto.
          destruct (Nat.eqb_spec (snd l) (j + k * h)); auto. exfalso. apply (A2 k); [lia|]. destruct l; cbn [fst snd] in *. subst. f_equal. lia. }
      * change (@for_ (list (list R)) 0 n m1 body) with (@for_ (mem R) 0 n m1 body) in E2. exists m2. rewrite E2. cbn [bind]. split; auto. split; auto. split.
        { intros i Hi. rewrite <- Hx' by auto. apply sum_ext. intros k Hk. rewrite I3 by auto. auto. }
        { intros l A1 A2. apply I4; auto. }
    + cbn [run]. exists m1. split; auto. split; auto. split.
      * intros i Hi. rewrite <- Hx' by auto. apply sum_ext. intros k Hk. rewrite <- EI, Hv; auto.
      * intros l A1 A2. apply Hu. intros i Hi. rewrite EI. auto.
Qed.

Lemma block_effect m0 lo hi : sized m0 -> lo <= hi <= h ->
  exists m1, run (pfor lo hi (line_prog Rops on sv old new n h copy)) m0 = Ok (tt, m1) /\
    map (@length R) m1 = map (@length R) m0 /\
    (forall j i, lo <= j < hi -> i < n ->
       sum n (fun k => A i k * mval 0%R m1 (out_cell j k))%R = mval 0%R m0 (old, j * n + i)) /\
    (forall l, (forall j k, lo <= j < hi -> k < n -> l <> (old, j * n + k)) ->
               (forall j k, lo <= j < hi -> k < n -> l <> out_cell j k) -> mval 0%R m1 l = mval 0%R m0 l).
Proof.
  intros Hs Hl. rewrite run_pfor.
  set (body := fun (m : mem R) (i : nat) => r <- run _ m ;; Ok (snd r)).
  assert (Inj1 : forall j j' k k', k < n -> k' < n -> (old, j * n + k) = (old, j' * n + k') -> j = j').
  { intros j j' k k' Hk Hk' E. injection E as E. apply lin_inj in E; lia. }
  assert (Inj2 : forall j j' k k', j < h -> j' < h -> (new, k * h + j) = (new, k' * h + j') -> j = j').
  { intros j j' k k' Hk Hk' E. injection E as E. apply lin_inj in E; lia. }
  destruct (for_inv (fun j m => map (@length R) m = map (@length R) m0 /\
    (forall j' i, lo <= j' < j -> i < n -> sum n (fun k => A i k * mval 0%R m (out_cell j' k))%R = mval 0%R m0 (old, j' * n + i)) /\
    (forall l, (forall j' k, lo <= j' < j -> k < n -> l <> (old, j' * n + k)) ->
               (forall j' k, lo <= j' < j -> k < n -> l <> out_cell j' k) -> mval 0%R m l = mval 0%R m0 l)) lo hi m0 body)
    as (m1 & E & I1 & I2 & I3).
  - lia.
  - split; auto. split; auto. intros; lia.
  - intros j m Hj (I1 & I2 & I3).
    destruct (line_effect m j) as (m1 & E & L & V & U); [eapply sized_len; eauto|lia|].
    unfold body. rewrite E. cbn [bind snd]. exists m1. split; auto. split; [congruence|]. split.
    + intros j' i Hj' Hi. destruct (Nat.eq_dec j' j) as [->|Hd].
      * rewrite V by auto. apply I3.
        { intros j2 k Hj2 Hk Eq. apply Inj1 in Eq; auto; lia. }
        { intros j2 k Hj2 Hk Eq. unfold out_cell in Eq. destruct copy; [congruence|]. apply Inj1 in Eq; auto; lia. }
      * rewrite <- I2 by (auto; lia). apply sum_ext. intros k Hk. f_equal. apply U.
        { intros k2 Hk2 Eq. unfold out_cell in Eq. destruct copy; [congruence|]. apply Inj1 in Eq; auto; lia. }
        { intros k2 Hk2 Eq. unfold out_cell in Eq. destruct copy; [apply Inj2 in Eq|apply Inj1 in Eq]; auto; lia. }
    + intros l A1 A2. rewrite U.
      * apply I3; intros; [apply A1|apply A2]; auto; lia.
      * intros k Hk. apply A1; auto; lia.
      * intros k Hk. apply A2; auto; lia.
  - change (@for_ (list (list R)) lo hi m0 body) with (@for_ (mem R) lo hi m0 body) in E. exists m1. rewrite E. cbn [bind]. auto.
Qed.
End Effect.
