(** Solving along the lines of a mesh in any arithmetic. *)
From Coq Require Import List Arith Lia Bool ZArith Reals Lra.
From Verif Require Import Base Num MeshM SpecMesh MeshProofs ProgM BandM LUM SplineM InterpM.
From Verif Require Import SpecBand BandProofs MulProofs LUProofs GenLU CoefProofs RoundProofs SolveProofs.
Import ListNotations.
Open Scope nat_scope.

Section Gen.
Context {T : Type} (o : ops T).
Local Notation z := (o0 o).

(** ** Either kind of matrix *)
Definition gsinv (per : bool) (N bw : nat) (sv : solver T) : Prop :=
  match sv with
  | Aperiodic b => per = false /\ wfb N bw bw b
  | Periodic e => per = true /\ wfe N bw bw e
  end.
Definition gsabs (sv : solver T) (i j : nat) : T :=
  match sv with Aperiodic b => babs z b i j | Periodic e => eabs z e i j end.

Lemma gcoef_set_ok on per N bw sv i j v : gsinv per N bw sv -> sdom per N bw i j ->
  exists sv', coef_set on sv i j v = Ok sv' /\ gsinv per N bw sv' /\
    forall i' j', gsabs sv' i' j' = if ((i' =? i) && (j' =? j))%nat then v else gsabs sv i' j'.
Proof.
  destruct sv as [b|e]; cbn [gsinv]; intros [-> Hw] Hd; cbn [sdom] in Hd; unfold coef_set.
  - destruct (band_set_ok z on N bw bw b i j v Hw Hd) as (b' & -> & Hw' & Ha). cbn [bind].
    exists (Aperiodic b'). cbn [gsinv gsabs]. auto.
  - destruct (eb_set_ok z on N bw bw e i j v Hw Hd) as (e' & -> & Hw' & Ha). cbn [bind].
    exists (Periodic e'). cbn [gsinv gsabs]. auto.
Qed.

Lemma gsabs_out per N bw sv i j : gsinv per N bw sv -> ~ sdom per N bw i j -> gsabs sv i j = z.
Proof.
  destruct sv as [b|e]; cbn [gsinv]; intros [-> Hw] Hd; cbn [sdom] in Hd; cbn [gsabs].
  - apply (babs_out z N bw bw); auto.
  - apply (eabs_out z N bw bw); auto.
Qed.

Lemma gcoef_make_ok p per N : (per = true -> p / 2 < N)%nat ->
  exists sv, coef_make o p per N = Ok sv /\ gsinv per N (bw_of p per) sv /\
    forall i j, gsabs sv i j = z.
Proof.
  intros H. unfold coef_make. change (if per then (p / 2)%nat else _) with (bw_of p per).
  destruct per.
  - specialize (H eq_refl). destruct (eband_make_ok o z N (bw_of p true) (bw_of p true)) as (m & -> & Hw & Ha).
    + unfold bw_of. lia.
    + unfold bw_of. lia.
    + cbn [bind]. exists (Periodic m). cbn [gsinv gsabs]. split; auto. split; auto.
      intros i j. destruct (classic_ext N (bw_of p true) i j) as [D|D].
      * apply (Ha i j D).
      * apply (eabs_out z N (bw_of p true) (bw_of p true)); auto.
  - exists (Aperiodic (band_make o N (bw_of p false) (bw_of p false))). cbn [gsinv gsabs]. split; auto.
    split. split; auto. apply band_make_wf.
    intros i j. destruct (classic_band N (bw_of p false) i j) as [D|D].
    + apply (band_make_abs o z _ _ _ _ _ D).
    + apply (babs_out z N (bw_of p false) (bw_of p false)); auto. apply band_make_wf.
Qed.

Lemma gfill_row on per N bw sv r c vals s_num (body : solver T -> nat -> res (solver T)) :
  gsinv per N bw sv -> (s_num <= N)%nat -> (s_num <= length vals)%nat ->
  (forall a, (a < s_num)%nat -> sdom per N bw r ((c + a) mod N)) ->
  (forall m j, (j < s_num)%nat -> body m j = coef_set on m r ((c + j) mod N) (nth j vals z)) ->
  exists sv', for_ 0 s_num sv body = Ok sv' /\ gsinv per N bw sv' /\
    (forall i j, i <> r -> gsabs sv' i j = gsabs sv i j) /\
    (forall a, (a < s_num)%nat -> gsabs sv' r ((c + a) mod N) = nth a vals z) /\
    (forall j, (forall a, (a < s_num)%nat -> j <> ((c + a) mod N)%nat) -> gsabs sv' r j = gsabs sv r j).
Proof.
  intros Hi Hs Hv Hd Hb.
  destruct (for_inv (fun k m => gsinv per N bw m /\
    (forall i j, i <> r -> gsabs m i j = gsabs sv i j) /\
    (forall a, (a < k)%nat -> gsabs m r ((c + a) mod N) = nth a vals z) /\
    (forall j, (forall a, (a < k)%nat -> j <> ((c + a) mod N)%nat) -> gsabs m r j = gsabs sv r j)) 0 s_num sv body) as (m & E & H).
  - lia.
  - split; auto. split; auto. split; auto. intros; lia.
  - intros k m Hk (I & A & B & C). rewrite Hb by lia.
    destruct (gcoef_set_ok on per N bw m r ((c + k) mod N) (nth k vals z) I (Hd k ltac:(lia))) as (m' & E & I' & V).
    exists m'. split; auto. split; auto. split; [|split].
    + intros i j Hne. rewrite V. destruct (Nat.eqb_spec i r); [contradiction|]. apply A; auto.
    + intros a Ha. rewrite V. rewrite Nat.eqb_refl. cbn [andb].
      destruct (Nat.eqb_spec ((c + a) mod N) ((c + k) mod N)) as [Em|Em].
      * apply mod_inj in Em; try lia. subst; auto.
      * apply B. destruct (Nat.eq_dec a k); [congruence|lia].
    + intros j Hj. rewrite V. rewrite Nat.eqb_refl. cbn [andb].
      destruct (Nat.eqb_spec j ((c + k) mod N)) as [Em|Em].
      * exfalso. apply (Hj k); auto; lia.
      * apply C. intros a Ha. apply Hj. lia.
  - exists m. split; auto.
Qed.


(** ** Solving *)
Definition Qext (n : nat) (Q : (nat -> T) -> (nat -> T) -> Prop) : Prop := forall b b' x x',
  (forall i, i < n -> b i = b' i) -> (forall i, i < n -> x i = x' i) -> Q b x -> Q b' x'.
Definition solves (on : bool) (n : nat) (Q : (nat -> T) -> (nat -> T) -> Prop) (sv : solver T) : Prop :=
  forall (iter : nat -> ProgM.loc) (m0 : mem T),
  (forall i j, i < n -> j < n -> iter i = iter j -> i = j) ->
  (forall i, i < n -> mem_ok m0 (iter i)) ->
  exists m1 x, run (solver_solve o on sv iter) m0 = Ok (tt, m1) /\
    GenLU.holds o n iter m0 m1 x /\ Q (fun i => mval z m0 (iter i)) x.

Lemma gmem_ok_len (m m' : mem T) l : map (@length T) m = map (@length T) m' -> mem_ok m l <-> mem_ok m' l.
Proof.
  intros E. unfold mem_ok.
  assert (G : forall i, length (nth i m []) = length (nth i m' [])).
  { intros i. rewrite <- !(map_nth (@length T)). rewrite E. reflexivity. }
  rewrite G. tauto.
Qed.

Section Effect.
Variables (on : bool) (n h old new : nat) (copy : bool) (Q : (nat -> T) -> (nat -> T) -> Prop) (sv : solver T).
Hypothesis HS : solves on n Q sv.
Hypothesis HQ : Qext n Q.
Hypothesis Hne : old <> new.

(** Where the solution of line [j] is found. *)
Definition out_cell (j k : nat) : nat * nat := if copy then (new, k * h + j) else (old, j * n + k).

Definition sized (m : mem T) : Prop :=
  length (nth old m []) = h * n /\ (copy = true -> length (nth new m []) = n * h).

Lemma sized_len m m' : map (@length T) m = map (@length T) m' -> sized m' -> sized m.
Proof.
  intros E. assert (G : forall i, length (nth i m []) = length (nth i m' [])).
  { intros i. rewrite <- !(map_nth (@length T)). rewrite E. reflexivity. }
  unfold sized. rewrite !G. auto.
Qed.

Lemma line_effect m j : sized m -> j < h ->
  exists m1, run (line_prog o on sv old new n h copy j) m = Ok (tt, m1) /\
    map (@length T) m1 = map (@length T) m /\
    Q (fun i => mval z m (old, j * n + i)) (fun k => mval z m1 (out_cell j k)) /\
    (forall l, (forall k, k < n -> l <> (old, j * n + k)) -> (forall k, k < n -> l <> out_cell j k) ->
       mval z m1 l = mval z m l).
Proof.
  intros (L1 & L2) Hj. unfold line_prog. rewrite run_bind.
  set (iter := line_cell old (mkSkip (Z.of_nat (j * n)) 1)).
  assert (EI : forall k, iter k = (old, j * n + k)).
  { intros k. unfold iter. change 1%Z with (Z.of_nat 1). rewrite line_cell_eq. f_equal. lia. }
  destruct (HS iter m) as (m1 & x & E & (Hok & Hlen & Hv & Hu) & Hx).
  - intros a b Ha Hb. rewrite !EI. intros E. injection E. lia.
  - intros i Hi. rewrite EI. unfold mem_ok. cbn [fst snd]. rewrite L1. nia.
  - rewrite E. cbn [bind fst snd].
    unfold out_cell. destruct copy eqn:Ec.
    + specialize (L2 eq_refl). rewrite run_pfor.
      set (body := fun (m : mem T) (i : nat) => r <- run _ m ;; Ok (snd r)).
      destruct (for_inv (fun k m2 => map (@length T) m2 = map (@length T) m /\
         (forall i, i < n -> mval z m2 (old, j * n + i) = x i) /\
         (forall i, i < k -> mval z m2 (new, i * h + j) = x i) /\
         (forall l, (forall k, k < n -> l <> (old, j * n + k)) -> (forall k, k < n -> l <> (new, k * h + j)) ->
            mval z m2 l = mval z m l)) 0 n m1 body) as (m2 & E2 & (I1 & I2 & I3 & I4)).
      * lia.
      * split; auto. split; [intros; rewrite <- EI; auto|]. split; [intros; lia|].
        intros l A1 A2. apply Hu. intros i Hi. rewrite EI. apply A1; auto.
      * intros k m2 Hk (I1 & I2 & I3 & I4). unfold body. rewrite run_bind. cbn [pread run].
        assert (Ok2 : forall l, mem_ok m2 l <-> mem_ok m l) by (intros; apply gmem_ok_len; auto).
        fold iter. rewrite EI. rewrite (mem_get_ok z) by (apply Ok2; unfold mem_ok; cbn [fst snd]; rewrite L1; nia).
        cbn [bind fst snd pwrite run]. rewrite line_cell_eq. rewrite I2 by lia.
        destruct (mem_set_ok z m2 (new, j + k * h) (x k)) as (m3 & E3 & O3 & Len3 & V3).
        { apply Ok2. unfold mem_ok. cbn [fst snd]. rewrite L2. nia. }
        rewrite E3. cbn [bind snd]. exists m3. split; auto. split; [congruence|].
        assert (V3' : forall l, mval z m3 l = if (fst l =? new) && (snd l =? j + k * h) then x k else mval z m2 l) by apply V3.
        clear V3. split; [|split].
        { intros i Hi. rewrite V3'. cbn [fst snd]. destruct (Nat.eqb_spec old new); [congruence|]. apply I2; auto. }
        { intros i Hi. rewrite V3'. cbn [fst snd]. rewrite Nat.eqb_refl. cbn [andb].
          destruct (Nat.eqb_spec (i * h + j) (j + k * h)) as [Eq|Eq].
          - replace i with k by nia. auto.
          - apply I3. destruct (Nat.eq_dec i k); [subst; lia|lia]. }
        { intros l A1 A2. rewrite V3'. destruct (Nat.eqb_spec (fst l) new); cbn [andb]; auto.
          destruct (Nat.eqb_spec (snd l) (j + k * h)); auto. exfalso. apply (A2 k); [lia|]. destruct l; cbn [fst snd] in *. subst. f_equal. lia. }
      * change (@for_ (list (list T)) 0 n m1 body) with (@for_ (mem T) 0 n m1 body) in E2. exists m2. rewrite E2. cbn [bind]. split; auto. split; auto. split.
        { eapply HQ; [| |exact Hx]; intros i Hi; cbv beta; [rewrite EI; auto|rewrite I3 by auto; auto]. }
        { intros l A1 A2. apply I4; auto. }
    + cbn [run]. exists m1. split; auto. split; auto. split.
      * eapply HQ; [| |exact Hx]; intros i Hi; cbv beta; [rewrite EI; auto|rewrite <- EI, Hv; auto].
      * intros l A1 A2. apply Hu. intros i Hi. rewrite EI. auto.
Qed.

Lemma block_effect m0 lo hi : sized m0 -> lo <= hi <= h ->
  exists m1, run (pfor lo hi (line_prog o on sv old new n h copy)) m0 = Ok (tt, m1) /\
    map (@length T) m1 = map (@length T) m0 /\
    (forall j, lo <= j < hi -> Q (fun i => mval z m0 (old, j * n + i)) (fun k => mval z m1 (out_cell j k))) /\
    (forall l, (forall j k, lo <= j < hi -> k < n -> l <> (old, j * n + k)) ->
               (forall j k, lo <= j < hi -> k < n -> l <> out_cell j k) -> mval z m1 l = mval z m0 l).
Proof.
  intros Hs Hl. rewrite run_pfor.
  set (body := fun (m : mem T) (i : nat) => r <- run _ m ;; Ok (snd r)).
  assert (Inj1 : forall j j' k k', k < n -> k' < n -> (old, j * n + k) = (old, j' * n + k') -> j = j').
  { intros j j' k k' Hk Hk' E. injection E as E. apply lin_inj in E; lia. }
  assert (Inj2 : forall j j' k k', j < h -> j' < h -> (new, k * h + j) = (new, k' * h + j') -> j = j').
  { intros j j' k k' Hk Hk' E. injection E as E. apply lin_inj in E; lia. }
  destruct (for_inv (fun j m => map (@length T) m = map (@length T) m0 /\
    (forall j', lo <= j' < j -> Q (fun i => mval z m0 (old, j' * n + i)) (fun k => mval z m (out_cell j' k))) /\
    (forall l, (forall j' k, lo <= j' < j -> k < n -> l <> (old, j' * n + k)) ->
               (forall j' k, lo <= j' < j -> k < n -> l <> out_cell j' k) -> mval z m l = mval z m0 l)) lo hi m0 body)
    as (m1 & E & I1 & I2 & I3).
  - lia.
  - split; auto. split; auto. intros; lia.
  - intros j m Hj (I1 & I2 & I3).
    destruct (line_effect m j) as (m1 & E & L & V & U); [eapply sized_len; eauto|lia|].
    unfold body. rewrite E. cbn [bind snd]. exists m1. split; auto. split; [congruence|]. split.
    + intros j' Hj'. destruct (Nat.eq_dec j' j) as [->|Hd].
      * eapply HQ; [| |exact V]; auto. intros i Hi. cbv beta. apply I3.
        { intros j2 k Hj2 Hk Eq. apply Inj1 in Eq; auto; lia. }
        { intros j2 k Hj2 Hk Eq. unfold out_cell in Eq. destruct copy; [congruence|]. apply Inj1 in Eq; auto; lia. }
      * eapply HQ; [| |apply (I2 j'); lia]; auto. intros k Hk. cbv beta. symmetry. apply U.
        { intros k2 Hk2 Eq. unfold out_cell in Eq. destruct copy; [congruence|]. apply Inj1 in Eq; auto; lia. }
        { intros k2 Hk2 Eq. unfold out_cell in Eq. destruct copy; [apply Inj2 in Eq|apply Inj1 in Eq]; auto; lia. }
    + intros l A1 A2. rewrite U.
      * apply I3; intros; [apply A1|apply A2]; auto; lia.
      * intros k Hk. apply A1; auto; lia.
      * intros k Hk. apply A2; auto; lia.
  - change (@for_ (list (list T)) lo hi m0 body) with (@for_ (mem T) lo hi m0 body) in E. exists m1. rewrite E. cbn [bind]. auto.
Qed.
End Effect.

Definition good_mem (dims : list nat) (m : mem T) : Prop :=
  map (@length T) m = [prod dims; if 1 <? length dims then prod dims else 1].

Lemma good_mem_nth dims m a : good_mem dims m -> a < 2 -> (a = 0 \/ 1 < length dims) -> length (nth a m []) = prod dims.
Proof.
  intros H Ha Hc. rewrite <- (map_nth (@length T)), H. destruct a as [|[|]]; try lia; auto.
  cbn [nth]. destruct (Nat.ltb_spec 1 (length dims)); auto. lia.
Qed.


Section Rounds.
Variables (on : bool) (dims : list nat) (solvers : list (solver T)).
Hypothesis Hpos : 0 < prod dims.
Hypothesis Ls : length solvers = length dims.
Let D := length dims.
Definition gsv_at (k : nat) : solver T := nth k solvers (Aperiodic (band_make o 0 0 0)).
Local Notation sv_at := gsv_at.
Local Notation n_at := (n_at dims).

Lemma split_dims d : d < D ->
  exists pre suf, dims = (pre ++ [n_at (D - 1 - d)]) ++ suf /\ length suf = d /\ length pre = D - 1 - d.
Proof.
  intros Hd. exists (firstn (D - 1 - d) dims), (skipn (S (D - 1 - d)) dims).
  assert (HD : D = length dims) by reflexivity. split; [|split].
  - rewrite <- app_assoc. cbn [app]. apply split_at. lia.
  - rewrite skipn_length. lia.
  - rewrite firstn_length. lia.
Qed.

Lemma solve_round_eq d pre suf n : d < D ->
  dims = (pre ++ [n]) ++ suf -> length suf = d -> length pre = D - 1 - d ->
  solve_round o on solvers dims d =
  pfor 0 (prod (suf ++ pre)) (line_prog o on (sv_at (D - 1 - d)) (d mod 2) (1 - d mod 2) n (prod (suf ++ pre)) (1 <? D)).
Proof.
  intros Hd Ed Hs Hp. assert (HD : D = length dims) by reflexivity.
  assert (Hall : 0 < n /\ 0 < prod (suf ++ pre)).
  { pose proof Hpos as P. rewrite Ed in P. rewrite !prod_app in *. cbn [prod] in P. nia. }
  destruct Hall as [Hn Hh].
  unfold solve_round. replace d with (length suf) at 1. rewrite Ed at 1. rewrite round_dims_ok. cbn [plift pbind].
  rewrite app_assoc. rewrite right_shift_ok. cbn [plift pbind].
  rewrite <- HD. rewrite usub_ok by lia. cbn [bind]. rewrite usub_ok by lia. cbn [bind].
  rewrite (vget_ok _ _ (Aperiodic (band_make o 0 0 0))) by lia. fold (sv_at (D - 1 - d)). cbn [plift pbind].
  assert (LD : length ((suf ++ pre) ++ [n]) = D).
  { rewrite HD, Ed. rewrite !app_length. simpl. lia. }
  assert (LD' : length (suf ++ pre) = D - 1) by (rewrite (app_length (suf ++ pre)) in LD; simpl in LD; lia).
  unfold hyperplane_size. rewrite usub_ok by lia. cbn [bind].
  rewrite (vget_ok _ _ 0) by lia. cbn [bind].
  rewrite app_nth2 by lia.
  replace (length ((suf ++ pre) ++ [n]) - 1 - length (suf ++ pre)) with 0 by lia.
  cbn [nth]. unfold udiv. destruct (Nat.eqb_spec n 0); [lia|]. rewrite md_size_prod, prod_app. cbn [prod].
  replace (prod (suf ++ pre) * (n * 1)) with (prod (suf ++ pre) * n) by lia. rewrite Nat.div_mul by lia. cbn [plift pbind].
  replace (1 <? D) with (1 <? length ((suf ++ pre) ++ [n])) by (rewrite LD; reflexivity).
  rewrite (solve_block_lines o on (sv_at (D - 1 - d)) d (suf ++ pre) n).
  - reflexivity.
  - auto.
  - apply prod_pos. auto.
  - lia.
Qed.

End Rounds.
End Gen.
