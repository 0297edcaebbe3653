(** Facts about the allocators and helpers. *)
From Coq Require Import List Arith NArith Lia Bool.
From Verif Require Import Base MeshM SpecMesh MeshProofs AllocM.
Import ListNotations.

Lemma aa_exact sys align sz n : (0 < sz)%N -> (align < W64)%N -> (n <= aa_max_size align sz)%N ->
  sys_ok sys ->
  match aa_allocate sys align sz n with
  | Ok (p, bytes) => bytes = (n * sz)%N /\ (p mod align = 0)%N /\ (p <> 0)%N /\ (p + n * sz <= W64)%N
  | Throw e => e = BadAlloc /\ sys align (n * sz)%N = None
  | Fault _ => False
  end.
Proof.
  intros Hs Ha Hn Hsys. unfold aa_allocate, mul64.
  assert (B : (n * sz < W64)%N).
  { unfold aa_max_size in Hn. pose proof (N.mul_div_le (W64 - 1 - align) sz ltac:(lia)).
    assert (n * sz <= W64 - 1 - align)%N by nia. lia. }
  rewrite N.mod_small by exact B. destruct (sys align (n * sz)%N) as [p|] eqn:E; [|auto].
  destruct (Hsys _ _ _ E) as (A1 & A2 & A3). auto.
Qed.

(** A system allocator with one block of 4096 bytes. *)
Definition sys_ex : N -> N -> option N := fun align bytes =>
  if (align =? 32)%N && (bytes <=? 4096)%N then Some 4096%N else None.
Lemma sys_ex_ok : sys_ok sys_ex.
Proof.
  intros align bytes p E. unfold sys_ex in E. destruct (N.eqb_spec align 32); [|discriminate].
  destruct (N.leb_spec bytes 4096); [|discriminate]. injection E as <-. subst.
  split; [reflexivity|]. split; [discriminate|]. unfold W64. change (2 ^ 64)%N with 18446744073709551616%N. lia.
Qed.

(** Beyond [max_size] the byte count wraps and too little is obtained. *)
Lemma aa_wraps : exists sys align sz n p bytes,
  sys_ok sys /\ aa_allocate sys align sz n = Ok (p, bytes) /\ (bytes < n * sz)%N.
Proof.
  exists sys_ex, 32%N, 8%N, (2 ^ 61 + 1)%N, 4096%N, 8%N. split; [exact sys_ex_ok|]. split; vm_compute; reflexivity.
Qed.

(** ** Stack allocator *)
Definition inside (N : nat) (b : nat * nat) : Prop := fst b + snd b <= N.
Definition apart (b c : nat * nat) : Prop := fst b + snd b <= fst c \/ fst c + snd c <= fst b.

(** The blocks lie one below the other, beginning at the stack pointer. *)
Fixpoint stacked (sp : nat) (live : list (nat * nat)) : Prop :=
  match live with
  | [] => sp = 0
  | (p, n) :: l => p + n = sp /\ stacked p l
  end.

Lemma stacked_below sp live : stacked sp live -> forall b, In b live -> fst b + snd b <= sp.
Proof.
  revert sp. induction live as [|[p n] l IH]; intros sp H b Hb; [destruct Hb|]. destruct H as (H1 & H2).
  destruct Hb as [<-|Hb]; cbn; [lia|]. specialize (IH p H2 b Hb). lia.
Qed.

Lemma stacked_apart sp live : stacked sp live -> ForallOrdPairs apart live.
Proof.
  revert sp. induction live as [|[p n] l IH]; intros sp H; constructor.
  - apply List.Forall_forall. intros b Hb. destruct H as (H1 & H2). pose proof (stacked_below p l H2 b Hb). right. cbn. exact H.
  - destruct H as (H1 & H2). eapply IH; eauto.
Qed.

Lemma stacked_sum sp live : stacked sp live -> sp = list_sum (map snd live).
Proof.
  revert sp. induction live as [|[p n] l IH]; intros sp H; cbn in *; [auto|]. destruct H as (H1 & H2).
  specialize (IH p H2). unfold list_sum in IH. lia.
Qed.

Lemma sa_history N ops : exists a live,
  foldM sa_client ops (sa_make N, []) = Ok (a, live) /\
  sa_end a = N /\ sa_sp a <= N /\ stacked (sa_sp a) live.
Proof.
  assert (G : forall ops a live, sa_end a = N -> sa_sp a <= N -> stacked (sa_sp a) live ->
    exists a' live', foldM sa_client ops (a, live) = Ok (a', live') /\ sa_end a' = N /\ sa_sp a' <= N /\ stacked (sa_sp a') live').
  { clear ops. induction ops as [|op ops IH]; intros a live He Hs Hl; [exists a, live; auto|].
    cbn [foldM]. destruct op as [n|]; cbn [sa_client].
    - unfold sa_allocate. rewrite usub_ok by lia. cbn [bind]. destruct (Nat.leb_spec n (sa_end a - sa_sp a)).
      + cbn [bind]. apply IH; cbn; try lia. auto.
      + cbn [bind]. apply IH; auto.
    - destruct live as [|[p n] live'].
      + cbn [bind]. apply IH; auto.
      + unfold sa_deallocate. destruct Hl as (H1 & H2). rewrite usub_ok by lia. cbn [bind]. apply IH; cbn; try lia.
        replace (sa_sp a - n) with p by lia. exact H2. }
  apply (G ops (sa_make N) []); cbn; auto. lia.
Qed.

Lemma sa_blocks N ops : exists a live,
  foldM sa_client ops (sa_make N, []) = Ok (a, live) /\
  List.Forall (inside N) live /\ ForallOrdPairs apart live /\
  forall n, (sa_allocate a n = Throw BadAlloc <-> N < list_sum (map snd live) + n) /\
            (n + list_sum (map snd live) <= N -> exists p a', sa_allocate a n = Ok (p, a') /\ inside N (p, n) /\ List.Forall (apart (p, n)) live).
Proof.
  destruct (sa_history N ops) as (a & live & H & He & Hs & Hl). exists a, live. split; auto. split; [|split].
  - apply List.Forall_forall. intros b Hb. pose proof (stacked_below _ _ Hl b Hb). unfold inside. lia.
  - eapply stacked_apart; eauto.
  - intros n. pose proof (stacked_sum _ _ Hl) as S. unfold sa_allocate. rewrite usub_ok by lia. cbn [bind].
    destruct (Nat.leb_spec n (sa_end a - sa_sp a)); split.
    + split; [discriminate|lia].
    + intros _. eexists _, _. split; [reflexivity|]. split; [unfold inside; cbn; lia|].
      apply List.Forall_forall. intros b Hb. pose proof (stacked_below _ _ Hl b Hb). right. cbn. lia.
    + split; [lia|auto].
    + lia.
Qed.

Lemma sa_same_block a n :
  match sa_allocate a n with
  | Ok (p, a1) => exists a2, sa_allocate (sa_copy a) n = Ok (p, a2)
  | Throw e => sa_allocate (sa_copy a) n = Throw e
  | Fault u => sa_allocate (sa_copy a) n = Fault u
  end.
Proof.
  replace (sa_copy a) with a by (destruct a; reflexivity). destruct (sa_allocate a n) as [[p a1]| |] eqn:E; auto. exists a1. auto.
Qed.

Lemma sa_copies : exists a n p a1 a2, 0 < n /\
  sa_allocate a n = Ok (p, a1) /\ sa_allocate (sa_copy a) n = Ok (p, a2).
Proof. exists (sa_make 10), 4, 0. eexists _, _. split; [auto|]. split; reflexivity. Qed.

(** ** Helpers *)
Lemma util_pow_repeat {T} (mul : T -> T -> T) one b e : util_pow mul one b e = fold_right mul one (repeat b e).
Proof. induction e; cbn; congruence. Qed.

Lemma util_pow_nat b e : util_pow Nat.mul 1 b e = b ^ e.
Proof. induction e; cbn [util_pow Nat.pow]; congruence. Qed.

Lemma W64_pos : W64 <> 0%N.
Proof. unfold W64. discriminate. Qed.

Lemma util_pow_64 b e : util_pow mul64 1%N b e = ((b ^ N.of_nat e) mod W64)%N.
Proof.
  induction e as [|e IH]; [reflexivity|]. cbn [util_pow]. rewrite IH. unfold mul64.
  rewrite N.mul_mod_idemp_r by exact W64_pos. f_equal. rewrite Nat2N.inj_succ, N.pow_succ_r'. reflexivity.
Qed.

Lemma index_sequence_seq n l : index_sequence n l = seq 0 n ++ l.
Proof.
  revert l. induction n as [|n IH]; intros l; [reflexivity|]. cbn [index_sequence]. rewrite IH.
  rewrite seq_S. cbn. now rewrite <- app_assoc.
Qed.

(** The calls one after the other, numbered from [k]. *)
Fixpoint calls {X S} (func : nat -> X -> S -> res S) (k : nat) (args : list X) (s : S) : res S :=
  match args with
  | [] => Ok s
  | x :: args => bind (func k x s) (calls func (k + 1) args)
  end.

Lemma dispatch_calls {X S} (func : nat -> X -> S -> res S) args s :
  dispatch_indexed func args s = calls func 0 args s.
Proof.
  unfold dispatch_indexed. rewrite index_sequence_seq, app_nil_r. generalize 0 as k. revert s.
  induction args as [|x args IH]; intros s k; [reflexivity|]. cbn [length seq combine foldM fst snd calls].
  destruct (func k x s); cbn [bind]; auto. rewrite Nat.add_1_r. apply IH.
Qed.

Lemma dispatch_log {X} (args : list X) (log : list (nat * X)) :
  dispatch_indexed (fun i x l => Ok (l ++ [(i, x)])) args log = Ok (log ++ combine (seq 0 (length args)) args).
Proof.
  rewrite dispatch_calls. generalize 0 as k. revert log.
  induction args as [|x args IH]; intros log k; cbn [calls bind length seq combine]; [now rewrite app_nil_r|].
  rewrite IH, Nat.add_1_r, <- app_assoc. reflexivity.
Qed.

(** ** Sizes *)
Lemma fold_mul64 dims (a : N) : fold_left mul64 (map N.of_nat dims) (a mod W64)%N = ((a * N.of_nat (prod dims)) mod W64)%N.
Proof.
  revert a. induction dims as [|d dims IH]; intros a; cbn [map fold_left prod].
  - now rewrite N.mul_1_r.
  - unfold mul64 at 2. rewrite N.mul_mod_idemp_l by exact W64_pos. rewrite IH, Nat2N.inj_mul, N.mul_assoc. reflexivity.
Qed.

Lemma size64_prod dims : size64 (map N.of_nat dims) = (N.of_nat (md_size dims) mod W64)%N.
Proof.
  unfold size64. rewrite md_size_prod. change 1%N with (1 mod W64)%N. rewrite fold_mul64, N.mul_1_l. reflexivity.
Qed.

Lemma index64_row_major dims idx : length idx = length dims ->
  index64 (map N.of_nat dims) (map N.of_nat idx) = (N.of_nat (row_major dims idx) mod W64)%N.
Proof.
  intros L. unfold index64.
  assert (G : fold_left (fun (s : N * N) p => (add64 (fst s) (mul64 (fst p) (snd s)), mul64 (snd s) (snd p)))
                (rev (combine (map N.of_nat idx) (map N.of_nat dims))) (0%N, 1%N)
              = ((N.of_nat (row_major dims idx) mod W64)%N, (N.of_nat (prod dims) mod W64)%N)).
  { revert idx L. induction dims as [|d dims IH]; intros [|i idx] L; try discriminate L.
    - reflexivity.
    - cbn [map combine rev]. rewrite fold_left_app, IH by (cbn in L; lia). cbn [fold_left fst snd row_major prod].
      unfold add64, mul64. f_equal.
      + rewrite N.mul_mod_idemp_r by exact W64_pos. rewrite N.add_mod_idemp_r, N.add_mod_idemp_l by exact W64_pos.
        f_equal. rewrite Nat2N.inj_add, Nat2N.inj_mul. lia.
      + rewrite N.mul_mod_idemp_l by exact W64_pos. f_equal. rewrite Nat2N.inj_mul. lia. }
  rewrite G. reflexivity.
Qed.

Lemma mesh64_agrees dims idx sys align sz stored : valid dims idx -> (N.of_nat (md_size dims) < W64)%N ->
  mesh64_make sys align sz (map N.of_nat dims) = Ok stored ->
  stored = N.of_nat (md_size dims) /\
  exists k, md_indexing dims idx = Ok k /\ mesh64_at stored (map N.of_nat dims) (map N.of_nat idx) = Ok (N.of_nat k).
Proof.
  intros V B E. pose proof (valid_length _ _ V) as L.
  pose proof (row_major_lt dims idx V) as K2. rewrite <- md_size_prod in K2.
  pose proof (md_indexing_spec dims idx L) as K1.
  assert (S : stored = N.of_nat (md_size dims)).
  { unfold mesh64_make in E. rewrite size64_prod, N.mod_small in E by exact B.
    destruct (N.eqb_spec (N.of_nat (md_size dims)) 0) as [Z|Z]; [injection E as <-; auto|].
    destruct (N.ltb_spec (aa_max_size align sz) (N.of_nat (md_size dims))); [discriminate|].
    destruct (aa_allocate sys align sz (N.of_nat (md_size dims))) as [r| |]; try discriminate. cbn [bind] in E. injection E as <-. auto. }
  split; auto. exists (row_major dims idx). split; auto. unfold mesh64_at.
  rewrite index64_row_major by exact L. rewrite N.mod_small by lia. rewrite S.
  destruct (N.ltb_spec (N.of_nat (row_major dims idx)) (N.of_nat (md_size dims))); auto. lia.
Qed.

Lemma mesh64_wraps : exists sys align sz dims idx stored, sys_ok sys /\
  mesh64_make sys align sz dims = Ok stored /\ Forall2 N.lt idx dims /\
  mesh64_at stored dims idx = Fault OutOfBounds.
Proof.
  exists sys_ex, 32%N, 8%N, [3; 6148914691236517206]%N, [1; 5]%N.
  eexists. split; [exact sys_ex_ok|]. split; [|split]; [vm_compute; reflexivity| |].
  - repeat constructor; vm_compute; reflexivity.
  - vm_compute. reflexivity.
Qed.

Lemma ex_history : foldM sa_client [SAlloc 3; SAlloc 4; SFree; SAlloc 9; SAlloc 5] (sa_make 10, []) = Ok (mkSA 10 8, [(3, 5); (0, 3)]).
Proof. reflexivity. Qed.

Lemma ex_aligned : (0 < 8)%N /\ (32 < W64)%N /\ (500 <= aa_max_size 32 8)%N /\ sys_ok sys_ex /\
  aa_allocate sys_ex 32 8 500 = Ok (4096, 4000)%N.
Proof.
  split; [reflexivity|]. split; [reflexivity|]. split; [vm_compute; discriminate|]. split; [exact sys_ex_ok|]. reflexivity.
Qed.

Lemma ex_mesh64 : valid [3; 4; 5] [2; 1; 3] /\ (N.of_nat (md_size [3; 4; 5]%nat) < W64)%N /\
  mesh64_make sys_ex 32 8 (map N.of_nat [3; 4; 5]%nat) = Ok 60%N.
Proof. split; [repeat constructor|]. split; reflexivity. Qed.

Lemma pow_facts :
  (forall (T : Type) (mul : T -> T -> T) one b e, util_pow mul one b e = fold_right mul one (repeat b e)) /\
  (forall b e, util_pow Nat.mul 1 b e = b ^ e) /\
  (forall b e, util_pow mul64 1%N b e = ((b ^ N.of_nat e) mod W64)%N).
Proof. exact (conj (@util_pow_repeat) (conj util_pow_nat util_pow_64)). Qed.

Lemma dispatch_facts : forall (X S : Type) (func : nat -> X -> S -> res S) args s,
  dispatch_indexed func args s = calls func 0 args s.
Proof. intros. apply dispatch_calls. Qed.

Lemma dispatch_log0 : forall (X : Type) (args : list X),
  dispatch_indexed (fun i x l => Ok (l ++ [(i, x)])) args [] = Ok (combine (seq 0 (length args)) args).
Proof. intros. now rewrite dispatch_log. Qed.
