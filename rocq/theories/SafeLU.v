(** Which operations of the factorisation and of the triangular solves can
    fail, in any arithmetic: only a division. *)
From Coq Require Import List Arith Lia Bool.
From Verif Require Import Base Num MeshM SpecMesh MeshProofs ProgM BandM LUM SpecBand BandProofs.
Import ListNotations.

(** The faults that a division may cause. *)
Class allowed := may_fail : fault -> Prop.
Definition div_only : allowed := fun u => u = DivByZero.
Definition no_fault : allowed := fun _ => False.

Section Safely.
Context {FL : allowed}.

(** The outcome is a result with [P], an allowed fault, or (if [exc]) an
    exception. *)
Definition safely {A} (exc : bool) (P : A -> Prop) (r : res A) : Prop :=
  match r with Ok a => P a | Throw _ => exc = true | Fault u => may_fail u end.

Lemma safely_bind {A B} exc (P : A -> Prop) (Q : B -> Prop) r f :
  safely exc P r -> (forall a, P a -> safely exc Q (f a)) -> safely exc Q (bind r f).
Proof. intros H Hf. destruct r; cbn [bind safely] in *; auto. Qed.
Lemma safely_mono {A} exc (P Q : A -> Prop) r : safely exc P r -> (forall a, P a -> Q a) -> safely exc Q r.
Proof. intros H HQ. destruct r; cbn [safely] in *; auto. Qed.
Lemma safely_exc {A} exc (P : A -> Prop) r : safely false P r -> safely exc P r.
Proof. destruct r; cbn [safely]; auto; discriminate. Qed.

Lemma safely_foldM {S I} exc (P : S -> Prop) (f : S -> I -> res S) l s :
  P s -> (forall i s, In i l -> P s -> safely exc P (f s i)) -> safely exc P (foldM f l s).
Proof.
  revert s; induction l as [|i l IH]; intros s Hs H; cbn [foldM].
  - exact Hs.
  - apply (safely_bind exc P).
    + apply H; simpl; auto.
    + intros s' Hs'. apply IH; auto. intros; apply H; simpl; auto.
Qed.
Lemma safely_for {S} exc (P : S -> Prop) lo hi s f :
  P s -> (forall i s, lo <= i < hi -> P s -> safely exc P (f s i)) -> safely exc P (for_ lo hi s f).
Proof. intros Hs H. apply safely_foldM; auto. intros i s' Hi. apply in_seq in Hi. apply H. lia. Qed.
Lemma safely_for_idx {X} exc (P : nat -> X -> Prop) lo hi s f : lo <= hi ->
  P lo s -> (forall i s, lo <= i < hi -> P i s -> safely exc (P (i + 1)) (f s i)) -> safely exc (P hi) (for_ lo hi s f).
Proof.
  intros Hle. unfold for_. remember (hi - lo) as n eqn:En. revert lo s Hle En.
  induction n; intros lo s Hle En Hs H; cbn [seq foldM].
  - replace hi with lo by lia. exact Hs.
  - apply (safely_bind exc (P (lo + 1))); [apply H; auto; lia|]. intros s' Hs'.
    replace (S lo) with (lo + 1) by lia. apply IHn; auto; try lia. intros; apply H; auto; lia.
Qed.
Lemma safely_mapM {X Y} exc (P : Y -> Prop) (f : X -> res Y) l :
  (forall x, In x l -> safely exc P (f x)) ->
  safely exc (fun ys => length ys = length l /\ List.Forall P ys) (mapM f l).
Proof.
  induction l as [|x l IH]; intros H; cbn [mapM].
  - split; auto.
  - apply (safely_bind exc P); [apply H; simpl; auto|]. intros y Hy.
    apply (safely_bind exc _ _ _ _ (IH (fun z Hz => H z (or_intror Hz)))). intros ys (L & F).
    cbn [safely length]. auto.
Qed.

(** The division of the arithmetic yields a number or reports a zero divisor. *)
Definition div_safe {T} (o : ops T) : Prop := forall a b, safely false (fun _ => True) (odiv o a b).
End Safely.

(** ** Programs over memory: every access in [V], and nothing else fails. *)
Section PSafe.
Context {FL : allowed} {T : Type}.
Inductive psafe (V : ProgM.loc -> Prop) {A : Type} : prog T A -> Prop :=
| ps_ret a : psafe V (Ret a)
| ps_rd l k : V l -> (forall v, psafe V (k v)) -> psafe V (Rd l k)
| ps_wr l v k : V l -> psafe V k -> psafe V (Wr l v k)
| ps_div u : may_fail u -> psafe V (PFault u).

Lemma psafe_bind {A B} V (p : prog T A) (f : A -> prog T B) :
  psafe V p -> (forall a, psafe V (f a)) -> psafe V (pbind p f).
Proof. intros H Hf. induction H; cbn [pbind]; try (constructor; auto); auto. Qed.
Lemma psafe_lift {A B} V (P : A -> Prop) (r : res A) (f : A -> prog T B) :
  safely false P r -> (forall a, P a -> psafe V (f a)) -> psafe V (pbind (plift r) f).
Proof.
  intros H Hf. destruct r; cbn [plift pbind safely] in *; auto; [discriminate|]. constructor. auto.
Qed.
Lemma psafe_piter {I} V (f : I -> prog T unit) l : (forall i, In i l -> psafe V (f i)) -> psafe V (piter f l).
Proof.
  induction l; intros H; cbn [piter]; [constructor|].
  apply psafe_bind; [apply H; simpl; auto|]. intros _. apply IHl. intros; apply H; simpl; auto.
Qed.
Lemma psafe_pfor V lo hi (f : nat -> prog T unit) : (forall i, lo <= i < hi -> psafe V (f i)) -> psafe V (pfor lo hi f).
Proof. intros H. apply psafe_piter. intros i Hi. apply in_seq in Hi. apply H. lia. Qed.
Lemma psafe_pfor_down V n (f : nat -> prog T unit) : (forall i, i < n -> psafe V (f i)) -> psafe V (pfor_down n f).
Proof. intros H. apply psafe_piter. intros i Hi. apply in_rev, in_seq in Hi. apply H. lia. Qed.
Lemma psafe_mono {A} (V W : ProgM.loc -> Prop) (p : prog T A) : (forall l, V l -> W l) -> psafe V p -> psafe W p.
Proof. intros HV H. induction H; constructor; auto. Qed.

Lemma psafe_run {A} V (p : prog T A) : psafe V p -> forall m, (forall l, V l -> mem_ok m l) ->
  safely false (fun r => map (@length T) (snd r) = map (@length T) m) (run p m).
Proof.
  intros H. induction H; intros m HV; cbn [run].
  - reflexivity.
  - pose proof (HV l H) as Hl. unfold mem_ok in Hl.
    destruct (nth (fst l) m []) as [|d rest] eqn:E; [simpl in Hl; lia|].
    rewrite (mem_get_ok d) by (unfold mem_ok; rewrite E; auto). cbn [bind]. apply H1. auto.
  - destruct (mem_set_ok v m l v (HV l H)) as (m' & E & Hk & Hlen & _). rewrite E. cbn [bind].
    rewrite <- Hlen. apply IHpsafe. intros l' Hl'. apply Hk. auto.
  - exact H.
Qed.
End PSafe.

Section Any.
Context {FL : allowed} {T : Type} (o : ops T) (d : T) (on : bool).
Hypothesis Hdiv : div_safe o.

(** ** Factorisation *)
Section Loops.
Context {M : Type} (inv : M -> Prop).
Definition sgetter (D : nat -> nat -> Prop) (get : M -> nat -> nat -> res T) : Prop :=
  forall m i j, inv m -> D i j -> exists v, get m i j = Ok v.
Definition ssetter (D : nat -> nat -> Prop) (set : M -> nat -> nat -> T -> res M) : Prop :=
  forall m i j v, inv m -> D i j -> exists m', set m i j v = Ok m' /\ inv m'.

Lemma div_assign_safe (Dd D : nat -> nat -> Prop) getd get set m i j k :
  sgetter Dd getd -> sgetter D get -> ssetter D set -> inv m -> Dd k k -> D i j ->
  safely false inv (div_assign o getd get set m i j k).
Proof.
  intros G1 G2 S Hm Hk Hij. unfold div_assign. destruct (G2 m i j Hm Hij) as (v & ->). cbn [bind].
  destruct (G1 m k k Hm Hk) as (w & ->). cbn [bind]. apply (safely_bind false (fun _ => True)); [apply Hdiv|].
  intros r _. destruct (S m i j r Hm Hij) as (m' & -> & Hm'). exact Hm'.
Qed.
Lemma sub_assign_safe (D D1 D2 : nat -> nat -> Prop) get get1 get2 set m i j k :
  sgetter D get -> sgetter D1 get1 -> sgetter D2 get2 -> ssetter D set -> inv m -> D i j -> D1 i k -> D2 k j ->
  safely false inv (sub_assign o get get1 get2 set m i j k).
Proof.
  intros G G1 G2 S Hm H H1 H2. unfold sub_assign. destruct (G m i j Hm H) as (v & ->). cbn [bind].
  destruct (G1 m i k Hm H1) as (a & ->). cbn [bind]. destruct (G2 m k j Hm H2) as (b & ->). cbn [bind].
  match goal with |- safely _ _ (set _ _ _ ?x) => destruct (S m i j x Hm H) as (m' & -> & Hm') end. exact Hm'.
Qed.
End Loops.

Lemma band_lu_safe n p q m : wfb n p q m -> 0 < n -> safely false (wfb n p q) (band_lu o on m).
Proof using Hdiv d.
  intros Hw Hn. pose proof Hw as (En & Ep & Eq & _). unfold band_lu. rewrite En, Ep, Eq.
  rewrite usub_ok by lia. cbn [bind].
  assert (G : sgetter (wfb n p q) (in_band n p q) (band_get on)).
  { intros m' i j H H'. rewrite (band_get_ok d on n p q) by auto. eauto. }
  assert (S : ssetter (wfb n p q) (in_band n p q) (band_set on)).
  { intros m' i j v H H'. destruct (band_set_ok d on n p q m' i j v H H') as (m2 & E & W & _). eauto. }
  apply safely_for; auto. intros k s Hk Hs.
  apply (safely_bind false (wfb n p q)).
  - apply safely_for; auto. intros i s' Hi Hs'. apply (div_assign_safe _ (in_band n p q) (in_band n p q)); auto; unfold in_band; lia.
  - intros s1 Hs1. apply safely_for; auto. intros j s2 Hj Hs2. apply safely_for; auto. intros i s3 Hi Hs3.
    apply (sub_assign_safe _ (in_band n p q) (in_band n p q) (in_band n p q)); auto; unfold in_band; lia.
Qed.

Lemma eband_lu_safe n p q m : wfe n p q m -> safely false (wfe n p q) (eband_lu o on m).
Proof using Hdiv d.
  intros Hw. destruct (wfe_npq _ _ _ _ Hw) as (En & Ep & Eq). pose proof Hw as (_ & Hpn & Hqn & _).
  unfold eband_lu. rewrite En, Ep, Eq. rewrite usub_ok by lia. cbn [bind].
  set (inv := wfe (T := T) n p q) in *.
  set (B := in_band n p q). set (S := in_side n p q). set (X := in_ext n p q).
  assert (gB : sgetter inv B (eb_main_get on)) by (intros ? ? ? ? ?; eexists; apply (eb_main_get_ok d on n p q); auto).
  assert (gS : sgetter inv S (eb_side_get on)) by (intros ? ? ? ? ?; eexists; apply (eb_side_get_ok d on n p q); auto).
  assert (gX : sgetter inv X (eb_get on)) by (intros ? ? ? ? ?; eexists; apply (eb_get_ok d on n p q); auto).
  assert (sB : ssetter inv B (eb_main_set on)).
  { intros m' i j v H H'. destruct (eb_main_set_ok d on n p q m' i j v H H') as (m2 & E & W & _). eauto. }
  assert (sS : ssetter inv S (eb_side_set on)).
  { intros m' i j v H H'. destruct (eb_side_set_ok d on n p q m' i j v H H') as (m2 & E & W & _). eauto. }
  assert (sX : ssetter inv X (eb_set on)).
  { intros m' i j v H H'. destruct (eb_set_ok d on n p q m' i j v H H') as (m2 & E & W & _). eauto. }
  apply safely_for; auto. intros k s Hk Hs.
  rewrite (usub_ok n q) by lia. cbn [bind]. rewrite (usub_ok n p) by lia. cbn [bind].
  apply (safely_bind false inv).
  { apply safely_for; auto. intros i s' Hi Hs'. apply (div_assign_safe inv B B); auto; unfold B, in_band; lia. }
  clear s Hs. intros s Hs. apply (safely_bind false inv).
  { apply safely_for; auto. intros i s' Hi Hs'. apply (div_assign_safe inv B S); auto; unfold B, S, in_band, in_side; lia. }
  clear s Hs. intros s Hs. apply (safely_bind false inv).
  { apply safely_for; auto. intros j s' Hj Hs'. apply safely_for; auto. intros i s2 Hi Hs2.
    apply (sub_assign_safe inv B B B); auto; unfold B, in_band; lia. }
  clear s Hs. intros s Hs. apply (safely_bind false inv).
  { apply safely_for; auto. intros i s' Hi Hs'. apply safely_for; auto. intros j s2 Hj Hs2.
    apply (sub_assign_safe inv X B S); auto; unfold B, S, X, in_ext, in_band, in_side; lia. }
  clear s Hs. intros s Hs. apply (safely_bind false inv).
  { apply safely_for; auto. intros j s' Hj Hs'. apply safely_for; auto. intros i s2 Hi Hs2.
    apply (sub_assign_safe inv X S B); auto; unfold B, S, X, in_ext, in_band, in_side; lia. }
  clear s Hs. intros s Hs. rewrite (usub_ok (n - p) 1) by lia. cbn [bind]. rewrite (usub_ok (n - q) 1) by lia. cbn [bind].
  destruct (Nat.ltb_spec k (Nat.max (n - p - 1) (n - q - 1))); [|exact Hs].
  apply safely_for; auto. intros i s' Hi Hs'. apply safely_for; auto. intros j s2 Hj Hs2.
  apply (sub_assign_safe inv B S S); auto; unfold B, S, in_band, in_side; lia.
Qed.

(** ** Triangular solves *)
Definition vec (n : nat) (iter : nat -> ProgM.loc) (l : ProgM.loc) : Prop := exists i, i < n /\ l = iter i.

Lemma it_sub_safe n iter a i j : i < n -> j < n -> (exists v, a = Ok v) -> psafe (vec n iter) (it_sub_assign o iter a i j).
Proof.
  intros Hi Hj (v & ->). unfold it_sub_assign. cbn [pread plift pbind].
  constructor; [exists i; auto|]. intros xi. constructor; [exists j; auto|]. intros xj. constructor; [exists i; auto|]. constructor.
Qed.
Lemma it_div_safe n iter a j : j < n -> (exists v, a = Ok v) -> psafe (vec n iter) (it_div_assign o iter a j).
Proof.
  intros Hj (v & ->). unfold it_div_assign. cbn [pread plift pbind].
  constructor; [exists j; auto|]. intros xj. apply (psafe_lift _ (fun _ => True)); [apply Hdiv|]. intros r _.
  constructor; [exists j; auto|]. constructor.
Qed.

Lemma band_solve_safe n p q m iter : wfb n p q m -> psafe (vec n iter) (band_solve o on m iter).
Proof using Hdiv d.
  intros Hw. pose proof Hw as (En & Ep & Eq & _). unfold band_solve. rewrite En, Ep, Eq.
  assert (G : forall i j, in_band n p q i j -> exists v, band_get on m i j = Ok v).
  { intros i j H. eexists. apply (band_get_ok d on n p q); auto. }
  apply psafe_bind.
  - apply psafe_pfor. intros j Hj. apply psafe_pfor. intros i Hi. apply it_sub_safe; try lia. apply G. unfold in_band; lia.
  - intros _. apply psafe_pfor_down. intros j Hj. apply psafe_bind.
    + apply it_div_safe; auto. apply G. unfold in_band; lia.
    + intros _. apply psafe_pfor. intros i Hi. apply it_sub_safe; try lia. apply G. unfold in_band.
      destruct (Nat.ltb_spec j q); lia.
Qed.

Lemma eband_solve_safe n p q m iter : wfe n p q m -> p + q <= n -> psafe (vec n iter) (eband_solve o on m iter).
Proof using Hdiv d.
  intros Hw Hpq. destruct (wfe_npq _ _ _ _ Hw) as (En & Ep & Eq). pose proof Hw as (_ & Hpn & Hqn & _).
  unfold eband_solve. rewrite En, Ep, Eq.
  assert (Enp : (a <- usub n p ;; usub a 1) = Ok (n - p - 1)) by (rewrite usub_ok by lia; cbn [bind]; apply usub_ok; lia).
  rewrite Enp. cbn [plift]. rewrite (usub_ok n q) by lia. cbn [plift].
  assert (G : forall i j, in_band n p q i j -> exists v, eb_main_get on m i j = Ok v).
  { intros i j H. eexists. apply (eb_main_get_ok d on n p q); auto. }
  assert (S : forall i j, in_side n p q i j -> exists v, eb_side_get on m i j = Ok v).
  { intros i j H. eexists. apply (eb_side_get_ok d on n p q); auto. }
  apply psafe_bind.
  - apply psafe_pfor. intros j Hj. apply psafe_bind.
    + apply psafe_pfor. intros i Hi. apply it_sub_safe; try lia. apply G. unfold in_band; lia.
    + intros _. cbn [pbind]. destruct (Nat.ltb_spec j (n - p - 1)); [|constructor].
      apply psafe_pfor. intros i Hi. apply it_sub_safe; try lia. apply S. unfold in_side; lia.
  - intros _. apply psafe_pfor_down. intros j Hj. apply psafe_bind.
    + apply it_div_safe; auto. apply G. unfold in_band; lia.
    + intros _. apply psafe_bind.
      * apply psafe_pfor. intros i Hi. apply it_sub_safe; try lia. apply G. unfold in_band.
        destruct (Nat.ltb_spec j q); lia.
      * intros _. cbn [pbind]. destruct (Nat.ltb_spec (n - p - 1) j); [|constructor].
        rewrite usub_ok by lia. cbn [plift pbind].
        apply psafe_pfor. intros i Hi. apply it_sub_safe; try lia. apply S. unfold in_side; lia.
Qed.
End Any.
