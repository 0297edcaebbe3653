(** Copying the data into the control point mesh. *)
From Coq Require Import List Arith Lia Bool ZArith Reals Lra.
From Verif Require Import Base Num MeshM SpecMesh MeshProofs ProgM BandM LUM SplineM InterpM.
From Verif Require Import SpecInterp TensorR CoefProofs BuildProofs.
Import ListNotations.
Open Scope nat_scope.

Section Weights.
Context {T : Type} (o : ops T).
Variables (nd : bool) (p : nat) (per : list bool) (dims : list nat) (f : mesh T).
Hypothesis Ld : length dims = length per.
Hypothesis Ef : m_dims f = dims.
Hypothesis Wf : wf_mesh f.
Hypothesis HN : forall d, d < length per -> 0 < distinct nd (nth d per false) (nth d dims 0).
Let W := ddims nd per dims.

(** The position of the data point with index [idx]. *)
Definition rows (idx : list nat) : list nat :=
  map (fun d => rowof p (nth d per false) (nth d W 0) (nth d idx 0)) (seq 0 (length per)).

Lemma rows_nth idx d : d < length per -> nth d (rows idx) 0 = rowof p (nth d per false) (nth d W 0) (nth d idx 0).
Proof. intros. unfold rows. apply (map_seq_nth (fun d => rowof p (nth d per false) (nth d W 0) (nth d idx 0))); auto. Qed.

Lemma rows_length idx : length (rows idx) = length per.
Proof. unfold rows. rewrite map_length, seq_length. auto. Qed.

Lemma W_length : length W = length per.
Proof. apply ddims_length. Qed.
Lemma W_nth d : d < length per -> nth d W 0 = distinct nd (nth d per false) (nth d dims 0).
Proof. apply ddims_nth. Qed.

Lemma rowof_lt pr N i : i < N -> rowof p pr N i < N.
Proof. intros. unfold rowof. destruct pr; auto. apply Nat.mod_upper_bound. lia. Qed.

Lemma rows_valid idx : valid W idx -> valid W (rows idx).
Proof.
  intros V. pose proof (valid_length _ _ V) as L. rewrite W_length in L.
  rewrite valid_nth in V by (rewrite W_length; auto). apply valid_nth; [rewrite W_length, rows_length; auto|].
  rewrite W_length in *. intros k Hk. rewrite rows_nth by auto. apply rowof_lt. auto.
Qed.

Lemma rows_inj idx idx' : valid W idx -> valid W idx' -> rows idx = rows idx' -> idx = idx'.
Proof.
  intros V V' E. pose proof (valid_length _ _ V) as L. pose proof (valid_length _ _ V') as L'.
  rewrite valid_nth in V, V' by auto. apply (nth_ext _ _ 0 0); [lia|].
  intros d Hd. assert (Hd' : d < length per) by (rewrite W_length in L; lia).
  specialize (V d ltac:(lia)). specialize (V' d ltac:(lia)).
  apply (f_equal (fun l => nth d l 0)) in E. rewrite !rows_nth in E by auto. unfold rowof in E.
  destruct (nth d per false); auto. rewrite !(Nat.add_comm _ (p / 2)) in E. apply mod_inj in E; auto.
Qed.

Lemma valid_W_dims idx : valid W idx -> valid dims idx.
Proof.
  intros V. pose proof (valid_length _ _ V) as L. rewrite valid_nth in V by auto. rewrite W_length in *.
  apply valid_nth; [lia|]. intros d Hd. specialize (V d ltac:(lia)). rewrite W_nth in V by lia.
  unfold distinct in V. destruct (_ && _); lia.
Qed.

Lemma valid_W_iff idx : valid dims idx -> (valid W idx <-> forall d, d < length per -> nth d idx 0 < nth d W 0).
Proof. intros V. pose proof (valid_length _ _ V). rewrite valid_nth by (rewrite W_length; lia). rewrite W_length. tauto. Qed.

Lemma shift_ok idx : valid dims idx ->
  exists keep, shift_index nd p per W idx = Ok (rows idx, keep) /\ (keep = true <-> valid W idx).
Proof.
  intros V. pose proof (valid_length _ _ V) as L. pose proof (valid_W_iff idx V) as VW. rewrite valid_nth in V by auto.
  unfold shift_index.
  set (body := fun (st : list nat * bool) (d : nat) => _).
  destruct (for_inv (fun D st => length (fst st) = length per /\
     (forall e, e < length per -> nth e (fst st) 0 = if e <? D then nth e (rows idx) 0 else nth e idx 0) /\
     (snd st = true <-> forall d, d < D -> nth d idx 0 < nth d W 0)) 0 (length per) (idx, true) body) as ([idx' keep] & E & H1 & H2 & H3).
  - lia.
  - cbn [fst snd]. split; [lia|]. split; [intros; auto|]. split; auto. intros; lia.
  - intros d [ix kp] Hd (I1 & I2 & I3). cbn [fst snd] in *. unfold body.
    rewrite (vget_ok _ _ false) by lia. cbn [bind].
    pose proof (HN d ltac:(lia)) as HNd. rewrite <- W_nth in HNd by lia. pose proof (V d ltac:(lia)) as Vd.
    pose proof (W_nth d ltac:(lia)) as EW.
    destruct (nth d per false) eqn:Ep.
    + rewrite (vget_ok _ _ 0) by lia. cbn [bind]. rewrite (vget_ok _ _ 0) by (rewrite W_length; lia). cbn [bind].
      rewrite umod_ok by auto. cbn [bind]. rewrite vset_ok by lia. cbn [bind].
      rewrite I2 by lia. destruct (Nat.ltb_spec d d); [lia|].
      eexists. split; [reflexivity|]. cbn [fst snd]. split; [rewrite upd_length; auto|]. split.
      * intros e He. rewrite nth_upd, I1. destruct (Nat.ltb_spec d (length per)); [|lia].
        destruct (Nat.eqb_spec e d) as [->|Hn].
        { destruct (Nat.ltb_spec d (d + 1)); [|lia]. rewrite rows_nth by auto. unfold rowof. rewrite Ep. cbn [andb].
          replace (nth d idx 0 + nth d W 0 + p / 2) with (nth d idx 0 + p / 2 + 1 * nth d W 0) by lia.
          rewrite Nat.mod_add by lia. auto. }
        { cbn [andb]. rewrite I2 by auto. destruct (Nat.ltb_spec e d), (Nat.ltb_spec e (d + 1)); auto; lia. }
      * unfold distinct in EW. rewrite andb_true_iff, I3.
        assert (K : nd || negb (nth d idx 0 =? nth d W 0) = true <-> nth d idx 0 < nth d W 0).
        { destruct (Bool.bool_dec nd true) as [Nd|Nd]; [|apply not_true_is_false in Nd]; rewrite Nd in EW |- *; cbn [andb negb orb] in *.
          - split; auto. intros _. lia.
          - rewrite negb_true_iff, Nat.eqb_neq. lia. }
        rewrite K. split.
        { intros [A1 A2] e He. destruct (Nat.eq_dec e d) as [->|]; auto. apply A1. lia. }
        { intros A. split; [intros; apply A; lia|apply A; lia]. }
    + eexists. split; [reflexivity|]. cbn [fst snd]. split; auto. split.
      * intros e He. rewrite I2 by auto. destruct (Nat.eq_dec e d) as [->|Hn].
        { destruct (Nat.ltb_spec d d), (Nat.ltb_spec d (d + 1)); try lia. rewrite rows_nth by auto. unfold rowof. rewrite Ep. auto. }
        { destruct (Nat.ltb_spec e d), (Nat.ltb_spec e (d + 1)); auto; lia. }
      * rewrite I3. unfold distinct in EW. cbn [andb] in EW. split.
        { intros A e He. destruct (Nat.eq_dec e d) as [->|]; [lia|]. apply A. lia. }
        { intros A e He. apply A. lia. }
  - exists keep. rewrite E. cbn [fst snd] in *. split; [|rewrite VW; auto]. f_equal. f_equal. apply (nth_ext _ _ 0 0).
    + rewrite rows_length. auto.
    + intros e He. rewrite H2 by lia. destruct (Nat.ltb_spec e (length per)); auto; lia.
Qed.

Lemma init_ok : exists w, init_weights o nd p per W f = Ok w /\ m_dims w = W /\ wf_mesh w /\
  forall z idx, valid W idx -> nth (row_major W (rows idx)) (m_data w) z = nth (row_major dims idx) (m_data f) z.
Proof.
  unfold init_weights. set (body := fun (w : mesh T) (off : nat) => _).
  assert (Sz : mesh_size f = prod dims) by (unfold mesh_size; rewrite Wf, Ef; auto).
  rewrite Sz.
  destruct (for_inv (fun off w => m_dims w = W /\ wf_mesh w /\
     forall z idx, valid W idx -> row_major dims idx < off -> nth (row_major W (rows idx)) (m_data w) z = nth (row_major dims idx) (m_data f) z)
     0 (prod dims) (mesh_make (o0 o) W) body) as (w & E & H1 & H2 & H3).
  - lia.
  - split; auto. split; [apply wf_mesh_make|]. intros; lia.
  - intros off w Hoff (I1 & I2 & I3). unfold body, mesh_iter_indices. rewrite Ef.
    rewrite md_dimwise_unrank by lia. cbn [bind]. set (ix := unrank dims off).
    assert (V : valid dims ix) by (apply unrank_valid; lia).
    assert (RO : row_major dims ix = off) by (apply unrank_rank; lia).
    destruct (shift_ok ix V) as (keep & E & HK). rewrite E. cbn [bind].
    assert (Uniq : forall idx, valid W idx -> row_major dims idx < off + 1 -> row_major dims idx < off \/ idx = ix).
    { intros idx Vi Hi. destruct (Nat.eq_dec (row_major dims idx) off) as [Eq|]; [|lia]. right.
      apply (row_major_inj dims); auto. apply valid_W_dims; auto. lia. }
    destruct keep.
    + assert (VW : valid W ix) by (apply HK; auto).
      assert (Lf : off < length (m_data f)) by (rewrite Wf, Ef; lia).
      destruct (nth_error (m_data f) off) as [v|] eqn:Ev; [|apply nth_error_None in Ev; lia].
      unfold vget. rewrite Ev. cbn [bind].
      rewrite mesh_set_ok by (auto; rewrite I1; apply rows_valid; auto).
      eexists. split; [reflexivity|]. cbn [m_dims m_data]. split; auto. split.
      { unfold wf_mesh. cbn [m_data m_dims]. rewrite upd_length. auto. }
      intros z idx Vi Hi. rewrite nth_upd. rewrite I1.
      destruct (Nat.ltb_spec (row_major W (rows ix)) (length (m_data w))) as [Hl|Hl].
      2:{ rewrite I2, I1 in Hl. pose proof (row_major_lt _ _ (rows_valid ix VW)). lia. }
      destruct (Nat.eqb_spec (row_major W (rows idx)) (row_major W (rows ix))) as [Eq|Neq]; cbn [andb].
      * apply row_major_inj in Eq; try apply rows_valid; auto. apply rows_inj in Eq; auto. subst idx.
        rewrite RO. symmetry. apply nth_error_nth. auto.
      * apply I3; auto. destruct (Uniq idx Vi Hi) as [? | ->]; auto. congruence.
    + eexists. split; [reflexivity|]. split; auto. split; auto. intros z idx Vi Hi. apply I3; auto.
      destruct (Uniq idx Vi Hi) as [? | ->]; auto. apply HK in Vi. discriminate.
  - exists w. split; auto. split; auto. split; auto. intros z idx Vi. apply H3; auto.
    apply row_major_lt. apply valid_W_dims; auto.
Qed.
End Weights.
