(** Order of approximation: statements about whole interpolations. *)
From Coq Require Import List Arith Lia Bool ZArith Reals Lra FunctionalExtensionality.
From Coquelicot Require Import Coquelicot.
From Verif Require Import Base Num MeshM SpecMesh MeshProofs ProgM BandM LUM SplineM InterpM.
From Verif Require Import SumR DenseLU SpecBand BandProofs MulProofs LUProofs LUConv SpecSpline SpecSplineObj SplineProofs BasisProofs BetaProofs TensorR EvalProofs EvalR DerivProofs DerivLoops SplineTop SplineCalc SpecInterp KnotProofs KnotShape CoefProofs SolverProofs RoundProofs SolveProofs BuildProofs WeightProofs InterpProofs PerDom PerPD InterpTop InterpFinal PolyProofs SymBasis SymProofs SpecDims LinProofs RoundTensor RoundDerivLoops
  SpecCurve VecTop MonoTop SpecStab StabProofs StabTop SpecApprox ApproxProofs ApproxTop SpecSmooth SmoothProofs SmoothTop SpecDApprox DApproxProofs DApproxTop SpecRate RateProofs RateTop SpecInterp.
Import ListNotations.
Open Scope R_scope.


Lemma uniform_order on nd p per dims ranges F f g h M :
  good_input nd p per dims ranges -> (1 <= p <= 6)%nat -> uniform_periodic per ranges ->
  m_dims f = dims -> wf_mesh f -> interp_make Rops on nd p per f ranges = Ok g ->
  sampled nd per dims ranges F f -> periodic_function nd per dims ranges F ->
  mesh_width nd per dims ranges h -> smooth_along (length per) (p + 1) F M ->
  forall xs, length xs = length per -> countable_point nd per dims ranges xs ->
  exists v, interp_eval Rops g xs = Ok v /\
    Rabs (v - F xs) <= (1 + amplification p ^ length per) *
      (spread p ^ (length per + 1) * sum (length per) (fun d => M d / INR (fact (p + 1)) * (INR (2 * p + 1) / 2 * h) ^ (p + 1))).
Proof.
  intros GI Hp UP E W Mk SA PF MW SM xs Lx C. rewrite (Nat.add_1_r (length per)). rewrite (Nat.add_1_r p) in SM.
  destruct (interp_make_spec on nd p per dims ranges f GI E W) as (mats & _ & _ & HG & _). pose proof (HG g Mk) as IP.
  exact (uniform_rate on nd p per dims ranges f g mats GI E W Mk IP UP Hp F M h SA PF MW SM xs Lx C).
Qed.

(** ** Families of derivatives *)
Lemma nth_rest {A} (z : A) : forall d l e, nth e (skipn d l) z = nth (d + e) l z.
Proof. induction d as [|d IH]; intros l e; [reflexivity|]. destruct l as [|x l]; [destruct e; reflexivity|]. cbn. apply IH. Qed.
Section Family.
Variables (n m : nat) (FF : list nat -> list R -> R).
Hypothesis DF : derivative_family n m FF.

Lemma with_list {A} (l : list A) d (x z : A) : (d < length l)%nat -> nth d l z = x -> with_at l d x = l.
Proof.
  intros Hd E. apply nth_ext with (d := z) (d' := z); [apply with_length; auto|]. intros e He. rewrite with_nth by auto.
  destruct (Nat.eqb_spec e d) as [->|]; auto.
Qed.

Lemma line_step o d v xs : length o = n -> length xs = n -> (d < n)%nat -> (v < m)%nat -> (forall e, (e < n)%nat -> (nth e o 0 <= m)%nat) ->
  forall t, is_derive (fun x : R => FF (with_at o d v) (with_at xs d x)) t (FF (with_at o d (S v)) (with_at xs d t)).
Proof.
  intros Lo Lx Hd Hv Ho t. assert (L1 : length (with_at o d v) = n) by (rewrite with_length by lia; auto).
  assert (L2 : length (with_at xs d t) = n) by (rewrite with_length by lia; auto).
  assert (N : nth d (with_at o d v) 0%nat = v) by (rewrite with_nth by lia; rewrite Nat.eqb_refl; auto).
  pose proof (DF (with_at o d v) (with_at xs d t) L1 L2) as Q. specialize (Q ltac:(intros e He; rewrite with_nth by lia; destruct (e =? d)%nat; [lia|auto]) d Hd ltac:(lia)).
  rewrite N in Q. rewrite with_with in Q by lia. rewrite (with_nth xs) in Q by lia. rewrite Nat.eqb_refl in Q.
  apply (is_derive_ext (fun x => FF (with_at o d v) (with_at (with_at xs d t) d x))); [|exact Q].
  intros x. rewrite with_with by lia. reflexivity.
Qed.

Variables (nd : bool) (per : list bool) (dims : list nat) (ranges : list (xrange R)).
Hypothesis LP : length per = n.
Hypothesis AP : forall d, (d < length per)%nat -> nth d per false = true.
Hypothesis P0 : periodic_function nd per dims ranges (FF (repeat 0%nat n)).

Lemma family_all_periodic o : length o = n -> (forall e, (e < n)%nat -> (nth e o 0 <= m)%nat) -> periodic_function nd per dims ranges (FF o).
Proof.
  assert (G : forall d, (d <= n)%nat -> forall o, length o = n -> (forall e, (e < n)%nat -> (nth e o 0 <= m)%nat) -> (forall e, (d <= e)%nat -> nth e o 0%nat = 0%nat) ->
    periodic_function nd per dims ranges (FF o)).
  { induction d as [|d IH]; intros Hd q Lq Hq Z.
    - replace q with (repeat 0%nat n); auto. apply nth_ext with (d := 0%nat) (d' := 0%nat); [rewrite repeat_length; auto|].
      intros e _. rewrite nth_repeat. symmetry. apply Z. lia.
    - assert (V : forall v, (v <= m)%nat -> periodic_function nd per dims ranges (FF (with_at q d v))).
      { induction v as [|v IV]; intros Hv.
        - apply IH; try lia.
          + rewrite with_length by lia. auto.
          + intros e He. rewrite with_nth by lia. destruct (e =? d)%nat; [lia|auto].
          + intros e He. rewrite with_nth by lia. destruct (Nat.eqb_spec e d); auto. apply Z. lia.
        - apply (periodic_derivative nd per dims ranges [d] AP) with (F := FF (with_at q d v)).
          + intros e [->|[]]. lia.
          + exists (FF (with_at q d (S v))). split; [|intros zs _; reflexivity].
            intros xs Lx. pose proof (line_step q d v xs Lq ltac:(lia) ltac:(lia) ltac:(lia) Hq (nth d xs 0)) as Q.
            rewrite (with_self xs) in Q by lia. exact Q.
          + apply IV. lia. }
      rewrite <- (with_list q d (nth d q 0%nat) 0%nat) by lia. apply V. apply Hq. lia. }
  intros Lo Ho. apply (G n); auto. intros e He. apply nth_overflow. lia.
Qed.
End Family.

Lemma uniform_dorder on nd p per dims ranges FF f g h h0 M orders :
  good_input nd p per dims ranges -> (1 <= p <= 6)%nat -> uniform_periodic per ranges ->
  m_dims f = dims -> wf_mesh f -> interp_make Rops on nd p per f ranges = Ok g ->
  sampled nd per dims ranges (FF (repeat 0%nat (length per))) f -> periodic_function nd per dims ranges (FF (repeat 0%nat (length per))) ->
  mesh_width nd per dims ranges h -> 0 < h0 -> mesh_gap nd per dims ranges h0 ->
  derivative_family (length per) (p + 1) FF ->
  (forall o xs, length o = length per -> length xs = length per -> (forall d, (d < length per)%nat -> (nth d o 0 <= p + 1)%nat) -> Rabs (FF o xs) <= M) ->
  length orders = length per -> (forall d, (d < length per)%nat -> (nth d orders 0 <= p)%nat) ->
  forall xs, length xs = length per -> countable_point nd per dims ranges xs ->
  exists v, interp_derivative Rops on g xs orders = Ok v /\
    Rabs (v - FF orders xs) <= (1 + amplification p ^ length per) *
      (spread p ^ (length per + 1) * (1 + 2 / h0) ^ fold_right Nat.add 0%nat orders *
        (INR (length per) * (M / INR (fact (p + 1)) * (INR (2 * p + 1) / 2 * h) ^ (p + 1)))).
Proof.
  intros GI Hp UP E W Mk SA PF MW H0 MG DF BD La Ha xs Lx C. set (n := length per) in *. rewrite (Nat.add_1_r n).
  destruct (interp_make_spec on nd p per dims ranges f GI E W) as (mats & _ & _ & HG & _). pose proof (HG g Mk) as IP.
  set (F := FF (repeat 0%nat n)) in *. pose proof (all_per per ranges UP) as AP.
  assert (PA : forall o, length o = n -> (forall e, (e < n)%nat -> (nth e o 0 <= p + 1)%nat) -> periodic_function nd per dims ranges (FF o)).
  { intros o Lo Ho. apply (family_all_periodic n (p + 1) FF DF nd per dims ranges eq_refl AP PF); auto. }
  assert (LIN : forall o d zs, length o = n -> (d < n)%nat -> length zs = n -> (forall e, (e < n)%nat -> (nth e o 0 <= p)%nat) ->
    forall D, D = (fun (i : nat) (t : R) => FF (with_at o d i) (with_at zs d t)) ->
    (forall i t, (i < S p)%nat -> is_derive (D i) t (D (S i) t)) /\ (forall t, Rabs (D (S p) t) <= M) /\ forall t, D 0%nat (t + period nd per dims ranges d) = D 0%nat t).
  { intros o d zs Lo Hd Lz Ho D ->. split; [|split].
    - intros i t Hi. apply (line_step n (p + 1) FF DF o d i zs); auto; try lia. intros e He. specialize (Ho e He). lia.
    - intros t. apply BD; try (rewrite with_length; lia). intros e He. rewrite with_nth by lia. specialize (Ho e He). destruct (e =? d)%nat; lia.
    - intros t. apply (PA (with_at o d 0%nat)); try (rewrite with_length; fold n; lia).
      + intros e He. rewrite with_nth by lia. specialize (Ho e He). destruct (e =? d)%nat; lia.
      + intros e He. rewrite AP by auto. fold n in He. rewrite !with_nth by lia. destruct (Nat.eqb_spec e d) as [->|]; [exists 1%Z; ring|exists 0%Z; ring]. }
  assert (SM : smooth_along n (S p) F (fun _ => M)).
  { intros d zs Hd Lz. destruct (LIN (repeat 0%nat n) d zs ltac:(apply repeat_length) Hd Lz ltac:(intros; rewrite nth_repeat; lia) _ eq_refl) as (A1 & A2 & A3).
    eexists. split; [|split; [exact A1|exact A2]]. intros t. cbv beta. rewrite (with_list (repeat 0%nat n) d 0%nat 0%nat); [reflexivity|rewrite repeat_length; auto|apply nth_repeat]. }
  set (oo := fun d => repeat 0%nat d ++ skipn d orders).
  assert (Lo : forall d, (d <= n)%nat -> length (oo d) = n) by (intros d Hd; unfold oo; rewrite app_length, repeat_length, skipn_length; lia).
  assert (No : forall d e, (d <= n)%nat -> nth e (oo d) 0%nat = if (e <? d)%nat then 0%nat else nth e orders 0%nat).
  { intros d e Hd. unfold oo. destruct (Nat.ltb_spec e d) as [Q|Q].
    - rewrite app_nth1 by (rewrite repeat_length; auto). apply nth_repeat.
    - rewrite app_nth2 by (rewrite repeat_length; auto). rewrite repeat_length, nth_rest. f_equal. lia. }
  assert (Ends : FF (oo n) = F /\ FF (oo 0%nat) = FF orders).
  { split; [|reflexivity]. unfold F. f_equal. apply nth_ext with (d := 0%nat) (d' := 0%nat); [rewrite Lo, repeat_length by lia; auto|].
    intros e He. rewrite Lo in He by lia. rewrite No, nth_repeat by lia. destruct (Nat.ltb_spec e n); [auto|lia]. }
  destruct Ends as [En E0].
  pose proof (derivative_rate on nd p per dims ranges f g mats GI E W Mk IP UP Hp F (fun _ => M) h SA PF MW SM orders h0 (fun d => FF (oo d)) La Ha H0) as DR.
  fold n in DR. cbv beta in DR. rewrite E0 in DR.
  destruct DR with (xs := xs) as (v & Hv & B); auto.
  - intros d Hd. destruct (dim_facts nd p per dims ranges f g mats GI IP UP d Hd) as (_ & HN & _ & Ex & _). pose proof (MG d 0%nat Hd) as Q. rewrite AP in Q by auto.
    assert (EC : coords_num nd true (nth d dims 0%nat) = (nth d (ddims nd per dims) 0%nat + 1)%nat) by (rewrite ddims_nth by auto; rewrite AP by auto; reflexivity).
    rewrite EC in Q. specialize (Q ltac:(lia)). change (coordinate nd per dims ranges d) with (xs_of nd per dims ranges d) in Q. rewrite !Ex in Q. simpl in Q. lra.
  - intros zs. rewrite En. reflexivity.
  - intros d zs Hd Lz. destruct (LIN (oo (S d)) d zs ltac:(apply Lo; lia) Hd Lz) with (D := fun (i : nat) (t : R) => FF (with_at (oo (S d)) d i) (with_at zs d t)) as (A1 & A2 & A3); auto.
    + intros e He. rewrite No by lia. destruct (e <? S d)%nat; [lia|auto].
    + assert (P : forall x, length (with_at (oo (S d)) d x) = n) by (intros; rewrite with_length; rewrite Lo; lia).
      exists (fun i t => FF (with_at (oo (S d)) d i) (with_at zs d t)). split; [|split; [|split; [exact A1|split; [exact A2|exact A3]]]].
      * intros t. rewrite (with_list (oo (S d)) d 0%nat 0%nat); [reflexivity|rewrite Lo; lia|]. rewrite No by lia. destruct (Nat.ltb_spec d (S d)); [auto|lia].
      * intros t. replace (with_at (oo (S d)) d (nth d orders 0%nat)) with (oo d); auto.
        apply nth_ext with (d := 0%nat) (d' := 0%nat); [rewrite P, Lo; lia|]. intros e He. rewrite with_nth by (rewrite Lo; lia). rewrite !No by lia.
        destruct (Nat.eqb_spec e d) as [->|]; destruct (Nat.ltb_spec e d) || idtac; destruct (Nat.ltb_spec e (S d)) || idtac; destruct (Nat.ltb_spec d d) || idtac; auto; lia.
  - exists v. split; [exact Hv|]. eapply Rle_trans; [exact B|]. right. f_equal. f_equal. unfold err. rewrite sum_const. reflexivity.
Qed.
