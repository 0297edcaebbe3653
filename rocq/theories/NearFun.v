(** Interpolation in doubles and the function behind the data. *)
From Coq Require Import List Arith Lia Bool ZArith Reals Floats Lra.
From Verif Require Import Base Num MeshM SpecMesh MeshProofs SplineM InterpM FloatM SpecSpline SpecSplineObj SpecInterp SpecCurve SpecStab SpecApprox SpecSmooth SpecTame SpecRate SpecRound SpecRoundInterp SpecNear SpecNearFun.
From Verif Require Import SumR TensorR InterpFinal StabTop TameTop RateFinal DualTop NearTop SpecInterp.
Import ListNotations.
Local Open Scope R_scope.
Local Notation float := PrimFloat.float.

Lemma samples nd per dims ranges F : exists fs : mesh R, m_dims fs = dims /\ wf_mesh fs /\ sampled nd per dims ranges F fs.
Proof.
  exists (mkMesh dims (map (fun i => F (grid_point nd per dims ranges (unrank dims i))) (seq 0 (prod dims)))).
  split; [reflexivity|]. split; [unfold wf_mesh; cbn [m_data m_dims]; rewrite map_length, seq_length; reflexivity|].
  intros idx V. unfold val_at. cbn [m_data m_dims]. pose proof (row_major_lt dims idx V) as H.
  rewrite (nth_indep _ 0 (F (grid_point nd per dims ranges (unrank dims 0%nat)))) by (rewrite map_length, seq_length; auto).
  rewrite (map_nth (fun i => F (grid_point nd per dims ranges (unrank dims i)))), seq_nth by auto. cbn [Nat.add]. rewrite rank_unrank by auto. reflexivity.
Qed.
Lemma real_wf f : wf_mesh f -> wf_mesh (real_data f).
Proof. unfold wf_mesh, real_data. cbn. rewrite map_length. auto. Qed.

Section One.
Context (on nd : bool) (p : nat) (per : list bool) (dims : list nat) (ls : list (list float)) (t : templ float) (M : nat) (G K B : R) (f : mesh float) (g : interp float) (ranges : list (xrange R)).
Hypothesis CP : computed on nd p per dims ls t M G K B f g ranges.

Lemma reduced_in xs xs' : reduced per ls g xs xs' -> in_grid nd per dims ranges (map double_val xs').
Proof using CP.
  intros (L1 & L2 & H) d Hd. specialize (H d Hd). cbv zeta in H. destruct H as (_ & _ & H & _).
  destruct (nth d per false) eqn:E; [left; reflexivity|right].
  pose proof (ft_size _ _ _ _ _ _ _ _ _ (cp_template _ _ _ _ _ _ _ _ _ _ _ _ _ _ CP) d Hd) as S. rewrite E, andb_false_r, Nat.add_0_r in S.
  pose proof (tw_input _ _ _ _ _ _ _ _ (cp_twin _ _ _ _ _ _ _ _ _ _ _ _ _ _ CP)) as (_ & _ & _ & GI). specialize (GI d Hd). rewrite E in GI. destruct GI as (G1 & _). unfold distinct in G1. cbn [andb negb] in G1.
  assert (Hn : (0 < nth d dims 0)%nat) by (destruct nd; lia).
  rewrite !(tw_points _ _ _ _ _ _ _ _ (cp_twin _ _ _ _ _ _ _ _ _ _ _ _ _ _ CP)) by lia. rewrite S.
  cbn [fst snd] in H. pose proof (map_nth double_val xs' 0%float d) as X.
  change (double_val 0%float) with 0 in X. rewrite X. exact H.
Qed.
Lemma cp_bound : 0 <= K -> 0 <= 2 * K ^ length per * (B + powerRZ 2 (-1031)).
Proof using CP.
  intros HK. apply Rmult_le_pos; [apply Rmult_le_pos; [lra|apply pow_le; auto]|].
  assert (0 <= powerRZ 2 (-1031)) by (apply powerRZ_le; lra).
  assert (HD : exists a, In a (m_data f)).
  { pose proof (cp_mesh _ _ _ _ _ _ _ _ _ _ _ _ _ _ CP) as W. unfold wf_mesh in W. rewrite (cp_dims _ _ _ _ _ _ _ _ _ _ _ _ _ _ CP) in W.
    assert (P : (0 < prod dims)%nat).
    { pose proof (tw_input _ _ _ _ _ _ _ _ (cp_twin _ _ _ _ _ _ _ _ _ _ _ _ _ _ CP)) as (_ & Ld & _ & GI).
      apply RoundProofs.prod_pos. apply Forall_forall. intros n Hn. apply (In_nth _ _ 0%nat) in Hn as (d & Hd & <-).
      destruct (GI d ltac:(lia)) as (G1 & _). unfold distinct in G1. destruct (nth d per false && negb nd); lia. }
    destruct (m_data f) as [|a l]; [cbn in W; lia|]. exists a. left. reflexivity. }
  destruct HD as (a & Ha). pose proof (cp_data _ _ _ _ _ _ _ _ _ _ _ _ _ _ CP a Ha). pose proof (Rabs_pos (double_val a)). lra.
Qed.
End One.

Lemma near_samples nd per dims ranges F f eps fs : nearly_sampled nd per dims ranges F f eps -> sampled nd per dims ranges F fs ->
  forall idx, valid dims idx -> Rabs (val_at (real_data f) idx - val_at fs idx) <= eps.
Proof. intros H S idx V. rewrite (S idx V). auto. Qed.

(** Three errors add up. *)
Lemma three v w u s e1 e2 e3 : Rabs (v - w) <= e1 -> Rabs (w - u) <= e2 -> Rabs (u - s) <= e3 -> Rabs (v - s) <= e3 + e2 + e1.
Proof.
  intros. replace (v - s) with ((v - w) + (w - u) + (u - s)) by ring.
  eapply Rle_trans; [apply Rabs_triang|]. pose proof (Rabs_triang (v - w) (w - u)). lra.
Qed.
Lemma round_le a b k C e e' : a * C + k * (b * C + e) + e' = (a + k * b) * C + k * e + e'.
Proof. ring. Qed.

Lemma tame_fun p n M : (p = 2 \/ p = 3)%nat -> exists C, 0 < C /\
  forall on nd per dims ls t U G B f g ranges F eps h xs xs', length per = n ->
  computed on nd p per dims ls t U G (tame_factor p) B f g ranges -> tame nd p per dims ranges ->
  nearly_sampled nd per dims ranges (F (repeat 0%nat n)) f eps -> periodic_function nd per dims ranges (F (repeat 0%nat n)) ->
  mesh_width nd per dims ranges h -> h <= 1 -> derivative_family n (p + 1) F ->
  (forall o xs, length o = n -> length xs = n -> (forall d, (d < n)%nat -> (nth d o 0 <= p + 1)%nat) ->
    in_grid nd per dims ranges xs -> Rabs (F o xs) <= M) ->
  reduced per ls g xs xs' -> countable_point nd per dims ranges (map double_val xs') ->
  exists v, interp_eval Fops g xs = Ok v /\ double_finite v /\
    Rabs (double_val v - F (repeat 0%nat n) (map double_val xs')) <= C * h ^ (p + 1) + tame_factor p ^ n * eps + rounding_part p n U G (tame_factor p) B.
Proof.
  intros P23. destruct (tame_values p n M P23) as (C & HC & TV). exists C. split; [exact HC|].
  intros on nd per dims ls t U G B f g ranges F eps h xs xs' Ln CP TM NS PF MW H1 DF BD RD CT.
  pose proof (cp_twin _ _ _ _ _ _ _ _ _ _ _ _ _ _ CP) as TW. pose proof (tw_input _ _ _ _ _ _ _ _ TW) as GI.
  pose proof (cp_dims _ _ _ _ _ _ _ _ _ _ _ _ _ _ CP) as Ed. pose proof (cp_mesh _ _ _ _ _ _ _ _ _ _ _ _ _ _ CP) as Wf.
  assert (SV : solvable p per ranges) by (intros d Hd; right; left; lia).
  destruct (make_ok on nd p per dims ranges (real_data f) GI SV Ed (real_wf f Wf)) as [gr EG].
  destruct (samples nd per dims ranges (F (repeat 0%nat n))) as (fs & Es & Ws & Ss).
  destruct (make_ok on nd p per dims ranges fs GI SV Es Ws) as [gs ES].
  pose proof (reduced_in _ _ _ _ _ _ _ _ _ _ _ _ _ _ CP xs xs' RD) as IG.
  assert (Lx : length (map double_val xs') = length per) by (rewrite map_length; apply RD).
  pose proof (tame_control on nd p per dims ls t U G B f g ranges (real_data f) gr (cp_template _ _ _ _ _ _ _ _ _ _ _ _ _ _ CP) Ed Wf (cp_made _ _ _ _ _ _ _ _ _ _ _ _ _ _ CP) TW P23 TM EG
    (cp_data _ _ _ _ _ _ _ _ _ _ _ _ _ _ CP) (cp_finite _ _ _ _ _ _ _ _ _ _ _ _ _ _ CP) (cp_small _ _ _ _ _ _ _ _ _ _ _ _ _ _ CP)) as CB.
  destruct (tame_value on nd p per dims ls t U G (2 * tame_factor p ^ length per * (B + powerRZ 2 (-1031))) f g ranges (real_data f) gr xs xs' (cp_template _ _ _ _ _ _ _ _ _ _ _ _ _ _ CP) Ed Wf (cp_made _ _ _ _ _ _ _ _ _ _ _ _ _ _ CP) TW P23 TM EG)
    as (v & w & Ev & Fv & Ew & Hvw); auto.
  { split; [apply (cp_bound _ _ _ _ _ _ _ _ _ _ _ _ _ _ CP (tame_pos p))|apply CP]. }
  { intros a Ha. split; [apply CP; auto|auto]. }
  exists v. split; [auto|]. split; [auto|].
  destruct (tame_noise on nd p per dims ranges (real_data f) fs gr gs eps GI P23 TM Ed (real_wf f Wf) Es Ws EG ES (near_samples _ _ _ _ _ _ _ _ NS Ss) _ Lx CT IG) as (w' & u & Ew' & Eu & Hwu).
  rewrite Ew in Ew'. injection Ew' as <-.
  destruct (TV on nd per dims ranges F fs gs h Ln GI TM Es Ws ES Ss PF MW H1 DF BD _ (eq_trans Lx Ln) CT IG) as (u' & Eu' & Hu).
  rewrite Eu in Eu'. injection Eu' as <-. rewrite round_le, Ln in Hvw. rewrite Ln in Hwu.
  apply (three _ _ _ _ _ _ _ Hvw Hwu Hu).
Qed.

Lemma uniform_fun on nd p per dims ls t U G B f g ranges F eps h M xs xs' : (1 <= p <= 6)%nat ->
  computed on nd p per dims ls t U G (amplification p) B f g ranges -> uniform_periodic per ranges ->
  nearly_sampled nd per dims ranges F f eps -> periodic_function nd per dims ranges F ->
  mesh_width nd per dims ranges h -> smooth_along (length per) (p + 1) F M ->
  reduced per ls g xs xs' -> countable_point nd per dims ranges (map double_val xs') ->
  exists v, interp_eval Fops g xs = Ok v /\ double_finite v /\
    Rabs (double_val v - F (map double_val xs')) <=
      (1 + amplification p ^ length per) * (spread p ^ (length per + 1) * sum (length per) (fun d => M d / INR (fact (p + 1)) * (INR (2 * p + 1) / 2 * h) ^ (p + 1))) +
      amplification p ^ length per * eps + rounding_part p (length per) U G (amplification p) B.
Proof.
  intros P6 CP TM NS PF MW SA RD CT. assert (P6' : (p <= 6)%nat) by lia.
  pose proof (cp_twin _ _ _ _ _ _ _ _ _ _ _ _ _ _ CP) as TW. pose proof (tw_input _ _ _ _ _ _ _ _ TW) as GI.
  pose proof (cp_dims _ _ _ _ _ _ _ _ _ _ _ _ _ _ CP) as Ed. pose proof (cp_mesh _ _ _ _ _ _ _ _ _ _ _ _ _ _ CP) as Wf.
  assert (SV : solvable p per ranges) by (intros d Hd; right; right; apply TM; auto).
  destruct (make_ok on nd p per dims ranges (real_data f) GI SV Ed (real_wf f Wf)) as [gr EG].
  destruct (samples nd per dims ranges F) as (fs & Es & Ws & Ss).
  destruct (make_ok on nd p per dims ranges fs GI SV Es Ws) as [gs ES].
  assert (Lx : length (map double_val xs') = length per) by (rewrite map_length; apply RD).
  pose proof (uniform_control on nd p per dims ls t U G B f g ranges (real_data f) gr (cp_template _ _ _ _ _ _ _ _ _ _ _ _ _ _ CP) Ed Wf (cp_made _ _ _ _ _ _ _ _ _ _ _ _ _ _ CP) TW P6' TM EG
    (cp_data _ _ _ _ _ _ _ _ _ _ _ _ _ _ CP) (cp_finite _ _ _ _ _ _ _ _ _ _ _ _ _ _ CP) (cp_small _ _ _ _ _ _ _ _ _ _ _ _ _ _ CP)) as CB.
  destruct (uniform_value on nd p per dims ls t U G (2 * amplification p ^ length per * (B + powerRZ 2 (-1031))) f g ranges (real_data f) gr xs xs' (cp_template _ _ _ _ _ _ _ _ _ _ _ _ _ _ CP) Ed Wf (cp_made _ _ _ _ _ _ _ _ _ _ _ _ _ _ CP) TW P6' TM EG)
    as (v & w & Ev & Fv & Ew & Hvw); auto.
  { split; [apply (cp_bound _ _ _ _ _ _ _ _ _ _ _ _ _ _ CP (amp_pos p))|apply CP]. }
  { intros a Ha. split; [apply CP; auto|auto]. }
  exists v. split; [auto|]. split; [auto|].
  destruct (uniform_noise on nd p per dims ranges (real_data f) fs gr gs eps GI P6' TM Ed (real_wf f Wf) Es Ws EG ES (near_samples _ _ _ _ _ _ _ _ NS Ss) _ Lx CT) as (w' & u & Ew' & Eu & Hwu).
  rewrite Ew in Ew'. injection Ew' as <-.
  destruct (uniform_order on nd p per dims ranges F fs gs h M GI P6 TM Es Ws ES Ss PF MW SA _ Lx CT) as (u' & Eu' & Hu).
  rewrite Eu in Eu'. injection Eu' as <-. rewrite round_le in Hvw.
  apply (three _ _ _ _ _ _ _ Hvw Hwu Hu).
Qed.
