(** Derivatives in doubles compared with the derivatives; examples for
    PropRoundD.v. *)
From Coq Require Import List Arith Lia Bool ZArith Reals Lra Psatz Floats.
From Verif Require Import Base Num FloatM MeshM SplineM SpecMesh SpecBand SpecSpline SpecSplineObj SpecCalc SpecRound SpecRoundD SumR
  SplineProofs SplineFinal SplineCons SplineCalc FloatProofs RoundDouble RoundDerivTop RoundDerivDouble PropRoundEx PropSplineEx.
Import ListNotations.
Local Open Scope R_scope.

Lemma plain_coords {A} (xs : list A) (ns : list nat) (h : nat) : length xs = length ns ->
  map (fun c : A * nat => (fst c, h, snd c)) (combine xs ns) = combine (combine xs (repeat h (length xs))) ns.
Proof.
  revert ns. induction xs as [|x xs IH]; intros [|n ns] H; try discriminate; [reflexivity|]. cbn [combine map length repeat fst snd]. f_equal. apply IH. cbn in H. lia.
Qed.
Lemma hints_order {T} (val : T -> R) (s : spline T) : wf_spline (real_spline val s) -> hints_ok s (repeat (sp_order s) (sp_dim s)).
Proof.
  intros W. split; [apply repeat_length|]. intros d Hd. rewrite nth_repeat_lt by auto. split; auto. unfold last_of. pose proof (wf_len _ W d Hd) as H.
  replace (length (knot_of (real_spline val s) d)) with (length (knot_of s d)) in H; [change (sp_order (real_spline val s)) with (sp_order s) in H; lia|].
  unfold knot_of, real_spline. cbn [sp_knots]. change (@nil R) with (map val []). rewrite map_nth, map_length. reflexivity.
Qed.

Lemma double_derivative_mixed on s f g C Lam gap ns xs xs' :
  number_spline double_val double_finite (powerRZ 2 1023) g C s -> powerRZ 2 (-800) <= g ->
  (1 <= sp_dim s)%nat -> (Z.of_nat (roundings (sp_order s) (sp_dim s)) <= 2 ^ 40)%Z ->
  gaps double_val s gap -> 1 <= Lam -> (forall d, (d < sp_dim s)%nat -> 0 < gap d /\ 2 * INR (sp_order s) / gap d <= Lam) ->
  length ns = sp_dim s -> (forall d, (d < sp_dim s)%nat -> (nth d ns 0 <= sp_order s)%nat) ->
  0 <= C -> C * Lam ^ order_sum ns <= powerRZ 2 900 -> Lam ^ order_sum ns <= powerRZ 2 900 ->
  length xs = sp_dim s -> length xs' = sp_dim s ->
  (forall ys, length ys = sp_dim s -> spline_eval_plain Rops (real_spline double_val s) ys = Ok (f ys)) ->
  (forall d, (d < sp_dim s)%nat ->
     wrap_coord Fops (per_of s d) (nth d (sp_range s) (zero, zero)) (nth d xs zero) = Ok (nth d xs' zero) /\
     double_finite (nth d xs' zero) /\ off_knots (real_spline double_val s) d (double_val (nth d xs' zero)) /\
     kn (map double_val (knot_of s d)) (sp_order s) <= double_val (nth d xs' zero) <= kn (map double_val (knot_of s d)) (last_of s d + 1) /\
     (per_of s d = true -> fst (rng (real_spline double_val s) d) <= double_val (nth d xs' zero) < snd (rng (real_spline double_val s) d))) ->
  exists v w, spline_derivative_plain Fops on s (combine xs ns) = Ok v /\ is_mixed ns f (map double_val xs') w /\ double_finite v /\
    Rabs (double_val v - w) <=
      INR (roundings (sp_order s) (sp_dim s) + 3 * order_sum ns) * powerRZ 2 (-52) * (C * slope (sp_order s) gap ns) +
      INR ((sp_order s + 1) ^ sp_dim s) * powerRZ 2 (-1074) +
      INR (order_sum ns) * powerRZ 2 (-1074) * (/ g + 1) * Lam ^ order_sum ns.
Proof.
  intros NS Hg HD HM HG HL HGL Ln Hn HC H9 H9' Lx Lx' Hf H. pose proof (ns_real _ _ _ _ _ _ NS) as GS.
  destruct (double_derivative on s g C Lam gap ns xs xs' (repeat (sp_order s) (sp_dim s))) as (v & w & E1 & E2 & Gv & Hv); auto.
  - apply (hints_order double_val). apply (gs_wf _ GS).
  - intros d Hd. destruct (H d Hd) as (A1 & A2 & A3 & A4 & A5). auto.
  - destruct (derivative_is_mixed on (real_spline double_val s) f (map double_val xs') ns) as (w' & E3 & Hw); auto.
    + rewrite map_length. auto.
    + intros d Hd. destruct (H d Hd) as (A1 & A2 & A3 & A4 & A5). rewrite (nth_indep _ _ (double_val zero)) by (rewrite map_length, Lx'; auto). rewrite map_nth. auto.
    + exists v, w'. unfold spline_derivative_plain in *. rewrite plain_coords in E3 by (rewrite map_length, Lx', Ln; auto). rewrite plain_coords by (rewrite Lx, Ln; auto).
      rewrite Lx. rewrite map_length, Lx' in E3. change (sp_order (real_spline double_val s)) with (sp_order s) in E3. rewrite E2 in E3. injection E3 as <-. auto.
Qed.

Lemma ex_number_1 : number_spline double_val double_finite (powerRZ 2 1023) 1 9 (ex_spline FZ).
Proof.
  destruct ex_number as [H1 H2 H3 _ H5]. split; auto. clear.
  assert (V : forall z, (Z.abs z <= 9)%Z -> double_val (FZ z) = IZR z) by (intros; apply FZ_val; lia).
  intros l i Hl Hi Hk. cbn -[FZ] in Hl. destruct Hl as [<-|[<-|[]]]; cbn [length] in Hi; cbn [ex_spline sp_order] in Hi; unfold kn in *; cbn [map] in *;
      rewrite !V in * by lia; assert (i = 1 \/ i = 2)%nat as [->| ->] by lia; cbn [nth Nat.add] in *; lra.
Qed.
Lemma ex_gaps : gaps double_val (ex_spline FZ) (fun _ => 1).
Proof.
  intros d i Hd Hi. cbv zeta. intros Hk. apply (ns_gap _ _ _ _ _ _ ex_number_1); auto. two d; cbn; auto.
Qed.
Lemma ex_derived : powerRZ 2 (-800) <= 1 /\ 9 * 2 ^ order_sum [1; 1]%nat <= powerRZ 2 900 /\ 2 ^ order_sum [1; 1]%nat <= powerRZ 2 900.
Proof.
  assert (A : powerRZ 2 (-800) <= 1) by (rewrite <- (Raux.bpow_powerRZ Zaux.radix2); change 1 with (Raux.bpow Zaux.radix2 0); apply Raux.bpow_le; lia).
  assert (B : 64 <= powerRZ 2 900) by (rewrite <- (Raux.bpow_powerRZ Zaux.radix2); change 64 with (Raux.bpow Zaux.radix2 6); apply Raux.bpow_le; lia).
  unfold order_sum. cbn [fold_right Nat.add pow]. lra.
Qed.
Lemma ex_slope : slope 1 (fun _ => 1) [1; 1]%nat = 4.
Proof. unfold slope. cbn. field. Qed.
Lemma ex_offF d : (d < 2)%nat -> off_knots (real_spline double_val (ex_spline FZ)) d (double_val (nth d [0.5; 0.5]%float zero)).
Proof.
  intros Hd. replace (nth d [0.5; 0.5]%float zero) with 0.5%float by (two d; reflexivity). destruct ex_half as [G E]. rewrite E, ex_real.
  two d; intros x' Hw i Hi; unfold per_of in Hw; cbn in Hw, Hi.
  - rewrite Hw. do 4 (destruct i as [|i]; [unfold kn, knot_of; cbn; lra|]); lia.
  - destruct Hw as [[m Hm] _]. intros K. rewrite K in Hm.
    assert (Hz : exists z : Z, kn (knot_of (ex_spline IZR) 1) i = IZR z).
    { do 4 (destruct i as [|i]; [eexists; reflexivity|]); lia. }
    destruct Hz as [z Hz]. rewrite Hz in Hm.
    assert (E5 : IZR (2 * z) = IZR (1 + 4 * m)) by (rewrite mult_IZR, plus_IZR, mult_IZR; lra). apply eq_IZR in E5. lia.
Qed.
Lemma ex_derivative_value : spline_derivative_plain Fops true (ex_spline FZ) (combine [0.5; 2.5]%float [1; 1]%nat) = Ok (-2)%float.
Proof. vm_compute. reflexivity. Qed.
Lemma ex_one : (Z.of_nat 1 <= 2 ^ 53)%Z.
Proof. vm_compute. discriminate. Qed.
Lemma ex_two : 2 * INR 1 / 1 <= 2.
Proof. cbn [INR]. lra. Qed.
Lemma ex_evaluatesF ys : length ys = 2%nat -> spline_eval_plain Rops (real_spline double_val (ex_spline FZ)) ys = Ok (BetaProofs.sval (ex_spline IZR) ys).
Proof. intros H. rewrite ex_real. apply BetaProofs.eval_sval; [apply ex_good|exact H]. Qed.
