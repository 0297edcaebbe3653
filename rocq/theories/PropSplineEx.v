(** Data of the examples in PropSpline. *)
From Coq Require Import List Arith Lia ZArith QArith Reals Lra.
From Coquelicot Require Import Coquelicot.
From Verif Require Import Base Num MeshM SplineM SpecMesh SpecSpline SpecCalc SpecSplineObj
  MeshProofs SplineProofs SafeProofs EvalR BetaProofs SplineFinal SplineCalc SplineCons.
Import ListNotations.
Open Scope R_scope.

Definition knots8 : list Z := [0; 0; 0; 1; 3; 4; 4; 4]%Z.

Lemma knots8_sorted : nondecreasing (map IZR knots8).
Proof.
  apply nondec_step. intros i Hi. cbn in Hi.
  do 7 (destruct i as [|i]; [unfold kn; cbn; lra|]). lia.
Qed.

Lemma knots8_ok :
  nondecreasing (map IZR knots8) /\ (2 <= 3)%nat /\ (3 + 2 + 1 < length (map IZR knots8))%nat /\
  kn (map IZR knots8) 3 <= 2 < kn (map IZR knots8) (3 + 1).
Proof. split; [apply knots8_sorted|]. split; [lia|]. split; [cbn; lia|]. unfold kn; cbn; lra. Qed.

Lemma knots8_ends :
  nondecreasing (map IZR knots8) /\ (2 <= 3)%nat /\ (3 + 2 + 2 <= length (map IZR knots8))%nat /\
  kn (map IZR knots8) 2 < kn (map IZR knots8) (2 + 1) /\
  kn (map IZR knots8) (length (map IZR knots8) - 2 - 2) < kn (map IZR knots8) (length (map IZR knots8) - 2 - 1).
Proof. split; [apply knots8_sorted|]. split; [lia|]. split; [cbn; lia|]. unfold kn; cbn; split; lra. Qed.

Lemma ex_in_range (d : nat) : (d < 2)%nat ->
  wrapped (per_of (ex_spline IZR) d) (rng (ex_spline IZR) d) (nth d [1/2; 5/2] 0) (nth d [1/2; 1/2] 0) /\
  kn (knot_of (ex_spline IZR) d) 1 <= nth d [1/2; 1/2] 0 < kn (knot_of (ex_spline IZR) d) (last_of (ex_spline IZR) d + 1).
Proof.
  intros Hd. two d; unfold per_of, kn, knot_of; cbn.
  - split; [reflexivity|lra].
  - split; [|lra]. split. exists (-1)%Z. lra. destruct (Rle_dec 0 (5/2)); lra.
Qed.

Lemma ex_hull :
  (forall d, (d < 2)%nat -> in_range (ex_spline IZR) d (nth d [2; -7] 0)) /\
  (forall c, In c (m_data (sp_ctrl (ex_spline IZR))) -> 1 <= c <= 9).
Proof.
  split.
  - intros d Hd. two d; [right|left; reflexivity]. unfold kn, knot_of; cbn; lra.
  - cbn. intros c H. repeat (destruct H as [<-|H]; [lra|]). destruct H.
Qed.

(** Integer arithmetic with truncated division, 0 for a zero divisor: total. *)
Definition Zops : ops Z := {|
  o0 := 0%Z; o1 := 1%Z; oadd := Z.add; osub := Z.sub; omul := Z.mul;
  odiv x y := Ok (Z.quot x y); ole := Z.leb; olt := Z.ltb; onat := Z.of_nat; ohalf := 0%Z;
  ofmod x y := Ok (Z.rem x y); oceil x := Ok (Z.to_nat x) |}.

Lemma Z_total : total_ops Zops.
Proof. intros a b. simpl. eauto. Qed.

Lemma ex_evaluates ys : length ys = 2%nat -> spline_eval_plain Rops (ex_spline IZR) ys = Ok (sval (ex_spline IZR) ys).
Proof. intros. apply eval_sval; auto. apply ex_good. Qed.

Lemma ex_off_all (d : nat) : (d < 2)%nat -> off_knots (ex_spline IZR) d (nth d [1/2; 5/2] 0).
Proof. intros Hd. two d; apply ex_off. Qed.

Lemma ex_strict_periodic (d : nat) : (d < 2)%nat ->
  strict_knots (ex_spline IZR) d /\ (per_of (ex_spline IZR) d = true -> periodic_knots (ex_spline IZR) d).
Proof. intros Hd. split. apply ex_strict; auto. two d. discriminate. intros _. apply ex_periodic. Qed.

Definition ex_spline' {T} (f : Z -> T) : spline T :=
  load_ctrl (ex_spline f) (mkMesh [3; 2]%nat (map f [1; 2; 4; 3; 5; 77]%Z)).

Lemma ex_influence :
  get_knot_iters Qops (ex_spline inject_Z) [(1#2, 1%nat); (5#2, 1%nat)]%Q = Ok [(1#2, 1%nat); (1#2, 1%nat)]%Q /\
  ~ attached (ex_spline inject_Z) 0 1 2 /\
  spline_eval_plain Qops (ex_spline' inject_Z) [1#2; 5#2]%Q = spline_eval_plain Qops (ex_spline inject_Z) [1#2; 5#2]%Q /\
  ctrl_at Qops (ex_spline' inject_Z) [2; 1]%nat <> ctrl_at Qops (ex_spline inject_Z) [2; 1]%nat.
Proof.
  split; [reflexivity|]. split; [|split; [reflexivity|discriminate]].
  intros (i & Hi & E). cbn in E. lia.
Qed.
