(** Data of the examples in PropNearDFun. *)
From Coq Require Import List Arith Lia Bool ZArith Reals Lra Floats.
From Verif Require Import Base Num FloatM MeshM SpecMesh MeshProofs SplineM InterpM SpecCurve SpecStab SpecApprox SpecTame SpecRate SpecRound SpecRoundD SpecNear SpecNearFun PropApproxEx PropRateEx PropTameEx PropDualEx PropNearEx PropNearFunEx PropNearDEx SpecInterp.
Import ListNotations.
Local Open Scope R_scope.

(** First derivatives. *)
Lemma nq_orders d : (d < length [false])%nat -> (nth d [1]%nat 0 <= 3)%nat.
Proof. intros Hd. destruct d as [|d]; cbn in *; lia. Qed.
Lemma nw_orders d : (d < length [true; true])%nat -> (nth d [1; 0]%nat 0 <= 3)%nat.
Proof. intros Hd. destruct d as [|[|d]]; cbn in *; lia. Qed.
Lemma hx_orders d : (d < length hper)%nat -> (nth d [1; 1]%nat 0 <= 3)%nat.
Proof. intros Hd. destruct d as [|[|d]]; cbn in *; lia. Qed.
Lemma nq_gap : mesh_gap true [false] [7%nat] [Uniform 0 6] 1.
Proof. intros d i Hd Hi. cbn in Hd. destruct d as [|d]; [|lia]. unfold coordinate. cbn [nth grid_of]. rewrite plus_INR. simpl. lra. Qed.
Lemma nq_growth : 2 * tame_factor 3 ^ length [false] * (36 + powerRZ 2 (-1031)) * (1 + 2 * INR 3 / 1) ^ order_sum [1]%nat <= powerRZ 2 900 /\
  (1 + 2 * INR 3 / 1) ^ order_sum [1]%nat <= powerRZ 2 900.
Proof.
  pose proof small1031. replace (INR 3) with 3 by (cbn; lra). change (order_sum [1]%nat) with 1%nat. cbn [length tame_factor]. split; apply ex_limit; cbn [pow]; lra.
Qed.
Lemma nw_growth : 2 * amplification 3 ^ length [true; true] * (2 + powerRZ 2 (-1031)) * (1 + 2 * INR 3 / 1) ^ order_sum [1; 0]%nat <= powerRZ 2 900 /\
  (1 + 2 * INR 3 / 1) ^ order_sum [1; 0]%nat <= powerRZ 2 900.
Proof.
  pose proof small1031. replace (INR 3) with 3 by (cbn; lra). change (order_sum [1; 0]%nat) with 1%nat. cbn [length amplification]. split; apply ex_limit; cbn [pow]; lra.
Qed.
Lemma nw_waves : nearly_sampled true [true; true] wdims (wx IZR) (waves [0; 0]%nat) nw_f 1.
Proof. intros idx V. rewrite waves_wave. apply nw_sampled. auto. Qed.
Lemma nw_close idx : valid wdims idx -> Rabs (val_at (real_data nw_f) idx - val_at (wdata IZR) idx) <= 1.
Proof. intros V. rewrite (proj1 (proj2 (proj2 (proj2 (proj2 ex_dorder)))) idx V). apply nw_waves. auto. Qed.
Lemma nw_real : exists g, interp_make Rops true true 3 [true; true] (real_data nw_f) (wx IZR) = Ok g.
Proof.
  apply (InterpFinal.make_ok true true 3 [true; true] wdims); [apply good_wx; lia| |reflexivity|reflexivity]. intros d Hd. right. left. lia.
Qed.
