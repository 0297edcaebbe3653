(** Data of the examples in PropNearD. *)
From Coq Require Import List Arith Lia Bool ZArith Reals Lra Floats.
From Flocq Require Import Core.
From Verif Require Import Base Num MeshM SplineM InterpM SpecRate SpecRoundD PropTameEx PropNearEx SpecInterp.
Import ListNotations.
Local Open Scope R_scope.

Lemma ex_limit a : a <= 1048576 -> a <= powerRZ 2 900.
Proof. intros H. apply (Rle_trans _ (bpow radix2 20)); [exact H|]. rewrite <- (bpow_powerRZ radix2). apply bpow_le. lia. Qed.

(** The mixed derivative of order (1, 1). *)
Lemma ne_orders d : (d < length hper)%nat -> (nth d [1; 1]%nat 0 <= 3)%nat.
Proof. intros Hd. destruct d as [|[|d]]; cbn in *; lia. Qed.
Lemma ne_growth : 64 * (1 + 2 * INR 3 / 1) ^ order_sum [1; 1]%nat <= powerRZ 2 900 /\ (1 + 2 * INR 3 / 1) ^ order_sum [1; 1]%nat <= powerRZ 2 900.
Proof. replace (INR 3) with 3 by (cbn; lra). change (order_sum [1; 1]%nat) with 2%nat. split; apply ex_limit; cbn [pow]; lra. Qed.

(** The second derivative. *)
Lemma nu_orders d : (d < length [true])%nat -> (nth d [2]%nat 0 <= 4)%nat.
Proof. intros Hd. destruct d as [|d]; cbn in *; lia. Qed.
Lemma nu_gap : mesh_gap true [true] [6%nat] nu_ranges 1.
Proof.
  intros d i Hd Hi. cbn in Hd. destruct d as [|d]; [|lia]. unfold coordinate. cbn [nth nu_ranges grid_of]. rewrite plus_INR. simpl. lra.
Qed.
Lemma nu_growth : 64 * (1 + 2 * INR 4 / 1) ^ order_sum [2]%nat <= powerRZ 2 900 /\ (1 + 2 * INR 4 / 1) ^ order_sum [2]%nat <= powerRZ 2 900.
Proof. replace (INR 4) with 4 by (cbn; lra). change (order_sum [2]%nat) with 2%nat. split; apply ex_limit; cbn [pow]; lra. Qed.
