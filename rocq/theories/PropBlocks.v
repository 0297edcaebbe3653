(** Properties: the division of the work among the threads, with the number of
    tasks computed in doubles. *)
From Coq Require Import List Arith Bool ZArith Reals Floats.
From Verif Require Import Base Num FloatM BlocksM ThreadsM BlocksProofs.
Import ListNotations.
Local Open Scope nat_scope.

(** C108: for fewer than 2^51 lines the number of tasks is the integer square
    root of the number of lines. *)
Theorem C108_number h : (Z.of_nat h < 2 ^ 51)%Z -> task_number h = Ok (Nat.sqrt h).
Proof. exact (task_number_exact h). Qed.
Print Assumptions C108_number.
Example C108_number_example : (Z.of_nat 2000 < 2 ^ 51)%Z /\ task_number 2000 = Ok 44 /\ task_number 1936 = Ok 44 /\ task_number 1935 = Ok 43 /\ task_number 0 = Ok 0.
Proof. repeat apply conj; vm_compute; reflexivity. Qed.

(** For any number of lines the conversions are defined, the number of tasks
    is close to the square root and no task is empty. *)
Theorem C108_always_defined h : (Z.of_nat h < two64)%Z ->
  exists b, task_number h = Ok b /\ (R_sqrt.sqrt (INR h) - 2 < INR b < R_sqrt.sqrt (INR h) + 1)%R /\ (1 <= h -> 1 <= b <= h).
Proof. exact (task_number_large h). Qed.
Print Assumptions C108_always_defined.
(** Beyond 2^52 the rounded root can be the next integer: the root of
    94906266^2 - 1 is 94906266 in doubles. *)
Example C108_always_defined_example :
  (Z.of_nat 2000 < two64)%Z /\ task_number 2000 = Ok 44 /\
  PrimFloat.sqrt (Fround (94906266 * 94906266 - 1) 0 false) = Fround 94906266 0 false.
Proof. repeat apply conj; vm_compute; reflexivity. Qed.

(** The shares: every task has between b and b + 2 lines, the calling thread
    has fewer than b, b being the number of tasks. *)
Theorem C108_shares h b : 1 <= h -> (Z.of_nat h < 2 ^ 51)%Z -> task_number h = Ok b ->
  length (mt_blocks b h) = b + 1 /\
  forall i lo hi, nth_error (mt_blocks b h) i = Some (lo, hi) ->
    if i <? b then b <= hi - lo <= b + 2 else hi - lo < b.
Proof. exact (shares h b). Qed.
Print Assumptions C108_shares.
Example C108_shares_example : 1 <= 23 /\ (Z.of_nat 23 < 2 ^ 51)%Z /\ task_number 23 = Ok 4 /\
  mt_blocks 4 23 = [(0, 5); (5, 10); (10, 15); (15, 20); (20, 23)].
Proof. repeat apply conj; try (vm_compute; reflexivity). apply le_n_S, Nat.le_0_l. Qed.
