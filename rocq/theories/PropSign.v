(** Properties: the sign of the data does not matter for the computation in doubles. *)
From Coq Require Import List Bool Floats.
From Verif Require Import Base Num FloatM MeshM SplineM InterpM SpecSign SignProofs.
Import ListNotations.
Open Scope float_scope.

(** C107: interpolating negated data ends in the same way (a function, an
    exception, undefined behaviour), and all values and derivatives of the
    function are exactly the negated ones; for every template, all data
    (infinities and NaN included) and all points. *)
Theorem C107_negated on nd t f f' : related_data opposite f f' ->
  same_outcome (related_functions opposite on) (interpolate Fops on nd t f) (interpolate Fops on nd t f').
Proof. exact (negated_interpolate on nd t f f'). Qed.
Print Assumptions C107_negated.
Example C107_negated_example :
  related_data opposite se_f se_f' /\
  exists g g' v w, interpolate Fops true true se_t se_f = Ok g /\ interpolate Fops true true se_t se_f' = Ok g' /\
    interp_eval Fops g [0.75; 3.25] = Ok v /\ interp_eval Fops g' [0.75; 3.25] = Ok (- v) /\
    interp_derivative Fops true g [0.75; 3.25] [1; 1]%nat = Ok w /\ interp_derivative Fops true g' [0.75; 3.25] [1; 1]%nat = Ok (- w) /\
    0.25 <? v = true /\ w <? -5 = true.
Proof.
  split; [split; [reflexivity|repeat constructor]|].
  exists (se_of se_f), (se_of se_f'), (se_get (interp_eval Fops (se_of se_f) [0.75; 3.25])), (se_get (interp_derivative Fops true (se_of se_f) [0.75; 3.25] [1; 1]%nat)).
  repeat apply conj; vm_compute; reflexivity.
Qed.

(** The same for the function constructed directly from the data. *)
Theorem C107_negated_make on nd order per ranges f f' : related_data opposite f f' ->
  same_outcome (related_functions opposite on) (interp_make Fops on nd order per f ranges) (interp_make Fops on nd order per f' ranges).
Proof. exact (negated_make on nd order per ranges f f'). Qed.
Print Assumptions C107_negated_make.
Example C107_negated_make_example :
  related_data opposite se_f se_f' /\
  exists g g', interp_make Fops true true 3 [true; false] se_f se_rs = Ok g /\ interp_make Fops true true 3 [true; false] se_f' se_rs = Ok g' /\
    exists v, interp_at Fops g [0.75; 3.25] = Ok v /\ interp_at Fops g' [0.75; 3.25] = Ok (- v) /\ 0.25 <? v = true /\
    interp_at Fops g [0.75; 4.5] = Throw DomainError /\ interp_at Fops g' [0.75; 4.5] = Throw DomainError.
Proof.
  split; [split; [reflexivity|repeat constructor]|].
  exists (se_of se_f), (se_of se_f'). repeat apply conj; try (vm_compute; reflexivity).
  exists (se_get (interp_eval Fops (se_of se_f) [0.75; 3.25])). repeat apply conj; vm_compute; reflexivity.
Qed.

(** Data that compare equal (zeros of either sign, NaN in the same places) have
    interpolations that compare equal. *)
Theorem C107_alike on nd t f f' : related_data alike f f' ->
  same_outcome (related_functions alike on) (interpolate Fops on nd t f) (interpolate Fops on nd t f').
Proof. exact (alike_interpolate on nd t f f'). Qed.
Print Assumptions C107_alike.
Example C107_alike_example :
  related_data alike se_f se_f2 /\
  exists g g' v, interpolate Fops true true se_t se_f = Ok g /\ interpolate Fops true true se_t se_f2 = Ok g' /\
    interp_eval Fops g [0.75; 3.25] = Ok v /\ interp_eval Fops g' [0.75; 3.25] = Ok v /\ 0.25 <? v = true.
Proof.
  split; [split; [reflexivity|repeat constructor]|].
  exists (se_of se_f), (se_of se_f2), (se_get (interp_eval Fops (se_of se_f) [0.75; 3.25])). repeat apply conj; vm_compute; reflexivity.
Qed.

Theorem C107_alike_make on nd order per ranges f f' : related_data alike f f' ->
  same_outcome (related_functions alike on) (interp_make Fops on nd order per f ranges) (interp_make Fops on nd order per f' ranges).
Proof. exact (alike_make on nd order per ranges f f'). Qed.
Print Assumptions C107_alike_make.
Example C107_alike_make_example :
  related_data alike se_f se_f2 /\
  exists g g' v, interp_make Fops true true 3 [true; false] se_f se_rs = Ok g /\ interp_make Fops true true 3 [true; false] se_f2 se_rs = Ok g' /\
    interp_eval Fops g [0.75; 3.25] = Ok v /\ interp_eval Fops g' [0.75; 3.25] = Ok v /\ 0.25 <? v = true.
Proof.
  split; [split; [reflexivity|repeat constructor]|].
  exists (se_of se_f), (se_of se_f2), (se_get (interp_eval Fops (se_of se_f) [0.75; 3.25])). repeat apply conj; vm_compute; reflexivity.
Qed.

(** Hence zero data give values and derivatives that are zero or NaN. *)
Theorem C107_zero on nd t f g xs orders v :
  (forall a, In a (m_data f) -> a =? zero = true) -> interpolate Fops on nd t f = Ok g ->
  interp_eval Fops g xs = Ok v \/ interp_derivative Fops on g xs orders = Ok v ->
  v =? zero = true \/ is_nan v = true.
Proof. exact (zero_data on nd t f g xs orders v). Qed.
Print Assumptions C107_zero.
(** The sign of the zero is lost: values -0 give the value +0. *)
Example C107_zero_example : exists g v, (forall a, In a [-0; -0; -0; -0] -> a =? zero = true) /\
  interpolate Fops true true se_t1 (mkMesh [4]%nat [-0; -0; -0; -0]) = Ok g /\
  interp_eval Fops g [0.25] = Ok v /\ classify v = PZero.
Proof.
  exists (match interpolate Fops true true se_t1 (mkMesh [4]%nat [-0; -0; -0; -0]) with Ok g => g | _ => tp_base se_t end), zero.
  repeat apply conj; try (vm_compute; reflexivity). intros a Ha. cbn in Ha. repeat destruct Ha as [<-|Ha]; try reflexivity. contradiction.
Qed.

(** An infinity among the data: both functions exist, both values are NaN. *)
Example C107_infinity_example : exists g g' v v',
  related_data opposite se_inf (mkMesh [4]%nat [-1; neg_infinity; -2; -3]) /\
  interpolate Fops true true se_t1 se_inf = Ok g /\ interpolate Fops true true se_t1 (mkMesh [4]%nat [-1; neg_infinity; -2; -3]) = Ok g' /\
  interp_eval Fops g [0.25] = Ok v /\ interp_eval Fops g' [0.25] = Ok v' /\ is_nan v = true /\ is_nan v' = true.
Proof.
  exists (match interpolate Fops true true se_t1 se_inf with Ok g => g | _ => tp_base se_t end),
    (match interpolate Fops true true se_t1 (mkMesh [4]%nat [-1; neg_infinity; -2; -3]) with Ok g => g | _ => tp_base se_t end), nan, nan.
  repeat apply conj; try (vm_compute; reflexivity). repeat constructor.
Qed.
