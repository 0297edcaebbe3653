(** C84 to C87: order of the dimensions, products, multilinear interpolation.
    Properties only; the proofs are in DimProofs and LinProofs. *)
From Coq Require Import List Arith Bool ZArith QArith Reals Permutation.
From Verif Require Import Base Num MeshM SplineM InterpM SpecMesh SpecInterp SpecDims MeshProofs DimProofs LinProofs PropInterpEx PropDimsEx.
Import ListNotations.
Open Scope R_scope.

(** C84: the order of the dimensions does not matter. *)
Theorem C84_permuted_dimensions : forall on nd p per dims ranges sg f f' g g',
  good_input nd p per dims ranges -> m_dims f = dims -> wf_mesh f ->
  Permutation sg (seq 0 (length per)) ->
  m_dims f' = permuted 0%nat sg dims -> wf_mesh f' -> permuted_data dims sg f f' ->
  interp_make Rops on nd p per f ranges = Ok g ->
  interp_make Rops on nd p (permuted false sg per) f' (permuted (Points []) sg ranges) = Ok g' ->
  forall xs orders, length xs = length per -> length orders = length per -> countable_point nd per dims ranges xs ->
    interp_eval Rops g' (permuted 0 sg xs) = interp_eval Rops g xs /\
    interp_derivative Rops on g' (permuted 0 sg xs) (permuted 0%nat sg orders) = interp_derivative Rops on g xs orders.
Proof. exact permuted_dimensions. Qed.
Print Assumptions C84_permuted_dimensions.
Example C84_example :
  good_input false 3 [false; true] gdims (gx IZR) /\ Permutation [1; 0]%nat (seq 0 (length [false; true])) /\
  m_dims (tdata IZR) = permuted 0%nat [1; 0]%nat gdims /\ permuted_data gdims [1; 0]%nat (gdata IZR) (tdata IZR) /\
  (exists g, interp_make Rops true false 3 [false; true] (gdata IZR) (gx IZR) = Ok g) /\
  (exists g, interp_make Rops true false 3 (permuted false [1; 0]%nat [false; true]) (tdata IZR) (permuted (Points []) [1; 0]%nat (gx IZR)) = Ok g) /\
  countable_point false [false; true] gdims (gx IZR) [7; -1].
Proof. exact ex_permuted. Qed.
Example C84_example_run :
  evals (interp_make Qops true false 3 [true; false] (tdata inject_Z) (rev (gx inject_Z))) [[1#3; 1#2]; [-1; 7]]%Q =
  evals (interp_make Qops true false 3 [false; true] (gdata inject_Z) (gx inject_Z)) [[1#2; 1#3]; [7; -1]]%Q.
Proof. vm_compute. reflexivity. Qed.

(** C85: data that are products of values of different variables give the
    product of the functions, and of their derivatives. *)
Theorem C85_product_data : forall on nd p per1 per2 dims1 dims2 ranges1 ranges2 f1 f2 f g1 g2 g,
  good_input nd p per1 dims1 ranges1 -> good_input nd p per2 dims2 ranges2 ->
  m_dims f1 = dims1 -> wf_mesh f1 -> m_dims f2 = dims2 -> wf_mesh f2 -> m_dims f = dims1 ++ dims2 -> wf_mesh f ->
  product_data dims1 dims2 f1 f2 f ->
  interp_make Rops on nd p per1 f1 ranges1 = Ok g1 -> interp_make Rops on nd p per2 f2 ranges2 = Ok g2 ->
  interp_make Rops on nd p (per1 ++ per2) f (ranges1 ++ ranges2) = Ok g ->
  forall x1 x2 o1 o2, length x1 = length per1 -> length x2 = length per2 -> length o1 = length per1 -> length o2 = length per2 ->
    countable_point nd per1 dims1 ranges1 x1 -> countable_point nd per2 dims2 ranges2 x2 ->
    (exists v1 v2, interp_eval Rops g1 x1 = Ok v1 /\ interp_eval Rops g2 x2 = Ok v2 /\ interp_eval Rops g (x1 ++ x2) = Ok (v1 * v2)) /\
    (exists v1 v2, interp_derivative Rops on g1 x1 o1 = Ok v1 /\ interp_derivative Rops on g2 x2 o2 = Ok v2 /\
       interp_derivative Rops on g (x1 ++ x2) (o1 ++ o2) = Ok (v1 * v2)).
Proof. exact product_interpolation. Qed.
Print Assumptions C85_product_data.
Example C85_example :
  good_input false 3 [false] [4]%nat (ux IZR) /\ good_input false 3 [true] [5]%nat (vx IZR) /\
  product_data [4]%nat [5]%nat (udata IZR) (vdata IZR) (uvdata IZR) /\
  (exists g, interp_make Rops true false 3 [false] (udata IZR) (ux IZR) = Ok g) /\
  (exists g, interp_make Rops true false 3 [true] (vdata IZR) (vx IZR) = Ok g) /\
  (exists g, interp_make Rops true false 3 ([false] ++ [true]) (uvdata IZR) (ux IZR ++ vx IZR) = Ok g).
Proof. exact ex_product. Qed.
Example C85_example_run :
  evals (interp_make Qops true false 3 [false] (udata inject_Z) (ux inject_Z)) [[2]]%Q = Ok [37#6]%Q /\
  evals (interp_make Qops true false 3 [true] (vdata inject_Z) (vx inject_Z)) [[1#2]]%Q = Ok [35#16]%Q /\
  evals (interp_make Qops true false 3 [false; true] (uvdata inject_Z) (gx inject_Z)) [[2; 1#2]]%Q = Ok [1295#96]%Q.
Proof. vm_compute. repeat split. Qed.

(** C86: data that do not depend on some variables give a function that does
    not depend on them. *)
Theorem C86_independent_data : forall on nd p per1 per2 dims1 dims2 ranges1 ranges2 f1 f g1 g,
  good_input nd p per1 dims1 ranges1 -> good_input nd p per2 dims2 ranges2 ->
  m_dims f1 = dims1 -> wf_mesh f1 -> m_dims f = dims1 ++ dims2 -> wf_mesh f ->
  independent_data dims1 dims2 f1 f ->
  interp_make Rops on nd p per1 f1 ranges1 = Ok g1 ->
  interp_make Rops on nd p (per1 ++ per2) f (ranges1 ++ ranges2) = Ok g ->
  forall x1 x2 o1 o2, length x1 = length per1 -> length x2 = length per2 -> length o1 = length per1 -> length o2 = length per2 ->
    countable_point nd per1 dims1 ranges1 x1 -> countable_point nd per2 dims2 ranges2 x2 ->
    interp_eval Rops g (x1 ++ x2) = interp_eval Rops g1 x1 /\
    interp_derivative Rops on g (x1 ++ x2) (o1 ++ o2) =
      if forallb (Nat.eqb 0) o2 then interp_derivative Rops on g1 x1 o1 else Ok 0.
Proof. exact independent_interpolation. Qed.
Print Assumptions C86_independent_data.
Example C86_example :
  good_input false 3 [false] [4]%nat (ux IZR) /\ good_input false 3 [true] [5]%nat (vx IZR) /\
  independent_data [4]%nat [5]%nat (udata IZR) (uudata IZR) /\
  (exists g, interp_make Rops true false 3 [false] (udata IZR) (ux IZR) = Ok g) /\
  (exists g, interp_make Rops true false 3 ([false] ++ [true]) (uudata IZR) (ux IZR ++ vx IZR) = Ok g).
Proof. exact ex_independent. Qed.
Example C86_example_run :
  evals (interp_make Qops true false 3 [false; true] (uudata inject_Z) (gx inject_Z)) [[2; 1#2]]%Q = Ok [37#6]%Q.
Proof. vm_compute. reflexivity. Qed.

(** C87: order 1 is multilinear interpolation between the neighbouring data
    points; without periods, the outermost cells extend to infinity. *)
Theorem C87_multilinear : forall on nd per dims ranges f g,
  good_input nd 1 per dims ranges -> m_dims f = dims -> wf_mesh f ->
  interp_make Rops on nd 1 per f ranges = Ok g ->
  forall xs is ys, length xs = length per -> countable_point nd per dims ranges xs ->
    (forall d, (d < length per)%nat -> in_cell nd per dims ranges d (nth d is 0%nat) (nth d xs 0) (nth d ys 0)) ->
    interp_eval Rops g xs =
    Ok (multilinear (map (fun d => cell nd per dims ranges d (nth d is 0%nat) (nth d ys 0)) (seq 0 (length per))) (val_at f)).
Proof. exact linear_interpolation. Qed.
Print Assumptions C87_multilinear.
Example C87_example :
  good_input false 1 [false; true] gdims (gx IZR) /\
  (exists g, interp_make Rops true false 1 [false; true] (gdata IZR) (gx IZR) = Ok g) /\
  countable_point false [false; true] gdims (gx IZR) [7; -1/2] /\
  (forall d, (d < 2)%nat -> in_cell false [false; true] gdims (gx IZR) d (nth d [2; 3]%nat 0%nat) (nth d [7; -1/2] 0) (nth d [7; 7/2] 0)).
Proof. exact ex_linear_cells. Qed.
Example C87_example_run : (* the mean of 3, 2, 9 and 8 *)
  evals (interp_make Qops true false 1 [false; true] (gdata inject_Z) (gx inject_Z)) [[2; -1#2]]%Q = Ok [11#2]%Q.
Proof. vm_compute. reflexivity. Qed.
