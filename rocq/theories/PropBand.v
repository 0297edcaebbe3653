(** Property theorems about BandMatrix.hpp and BandLU.hpp. *)
From Coq Require Import List Arith Reals QArith.
From Verif Require Import Base Num MeshM BandM ProgM LUM SpecBand LUTop CheckProofs.
Import ListNotations.
Local Open Scope R_scope.

(** C05: structured storage behaves like one variable per position. *)
Theorem C05_band_storage : forall (T : Type) (o : ops T) on n p q h,
  writes_in (in_band n p q) h ->
  exists m, build_band o on n p q h = Ok m /\
    (forall i j, in_band n p q i j -> band_get on m i j = Ok (content (o0 o) h i j)) /\
    (forall i j v, (j + p < i \/ i + q < j)%nat ->
       band_get true m i j = Throw AssertFailed /\ band_set true m i j v = Throw AssertFailed).
Proof. exact @band_read_after_writes. Qed.
Print Assumptions C05_band_storage.
Example C05_example :
  writes_in (in_band 3 1 1) (tri_history 4%Q 1%Q 2%Q) /\
  content 0%Q (tri_history 4%Q 1%Q 2%Q) 1 2 = 2%Q.
Proof. split; [apply tri_writes | reflexivity]. Qed.

(** Exactly which accesses are refused in assertion mode. *)
Theorem C05_band_checks : forall (T : Type) (o : ops T) on n p q h, writes_in (in_band n p q) h ->
  exists m, build_band o on n p q h = Ok m /\ forall i j v,
    (i <= j + p /\ j <= i + q /\ j < n -> (exists w, band_get true m i j = Ok w) /\ exists m', band_set true m i j v = Ok m')%nat /\
    (~ (i <= j + p /\ j <= i + q /\ j < n) -> band_get true m i j = Throw AssertFailed /\ band_set true m i j v = Throw AssertFailed)%nat.
Proof. exact @band_checks. Qed.
Print Assumptions C05_band_checks.
Example C05_example_checks :
  (m <- build_band Qops true 3 1 1 (tri_history 4 1 2)%Q ;; band_get true m 0 2) = Throw AssertFailed /\
  (m <- build_band Qops true 3 1 1 (tri_history 4 1 2)%Q ;; band_get true m 2 3) = Throw AssertFailed /\
  (m <- build_band Qops true 3 1 1 (tri_history 4 1 2)%Q ;; band_get true m 2 1) = Ok 1%Q.
Proof. repeat split. Qed.

(** C54: rows outside the matrix are not refused. *)
Theorem C54_outside_row_refuted : exists n p q h m i j w,
  writes_in (in_band n p q) h /\ build_band Qops true n p q h = Ok m /\ (n <= i)%nat /\ (j < n)%nat /\ band_get true m i j = Ok w.
Proof. exact outside_row. Qed.
Print Assumptions C54_outside_row_refuted.

(** C06: band matrix times vector. *)
Theorem C06_band_product_refuted :
  exists n p q h x m y,
    writes_in (in_band n p q) h /\ length x = n /\
    build_band Rops true n p q h = Ok m /\ band_mul Rops true m x = Ok y /\
    exists i, (i < n)%nat /\ nth i y 0 <> Rsum n (fun j => content 0 h i j * nth j x 0).
Proof. exact band_product_wrong. Qed.
Print Assumptions C06_band_product_refuted.

(** What it computes instead (equal band widths). *)
Theorem C06_band_product_is_transposed : forall on n p h x,
  writes_in (in_band n p p) h -> length x = n ->
  exists m y, build_band Rops on n p p h = Ok m /\ band_mul Rops on m x = Ok y /\ length y = n /\
    forall i, (i < n)%nat -> nth i y 0 = Rsum n (fun j => content 0 h j i * nth j x 0).
Proof. exact band_product_is_transposed. Qed.
Print Assumptions C06_band_product_is_transposed.
Example C06_example :
  writes_in (in_band 3 1 1) (tri_history 4 1 2) /\ length [1; 2; 3] = 3%nat.
Proof. split; [apply tri_writes | reflexivity]. Qed.
Example C06_example_run :
  (m <- build_band Qops true 3 1 1 (tri_history 4 1 2)%Q ;; band_mul Qops true m [1; 2; 3]%Q)
  = Ok [6; 13; 16]%Q.
Proof. reflexivity. Qed.

(** C07: storage of extended band matrices. *)
Theorem C07_extended_band_storage : forall (T : Type) (o : ops T) on n p q h,
  (p < n)%nat -> (q < n)%nat ->
  writes_in (in_ext n p q) h ->
  exists m, build_eband o on n p q h = Ok m /\
    forall i j, in_ext n p q i j -> eb_get on m i j = Ok (content (o0 o) h i j).
Proof. exact @eband_read_after_writes. Qed.
Print Assumptions C07_extended_band_storage.
Example C07_example :
  writes_in (in_ext 4 1 1) (corner_history 4 1 2 (-1) (1#2))%Q /\
  content 0%Q (corner_history 4 1 2 (-1) (1#2))%Q 3 0 = (1#2)%Q.
Proof. split; [apply corner_writes | reflexivity]. Qed.

(** The two kinds of elements on their own, and the refused accesses. *)
Theorem C07_parts_and_checks : forall (T : Type) (o : ops T) on n p q h, (p < n)%nat -> (q < n)%nat -> writes_in (in_ext n p q) h ->
  exists m, build_eband o on n p q h = Ok m /\
    (forall i j, in_band n p q i j -> eb_main_get on m i j = Ok (content (o0 o) h i j)) /\
    (forall i j, in_ext n p q i j -> ~ in_band n p q i j -> eb_side_get on m i j = Ok (content (o0 o) h i j)) /\
    (forall i j v, ~ (in_ext n p q i j /\ ~ in_band n p q i j) ->
       eb_side_get true m i j = Throw AssertFailed /\ eb_side_set true m i j v = Throw AssertFailed) /\
    (forall i j v, ~ in_ext n p q i j -> ~ (i <= j + p /\ j < n)%nat ->
       eb_get true m i j = Throw AssertFailed /\ eb_set true m i j v = Throw AssertFailed).
Proof. exact @eband_checks. Qed.
Print Assumptions C07_parts_and_checks.
Example C07_example_checks :
  (m <- build_eband Qops true 4 1 1 (corner_history 4 1 2 (-1) (1#2))%Q ;; eb_side_get true m 3 0) = Ok (1#2)%Q /\
  (m <- build_eband Qops true 4 1 1 (corner_history 4 1 2 (-1) (1#2))%Q ;; eb_side_get true m 1 0) = Throw AssertFailed /\
  (m <- build_eband Qops true 4 1 1 (corner_history 4 1 2 (-1) (1#2))%Q ;; eb_get true m 2 0) = Throw AssertFailed.
Proof. repeat split. Qed.

(** C08: extended band matrix times vector. *)
Theorem C08_extended_band_product : forall on n p q h x,
  (p < n)%nat -> (q < n)%nat -> writes_in (in_ext n p q) h -> length x = n ->
  exists m y, build_eband Rops on n p q h = Ok m /\ eband_mul Rops on m x = Ok y /\ length y = n /\
    forall i, (i < n)%nat -> nth i y 0 = Rsum n (fun j => content 0 h i j * nth j x 0).
Proof. exact eband_product. Qed.
Print Assumptions C08_extended_band_product.
Example C08_example :
  (m <- build_eband Qops true 4 1 1 (corner_history 4 1 2 (-1) (1#2))%Q ;;
   eband_mul Qops true m [1; 2; 3; 4]%Q) = Ok [4; 15; 22; 39#2]%Q.
Proof. reflexivity. Qed.

(** C09: band LU solves the system. *)
Theorem C09_band_lu_solves : forall on n p q h iter m0 b,
  (0 < n)%nat -> writes_in (in_band n p q) h -> leading_nonsingular n (content 0 h) ->
  good_iter n iter m0 -> vector_at n iter m0 m0 b ->
  exists m f m1 x,
    build_band Rops on n p q h = Ok m /\ band_lu Rops on m = Ok f /\
    run (band_solve Rops on f iter) m0 = Ok (tt, m1) /\
    vector_at n iter m0 m1 x /\ solves n (content 0 h) x b /\
    forall y, solves n (content 0 h) y b -> forall i, (i < n)%nat -> y i = x i.
Proof. exact band_lu_solves. Qed.
Print Assumptions C09_band_lu_solves.
Example C09_example :
  writes_in (in_band 3 1 1) (tri_history 4 1 2) /\
  leading_nonsingular 3 (content 0 (tri_history 4 1 2)) /\
  good_iter 3 line_iter [[1; 2; 3]] /\
  vector_at 3 line_iter [[1; 2; 3]] [[1; 2; 3]] (fun i => nth i [1; 2; 3] 0).
Proof.
  split; [apply tri_writes|]. split; [apply dominant_leading, tri_dominant|].
  split; [apply line_iter_good | apply (line_iter_vector [1; 2; 3])].
Qed.
Example C09_example_run :
  (m <- build_band Qops true 3 1 1 (tri_history 4 1 2)%Q ;; f <- band_lu Qops true m ;;
   run (band_solve Qops true f line_iter) [[8; 15; 14]%Q]) = Ok (tt, [[1; 2; 3]%Q]).
Proof. reflexivity. Qed.

(** C10: extended band LU solves the system. *)
Theorem C10_extended_lu_solves : forall on n p q h iter m0 b,
  (p < n)%nat -> (q < n)%nat -> (p + q <= n)%nat ->
  writes_in (in_ext n p q) h -> leading_nonsingular n (content 0 h) ->
  good_iter n iter m0 -> vector_at n iter m0 m0 b ->
  exists m f m1 x,
    build_eband Rops on n p q h = Ok m /\ eband_lu Rops on m = Ok f /\
    run (eband_solve Rops on f iter) m0 = Ok (tt, m1) /\
    vector_at n iter m0 m1 x /\ solves n (content 0 h) x b /\
    forall y, solves n (content 0 h) y b -> forall i, (i < n)%nat -> y i = x i.
Proof. exact eband_lu_solves. Qed.
Print Assumptions C10_extended_lu_solves.
Example C10_example :
  writes_in (in_ext 4 1 1) (corner_history 4 1 2 (-1) (1/2)) /\
  leading_nonsingular 4 (content 0 (corner_history 4 1 2 (-1) (1/2))) /\
  good_iter 4 line_iter [[1; 2; 3; 4]] /\
  vector_at 4 line_iter [[1; 2; 3; 4]] [[1; 2; 3; 4]] (fun i => nth i [1; 2; 3; 4] 0).
Proof.
  split; [apply corner_writes|]. split; [apply dominant_leading, corner_dominant|].
  split; [apply line_iter_good4 | apply (line_iter_vector [1; 2; 3; 4])].
Qed.
Example C10_example_run :
  (m <- build_eband Qops true 4 1 1 (corner_history 4 1 2 (-1) (1#2))%Q ;; f <- eband_lu Qops true m ;;
   run (eband_solve Qops true f line_iter) [[4; 15; 22; 39#2]%Q]) = Ok (tt, [[1; 2; 3; 4]%Q]).
Proof. reflexivity. Qed.

(** C11: diagonally dominant matrices always factorise. *)
Theorem C11_dominant_band : forall on n p q h iter m0 b,
  (0 < n)%nat -> writes_in (in_band n p q) h -> row_dominant n (content 0 h) ->
  good_iter n iter m0 -> vector_at n iter m0 m0 b ->
  exists m f m1 x,
    build_band Rops on n p q h = Ok m /\ band_lu Rops on m = Ok f /\
    run (band_solve Rops on f iter) m0 = Ok (tt, m1) /\
    vector_at n iter m0 m1 x /\ solves n (content 0 h) x b /\
    forall y, solves n (content 0 h) y b -> forall i, (i < n)%nat -> y i = x i.
Proof. exact band_dominant_solves. Qed.
Print Assumptions C11_dominant_band.
Theorem C11_dominant_extended : forall on n p q h iter m0 b,
  (p < n)%nat -> (q < n)%nat -> (p + q <= n)%nat ->
  writes_in (in_ext n p q) h -> row_dominant n (content 0 h) ->
  good_iter n iter m0 -> vector_at n iter m0 m0 b ->
  exists m f m1 x,
    build_eband Rops on n p q h = Ok m /\ eband_lu Rops on m = Ok f /\
    run (eband_solve Rops on f iter) m0 = Ok (tt, m1) /\
    vector_at n iter m0 m1 x /\ solves n (content 0 h) x b /\
    forall y, solves n (content 0 h) y b -> forall i, (i < n)%nat -> y i = x i.
Proof. exact eband_dominant_solves. Qed.
Print Assumptions C11_dominant_extended.
Example C11_example :
  row_dominant 3 (content 0 (tri_history 4 1 2)) /\
  row_dominant 4 (content 0 (corner_history 4 1 2 (-1) (1/2))).
Proof. split; [apply tri_dominant | apply corner_dominant]. Qed.

(** C12: a solver object keeps its first factorisation. *)
Theorem C12_compute_once : forall (M : Type) (factor : M -> res M) store first rest s,
  lu_compute factor (mkLU false store) first = Ok s ->
  exists f, factor first = Ok f /\
    foldM (lu_compute factor) rest s = Ok (mkLU true f).
Proof. exact @compute_once. Qed.
Print Assumptions C12_compute_once.
Example C12_example :
  exists f,
    (m <- build_band Qops true 3 1 1 (tri_history 4 1 2)%Q ;; band_lu Qops true m) = Ok f /\
    (m <- build_band Qops true 3 1 1 (tri_history 4 1 2)%Q ;;
     s <- lu_compute (band_lu Qops true) (mkLU false (band_make Qops 3 1 1)) m ;;
     lu_compute (band_lu Qops true) s (band_make Qops 3 1 1)) = Ok (mkLU true f).
Proof. eexists. split; [vm_compute; reflexivity | vm_compute; reflexivity]. Qed.
