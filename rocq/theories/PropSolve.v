(** The property theorems on rounding errors of the band solvers (C73). *)
From Coq Require Import List Arith Bool ZArith Reals Floats.
From Verif Require Import Base Num FloatM MeshM BandM ProgM LUM SpecBand LUTop SpecRound FloatProofs RoundLUTop PropSolveEx.
Import ListNotations.
Local Open Scope R_scope.

(** C73: in rounded arithmetic factorisation and substitution always run to
    the end; if the factors and the result are numbers, then so was the
    input, and the residual of the given system is bounded by the factors
    and the result. *)
Theorem C73_band_residual : forall T (o : ops T) val good u eta, strict_rounding o val good u eta ->
  forall on n p q h iter m0 b,
  (0 < n)%nat -> writes_in (in_band n p q) h -> good_iter n iter m0 -> vector_at n iter m0 m0 b ->
  exists m f m1 F x,
    build_band o on n p q h = Ok m /\ band_lu o on m = Ok f /\ run (band_solve o on f iter) m0 = Ok (tt, m1) /\
    vector_at n iter m0 m1 x /\
    (forall i j, in_band n p q i j -> band_get on f i j = Ok (F i j)) /\ (forall i j, ~ in_band n p q i j -> F i j = o0 o) /\
    ((forall i j, in_band n p q i j -> good (F i j)) -> (forall i, (i < n)%nat -> good (x i)) ->
     forall i, (i < n)%nat -> good (b i) /\ (forall j, (j < n)%nat -> good (content (o0 o) h i j)) /\
       Rabs (Rsum n (fun j => val (content (o0 o) h i j) * val (x j)) - val (b i)) <=
         residual_bound u eta n (fun i j => val (F i j)) (fun j => val (x j)) i).
Proof. exact @band_residual. Qed.
Print Assumptions C73_band_residual.

Theorem C73_extended_residual : forall T (o : ops T) val good u eta, strict_rounding o val good u eta ->
  forall on n p q h iter m0 b,
  (p < n)%nat -> (q < n)%nat -> (p + q <= n)%nat -> writes_in (in_ext n p q) h -> good_iter n iter m0 -> vector_at n iter m0 m0 b ->
  exists m f m1 F x,
    build_eband o on n p q h = Ok m /\ eband_lu o on m = Ok f /\ run (eband_solve o on f iter) m0 = Ok (tt, m1) /\
    vector_at n iter m0 m1 x /\
    (forall i j, in_ext n p q i j -> eb_get on f i j = Ok (F i j)) /\ (forall i j, ~ in_ext n p q i j -> F i j = o0 o) /\
    ((forall i j, in_ext n p q i j -> good (F i j)) -> (forall i, (i < n)%nat -> good (x i)) ->
     forall i, (i < n)%nat -> good (b i) /\ (forall j, (j < n)%nat -> good (content (o0 o) h i j)) /\
       Rabs (Rsum n (fun j => val (content (o0 o) h i j) * val (x j)) - val (b i)) <=
         residual_bound u eta n (fun i j => val (F i j)) (fun j => val (x j)) i).
Proof. exact @eband_residual. Qed.
Print Assumptions C73_extended_residual.

(** The same in doubles. *)
Theorem C73_band_residual_double : forall on n p q h iter m0 b,
  (0 < n)%nat -> INR n <= powerRZ 2 40 -> writes_in (in_band n p q) h -> good_iter n iter m0 -> vector_at n iter m0 m0 b ->
  exists m f m1 F x,
    build_band Fops on n p q h = Ok m /\ band_lu Fops on m = Ok f /\ run (band_solve Fops on f iter) m0 = Ok (tt, m1) /\
    vector_at n iter m0 m1 x /\
    (forall i j, in_band n p q i j -> band_get on f i j = Ok (F i j)) /\ (forall i j, ~ in_band n p q i j -> F i j = zero) /\
    ((forall i j, in_band n p q i j -> double_finite (F i j)) -> (forall i, (i < n)%nat -> double_finite (x i)) ->
     forall i, (i < n)%nat -> double_finite (b i) /\ (forall j, (j < n)%nat -> double_finite (content zero h i j)) /\
       Rabs (Rsum n (fun j => double_val (content zero h i j) * double_val (x j)) - double_val (b i)) <=
         double_residual n (fun i j => double_val (F i j)) (fun j => double_val (x j)) i).
Proof. exact band_residual_double. Qed.
Print Assumptions C73_band_residual_double.

Theorem C73_extended_residual_double : forall on n p q h iter m0 b,
  (p < n)%nat -> (q < n)%nat -> (p + q <= n)%nat -> INR n <= powerRZ 2 40 -> writes_in (in_ext n p q) h -> good_iter n iter m0 -> vector_at n iter m0 m0 b ->
  exists m f m1 F x,
    build_eband Fops on n p q h = Ok m /\ eband_lu Fops on m = Ok f /\ run (eband_solve Fops on f iter) m0 = Ok (tt, m1) /\
    vector_at n iter m0 m1 x /\
    (forall i j, in_ext n p q i j -> eb_get on f i j = Ok (F i j)) /\ (forall i j, ~ in_ext n p q i j -> F i j = zero) /\
    ((forall i j, in_ext n p q i j -> double_finite (F i j)) -> (forall i, (i < n)%nat -> double_finite (x i)) ->
     forall i, (i < n)%nat -> double_finite (b i) /\ (forall j, (j < n)%nat -> double_finite (content zero h i j)) /\
       Rabs (Rsum n (fun j => double_val (content zero h i j) * double_val (x j)) - double_val (b i)) <=
         double_residual n (fun i j => double_val (F i j)) (fun j => double_val (x j)) i).
Proof. exact eband_residual_double. Qed.
Print Assumptions C73_extended_residual_double.

Example C73_example :
  strict_rounding Fops double_val double_finite Fu Feta /\ INR 4 <= powerRZ 2 40 /\
  writes_in (in_band 4 1 1) sv_h /\ writes_in (in_ext 4 1 1) sv_he /\
  good_iter 4 sv_iter sv_mem /\ vector_at 4 sv_iter sv_mem sv_mem sv_b.
Proof. exact (conj F_strict (conj sv_size (conj (proj1 sv_writes) (conj (proj2 sv_writes) sv_good)))). Qed.
Example C73_band_example : exists m f m1,
  build_band Fops true 4 1 1 sv_h = Ok m /\ band_lu Fops true m = Ok f /\ run (band_solve Fops true f sv_iter) sv_mem = Ok (tt, m1) /\
  (forall i j, in_band 4 1 1 i j -> exists v, band_get true f i j = Ok v /\ double_finite v) /\
  (forall i, (i < 4)%nat -> exists v, mem_get m1 (sv_iter i) = Ok v /\ double_finite v).
Proof. exact sv_band_example. Qed.
Example C73_extended_example : exists m f m1,
  build_eband Fops true 4 1 1 sv_he = Ok m /\ eband_lu Fops true m = Ok f /\ run (eband_solve Fops true f sv_iter) sv_mem = Ok (tt, m1) /\
  (forall i j, in_ext 4 1 1 i j -> exists v, eb_get true f i j = Ok v /\ double_finite v) /\
  (forall i, (i < 4)%nat -> exists v, mem_get m1 (sv_iter i) = Ok v /\ double_finite v).
Proof. exact sv_eband_example. Qed.
