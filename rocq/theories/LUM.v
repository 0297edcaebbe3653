(** Model of BandLU.hpp. *)
From Coq Require Import List Arith Lia Bool.
From Verif Require Import Base Num MeshM BandM ProgM.
Import ListNotations.

Section LU.
Context {T : Type} (o : ops T) (on : bool).

(** [m(i,j) /= m(k,l)] and [m(i,j) -= m(a,b) * m(c,d)] for given element
    accessors. *)
Definition div_assign {M} (getd : M -> nat -> nat -> res T) (get : M -> nat -> nat -> res T)
  (set : M -> nat -> nat -> T -> res M) (m : M) (i j k : nat) : res M :=
  v <- get m i j ;; d <- getd m k k ;; r <- odiv o v d ;; set m i j r.

Definition sub_assign {M} (get get1 get2 : M -> nat -> nat -> res T)
  (set : M -> nat -> nat -> T -> res M) (m : M) (i j k : nat) : res M :=
  v <- get m i j ;; a <- get1 m i k ;; b <- get2 m k j ;;
  set m i j (osub o v (omul o a b)).

(** [BandLU<BandMatrix>::compute_impl] (BandLU.hpp:103-118). *)
Definition band_lu (m : band T) : res (band T) :=
  let n := b_n m in let p := b_p m in let q := b_q m in
  n1 <- usub n 1 ;;
  for_ 0 n1 m (fun m k =>
    m <- for_ (k + 1) (Nat.min (k + p + 1) n) m (fun m i =>
           div_assign (band_get on) (band_get on) (band_set on) m i k k) ;;
    for_ (k + 1) (Nat.min (k + q + 1) n) m (fun m j =>
      for_ (k + 1) (Nat.min (k + p + 1) n) m (fun m i =>
        sub_assign (band_get on) (band_get on) (band_get on) (band_set on) m i j k))).

(** [iter[i] -= a * iter[j]] and [iter[j] /= a]; [iter] maps an index to the
    memory cell it denotes. *)
Definition it_sub_assign (iter : nat -> loc) (a : res T) (i j : nat) : prog T unit :=
  pbind (pread (iter i)) (fun xi =>
  pbind (plift a) (fun a =>
  pbind (pread (iter j)) (fun xj =>
  pwrite (iter i) (osub o xi (omul o a xj))))).
Definition it_div_assign (iter : nat -> loc) (a : res T) (j : nat) : prog T unit :=
  pbind (pread (iter j)) (fun xj =>
  pbind (plift a) (fun a =>
  pbind (plift (odiv o xj a)) (fun r => pwrite (iter j) r))).

(** [BandLU<BandMatrix>::solve_in_place_impl] (BandLU.hpp:120-143).  [iter]
    stands for the random access iterator or container argument. *)
Definition band_solve (m : band T) (iter : nat -> loc) : prog T unit :=
  let n := b_n m in let p := b_p m in let q := b_q m in
  pbind (pfor 0 n (fun j =>
           pfor (j + 1) (Nat.min (j + p + 1) n) (fun i =>
             it_sub_assign iter (band_get on m i j) i j)))
  (fun _ => pfor_down n (fun j =>
     pbind (it_div_assign iter (band_get on m j j) j) (fun _ =>
     pfor (if j <? q then 0 else j - q) j (fun i =>
       it_sub_assign iter (band_get on m i j) i j)))).

(** [BandLU<ExtendedBandMatrix>::compute_impl] (BandLU.hpp:159-213). *)
Definition eband_lu (m : eband T) : res (eband T) :=
  let n := e_n m in let p := e_p m in let q := e_q m in
  let main := eb_main_get on in let side := eb_side_get on in
  n1 <- usub n 1 ;;
  for_ 0 n1 m (fun m k =>
    nq <- usub n q ;;
    np <- usub n p ;;
    m <- for_ (k + 1) (Nat.min (k + p + 1) n) m (fun m i =>
           div_assign main main (eb_main_set on) m i k k) ;;
    m <- for_ (Nat.max nq (k + p + 1)) n m (fun m i =>
           div_assign main side (eb_side_set on) m i k k) ;;
    m <- for_ (k + 1) (Nat.min (k + q + 1) n) m (fun m j =>
           for_ (k + 1) (Nat.min (k + p + 1) n) m (fun m i =>
             sub_assign main main main (eb_main_set on) m i j k)) ;;
    m <- for_ (k + 1) (Nat.min (k + p + 1) n) m (fun m i =>
           for_ (Nat.max np (k + q + 1)) n m (fun m j =>
             sub_assign (eb_get on) main side (eb_set on) m i j k)) ;;
    m <- for_ (k + 1) (Nat.min (k + q + 1) n) m (fun m j =>
           for_ (Nat.max nq (k + p + 1)) n m (fun m i =>
             sub_assign (eb_get on) side main (eb_set on) m i j k)) ;;
    np1 <- usub np 1 ;;
    nq1 <- usub nq 1 ;;
    if k <? Nat.max np1 nq1 then
      for_ (Nat.max nq (k + p + 1)) n m (fun m i =>
        for_ (Nat.max np (k + q + 1)) n m (fun m j =>
          sub_assign main side side (eb_main_set on) m i j k))
    else Ok m).

(** [BandLU<ExtendedBandMatrix>::solve_in_place_impl] (BandLU.hpp:215-259). *)
Definition eband_solve (m : eband T) (iter : nat -> loc) : prog T unit :=
  let n := e_n m in let p := e_p m in let q := e_q m in
  let main := eb_main_get on in let side := eb_side_get on in
  pbind (pfor 0 n (fun j =>
    pbind (pfor (j + 1) (Nat.min (j + p + 1) n) (fun i =>
             it_sub_assign iter (main m i j) i j)) (fun _ =>
    pbind (plift (a <- usub n p ;; usub a 1)) (fun np1 =>
    if j <? np1 then
      pbind (plift (usub n q)) (fun nq =>
      pfor (Nat.max nq (j + p + 1)) n (fun i => it_sub_assign iter (side m i j) i j))
    else Ret tt))))
  (fun _ => pfor_down n (fun j =>
     pbind (it_div_assign iter (main m j j) j) (fun _ =>
     pbind (pfor (if j <? q then 0 else j - q) j (fun i =>
              it_sub_assign iter (main m i j) i j)) (fun _ =>
     pbind (plift (a <- usub n p ;; usub a 1)) (fun np1 =>
     if np1 <? j then
       pbind (plift (usub j q)) (fun e =>
       pfor 0 e (fun i => it_sub_assign iter (side m i j) i j))
     else Ret tt))))).

(** [BandLUBase] (BandLU.hpp:15-58): [is_computed_] and [lu_store_];
    [compute] (31-41) ignores its argument once a matrix has been factorised;
    [solve] (43-54) solves in place through a copy of the iterator. *)
Record lu_state (M : Type) : Type := mkLU { is_computed : bool; lu_store : M }.
Arguments mkLU {M}.
Arguments is_computed {M}.
Arguments lu_store {M}.
Definition lu_compute {M} (factor : M -> res M) (s : lu_state M) (mat : M) : res (lu_state M) :=
  if is_computed s then Ok s
  else m <- factor mat ;; Ok (mkLU true m).

End LU.
Arguments mkLU {M}.
Arguments is_computed {M}.
Arguments lu_store {M}.
