(** Model of BandMatrix.hpp. *)
From Coq Require Import List Arith Lia Bool.
From Verif Require Import Base Num MeshM.
Import ListNotations.

Section Band.
Context {T : Type} (o : ops T) (on : bool).  (* [on]: INTP_ENABLE_ASSERTION *)

(** Members [n_, p_, q_, bands_] (BandMatrix.hpp:94-96). *)
Record band : Type := mkBand { b_n : nat; b_p : nat; b_q : nat; b_bands : mesh T }.

(** Constructor (BandMatrix.hpp:29-30). *)
Definition band_make (n p q : nat) : band :=
  mkBand n p q (mesh_make (o0 o) [n; 1 + p + q]).

(** [operator()] (BandMatrix.hpp:50-60), as a read and as a write. *)
Definition band_get (m : band) (i j : nat) : res T :=
  _ <- intp_assert on ((i <=? j + b_p m) && (j <=? i + b_q m)) ;;
  c <- usub (i + b_q m) j ;;
  mesh_get_safe on (b_bands m) [j; c].
Definition band_set (m : band) (i j : nat) (v : T) : res band :=
  _ <- intp_assert on ((i <=? j + b_p m) && (j <=? i + b_q m)) ;;
  c <- usub (i + b_q m) j ;;
  b <- mesh_set_safe on (b_bands m) [j; c] v ;;
  Ok (mkBand (b_n m) (b_p m) (b_q m) b).

(** [operator*] (BandMatrix.hpp:67-77).  The loop variables [j] and [k]
    advance together; [k] is recovered from the iteration number. *)
Definition band_mul (m : band) (x : list T) : res (list T) :=
  let n := b_n m in let p := b_p m in let q := b_q m in
  for_ 0 (length x) (repeat (o0 o) (length x)) (fun xx i =>
    let j0 := if i <? p then p - i else 0 in
    let k0 := if p <? i then i - p else 0 in
    e <- usub (n + p) i ;;
    for_ j0 (Nat.min (p + q + 1) e) xx (fun xx j =>
      let k := k0 + (j - j0) in
      b <- mesh_get_safe on (b_bands m) [i; j] ;;
      xk <- vget x k ;;
      xi <- vget xx i ;;
      vset xx i (oadd o xi (omul o b xk)))).

(** ExtendedBandMatrix: base part and the two side bands
    (BandMatrix.hpp:100, 175-176). *)
Record eband : Type := mkEBand { e_base : band; e_right : mesh T; e_bottom : mesh T }.
Definition e_n m := b_n (e_base m).
Definition e_p m := b_p (e_base m).
Definition e_q m := b_q (e_base m).

(** Constructor (BandMatrix.hpp:107-110). *)
Definition eband_make (dim lower upper : nat) : res eband :=
  a <- usub dim upper ;; r <- usub a 1 ;;
  b <- usub dim lower ;; s <- usub b 1 ;;
  Ok (mkEBand (band_make dim lower upper)
              (mesh_make (o0 o) [r; lower]) (mesh_make (o0 o) [s; upper])).

(** [main_bands_val] (BandMatrix.hpp:114-120). *)
Definition eb_main_get (m : eband) (i j : nat) : res T := band_get (e_base m) i j.
Definition eb_main_set (m : eband) (i j : nat) (v : T) : res eband :=
  b <- band_set (e_base m) i j v ;; Ok (mkEBand b (e_right m) (e_bottom m)).

(** [side_bands_val] (BandMatrix.hpp:122-136).  The differences [n_ - p_] and
    [n_ - q_] occur only inside the assertion. *)
Definition eb_side_check (m : eband) (i j : nat) : res unit :=
  if on then
    a <- usub (e_n m) (e_p m) ;;
    b <- usub (e_n m) (e_q m) ;;
    intp_assert on ((Nat.max a (i + e_q m + 1) <=? j) || (Nat.max b (j + e_p m + 1) <=? i))
  else Ok tt.
Definition eb_side_get (m : eband) (i j : nat) : res T :=
  _ <- eb_side_check m i j ;;
  if i + e_q m <? j then
    c <- usub (j + e_p m) (e_n m) ;; mesh_get_safe on (e_right m) [i; c]
  else
    c <- usub (i + e_q m) (e_n m) ;; mesh_get_safe on (e_bottom m) [j; c].
Definition eb_side_set (m : eband) (i j : nat) (v : T) : res eband :=
  _ <- eb_side_check m i j ;;
  if i + e_q m <? j then
    c <- usub (j + e_p m) (e_n m) ;;
    r <- mesh_set_safe on (e_right m) [i; c] v ;;
    Ok (mkEBand (e_base m) r (e_bottom m))
  else
    c <- usub (i + e_q m) (e_n m) ;;
    r <- mesh_set_safe on (e_bottom m) [j; c] v ;;
    Ok (mkEBand (e_base m) (e_right m) r).

(** [operator()] (BandMatrix.hpp:138-146). *)
Definition eb_get (m : eband) (i j : nat) : res T :=
  if (i + e_q m <? j) || (j + e_p m <? i) then eb_side_get m i j else eb_main_get m i j.
Definition eb_set (m : eband) (i j : nat) (v : T) : res eband :=
  if (i + e_q m <? j) || (j + e_p m <? i) then eb_side_set m i j v else eb_main_set m i j v.

(** [operator*] (BandMatrix.hpp:148-172). *)
Definition eband_mul (m : eband) (x : list T) : res (list T) :=
  let n := e_n m in let p := e_p m in let q := e_q m in
  let acc (get : nat -> nat -> res T) xx i j :=
    a <- get i j ;; xj <- vget x j ;; xi <- vget xx i ;;
    vset xx i (oadd o xi (omul o a xj)) in
  xx <- for_ 0 (length x) (repeat (o0 o) (length x)) (fun xx i =>
    xx <- for_ (if p <? i then i - p else 0) (Nat.min (i + q + 1) n) xx (fun xx j =>
            acc (eb_main_get m) xx i j) ;;
    a <- usub n q ;; a1 <- usub a 1 ;;
    if i <? a1 then
      b <- usub n p ;;
      for_ (Nat.max b (i + q + 1)) n xx (fun xx j => acc (eb_side_get m) xx i j)
    else Ok xx) ;;
  b <- usub n p ;; b1 <- usub b 1 ;;
  for_ 0 b1 xx (fun xx j =>
    a <- usub n q ;;
    for_ (Nat.max a (j + p + 1)) n xx (fun xx i => acc (eb_side_get m) xx i j)).

End Band.
Arguments band : clear implicits.
Arguments eband : clear implicits.
