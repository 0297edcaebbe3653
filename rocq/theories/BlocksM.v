(** The number of tasks into which the lines of a round are divided. *)
From Coq Require Import ZArith List Bool Floats.
From Verif Require Import Base Num FloatM.
Local Open Scope Z_scope.

(** [static_cast<size_type>(x)] of a double (InterpolationTemplate.hpp:549,
    BSpline.hpp:735): truncation; undefined for values outside the range of
    [size_t] and for NaN ([conv.fpint]). *)
Definition Ftrunc (x : float) : res nat :=
  match Prim2SF x with
  | S754_nan | S754_infinity _ => Fault BadCast
  | S754_zero _ => Ok O
  | S754_finite s m e =>
      let v := if s then Zneg m else Zpos m in
      let z := if 0 <=? e then v * 2 ^ e else Z.quot v (2 ^ (- e)) in
      if (z <? 0) || (two64 <=? z) then Fault BadCast else Ok (Z.to_nat z)
  end.

(** [block_num] (InterpolationTemplate.hpp:549-550, BSpline.hpp:735-736) for
    [h] lines; [std::sqrt] is the correctly rounded square root of IEEE 754. *)
Definition task_number (h : nat) : res nat := Ftrunc (PrimFloat.sqrt (Fnat h)).
