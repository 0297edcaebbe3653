(** IEEE 754 binary64 arithmetic (C++ [double] with [std::numeric_limits<double>::is_iec559],
    round to nearest, ties to even) as an instance of [ops].

    [PrimFloat] is the kernel's implementation of binary64; [SpecFloat] is its
    specification.  Division never fails: the quotient by zero is an infinity or
    a NaN. *)
From Coq Require Import ZArith Bool List Floats.
From Verif Require Import Base Num.
Import ListNotations.
Local Open Scope Z_scope.

(** [m * 2^e] rounded to a double; [neg] is the sign of a zero. *)
Definition Fround (m e : Z) (neg : bool) : float :=
  SF2Prim (binary_normalize FloatOps.prec FloatOps.emax m e neg).

(** Conversion [size_t -> double] (Interpolation.hpp:336, 344-346, 352-354). *)
Definition Fnat (n : nat) : float := Fround (Z.of_nat n) 0 false.

(** [std::fmod] (BSpline.hpp:131-136): the remainder
    [x - trunc (x / y) * y], which is representable; a zero has the sign of [x];
    NaN for an infinite [x] or a zero [y]. *)
Definition Ffmod (x y : float) : float :=
  match Prim2SF x, Prim2SF y with
  | S754_nan, _ | _, S754_nan | S754_infinity _, _ | _, S754_zero _ => nan
  | S754_zero _, _ | _, S754_infinity _ => x
  | S754_finite s mx ex, S754_finite _ my ey =>
      let e := Z.min ex ey in
      let r := (Zpos mx * 2 ^ (ex - e)) mod (Zpos my * 2 ^ (ey - e)) in
      Fround (if s then - r else r) e s
  end.

(** [static_cast<size_t>(std::ceil(x))] (Interpolation.hpp:284-293, 308-317): undefined
    for values outside the range of [size_t] and for NaN ([conv.fpint]). *)
Definition Fceil (x : float) : res nat :=
  match Prim2SF x with
  | S754_nan | S754_infinity _ => Fault BadCast
  | S754_zero _ => Ok O
  | S754_finite s m e =>
      let v := if s then Zneg m else Zpos m in
      let z := if 0 <=? e then v * 2 ^ e else - ((- v) / 2 ^ (- e)) in
      if (z <? 0) || (two64 <=? z) then Fault BadCast else Ok (Z.to_nat z)
  end.

Definition Fops : ops float := {|
  o0 := zero; o1 := one;
  oadd := PrimFloat.add; osub := PrimFloat.sub; omul := PrimFloat.mul;
  odiv x y := Ok (PrimFloat.div x y);
  ole := PrimFloat.leb; olt := PrimFloat.ltb;
  onat := Fnat;
  ohalf := 0.5%float;
  ofmod x y := Ok (Ffmod x y);
  oceil := Fceil;
|}.
