(** The arithmetic the code is run with.

    [ops T] lists the operations on [coord_type]/[val_type] used by the
    library.  The model is parametric in it; no law is assumed.  One type
    stands for both the value type [T] and the coordinate type [U] of the
    C++ templates (simplification). *)
From Coq Require Import List Arith Lia Bool ZArith QArith Qround Reals Lra.
From Verif Require Import Base.
Import ListNotations.

Record ops (T : Type) : Type := mkOps {
  o0 : T;                      (* T{} *)
  o1 : T;                      (* 1 *)
  oadd : T -> T -> T;
  osub : T -> T -> T;
  omul : T -> T -> T;
  odiv : T -> T -> res T;      (* Fault DivByZero possible *)
  ole : T -> T -> bool;
  olt : T -> T -> bool;
  onat : nat -> T;             (* static_cast<coord_type>(size_t) *)
  ohalf : T;                   (* .5 *)
  ofmod : T -> T -> res T;     (* std::fmod *)
  oceil : T -> res nat;        (* static_cast<size_t>(std::ceil(x)) *)
}.
Arguments o0 {T} o.
Arguments o1 {T} o.
Arguments oadd {T} o.
Arguments osub {T} o.
Arguments omul {T} o.
Arguments odiv {T} o.
Arguments ole {T} o.
Arguments olt {T} o.
Arguments onat {T} o.
Arguments ohalf {T} o.
Arguments ofmod {T} o.
Arguments oceil {T} o.

(** The number of values of [size_t] (64 bit). *)
Definition two64 : Z := 18446744073709551616%Z.

(** ** Rationals: exact and executable; used for examples. *)
Definition Qtrunc (x : Q) : Z := Z.quot (Qnum x) (Zpos (Qden x)).

Definition Qops : ops Q := {|
  o0 := 0%Q; o1 := 1%Q;
  oadd x y := Qred (x + y);
  osub x y := Qred (x - y);
  omul x y := Qred (x * y);
  odiv x y := if Qeq_bool y 0 then Fault DivByZero else Ok (Qred (x / y));
  ole x y := Qle_bool x y;
  olt x y := negb (Qle_bool y x);
  onat n := inject_Z (Z.of_nat n);
  ohalf := (1 # 2)%Q;
  ofmod x y := if Qeq_bool y 0 then Fault DivByZero
               else Ok (Qred (x - inject_Z (Qtrunc (x / y)) * y));
  oceil x := let z := Qceiling x in
             if (z <? 0)%Z || (two64 <=? z)%Z then Fault BadCast
             else Ok (Z.to_nat z);
|}.

(** ** Reals: exact arithmetic; used for theorems about values. *)
Open Scope R_scope.

(** Integer part towards zero, as used by [fmod]. *)
Definition Rtrunc (x : R) : Z :=
  if Rle_dec 0 x then Int_part x else (- Int_part (- x))%Z.

(** Ceiling. *)
Definition Rceil (x : R) : Z := (- Int_part (- x))%Z.

Definition Rleb (x y : R) : bool := if Rle_dec x y then true else false.
Definition Rltb (x y : R) : bool := if Rlt_dec x y then true else false.
Definition Reqb (x y : R) : bool := if Req_EM_T x y then true else false.

Definition Rops : ops R := {|
  o0 := 0; o1 := 1;
  oadd := Rplus; osub := Rminus; omul := Rmult;
  odiv x y := if Req_EM_T y 0 then Fault DivByZero else Ok (x / y);
  ole := Rleb; olt := Rltb;
  onat := INR;
  ohalf := / 2;
  ofmod x y := if Req_EM_T y 0 then Fault DivByZero
               else Ok (x - IZR (Rtrunc (x / y)) * y);
  oceil x := let z := Rceil x in
             if (z <? 0)%Z || (two64 <=? z)%Z then Fault BadCast
             else Ok (Z.to_nat z);
|}.

Lemma Rleb_true x y : Rleb x y = true <-> x <= y.
Proof. unfold Rleb; destruct (Rle_dec x y); split; intros; auto; discriminate. Qed.
Lemma Rltb_true x y : Rltb x y = true <-> x < y.
Proof. unfold Rltb; destruct (Rlt_dec x y); split; intros; auto; discriminate. Qed.
Lemma Rleb_false x y : Rleb x y = false <-> y < x.
Proof. unfold Rleb; destruct (Rle_dec x y); split; intros; auto; try discriminate; lra. Qed.
Lemma Rltb_false x y : Rltb x y = false <-> y <= x.
Proof. unfold Rltb; destruct (Rlt_dec x y); split; intros; auto; try discriminate; lra. Qed.
Lemma Reqb_true x y : Reqb x y = true <-> x = y.
Proof. unfold Reqb; destruct (Req_EM_T x y); split; intros; auto; discriminate. Qed.

Lemma Rdiv_ok x y : y <> 0 -> odiv Rops x y = Ok (x / y).
Proof. intros. simpl. destruct (Req_EM_T y 0); auto; contradiction. Qed.
Lemma Rdiv_zero x : odiv Rops x 0 = Fault DivByZero.
Proof. simpl. destruct (Req_EM_T 0 0); auto; contradiction. Qed.
Lemma Rdiv_inv x y z : odiv Rops x y = Ok z -> y <> 0 /\ z = x / y.
Proof. simpl. destruct (Req_EM_T y 0); intros E; inversion E; auto. Qed.
