(** Rounding errors of derivatives of inexact values of a function. *)
From Coq Require Import Reals List.
From Verif Require Import SpecRound.
Local Open Scope R_scope.

(** The part of the error of a derivative of total order [m] that comes from
    rounding in [n] dimensions; one differentiation multiplies by [L]. *)
Definition derivative_rounding (order n M : nat) (G K B L : R) (m : nat) : R :=
  L ^ m * ((INR (roundings order n + 3 * m) * powerRZ 2 (-52) + K ^ n * (INR n * (INR order + INR M * G) * powerRZ 2 (-49))) * (2 * K ^ n * (B + powerRZ 2 (-1031))) +
    K ^ n * powerRZ 2 (-1031) + INR m * powerRZ 2 (-273)) + powerRZ 2 (-1034).
