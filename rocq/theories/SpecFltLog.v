(** Specification of std::acos. *)

From Coq Require Import ZArith Reals.
From Flocq Require Import Core BinarySingleNaN.
From Verif Require Import V3 ModelFloat SpecFlt.
Local Open Scope R_scope.

(** Relative error below one unit in the last place on [-1, 1], NaN elsewhere. *)
Definition acos_ulp (M : libm) : Prop :=
  (forall x, finite x -> Rabs (val x) <= 1 -> finite (facos M x) /\
     Rabs (val (facos M x) - acos (val x)) <= / 2 ^ 52 * acos (val x) + / 2 ^ 1074) /\
  (forall x, finite x -> 1 < Rabs (val x) -> facos M x = B754_nan).
