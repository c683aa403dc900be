(** Specification of computation on doubles. *)

From Coq Require Import ZArith Reals List Bool.
From Flocq Require Import Core BinarySingleNaN.
From Verif Require Import V3 ModelFloat.
Local Open Scope R_scope.

(** Neither an infinity nor NaN. *)
Definition finite (x : double) : Prop := is_finite x = true.
(** The real number a finite double is. *)
Definition val (x : double) : R := B2R x.

Definition vfinite (v : DV) : Prop := finite (dx v) /\ finite (dy v) /\ finite (dz v).
Definition mfinite (m : DM) : Prop := vfinite (r0 m) /\ vfinite (r1 m) /\ vfinite (r2 m).
Definition vval (v : DV) : V3 := mkV (val (dx v)) (val (dy v)) (val (dz v)).
Definition mval (m : DM) : M3 :=
  mkM (val (dx (r0 m))) (val (dy (r0 m))) (val (dz (r0 m)))
      (val (dx (r1 m))) (val (dy (r1 m))) (val (dz (r1 m)))
      (val (dx (r2 m))) (val (dy (r2 m))) (val (dz (r2 m))).

(** The double nearest to a real number in the range of doubles (ties to even): 53 binary
    digits, least positive double 2^-1074. *)
Definition nearest (x : R) : R := round radix2 (FLT_exp (-1074) 53) ZnearestE x.

(** Correctly rounded mathematical functions.  (The C and C++ standards do not demand this
    of an implementation.) *)
Definition rounds_correctly (M : libm) : Prop :=
  (forall x, finite x -> finite (fsin M x) /\ val (fsin M x) = nearest (sin (val x))) /\
  (forall x, finite x -> finite (fcos M x) /\ val (fcos M x) = nearest (cos (val x))) /\
  (forall x, finite x -> Rabs (val x) <= 1 ->
     finite (facos M x) /\ val (facos M x) = nearest (acos (val x))).

(** Mathematical functions with a relative error below one unit in the last place. *)
Definition one_ulp (M : libm) : Prop :=
  (forall x, finite x -> finite (fsin M x) /\
     Rabs (val (fsin M x) - sin (val x)) <= / 2 ^ 52 * Rabs (sin (val x)) + / 2 ^ 1074) /\
  (forall x, finite x -> finite (fcos M x) /\
     Rabs (val (fcos M x) - cos (val x)) <= / 2 ^ 52 * Rabs (cos (val x)) + / 2 ^ 1074).

(** Distance of matrices, entry by entry. *)
Definition mwithin (d : R) (a b : M3) : Prop :=
  Rabs (m00 a - m00 b) <= d /\ Rabs (m01 a - m01 b) <= d /\ Rabs (m02 a - m02 b) <= d /\
  Rabs (m10 a - m10 b) <= d /\ Rabs (m11 a - m11 b) <= d /\ Rabs (m12 a - m12 b) <= d /\
  Rabs (m20 a - m20 b) <= d /\ Rabs (m21 a - m21 b) <= d /\ Rabs (m22 a - m22 b) <= d.

(** r0 * r1 * ... * rn *)
Definition mproduct (r : M3) (l : list M3) : M3 := fold_left mul3 l r.

(** The entries of a vector and of a matrix. *)
Definition ventries (v : DV) : list double := (dx v :: dy v :: dz v :: nil)%list.
Definition mentries (m : DM) : list double := (ventries (r0 m) ++ ventries (r1 m) ++ ventries (r2 m))%list.
