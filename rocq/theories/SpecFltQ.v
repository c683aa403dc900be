(** Specification of quaternions and rigid transforms of doubles. *)

From Coq Require Import ZArith Reals List Bool Permutation.
From Flocq Require Import Core BinarySingleNaN.
From Verif Require Import V3 ModelFloat SpecFlt ModelFloatQ.
Local Open Scope R_scope.

Definition qfinite (q : DQ) : Prop := finite (dw q) /\ vfinite (dv q).
Definition qval (q : DQ) : Q4 :=
  mkQ (val (dw q)) (val (dx (dv q))) (val (dy (dv q))) (val (dz (dv q))).

(** Distance of quaternions and of vectors, component by component. *)
Definition qwithin (d : R) (a b : Q4) : Prop :=
  Rabs (qw a - qw b) <= d /\ Rabs (qx a - qx b) <= d /\ Rabs (qy a - qy b) <= d /\ Rabs (qz a - qz b) <= d.
Definition vwithin (d : R) (a b : V3) : Prop :=
  Rabs (vx a - vx b) <= d /\ Rabs (vy a - vy b) <= d /\ Rabs (vz a - vz b) <= d.

(** q0 * q1 * ... * qn *)
Definition qproduct (q : Q4) (l : list Q4) : Q4 := fold_left qmul l q.

(** Every component of the product adds its four terms, in whatever order. *)
Definition sums_four (o : qorder) : Prop :=
  Permutation (uses (ow o)) (seq 0 4) /\ Permutation (uses (ox o)) (seq 0 4) /\
  Permutation (uses (oy o)) (seq 0 4) /\ Permutation (uses (oz o)) (seq 0 4).

(** Rigid motions: rotation matrix and translation. *)
Definition rcompose (a b : M3 * V3) : M3 * V3 :=
  (mul3 (fst a) (fst b), vadd (app3 (fst a) (snd b)) (snd a)).
Definition rproduct (a : M3 * V3) (l : list (M3 * V3)) : M3 * V3 := fold_left rcompose l a.
Definition rfinite (a : DRTd) : Prop := mfinite (drm a) /\ vfinite (drt a).
