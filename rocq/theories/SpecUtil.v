(** Specification for the small matrix classes: what the cross-product matrix of a vector
    is, and the dense matrix each Jacobian factor stands for. *)

From Coq Require Import Reals List Bool Arith.
From Verif Require Import Mat V3 ModelLeaf ModelUtil.
Local Open Scope R_scope.

(** [A] is the matrix [v]x: the 3x3 matrix with [A w = v x w] for every [w]. *)
Definition is_cross_matrix (A : mat) (v : V3) : Prop :=
  has_shape 3 3 A /\ forall w i, (i < 3)%nat -> mvec A (vget w) i = vget (vcross v w) i.

Definition skew_symmetric (A : mat) : Prop :=
  has_shape 3 3 A /\ forall i j, (i < 3)%nat -> (j < 3)%nat -> mnth A i j = - mnth A j i.

(** The ordinary dense matrix with the same contents. *)
Definition jdense (a : jmat) : mat :=
  match a with
  | JIdent n => mid n
  | JCross v => of_m3 (skew v)
  | JNegCross v => of_m3 (skew (vopp v))
  | JDense A => A
  end.

Fixpoint jprod_dense (p : jprod) : mat :=
  match p with
  | JP a => jdense a
  | JMul l r => mmul (jprod_dense l) (jprod_dense r)
  end.

(** Inner dimensions agree everywhere. *)
Fixpoint jprod_ok (p : jprod) : Prop :=
  match p with
  | JP _ => True
  | JMul l r => jprod_ok l /\ jprod_ok r /\ mcols (jprod_dense l) = mrows (jprod_dense r)
  end.
