(** Specification of joint motion of several objects and of naming an intermediate result. *)

From Coq Require Import Reals List Bool Arith.
From Verif Require Import Mat V3 ModelLeaf SpecLeaf ModelExpr SpecExpr SpecDeriv.
Import ListNotations.
Local Open Scope R_scope.

(** Sum of a real function over a list of addresses. *)
Definition sum_over (S : list nat) (f : nat -> R) : R := fold_right Rplus 0 (map f S).

(** The objects in [S] follow the curves [c], all others stay where they are in [m]. *)
Definition dmoved (m : nat -> dval) (S : list nat) (c : nat -> R -> dval) (s : R) : nat -> dval :=
  fun b => if in_dec Nat.eq_dec b S then c b s else m b.

(** The expression [e] with the expression [s] written in place of the leaf [x]. *)
Fixpoint inline (x : nat) (s e : expr) : expr :=
  match e with
  | XLeaf b t => if (b =? x)%nat then s else XLeaf b t
  | XUn o e => XUn o (inline x s e)
  | XBin o l r => XBin o (inline x s l) (inline x s r)
  end.
