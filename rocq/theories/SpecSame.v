(** Specification for isSame. *)

From Coq Require Import Reals List Arith Bool.
From Verif Require Import Mat ModelMeta ModelJac ModelLeaf ModelExpr ModelDyn SpecDyn ModelStore
  ModelSame.
Import ListNotations.

(** Every Dynamic is regarded as a variable of its own: proxies are leaves. *)
Definition every : nat -> bool := fun _ => true.

(** The operand is held by reference. *)
Definition by_ref (n : node) : bool := match n with NRef _ => true | _ => false end.

(** The C++ type of an expression object. *)
Inductive has_type (s : state) : node -> ctype -> Prop :=
| ht_own i t : has_type s (NOwn i t) (TyLeaf t)
| ht_leaf a t : objs s a = Some (OLeaf t) -> has_type s (NRef a) (TyLeaf t)
| ht_expr a n c : objs s a = Some (OExpr n) -> has_type s n c -> has_type s (NRef a) c
| ht_dyn a n l c : objs s a = Some (ODyn n l) -> has_type s n c ->
    has_type s (NRef a) (TyDyn (by_ref n) c)
| ht_var a d l : objs s a = Some (OProxy d l) -> has_type s (NRef a) (TyProxy l)
| ht_proxy d l : has_type s (NProxy d l) (TyProxy l)
| ht_un o n c : has_type s n c -> has_type s (NUn o n) (TyUn o (by_ref n) c)
| ht_bin o n1 n2 c1 c2 : has_type s n1 c1 -> has_type s n2 c2 ->
    has_type s (NBin o n1 n2) (TyBin o (by_ref n1) c1 (by_ref n2) c2).

(** Objects that are expressions hold an operation or a leaf, not a mere reference
    (an expression template instance is never just a reference). *)
Definition proper (s : state) : Prop :=
  forall a n, objs s a = Some (OExpr n) -> by_ref n = false.

(** The operation objects an object holds store no leaf by value. *)
Fixpoint owns_nothing (n : node) : Prop :=
  match n with
  | NOwn _ _ => False
  | NRef _ | NProxy _ _ => True
  | NUn _ n => owns_nothing n
  | NBin _ n1 n2 => owns_nothing n1 /\ owns_nothing n2
  end.
