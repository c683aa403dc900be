(** Model of isSame(a, b) on expression objects in memory.  Citations are relative to
    /repo/include/wave/geometry/src. *)

From Coq Require Import Reals List Arith Bool.
From Verif Require Import Mat ModelMeta ModelJac ModelLeaf ModelExpr ModelDyn ModelStore.
Import ListNotations.

(** C++ types of expression objects: a leaf type, a proxy type, or a template with its
    template arguments; [true] marks an argument of the form T& (a member that is a
    reference), [false] T or T&&, which are stored alike
    (core/storage/RefSelector.hpp 28-44). *)
Inductive ctype :=
| TyLeaf (t : ty)
| TyProxy (l : lty)
| TyUn (o : unop) (r : bool) (c : ctype)
| TyBin (o : binop) (r1 : bool) (c1 : ctype) (r2 : bool) (c2 : ctype)
| TyDyn (r : bool) (c : ctype).

Definition unop_eq_dec (a b : unop) : {a = b} + {a <> b}.
Proof. decide equality; decide equality. Defined.
Definition binop_eq_dec (a b : binop) : {a = b} + {a <> b}.
Proof. decide equality. Defined.
Definition ctype_eq_dec (a b : ctype) : {a = b} + {a <> b}.
Proof.
  decide equality; auto using Bool.bool_dec, unop_eq_dec, binop_eq_dec; repeat decide equality.
Defined.

(** The type of the object an operand is or refers to.  Simplification: a Dynamic that was
    moved into an operation counts as the expression it holds (as in [member]). *)
Fixpoint type_of (f : nat) (s : state) (n : node) : option ctype :=
  let is_ref := fun n => match n with NRef _ => true | _ => false end in
  match f with
  | 0%nat => None
  | S f =>
      match n with
      | NOwn _ t => Some (TyLeaf t)
      | NRef a =>
          match objs s a with
          | Some (OLeaf t) => Some (TyLeaf t)
          | Some (OExpr n') => type_of f s n'
          | Some (ODyn n' _) => option_map (TyDyn (is_ref n')) (type_of f s n')
          | Some (OProxy _ l) => Some (TyProxy l)
          | None => None
          end
      | NProxy _ l => Some (TyProxy l)
      | NUn o n => option_map (TyUn o (is_ref n)) (type_of f s n)
      | NBin o n1 n2 =>
          match type_of f s n1, type_of f s n2 with
          | Some c1, Some c2 => Some (TyBin o (is_ref n1) c1 (is_ref n2) c2)
          | _, _ => None
          end
      end
  end.

(** What the overloads inspect: the object's address, the proxy's pointer, or the
    operands lhs() and rhs(). *)
Inductive parts := PLeaf (a : nat) | PProxy (d : nat) | PUn (n : node) | PBin (n1 n2 : node).

Definition parts_node (n : node) : option parts :=
  match n with
  | NOwn i _ => Some (PLeaf i)
  | NProxy d _ => Some (PProxy d)
  | NUn _ n => Some (PUn n)
  | NBin _ n1 n2 => Some (PBin n1 n2)
  | NRef _ => None
  end.
Definition parts_of (s : state) (n : node) : option parts :=
  match n with
  | NRef a =>
      match objs s a with
      | Some (OLeaf _) => Some (PLeaf a)
      | Some (OExpr n') => parts_node n'
      | Some (ODyn n' _) => Some (PUn n')
      | Some (OProxy d _) => Some (PProxy d)
      | None => None
      end
  | n => parts_node n
  end.

(** core/functions/IsSame.hpp 23-28 (types differ: false), 46-50 (leaves: addresses of the
    objects), 53-57 (unary), 60-65 (binary); dynamic/Proxy.hpp 259-264 (proxies: addresses of
    what they point at).  The overload is picked from the types at every level.  [None]: an
    object that no longer exists; [f] bounds the nesting, as in [outline]. *)
Fixpoint isSame (f : nat) (s : state) (a b : node) : option bool :=
  match f with
  | 0%nat => None
  | S f =>
      match type_of f s a, type_of f s b with
      | Some ta, Some tb =>
          if ctype_eq_dec ta tb then
            match parts_of s a, parts_of s b with
            | Some (PLeaf x), Some (PLeaf y) => Some (x =? y)%nat
            | Some (PProxy d), Some (PProxy d') => Some (d =? d')%nat
            | Some (PUn n), Some (PUn n') => isSame f s n n'
            | Some (PBin n1 n2), Some (PBin n1' n2') =>
                match isSame f s n1 n1', isSame f s n2 n2' with
                | Some x, Some y => Some (x && y)
                | _, _ => None
                end
            | _, _ => None
            end
          else Some false
      | _, _ => None
      end
  end.

(** ** The assertion of debug builds *)

(** IsSame.hpp 87-110: containsSame(expr, target) for a target that is a leaf: same type and
    same address of the value.  Simplification: the address of a leaf's value stands for
    the leaf.  (For an operand that is a plain double there is no overload.) *)
Fixpoint containsSame (e : etree) (t : leaf) : bool :=
  match e with
  | ELeaf l => if ltype_eqb (l_type l) (l_type t) then (l_addr l =? l_addr t)%nat else false
  | EUn _ _ _ c => containsSame c t
  | EBin _ _ _ _ l r => containsSame l t || containsSame r t
  end.

(** jacobian(target) without NDEBUG: TypedJacobianEvaluator.hpp 254-278 with the assertion of
    line 260, and 310-326.  [None]: the assertion fails and the program is aborted. *)
Definition jacobian_asserting (t : leaf) (e : etree) : option (oc mat) :=
  match unique_leaves e with
  | Some _ =>
      if contains_same_type (l_type t) e && negb (containsSame e t) then None
      else Some (evaluateTypedJacobian t e)
  | None => Some (evaluateJacobian t e)
  end.
