(** Model of how expression objects are built: which operands an operation stores by
    value and which by reference, and when temporaries die.  Citations are relative to
    /repo/include/wave/geometry/src. *)

From Coq Require Import Reals List Arith Bool.
From Verif Require Import Mat ModelMeta ModelJac ModelLeaf ModelExpr ModelDyn.
Import ListNotations.

(** Value category of an operand: a named object; a temporary or moved-from object
    (non-const rvalue); a const rvalue. *)
Inductive cat := LVal | XVal | CXVal.

(** What the storage templates distinguish. *)
Inductive class := CLeaf | CExpr | CProxy.
Definition class_of (o : obj) : class :=
  match o with OLeaf _ => CLeaf | OExpr _ | ODyn _ _ => CExpr | OProxy _ _ => CProxy end.

(** The template argument given to an operation for an operand: T&, T or T&&. *)
Inductive ptype := TRef | TVal | TRRef.

(** Overload resolution and arg_selector.  Every operator has an overload taking
    const ExpressionBase<T>&, which uses cr_arg_t, and one taking ExpressionBase<T>&&,
    which uses arg_t (util/macros.hpp 40-85 and the operators in geometry/base/); only a
    non-const rvalue binds to the second.  core/storage/RefSelector.hpp 111-129; proxies:
    dynamic/Proxy.hpp 229-233, RefProxy.hpp 98-103. *)
Definition arg_selector (c : cat) (k : class) : ptype :=
  match c, k with
  | XVal, CLeaf => TRRef
  | XVal, _ => TVal
  | _, CProxy => TVal
  | _, _ => TRef
  end.

(** core/storage/RefSelector.hpp 28-44: is the member a reference? *)
Definition storage_selector (p : ptype) : bool :=
  match p with TRef => true | TVal | TRRef => false end.

(** The program's expressions. [SDynamic] and [SProxy] carry the leaf type the result
    evaluates to, which the compiler infers. *)
Inductive src :=
| SName (a : nat)
| SMove (a : nat)
| STemp (v : value) (t : ty)
| SConstTemp (v : value) (t : ty)
| SUn (o : unop) (x : src)
| SBin (o : binop) (x y : src)
| SDynamic (l : lty) (x : src)
| SRef (x : src)
| SProxy (l : lty) (x : src).

(** Memory while a full expression is evaluated: the next unused address and the
    temporaries that die at its end. *)
Record bstate := B { st : state; next : nat; temps : list nat }.

(** A new leaf member. *)
Definition new_leaf (v : value) (b : bstate) : nat * bstate :=
  (next b, B (State (setf (vals (st b)) (next b) v) (objs (st b)) (cache (st b)))
             (S (next b)) (temps b)).

Definition put (a : nat) (o : option obj) (s : state) : state :=
  State (vals s) (setf (objs s) a o) (setf (cache s) a None).

(** A new temporary object. *)
Definition new_temp (o : obj) (b : bstate) : nat * bstate :=
  (next b, B (put (next b) (Some o) (st b)) (S (next b)) (next b :: temps b)).

(** A new object on the heap (Proxy.hpp 40-45: allocate_shared). *)
Definition new_heap (o : obj) (b : bstate) : nat * bstate :=
  (next b, B (put (next b) (Some o) (st b)) (S (next b)) (temps b)).

(** Copying or moving an operation object: its leaf members are copied (moving a
    fixed-size Eigen object copies it), its reference and proxy members keep what they
    refer to (UnaryStorage.hpp 26-29, BinaryStorage.hpp 24-27: defaulted). *)
Fixpoint copy_node (n : node) (b : bstate) : node * bstate :=
  match n with
  | NOwn i t => let (j, b') := new_leaf (vals (st b) i) b in (NOwn j t, b')
  | NRef a => (NRef a, b)
  | NProxy d l => (NProxy d l, b)
  | NUn o n => let (n', b') := copy_node n b in (NUn o n', b')
  | NBin o n1 n2 =>
      let (n1', b1) := copy_node n1 b in
      let (n2', b2) := copy_node n2 b1 in (NBin o n1' n2', b2)
  end.

(** The member of an operation object for the operand object at [a], of category [c]. *)
Definition member (a : nat) (c : cat) (b : bstate) : option (node * bstate) :=
  match objs (st b) a with
  | None => None
  | Some o =>
      if storage_selector (arg_selector c (class_of o)) then Some (NRef a, b)
      else match o with
           | OLeaf t => let (j, b') := new_leaf (vals (st b) a) b in Some (NOwn j t, b')
           | OExpr n | ODyn n _ => Some (copy_node n b)
           | OProxy d l => Some (NProxy d l, b)
           end
  end.

Fixpoint build (x : src) (b : bstate) : option (nat * cat * bstate) :=
  match x with
  | SName a => match objs (st b) a with Some _ => Some (a, LVal, b) | None => None end
  | SMove a => match objs (st b) a with Some _ => Some (a, XVal, b) | None => None end
  | STemp v t =>
      let (a, b1) := new_temp (OLeaf t) b in
      Some (a, XVal, B (State (setf (vals (st b1)) a v) (objs (st b1)) (cache (st b1)))
                       (next b1) (temps b1))
  | SConstTemp v t =>
      let (a, b1) := new_temp (OLeaf t) b in
      Some (a, CXVal, B (State (setf (vals (st b1)) a v) (objs (st b1)) (cache (st b1)))
                        (next b1) (temps b1))
  | SUn o x =>
      match build x b with
      | Some (a, c, b1) =>
          match member a c b1 with
          | Some (n, b2) => let (r, b3) := new_temp (OExpr (NUn o n)) b2 in Some (r, XVal, b3)
          | None => None
          end
      | None => None
      end
  | SBin o x y =>
      match build x b with
      | Some (a1, c1, b1) =>
          match build y b1 with
          | Some (a2, c2, b2) =>
              match member a1 c1 b2 with
              | Some (n1, b3) =>
                  match member a2 c2 b3 with
                  | Some (n2, b4) =>
                      let (r, b5) := new_temp (OExpr (NBin o n1 n2)) b4 in Some (r, XVal, b5)
                  | None => None
                  end
              | None => None
              end
          | None => None
          end
      | None => None
      end
  | SDynamic l x =>
      (* Dynamic.hpp 127-132: makeDynamic *)
      match build x b with
      | Some (a, c, b1) =>
          match member a c b1 with
          | Some (n, b2) => let (r, b3) := new_temp (ODyn n l) b2 in Some (r, XVal, b3)
          | None => None
          end
      | None => None
      end
  | SRef x =>
      (* Dynamic.hpp 138-142: ref takes const DynamicBase&, so anything *)
      match build x b with
      | Some (a, _, b1) =>
          match objs (st b1) a with
          | Some (ODyn _ l) => let (r, b2) := new_temp (OProxy a l) b1 in Some (r, XVal, b2)
          | _ => None
          end
      | None => None
      end
  | SProxy l x =>
      (* Proxy.hpp 39-45, 67-71: makeProxy takes a non-const rvalue, and holds
         Dynamic<Derived &&>, which stores it by value *)
      match build x b with
      | Some (a, XVal, b1) =>
          match member a XVal b1 with
          | Some (n, b2) =>
              let (h, b3) := new_heap (ODyn n l) b2 in
              let (r, b4) := new_temp (OProxy h l) b3 in Some (r, XVal, b4)
          | None => None
          end
      | _ => None
      end
  end.

Fixpoint destroy (l : list nat) (s : state) : state :=
  match l with [] => s | a :: l => destroy l (put a None s) end.

(** auto z = x;  The new object gets the first unused address [z] and is moved or copied
    from the result of [x] (or is that result), and the temporaries of the full
    expression die.  Returns the memory and the next unused address. *)
Definition declare (x : src) (z : nat) (s : state) : option (state * nat) :=
  match build x (B s (S z) []) with
  | Some (a, _, b1) =>
      match objs (st b1) a with
      | Some (OLeaf t) =>
          let s1 := put z (Some (OLeaf t)) (st b1) in
          let s2 := State (setf (vals s1) z (vals (st b1) a)) (objs s1) (cache s1) in
          Some (destroy (temps b1) s2, next b1)
      | Some (OExpr n) =>
          let (n', b2) := copy_node n b1 in
          Some (destroy (temps b2) (put z (Some (OExpr n')) (st b2)), next b2)
      | Some (ODyn n l) =>
          let (n', b2) := copy_node n b1 in
          Some (destroy (temps b2) (put z (Some (ODyn n' l)) (st b2)), next b2)
      | Some (OProxy d l) =>
          Some (destroy (temps b1) (put z (Some (OProxy d l)) (st b1)), next b1)
      | None => None
      end
  | None => None
  end.

(** p = q; for proxy variables of the same type: the defaulted assignment copies the
    pointer (RefProxy.hpp 41-74, Proxy.hpp 28-60). *)
Definition rebind (p q : nat) (s : state) : option state :=
  match objs s p, objs s q with
  | Some (OProxy _ l), Some (OProxy d' l') =>
      if lty_eqb l l' then Some (put p (Some (OProxy d' l')) s) else None
  | _, _ => None
  end.
