(** Model of compound expressions: tuples of expressions evaluated, subtracted, added and
    compared element by element.  Citations are to /repo/include/wave/geometry/src. *)

From Coq Require Import Reals List Bool Arith.
From Verif Require Import Mat ModelMeta V3 ModelLeaf ModelExpr ModelApprox.
Import ListNotations.
Local Open Scope R_scope.

(** A compound leaf: the values of its elements (core/storage/NaryStorage.hpp 12-85).
    Simplification: elements are leaves, not compounds. *)
Definition compound := list value.

(** Expansion of [f(lhs.get<Is>(), rhs.get<Is>())...] into a new compound
    (geometry/base/CompoundBase.hpp 78-84 and 94-100); packs of different lengths do not
    compile.  None also when an element is not defined. *)
Fixpoint expand2 (f : value -> value -> option value) (l r : compound) : option compound :=
  match l, r with
  | [], [] => Some []
  | a :: l, b :: r =>
      match f a b, expand2 f l r with
      | Some c, Some cs => Some (c :: cs)
      | _, _ => None
      end
  | _, _ => None
  end.

(** Two leaf objects. *)
Definition two_leaves (a b : value) : env := fun i => match i with 0%nat => a | _ => b end.

Section Eps.
  Variable eps : R.

  (** makeCompound(e1, ..., en).eval(): NaryStorage.hpp 98-166, Evaluator.hpp 108-143,
      PrepareExpr.hpp 34-44. *)
  Fixpoint compound_eval (m : env) (es : list expr) : option compound :=
    match es with
    | [] => Some []
    | e :: es =>
        match eval eps m e, compound_eval m es with
        | Some v, Some vs => Some (v :: vs)
        | _, _ => None
        end
    end.

  (** eval(a - b) of two elements: operator- is box-minus for rotations and rigid
      transforms (TransformBase.hpp 126-200), Subtract for vectors, points and scalars
      (AffineBase.hpp 89-93, VectorBase.hpp, ScalarBase.hpp). *)
  Definition elem_minus (a b : value) : option value :=
    let l := XLeaf 0 (vty a) in
    let r := XLeaf 1 (vty b) in
    eval eps (two_leaves a b)
      match vkind a with
      | KRot | KRT => XBoxMinus l r
      | _ => XBin OSubtract l r
      end.

  (** eval(a + d): box-plus for rotations and rigid transforms, Sum otherwise. *)
  Definition elem_plus (a d : value) : option value :=
    let l := XLeaf 0 (vty a) in
    let r := XLeaf 1 (vty d) in
    eval eps (two_leaves a d)
      match vkind a with
      | KRot | KRT => XBoxPlus l r
      | _ => XBin OSum l r
      end.

  (** eval(lhs - rhs) and eval(lhs + rhs) of compounds: CompoundBase.hpp 48-108. *)
  Definition compound_minus (l r : compound) : option compound := expand2 elem_minus l r.
  Definition compound_plus (l r : compound) : option compound := expand2 elem_plus l r.

  (** lhs.isApprox(rhs, prec): NaryStorage.hpp 202-222 (fold over &&, left to right),
      CompoundBase.hpp 37-45. *)
  Definition compound_isApprox (prec : R) (l r : compound) : bool :=
    fold_left (fun res p =>
        res && isApprox eps prec (two_leaves (fst p) (snd p))
                 (XLeaf 0 (vty (fst p))) (XLeaf 1 (vty (snd p))))
      (combine l r) true.
End Eps.

(** Eigen::CommaInitializer on a column vector: the row at which the current block starts,
    its number of rows, and the destination's coefficients. *)
Record comma := Comma { ci_row : nat; ci_rows : nat; ci_dst : nat -> R }.

(** operator, on a column with as many columns as the destination: the next block starts
    after the current one. *)
Definition comma_push (st : comma) (v : value) : comma :=
  let row := (ci_row st + ci_rows st)%nat in
  Comma row (vdim v)
    (fun i => if (row <=? i)%nat && (i <? row + vdim v)%nat then coord v (i - row)
              else ci_dst st i).

(** valueAsVector(compound): NaryStorage.hpp 168-199.  [garbage] is the content of the
    uninitialised vector; an empty block is pushed first; TangentSize is the sum of the
    elements' sizes (NaryStorage.hpp 120-128). *)
Definition compound_vector (garbage : nat -> R) (c : compound) : mat :=
  let st := fold_left comma_push c (Comma 0 0 garbage) in
  Mat (sum_sequence (map vdim c)) 1 (fun i _ => ci_dst st i).
