(** Specifications for the containers and metaprograms of ModelMeta.v. *)

From Coq Require Import Reals List Arith Bool.
From Verif Require Import Mat ModelMeta.
Import ListNotations.
Local Open Scope mat_scope.

(** A MatrixMap seen from outside: independent matrices, one per key. *)
Definition astore := nat -> option mat.

(** Operations a client performs: zero everything, assign a block, add to a block. *)
Inductive mm_op :=
| OpSetZero
| OpSet (k : nat) (B : mat)
| OpAdd (k : nat) (B : mat).

Definition astore_update (s : astore) (k : nat) (B : mat) : astore :=
  fun k' => if (k' =? k)%nat then Some B else s k'.

(** Effect of an operation on independent matrices; [None] if the operation is not
    legal (key absent or wrong size). *)
Definition aop (s : astore) (o : mm_op) : option astore :=
  match o with
  | OpSetZero => Some (fun k => match s k with
                                | Some A => Some (mzero (mrows A) (mcols A))
                                | None => None
                                end)
  | OpSet k B =>
      match s k with
      | Some A => if ((mrows B =? mrows A) && (mcols B =? mcols A))%nat
                  then Some (astore_update s k B) else None
      | None => None
      end
  | OpAdd k B =>
      match s k with
      | Some A => if ((mrows B =? mrows A) && (mcols B =? mcols A))%nat
                  then Some (astore_update s k (A [+] B)) else None
      | None => None
      end
  end.

Fixpoint aops (s : astore) (os : list mm_op) : option astore :=
  match os with
  | [] => Some s
  | o :: tl => match aop s o with Some s' => aops s' tl | None => None end
  end.

(** The same operations on the MatrixMap of the library. *)
Definition mmop (m : MatrixMap) (o : mm_op) : option MatrixMap :=
  match o with
  | OpSetZero => Some (mm_setZero m)
  | OpSet k B => mm_set m k B
  | OpAdd k B => mm_add m k B
  end.

Fixpoint mmops (m : MatrixMap) (os : list mm_op) : option MatrixMap :=
  match os with
  | [] => Some m
  | o :: tl => match mmop m o with Some m' => mmops m' tl | None => None end
  end.

(** The map shows the same matrices as the store. *)
Definition same_view (m : MatrixMap) (s : astore) : Prop :=
  forall k, match mm_at m k, s k with
            | Some A, Some B => A == B
            | None, None => True
            | _, _ => False
            end.

(** Width requested for a key: the one of its first item. *)
Fixpoint requested_width (items : list (nat * nat)) (k : nat) : option nat :=
  match items with
  | [] => None
  | (k', w) :: tl => if (k' =? k)%nat then Some w else requested_width tl k
  end.

(** A choice of conversions is workable. *)
Definition workable {T} (can_convert : T -> T -> bool) (direct : T -> T -> bool)
    (lhs rhs : T) (lto rto : list T) (c : binary_choice (T:=T)) : Prop :=
  match c with
  | BDirect => direct lhs rhs = true
  | BConvertRight r => In r rto /\ can_convert rhs r = true /\ direct lhs r = true
  | BConvertLeft l => In l lto /\ can_convert lhs l = true /\ direct l rhs = true
  | BConvertBoth l r => In l lto /\ In r rto /\ can_convert lhs l = true /\
                        can_convert rhs r = true /\ direct l r = true
  end.

(** Preference: no conversion, then right, then left, then both. *)
Definition rank {T} (c : binary_choice (T:=T)) : nat :=
  match c with
  | BDirect => 0
  | BConvertRight _ => 1
  | BConvertLeft _ => 2
  | BConvertBoth _ _ => 3
  end.
