(** Model of reading and assigning the parts of a transform or twist, of assigning an
    expression to a leaf, and of building a transform from its parts.  Citations are to
    /repo/include/wave/geometry/src. *)

From Coq Require Import Reals List Bool Arith.
From Verif Require Import Mat V3 ModelMeta ModelJac ModelLeaf ModelExpr.
Import ListNotations.
Local Open Scope R_scope.

(** core/op/MemberAccess.hpp with the getters of TransformBase.hpp 14-54. *)
Inductive part := PRotation | PTranslation.

(** The leaf type a part is stored as: the block types of
    geometry/leaf/MatrixRigidTransform.hpp 84-106 and Twist.hpp 60-78, the tuple elements
    of CompactRigidTransform.hpp 66-85. *)
Definition part_type (p : part) (v : value) : option lty :=
  match p, v with
  | PRotation, VMatRT _ _ _ _ => Some LMat
  | PRotation, VCompRT _ _ => Some LQuat
  | PRotation, VTwist _ _ => Some LRel
  | PTranslation, (VMatRT _ _ _ _ | VCompRT _ _ | VTwist _ _) => Some LTrans
  | _, _ => None
  end.

(** Reading a part: TransformBase.hpp 14-54 and 71-95; Twist.hpp 60-78 returns the block
    itself.  For transforms this is also [sem_un ORotation] and [sem_un OTranslation]. *)
Definition get_part (p : part) (v : value) : option value :=
  match p, v with
  | PRotation, VMatRT r _ _ _ => Some (VMat r)
  | PRotation, VCompRT q _ => Some (VQuat q)
  | PRotation, VTwist w _ => Some (VRel w)
  | PTranslation, (VMatRT _ t _ _ | VCompRT _ t | VTwist _ t) => Some (VTrans t)
  | _, _ => None
  end.

(** Storing a plain value into a part: the assignment [storage = ...] of
    core/storage/LeafStorage.hpp 47-53 through the block or tuple element.  The other
    coefficients of the object are not written. *)
Definition set_part (p : part) (v w : value) : option value :=
  match p, v, w with
  | PRotation, VMatRT _ t row corner, VMat r => Some (VMatRT r t row corner)
  | PRotation, VCompRT _ t, VQuat q => Some (VCompRT q t)
  | PRotation, VTwist _ u, VRel x => Some (VTwist x u)
  | PTranslation, VMatRT r _ row corner, VTrans t => Some (VMatRT r t row corner)
  | PTranslation, VCompRT q _, VTrans t => Some (VCompRT q t)
  | PTranslation, VTwist x _, VTrans u => Some (VTwist x u)
  | _, _, _ => None
  end.

(** Writing one object of the program's memory. *)
Definition store (m : env) (a : nat) (v : value) : env :=
  fun b => if (b =? a)%nat then v else m b.

(** x.rotation() = e and x.translation() = e: MemberAccess.hpp 52-101 evaluates the member's
    leaf and calls its assignment, LeafStorage.hpp 47-53, which evaluates [e] to the
    part's plain type before storing it.  Frames (90-101) are types only. *)
Definition assign_part (eps : R) (m : env) (a : nat) (p : part) (e : expr) : option env :=
  match part_type p (m a) with
  | None => None
  | Some l =>
      match evaluateTo eps (Plain l) m e with
      | None => None
      | Some w => option_map (store m a) (set_part p (m a) w)
      end
  end.

(** x = e for a leaf x: LeafStorage.hpp 47-53.  Identity and Zero leaves have no
    storage.  CompactRigidTransform has no usable assignment from an expression: its
    template operator= (CompoundLeafStorage.hpp 58-65) has a non-deducible parameter and
    its converting constructor (53-55) is explicit, so only another object of the same
    type can be assigned. *)
Definition assign_leaf (eps : R) (m : env) (a : nat) (e : expr) : option env :=
  match vty (m a), e with
  | Plain LCompRT, XLeaf b (Plain LCompRT) => Some (store m a (m b))
  | Plain LCompRT, _ => None
  | Plain l, _ => option_map (store m a) (evaluateTo eps (Plain l) m e)
  | _, _ => None
  end.

(** L x{e}, a new leaf from an expression: LeafStorage.hpp 42-44,
    CompoundLeafStorage.hpp 53-55. *)
Definition construct_leaf (eps : R) (l : lty) (m : env) (a : nat) (e : expr) : option env :=
  option_map (store m a) (evaluateTo eps (Plain l) m e).

(** MatrixRigidTransform(R, t) and CompactRigidTransform(R, t) for expressions R and t
    (MatrixRigidTransform.hpp 39-60, CompactRigidTransform.hpp 41-46): a fresh object of
    uninitialised memory [g] (for the matrix type the delegated default constructor
    fills the last row), then both parts are assigned. *)
Definition fresh_rt (l : lty) (g : nat -> R) : option value :=
  match l with
  | LMatRT => Some (VMatRT (mkM (g 0%nat) (g 1%nat) (g 2%nat) (g 3%nat) (g 4%nat) (g 5%nat)
                      (g 6%nat) (g 7%nat) (g 8%nat)) (mkV (g 9%nat) (g 10%nat) (g 11%nat)) v0 1)
  | LCompRT => Some (VCompRT (mkQ (g 0%nat) (g 1%nat) (g 2%nat) (g 3%nat))
                      (mkV (g 4%nat) (g 5%nat) (g 6%nat)))
  | _ => None
  end.
Definition construct_rt (eps : R) (l : lty) (g : nat -> R) (m : env) (a : nat)
    (r t : expr) : option env :=
  match fresh_rt l g with
  | None => None
  | Some v =>
      match assign_part eps (store m a v) a PRotation r with
      | None => None
      | Some m1 => assign_part eps m1 a PTranslation t
      end
  end.

(** A straight-line program of assignments. *)
Inductive stmt :=
| SNew (l : lty) (a : nat) (e : expr)
| SLeaf (a : nat) (e : expr)
| SPart (a : nat) (p : part) (e : expr).
Definition step (eps : R) (m : env) (s : stmt) : option env :=
  match s with
  | SNew l a e => construct_leaf eps l m a e
  | SLeaf a e => assign_leaf eps m a e
  | SPart a p e => assign_part eps m a p e
  end.
Fixpoint run (eps : R) (m : env) (s : list stmt) : option env :=
  match s with
  | [] => Some m
  | x :: s' => match step eps m x with None => None | Some m' => run eps m' s' end
  end.
