(** Model of leaves over memory they do not own: Scalar<double &> and leaves over
    Eigen::Map, Eigen::Ref and blocks, and of the raw array of a factor variable.  Leaves
    that own their value are as in ModelExpr.v.  Citations are to
    /repo/include/wave/geometry/src. *)

From Coq Require Import Reals List Bool Arith.
From Verif Require Import Mat V3 ModelLeaf ModelExpr.
Import ListNotations.
Local Open Scope R_scope.

(** Memory as an array of doubles. *)
Definition mem := nat -> R.

(** Number of rows and columns of the stored array of each leaf type: a double
    (geometry/leaf/Scalar.hpp 16-119), a column (Point.hpp 18-51, Translation.hpp,
    RelativeRotation.hpp, Twist.hpp 45-78), the four coefficients of a quaternion
    (QuaternionRotation.hpp), a square matrix (MatrixRotation.hpp,
    MatrixRigidTransform.hpp).  Eigen::AngleAxis and the tuple of CompactRigidTransform
    cannot be mapped. *)
Definition shape (l : lty) : option (nat * nat) :=
  match l with
  | LScalar => Some (1, 1)
  | LTrans | LRel | LPoint => Some (3, 1)
  | LTwist => Some (6, 1)
  | LQuat => Some (4, 1)
  | LMat => Some (3, 3)
  | LMatRT => Some (4, 4)
  | LAA | LCompRT => None
  end%nat.

Definition stored_size (l : lty) : nat :=
  match shape l with Some (r, c) => (r * c)%nat | None => 0%nat end.

(** The coefficients in storage order: columns first; quaternions as x, y, z, w (Eigen's
    coeffs()); a twist's rotation before its translation (geometry/base/TwistBase.hpp 21).
    A rigid transform is a 4x4 matrix (MatrixRigidTransform.hpp 84-106). *)
Definition vec_coef (v : V3) (k : nat) : R :=
  match k with 0 => vx v | 1 => vy v | _ => vz v end%nat.
Definition coefs (v : value) (k : nat) : R :=
  match v with
  | VScalar s => s
  | VTrans v | VRel v | VPoint v => vec_coef v k
  | VTwist w u => if (k <? 3)%nat then vec_coef w k else vec_coef u (k - 3)
  | VQuat q => match k with 0 => qx q | 1 => qy q | 2 => qz q | _ => qw q end%nat
  | VMat m =>
      match k with
      | 0 => m00 m | 1 => m10 m | 2 => m20 m
      | 3 => m01 m | 4 => m11 m | 5 => m21 m
      | 6 => m02 m | 7 => m12 m | _ => m22 m
      end%nat
  | VMatRT m t row c =>
      match k with
      | 0 => m00 m | 1 => m10 m | 2 => m20 m | 3 => vx row
      | 4 => m01 m | 5 => m11 m | 6 => m21 m | 7 => vy row
      | 8 => m02 m | 9 => m12 m | 10 => m22 m | 11 => vz row
      | 12 => vx t | 13 => vy t | 14 => vz t | _ => c
      end%nat
  | _ => 0
  end.

(** The value an array of coefficients represents. *)
Definition decode (l : lty) (c : nat -> R) : option value :=
  match l with
  | LScalar => Some (VScalar (c 0))
  | LTrans => Some (VTrans (mkV (c 0) (c 1) (c 2)))
  | LRel => Some (VRel (mkV (c 0) (c 1) (c 2)))
  | LPoint => Some (VPoint (mkV (c 0) (c 1) (c 2)))
  | LTwist => Some (VTwist (mkV (c 0) (c 1) (c 2)) (mkV (c 3) (c 4) (c 5)))
  | LQuat => Some (VQuat (mkQ (c 3) (c 0) (c 1) (c 2)))
  | LMat => Some (VMat (mkM (c 0) (c 3) (c 6) (c 1) (c 4) (c 7) (c 2) (c 5) (c 8)))
  | LMatRT => Some (VMatRT (mkM (c 0) (c 4) (c 8) (c 1) (c 5) (c 9) (c 2) (c 6) (c 10))
                      (mkV (c 12) (c 13) (c 14)) (mkV (c 3) (c 7) (c 11)) (c 15))
  | LAA | LCompRT => None
  end%nat.

(** A view: the address of its first coefficient, the distance between its columns
    (Eigen's outer stride), and the leaf type. *)
Record view := View { v_base : nat; v_stride : nat; v_leaf : lty }.

(** Address of the k-th coefficient. *)
Definition cell (w : view) (k : nat) : nat :=
  match shape (v_leaf w) with
  | Some (r, _) => v_base w + (k / r) * v_stride w + k mod r
  | None => 0
  end%nat.

(** value(): core/storage/LeafStorage.hpp 61-73, through the Map or reference. *)
Definition read (s : mem) (w : view) : option value := decode (v_leaf w) (fun k => s (cell w k)).

Definition poke (s : mem) (a : nat) (x : R) : mem := fun b => if (b =? a)%nat then x else s b.

(** Coefficient-wise copy of [n] coefficients from a source that is not in memory. *)
Fixpoint copy_in (w : view) (c : nat -> R) (n : nat) (s : mem) : mem :=
  match n with
  | 0%nat => s
  | S n => poke (copy_in w c n s) (cell w n) (c n)
  end.

(** Coefficient-wise copy from another view: the source is read as the destination is
    written. *)
Fixpoint copy_across (w src : view) (n : nat) (s : mem) : mem :=
  match n with
  | 0%nat => s
  | S n => let s' := copy_across w src n s in poke s' (cell w n) (s' (cell src n))
  end.

(** Leaves of an expression: views of the memory, or objects with a value of their own. *)
Definition env_of (own : env) (views : nat -> option view) (s : mem) : env :=
  fun a =>
    match views a with
    | Some w => match read s w with Some v => v | None => own a end
    | None => own a
    end.

(** w = e: LeafStorage.hpp 47-53.  The expression is evaluated to the view's plain type,
    a value of its own, which is then copied through the view. *)
Definition assign_view (eps : R) (own : env) (views : nat -> option view) (s : mem)
    (w : view) (e : expr) : option mem :=
  match shape (v_leaf w) with
  | Some _ =>
      option_map (fun v => copy_in w (coefs v) (stored_size (v_leaf w)) s)
        (evaluateTo eps (Plain (v_leaf w)) (env_of own views s) e)
  | None => None
  end.

(** w = src for two views of the same type: the defaulted copy assignment
    (LeafStorage.hpp 30-34), which is Eigen's coefficient-wise copy.  (A Scalar<double &>
    has none.) *)
Definition copy_assign (s : mem) (w src : view) : mem :=
  copy_across w src (stored_size (v_leaf w)) s.

(** The blocks of a 4x4 matrix and of a twist seen as views: rotationBlock and
    translationBlock of MatrixRigidTransform.hpp 84-106 and Twist.hpp 60-78. *)
Definition rotation_block (w : view) : option view :=
  match v_leaf w with
  | LMatRT => Some (View (v_base w) (v_stride w) LMat)
  | LTwist => Some (View (v_base w) (v_stride w) LRel)
  | _ => None
  end.
Definition translation_block (w : view) : option view :=
  match v_leaf w with
  | LMatRT => Some (View (v_base w + 3 * v_stride w) (v_stride w) LTrans)
  | LTwist => Some (View (v_base w + 3) (v_stride w) LTrans)
  | _ => None
  end%nat.

(** FactorVariable::data() and size() (estimation/FactorVariable.hpp 19-27): the
    coefficients of its leaf, contiguous.  They exist for leaves whose value is an Eigen
    matrix: a double and a quaternion have no data() member. *)
Definition variable_data (l : lty) (b : nat) : option view :=
  match l with
  | LTrans | LRel | LPoint | LTwist => Some (View b (stored_size l) l)
  | LMat => Some (View b 3 l)
  | LMatRT => Some (View b 4 l)
  | _ => None
  end.
