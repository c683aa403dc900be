(** Specification of leaves over memory they do not own. *)

From Coq Require Import Reals List Bool Arith.
From Verif Require Import Mat V3 ModelLeaf SpecLeaf ModelExpr ModelView.
Local Open Scope R_scope.

(** Entry (i, j) of the array a value is stored as: a column of coordinates (x, y, z, w
    for quaternions), a rotation matrix, or the homogeneous 4x4 matrix of a rigid
    transform. *)
Definition at3 (v : V3) (i : nat) : R :=
  match i with 0 => vx v | 1 => vy v | _ => vz v end%nat.
Definition row3 (m : M3) (i : nat) : V3 :=
  match i with
  | 0 => mkV (m00 m) (m01 m) (m02 m)
  | 1 => mkV (m10 m) (m11 m) (m12 m)
  | _ => mkV (m20 m) (m21 m) (m22 m)
  end%nat.
Definition entry (v : value) (i j : nat) : R :=
  match v with
  | VScalar s => s
  | VTrans v | VRel v | VPoint v => at3 v i
  | VTwist w u => if (i <? 3)%nat then at3 w i else at3 u (i - 3)
  | VQuat q => if (i <? 3)%nat then at3 (mkV (qx q) (qy q) (qz q)) i else qw q
  | VMat m => at3 (row3 m i) j
  | VMatRT m t row c =>
      if (i <? 3)%nat
      then if (j <? 3)%nat then at3 (row3 m i) j else at3 t i
      else if (j <? 3)%nat then at3 row j else c
  | _ => 0
  end.

(** A view's columns do not overlap, and its leaf type can be mapped. *)
Definition wf_view (w : view) : Prop :=
  exists r c, shape (v_leaf w) = Some (r, c) /\ (c = 1 \/ r <= v_stride w)%nat.

(** The addresses a view occupies. *)
Definition occupies (w : view) (a : nat) : Prop :=
  exists r c i j, shape (v_leaf w) = Some (r, c) /\ (i < r)%nat /\ (j < c)%nat /\
    a = (v_base w + j * v_stride w + i)%nat.

Definition disjoint (w w' : view) : Prop := forall a, ~ (occupies w a /\ occupies w' a).

(** The values [m] the leaves of an expression have when the memory is [s]: a view has the
    value its memory represents, any other leaf the value it owns. *)
Definition sees (own : env) (views : nat -> option view) (s : mem) (m : env) : Prop :=
  forall a, match views a with Some w => read s w = Some (m a) | None => m a = own a end.
