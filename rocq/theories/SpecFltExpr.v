(** Specification of the accuracy of expressions evaluated on doubles. *)

From Coq Require Import ZArith Reals List Bool.
From Flocq Require Import Core BinarySingleNaN.
From Verif Require Import Mat V3 ModelLeaf SpecLeaf ModelExpr SpecExpr.
From Verif Require Import ModelFloat SpecFlt ModelFloatQ SpecFltQ ModelFloatExpr.
Import ListNotations.
Local Open Scope R_scope.

(** Root of the sum of squares of the entries of a matrix and of a quaternion. *)
Definition fnorm (m : M3) : R :=
  sqrt (m00 m * m00 m + m01 m * m01 m + m02 m * m02 m + m10 m * m10 m + m11 m * m11 m + m12 m * m12 m
        + m20 m * m20 m + m21 m * m21 m + m22 m * m22 m).
Definition qdist (a b : Q4) : R :=
  sqrt ((qw a - qw b) * (qw a - qw b) + (qx a - qx b) * (qx a - qx b)
        + (qy a - qy b) * (qy a - qy b) + (qz a - qz b) * (qz a - qz b)).

(** A stored vector, rotation matrix or quaternion has no infinity or NaN and stands for an
    exact object: the vector has length at most [S] and the stored one differs from it by at
    most [e * S]; rotations differ by at most [e]. *)
Definition vapprox (S e : R) (v : DV) (x : V3) : Prop :=
  vfinite v /\ vnorm x <= S /\ vnorm (vsub (vval v) x) <= e * S.
Definition mapprox (e : R) (a : DM) (m : M3) : Prop :=
  mfinite a /\ is_rot m /\ fnorm (sub3 (mval a) m) <= e.
Definition qapprox (e : R) (q : DQ) (m : M3) : Prop :=
  qfinite q /\ exists r, unitq r /\ qrot r = m /\ qdist (qval q) r <= e.

(** The stored value [f] stands for the geometric object [x]: [er] bounds the error of its
    rotation, [ev] the error of its coordinates relative to [S]. *)
Definition approximates (S er ev : R) (f : fvalue) (x : dval) : Prop :=
  match f, x with
  | FScalar s, DScalar y => finite s /\ Rabs y <= S /\ Rabs (val s - y) <= ev * S
  | FTrans v, DTrans y | FRel v, DRel y | FPoint v, DPoint y => vapprox S ev v y
  | FQuat q, DRot m => qapprox er q m
  | FMat a, DRot m => mapprox er a m
  | FMatRT a v, DRT m y => mapprox er a m /\ vapprox S ev v y
  | FCompRT q v, DRT m y => qapprox er q m /\ vapprox S ev v y
  | _, _ => False
  end.

(** The type of the value of a prepared expression. *)
Fixpoint typ (p : expr) : option ty :=
  match p with
  | XLeaf _ t => Some t
  | XUn o p => match typ p with Some t => ty_un o t | None => None end
  | XBin o l r => match typ l, typ r with Some a, Some b => ty_bin o a b | _, _ => None end
  end.
Definition has_typ (p : expr) (l : lty) : bool :=
  match typ p with Some t => ty_eqb t (Plain l) | None => false end.

(** ** How rounding errors add up

    The number of times a relative error of one unit enters the rotation (first) and the
    coordinates (second) of the value of a prepared expression. *)
Fixpoint cost (p : expr) : nat * nat :=
  let compose l r :=
    let (rl, vl) := cost l in let (rr, vr) := cost r in
    ((if has_typ l LCompRT && has_typ r LMatRT then 15 * rl + rr + 2
      else if has_typ l LMatRT && has_typ r LCompRT then 15 * rl + 225 * rr + 31
      else rl + rr + 1)%nat,
     (Nat.max (9 * rl + vr + 1) vl + 1)%nat) in
  match p with
  | XLeaf _ _ => (1, 1)%nat
  | XUn o p =>
      let (r, v) := cost p in
      match o with
      | OInverse => (r, 9 * r + v + 1)
      | OExpMap => (8 * v + 8, 1)
      | OLogMap => (1, 1100 * r + 32)
      | OSquaredNorm => (1, 2 * v + 1)
      | ONorm => (1, v + 1)
      | ONormalize => (1, 4 * v + 4)
      | OACos => (1, 3 * v + 1)
      | OConvert to => if has_typ p to then (r, v) else (15 * r + 1, v)
      | _ => (r, v)
      end%nat
  | XBin o l r =>
      let (rl, vl) := cost l in let (rr, vr) := cost r in
      match o with
      | OCompose => compose l r
      | OComposeFlipped => compose r l
      | ORotate => (1, 9 * rl + vr + 1)
      | OTransform => (1, Nat.max (9 * rl + vr + 1) vl + 1)
      | OSum | OSubtract => (1, Nat.max vl vr + 1)
      | OScaleDiv | ODivide => (1, vl + 3 * vr + 1)
      | _ => (1, vl + vr + 1)
      end%nat
  end.

(** ** How large values can get *)

Definition tiny : R := / 2 ^ 400.
Definition vast : R := 2 ^ 400.

Definition length_of (x : dval) : R :=
  match x with
  | DScalar s => Rabs s
  | DTrans v | DRel v | DPoint v => vnorm v
  | DRT _ t => vnorm t
  | DTwist w u => vnorm w + vnorm u
  | DRot _ => 0
  end.

(** A bound on the coordinates of the value of an expression, not below 2^-400: sums add,
    products multiply, rotations keep lengths. *)
Fixpoint size (m : nat -> dval) (p : expr) : R :=
  match p with
  | XLeaf a _ => Rmax tiny (length_of (m a))
  | XUn OSquaredNorm p => Rmax tiny (size m p * size m p)
  | XUn OLogMap p => 4
  | XUn OExpMap p => 1
  | XUn ONormalize p => 2
  | XUn OACos p => 4
  | XUn _ p => size m p
  | XBin (OCompose | OComposeFlipped | OTransform | OSum | OSubtract) l r => size m l + size m r
  | XBin ORotate l r => size m r
  | XBin (OScaleDiv | ODivide) l r => Rmax tiny (2 * (size m l / size m r))
  | XBin _ l r => Rmax tiny (size m l * size m r)
  end.

(** ** Expressions for which accuracy is claimed

    With [c] the unit of error: no bound above 2^400, no accumulated relative error above
    1/2000, exponentials of vectors not longer than 4, logarithms of rotations by at most 3
    radians, arc cosines of numbers of size at most 0.9, and divisors and normalized vectors
    not smaller than half the bound on their size, so that they have not suffered
    cancellation. *)
Fixpoint fits (c : R) (m : nat -> dval) (p : expr) : Prop :=
  size m p <= vast /\ INR (fst (cost p)) * c <= / 2000 /\ INR (snd (cost p)) * c <= / 2000 /\
  match p with
  | XLeaf _ _ => True
  | XUn o p =>
      fits c m p /\
      match o with
      | OExpMap => size m p <= 4 /\ has_typ p LRel = true
      | OLogMap => has_typ p LMat = true /\ forall r, deval 0 m p = Some (DRot r) -> rot_angle r <= 3
      | OConvert to =>
          has_typ p to = true \/ (to = LMat /\ has_typ p LQuat = true)
          \/ (to = LMatRT /\ has_typ p LCompRT = true)
          \/ (to = LQuat /\ has_typ p LMat = true) \/ (to = LCompRT /\ has_typ p LMatRT = true)
      | ONormalize => forall x, deval 0 m p = Some x -> size m p <= 2 * length_of x
      | OACos => size m p <= 4 /\ forall y, deval 0 m p = Some (DScalar y) -> Rabs y <= 9 / 10
      | _ => True
      end
  | XBin o l r =>
      fits c m l /\ fits c m r /\
      match o with
      | OScaleDiv | ODivide => forall y, deval 0 m r = Some y -> size m r <= 2 * length_of y
      | _ => True
      end
  end.

(** The leaf objects of an expression have the declared types and hold the intended objects
    up to relative errors of [d]. *)
Fixpoint stored (d : R) (mem : nat -> fvalue) (m : nat -> dval) (p : expr) : Prop :=
  match p with
  | XLeaf a t => t = Plain (flty (mem a)) /\ approximates (length_of (m a)) d d (mem a) (m a)
  | XUn _ p => stored d mem m p
  | XBin _ l r => stored d mem m l /\ stored d mem m r
  end.

(** Total error after [n] relative errors of [c]. *)
Definition grown (c : R) (n : nat) : R := (1 + c) ^ n - 1.

(** ** Expressions without exponentials and logarithms

    The same restrictions, with only the sizes of intermediate values to check, and no
    conversion of a matrix to a quaternion.  The number of
    operands and operations, a squared norm counting as the product of its operand with
    itself. *)
Fixpoint nodes (p : expr) : nat :=
  match p with
  | XLeaf _ _ => 1
  | XUn OSquaredNorm p => 2 * nodes p + 1
  | XUn _ p => nodes p + 1
  | XBin _ l r => nodes l + nodes r + 1
  end.

Fixpoint mild (m : nat -> dval) (p : expr) : Prop :=
  size m p <= vast /\
  match p with
  | XLeaf _ _ => True
  | XUn o p =>
      mild m p /\
      match o with
      | OConvert to =>
          has_typ p to = true \/ (to = LMat /\ has_typ p LQuat = true)
          \/ (to = LMatRT /\ has_typ p LCompRT = true)
      | OExpMap | OLogMap | ONormalize | OACos => False
      | _ => True
      end
  | XBin o l r =>
      mild m l /\ mild m r /\
      match o with
      | OScaleDiv | ODivide => False
      | OCompose => has_typ l LMatRT && has_typ r LCompRT = false
      | OComposeFlipped => has_typ r LMatRT && has_typ l LCompRT = false
      | _ => True
      end
  end.
