(** Model of the leaf types, of the operation implementations (evalImpl), of the local
    Jacobians (jacobianImpl, leftJacobianImpl, rightJacobianImpl) and of the
    conversions.  Citations are to /repo/include/wave/geometry/src.

    Simplifications common to the file: scalars are exact real numbers.  Where the
    code's formula divides by zero or leaves the domain of acos/sqrt (so that the
    floating-point result is an infinity or NaN) the result is [None].  [eps] is
    Eigen::NumTraits<Scalar>::epsilon().  Storage variants of one leaf template (plain
    matrix, Map, Block, lazy Eigen expression) are one type. *)

From Coq Require Import Reals Lra List Bool Arith Ratan.
From Verif Require Import Mat V3.
Import ListNotations.
Local Open Scope R_scope.

(** ** Types *)

(** The leaf templates: geometry/leaf/{Scalar,Translation,RelativeRotation,Point,Twist,
    QuaternionRotation,MatrixRotation,AngleAxisRotation,MatrixRigidTransform,
    CompactRigidTransform}.hpp. *)
Inductive lty := LScalar | LTrans | LRel | LPoint | LTwist | LQuat | LMat | LAA | LMatRT
  | LCompRT.

(** The base templates (BaseTmpl): geometry/base/{ScalarBase,TranslationBase,
    RelativeRotationBase,PointBase,TwistBase,RotationBase,RigidTransformBase}.hpp. *)
Inductive kind := KScalar | KTrans | KRel | KPoint | KTwist | KRot | KRT.

Definition kind_of (l : lty) : kind :=
  match l with
  | LScalar => KScalar | LTrans => KTrans | LRel => KRel | LPoint => KPoint
  | LTwist => KTwist | LQuat | LMat | LAA => KRot | LMatRT | LCompRT => KRT
  end.

Definition kind_eqb (a b : kind) : bool :=
  match a, b with
  | KScalar, KScalar | KTrans, KTrans | KRel, KRel | KPoint, KPoint | KTwist, KTwist
  | KRot, KRot | KRT, KRT => true
  | _, _ => false
  end.

Definition lty_eqb (a b : lty) : bool :=
  match a, b with
  | LScalar, LScalar | LTrans, LTrans | LRel, LRel | LPoint, LPoint | LTwist, LTwist
  | LQuat, LQuat | LMat, LMat | LAA, LAA | LMatRT, LMatRT | LCompRT, LCompRT => true
  | _, _ => false
  end.

(** Types of evaluated values: a leaf, Identity<leaf> (geometry/leaf/Identity.hpp) or
    Zero<leaf> (geometry/leaf/Zero.hpp).  Zero<Point> is not modelled. *)
Inductive ty := Plain (l : lty) | Ident (l : lty) | ZeroOf (l : lty).

Definition ty_leaf (t : ty) : lty :=
  match t with Plain l | Ident l | ZeroOf l => l end.

Definition ty_eqb (a b : ty) : bool :=
  match a, b with
  | Plain x, Plain y | Ident x, Ident y | ZeroOf x, ZeroOf y => lty_eqb x y
  | _, _ => false
  end.

Definition ty_kind (t : ty) : kind := kind_of (ty_leaf t).

(** TangentSize: core/traits, geometry/base/*Base.hpp traits. *)
Definition tsize (k : kind) : nat :=
  match k with KScalar => 1 | KTwist | KRT => 6 | _ => 3 end.

(** TangentType of a rotation or rigid transform leaf: RotationBase.hpp 82,
    CompactRigidTransform.hpp 103, RigidTransformBase.hpp 41-63. *)
Definition tangent_leaf (l : lty) : lty :=
  match l with
  | LQuat | LMat | LAA => LRel
  | LMatRT | LCompRT => LTwist
  | LPoint => LTrans
  | l => l
  end.

(** ** Values *)

(** Twist: rotation part first (geometry/leaf/Twist.hpp 60-78).  MatrixRigidTransform:
    top-left block, top-right column, bottom row (geometry/leaf/MatrixRigidTransform.hpp
    84-106). *)
Inductive value :=
| VScalar (s : R)
| VTrans (v : V3)
| VRel (v : V3)
| VPoint (v : V3)
| VTwist (w u : V3)
| VQuat (q : Q4)
| VMat (m : M3)
| VAA (angle : R) (axis : V3)
| VMatRT (m : M3) (t : V3) (row : V3) (corner : R)
| VCompRT (q : Q4) (t : V3)
| VIdent (l : lty)
| VZero (l : lty).

Definition vty (v : value) : ty :=
  match v with
  | VScalar _ => Plain LScalar | VTrans _ => Plain LTrans | VRel _ => Plain LRel
  | VPoint _ => Plain LPoint | VTwist _ _ => Plain LTwist | VQuat _ => Plain LQuat
  | VMat _ => Plain LMat | VAA _ _ => Plain LAA | VMatRT _ _ _ _ => Plain LMatRT
  | VCompRT _ _ => Plain LCompRT | VIdent l => Ident l | VZero l => ZeroOf l
  end.

(** ** Vector leaves as coordinates *)

Definition vget (v : V3) (i : nat) : R :=
  match i with 0%nat => vx v | 1%nat => vy v | 2%nat => vz v | _ => 0 end.

(** Coordinates of a vector-like value; 0 outside the range and for non-vectors. *)
Definition coord (v : value) (i : nat) : R :=
  match v with
  | VScalar s => match i with 0%nat => s | _ => 0 end
  | VTrans v | VRel v | VPoint v => vget v i
  | VTwist w u => if (i <? 3)%nat then vget w i else vget u (i - 3)
  | _ => 0
  end.

(** The vector-like value of a leaf type with given coordinates. *)
Definition mkvec (l : lty) (f : nat -> R) : option value :=
  let v := mkV (f 0%nat) (f 1%nat) (f 2%nat) in
  match l with
  | LScalar => Some (VScalar (f 0%nat))
  | LTrans => Some (VTrans v)
  | LRel => Some (VRel v)
  | LPoint => Some (VPoint v)
  | LTwist => Some (VTwist v (mkV (f 3%nat) (f 4%nat) (f 5%nat)))
  | _ => None
  end.

Definition vec_kind (k : kind) : bool :=
  match k with KScalar | KTrans | KRel | KTwist => true | _ => false end.
Definition affine_kind (k : kind) : bool :=
  match k with KPoint => true | k => vec_kind k end.
(** Vector kinds whose values are Eigen column vectors (a Scalar's value is a number
    and has no squaredNorm, norm, normalized or dot). *)
Definition col_kind (k : kind) : bool :=
  match k with KTrans | KRel | KTwist => true | _ => false end.

Definition vkind (v : value) : kind := ty_kind (vty v).
Definition vdim (v : value) : nat := tsize (vkind v).

Definition norm2_of (v : value) : R := rsum (vdim v) (fun i => coord v i * coord v i).

(** Eigen division x / y: not a number or infinite if y = 0. *)
Definition odiv (x y : R) : option R := if Req_EM_T y 0 then None else Some (x / y).

(** ** Conversions *)

(** Eigen Quaternion(const Matrix3 &): Shepperd's method. *)
Definition q_of_mat (m : M3) : Q4 :=
  let t := trace3 m in
  if Rlt_dec 0 t then
    let t := sqrt (t + 1) in
    let w := t / 2 in
    let t := (1 / 2) / t in
    mkQ w ((m21 m - m12 m) * t) ((m02 m - m20 m) * t) ((m10 m - m01 m) * t)
  else
    let i1 := Rlt_dec (m00 m) (m11 m) in
    let dmax := if i1 then m11 m else m00 m in
    if Rlt_dec dmax (m22 m) then
      (* i = 2, j = 0, k = 1 *)
      let t := sqrt (m22 m - m00 m - m11 m + 1) in
      let z := t / 2 in
      let t := (1 / 2) / t in
      mkQ ((m10 m - m01 m) * t) ((m02 m + m20 m) * t) ((m12 m + m21 m) * t) z
    else if i1 then
      (* i = 1, j = 2, k = 0 *)
      let t := sqrt (m11 m - m22 m - m00 m + 1) in
      let y := t / 2 in
      let t := (1 / 2) / t in
      mkQ ((m02 m - m20 m) * t) ((m01 m + m10 m) * t) y ((m21 m + m12 m) * t)
    else
      (* i = 0, j = 1, k = 2 *)
      let t := sqrt (m00 m - m11 m - m22 m + 1) in
      let x := t / 2 in
      let t := (1 / 2) / t in
      mkQ ((m21 m - m12 m) * t) x ((m10 m + m01 m) * t) ((m20 m + m02 m) * t).

(** std::atan2 (y, x) for y > 0, x >= 0. *)
Definition atan2_pos (y x : R) : R := if Req_EM_T x 0 then PI / 2 else atan (y / x).

(** Eigen AngleAxis::operator=(QuaternionBase). *)
Definition aa_of_q (q : Q4) : R * V3 :=
  let n := vnorm (qvec q) in
  if Req_EM_T n 0 then (0, mkV 1 0 0)
  else
    let angle := 2 * atan2_pos n (Rabs (qw q)) in
    let n := if Rlt_dec (qw q) 0 then - n else n in
    (angle, vscal (/ n) (qvec q)).

(** evalImpl(expr<Convert, To>, from): AffineBase.hpp 58-63 and Zero.hpp 66-69
    (vectors); QuaternionRotation.hpp 125-147, MatrixRotation.hpp 134-138,
    AngleAxisRotation.hpp 88-128, RotationBase.hpp 99-103 (rotations);
    MatrixRigidTransform.hpp 123-139, CompactRigidTransform.hpp 107-133 (transforms). *)
Definition sem_convert (to : lty) (v : value) : option value :=
  match to, v with
  | LScalar, VScalar _ | LTrans, VTrans _ | LRel, VRel _ | LPoint, VPoint _
  | LTwist, VTwist _ _ => Some v
  | _, VZero l => if lty_eqb to l then mkvec l (fun _ => 0) else None
  | LMat, VMat m => Some (VMat m)
  | LMat, VQuat q => Some (VMat (qrot q))
  | LMat, VAA a ax => Some (VMat (aa_rot a ax))
  | LMat, VIdent LMat => Some (VMat i3)
  | LQuat, VQuat q => Some (VQuat q)
  | LQuat, VMat m => Some (VQuat (q_of_mat m))
  | LQuat, VAA a ax => Some (VQuat (q_of_mat (aa_rot a ax)))
  | LQuat, VIdent LQuat => Some (VQuat qone)
  | LAA, VAA a ax => Some (VAA a ax)
  | LAA, VQuat q => let (a, ax) := aa_of_q q in Some (VAA a ax)
  | LAA, VMat m => let (a, ax) := aa_of_q (q_of_mat m) in Some (VAA a ax)
  | LAA, VIdent LAA => Some (VAA 0 (mkV 1 0 0))
  | LMatRT, VMatRT m t r c => Some (VMatRT m t r c)
  | LMatRT, VCompRT q t => Some (VMatRT (qrot q) t v0 1)
  | LMatRT, VIdent LMatRT => Some (VMatRT (qrot qone) v0 v0 1)
  | LCompRT, VCompRT q t => Some (VCompRT q t)
  | LCompRT, VMatRT m t r c => Some (VCompRT (q_of_mat m) t)
  | LCompRT, VIdent LCompRT => Some (VCompRT qone v0)
  | _, _ => None
  end.

(** ConvertTo lists: traits_bases.hpp 58 (default: none), QuaternionRotation.hpp 59,
    AngleAxisRotation.hpp 57-58, Identity.hpp 53, Zero.hpp 52. *)
Definition convert_to (t : ty) : list ty :=
  match t with
  | Plain LQuat => [Plain LMat]
  | Plain LAA => [Plain LMat; Plain LQuat]
  | Plain _ => []
  | Ident l | ZeroOf l => [Plain l]
  end.

(** ** Exponential and logarithm *)
Section Eps.
  Variable eps : R.

  (** evalImpl(expr<ExpMap>, RelativeRotation): RelativeRotation.hpp 103-129. *)
  Definition exp_quat (v : V3) : Q4 :=
    let angle2 := vnorm2 v in
    let angle := sqrt angle2 in
    let sc := if Rlt_dec eps (angle2 * angle2)
              then (sin (angle / 2) / angle, cos (angle / 2))
              else (1 / 2 + angle2 / 48, 1 - angle2 / 8) in
    let s := fst sc in
    mkQ (snd sc) (s * vx v) (s * vy v) (s * vz v).

  (** jacobianImpl(expr<ExpMap>, RotationBase, RelativeRotation):
      RelativeRotation.hpp 131-151. *)
  Definition exp_rot_jac (C : M3) (phi : V3) : M3 :=
    let n2 := vnorm2 phi in
    if Rlt_dec eps n2
    then scal3 (/ n2) (add3 (mul3 (sub3 i3 C) (skew phi)) (outer3 phi phi))
    else add3 i3 (scal3 (1 / 2) (skew phi)).

  (** util/math/math.hpp 45-55: uncrossMatrix reads (2,1), (0,2), (1,0). *)
  Definition uncross (m : M3) : V3 := mkV (m21 m) (m02 m) (m10 m).

  (** evalImpl(expr<LogMap>, MatrixRotation): MatrixRotation.hpp 71-89.  If the trace is
      outside [-1,3] (the matrix is not a rotation) acos is NaN, the comparison in line 82
      is false and the small-angle formula is used. *)
  Definition log_mat (m : M3) : option V3 :=
    let x := (trace3 m - 1) / 2 in
    let small := Some (uncross (scal3 (1 / 2) (sub3 m (tr3 m)))) in
    if Rle_dec (-1) x then
      if Rle_dec x 1 then
        let angle := acos x in
        if Rlt_dec eps (angle * angle) then
          match odiv angle (2 * sin angle) with
          | None => None
          | Some k => Some (uncross (scal3 k (sub3 m (tr3 m))))
          end
        else small
      else small
    else small.

  (** jacobianImpl(expr<LogMap>, RelativeRotation, RotationBase): LogMap.hpp 38-60.
      The commented-out small-angle test is not in the code. *)
  Definition log_rot_jac (phi : V3) : option M3 :=
    let theta2 := vnorm2 phi in
    let theta := sqrt theta2 in
    match odiv (sin theta) theta, odiv (1 - cos theta) theta2 with
    | Some A, Some B =>
        match odiv (B - 1 / 2 * A) (1 - cos theta) with
        | Some k => Some (add3 (sub3 i3 (scal3 (1 / 2) (skew phi)))
                               (mul3 (scal3 k (skew phi)) (skew phi)))
        | None => None
        end
    | _, _ => None
    end.

  (** evalImpl(expr<ExpMap>, Twist): Twist.hpp 95-131. *)
  Definition twist_exp (w u : V3) : M3 * V3 :=
    let theta2 := vnorm2 w in
    let theta := sqrt theta2 in
    let cross := skew w in
    let cross2 := mul3 cross cross in
    if Rlt_dec eps theta2 then
      let A := sin theta / theta in
      let B := (1 - cos theta) / theta2 in
      let C := (1 - A) / theta2 in
      let V := add3 (add3 i3 (scal3 B cross)) (scal3 C cross2) in
      (add3 (add3 i3 (scal3 A cross)) (scal3 B cross2), app3 V u)
    else
      let A := 1 in
      let B := 0 in
      let C := 0 in
      let V := add3 (add3 i3 (scal3 B cross)) (scal3 C cross2) in
      (add3 (add3 i3 (scal3 A cross)) (scal3 B cross2), app3 V u).

  (** The "W" and "B" terms shared by the twist Jacobians: Twist.hpp 150-162 and
      RigidTransformBase.hpp 180-191. *)
  Definition eade_B (w u : V3) : option M3 :=
    let theta2 := vnorm2 w in
    let theta := sqrt theta2 in
    match odiv (sin theta) theta, odiv (1 - cos theta) theta2 with
    | Some a, Some b =>
        match odiv (1 - a) theta2, odiv (a - 2 * b) theta2 with
        | Some c, Some k1 =>
            match odiv (b - 3 * c) theta2 with
            | Some k2 =>
                let W := add3 (add3 (scal3 (c - b) i3) (scal3 k1 (skew w)))
                              (scal3 k2 (outer3 w w)) in
                Some (add3 (add3 (scal3 b (skew u))
                                 (scal3 c (add3 (outer3 w u) (outer3 u w))))
                           (scal3 (vdot w u) W))
            | None => None
            end
        | _, _ => None
        end
    | _, _ => None
    end.

  (** evalImpl(expr<LogMap>, RigidTransformBase): RigidTransformBase.hpp 122-158.
      [m] is the rotation block as a matrix (a quaternion block is converted to a
      matrix by log's preparation), [t] the translation block. *)
  Definition rt_log (m : M3) (t : V3) : option (V3 * V3) :=
    match log_mat m with
    | None => None
    | Some omega =>
        let theta2 := vnorm2 omega in
        let theta := sqrt theta2 in
        let cross := skew omega in
        if Rlt_dec eps theta2 then
          match odiv (sin theta) theta, odiv (1 - cos theta) theta2 with
          | Some A, Some B =>
              match odiv (A / 2) B with
              | Some AB =>
                  match odiv (1 - AB) theta2 with
                  | Some k =>
                      let Vinv := add3 (sub3 i3 (scal3 (1 / 2) cross))
                                       (scal3 k (mul3 cross cross)) in
                      Some (omega, app3 Vinv t)
                  | None => None
                  end
              | None => None
              end
          | _, _ => None
          end
        else Some (omega, app3 (sub3 i3 (scal3 (1 / 2) cross)) t)
    end.
End Eps.

(** ** Operations *)

(** geometry/op/*.hpp, core/op/{Convert,MemberAccess}.hpp.  BoxPlus and BoxMinus are
    built from the others (BoxPlus.hpp 47-56, BoxMinus.hpp 40-52). *)
Inductive unop := OInverse | OLogMap | OExpMap | OMinus | OSquaredNorm | ONorm | ONormalize
  | OACos | ORotation | OTranslation | OConvert (to : lty).

Inductive binop := OCompose | OComposeFlipped | ORotate | OTransform | OSum | OSubtract
  | OScale | OScaleR | OScaleDiv | OProduct | ODivide | ODot.

(** Rotation of a vector as evaluated by Rotate for a matrix or quaternion block:
    MatrixRotation.hpp 110-114, QuaternionRotation.hpp 100-107. *)
Definition rt_rot (v : value) : M3 :=
  match v with
  | VMatRT m _ _ _ => m
  | VCompRT q _ => qrot q
  | _ => i3
  end.
Definition rt_trans (v : value) : V3 :=
  match v with VMatRT _ t _ _ | VCompRT _ t => t | _ => v0 end.
Definition rt_act (v : value) (x : V3) : V3 :=
  match v with
  | VMatRT m _ _ _ => app3 m x
  | VCompRT q _ => qact q x
  | _ => x
  end.

(** Type of the implementation selected for a unary operation; [None] if no
    implementation accepts the operand or the call is ambiguous (then
    is_directly_evaluable_unary, type_traits.hpp, is false). *)
Definition ty_un (o : unop) (t : ty) : option ty :=
  match o, t with
  | OInverse, Plain (LMat | LQuat | LAA | LMatRT | LCompRT) => Some t
  | OInverse, Ident _ => Some t
  | OLogMap, Plain LMat => Some (Plain LRel)
  | OLogMap, Plain (LMatRT | LCompRT) => Some (Plain LTwist)
  | OLogMap, Ident l => Some (ZeroOf (tangent_leaf l))
  | OExpMap, Plain LRel => Some (Plain LQuat)
  | OExpMap, Plain LTwist => Some (Plain LMatRT)
  | OExpMap, ZeroOf LRel => Some (Ident LMat)
  | OExpMap, ZeroOf LTwist => Some (Ident LMatRT)
  | OMinus, Plain l => if vec_kind (kind_of l) then Some t else None
  | OMinus, ZeroOf _ => Some t
  | (OSquaredNorm | ONorm), (Plain l | ZeroOf l) =>
      if col_kind (kind_of l) then Some (Plain LScalar) else None
  | ONormalize, (Plain l | ZeroOf l) =>
      if col_kind (kind_of l) then Some (Plain l) else None
  | OACos, Plain LScalar => Some (Plain LScalar)
  | ORotation, Plain LMatRT => Some (Plain LMat)
  | ORotation, Plain LCompRT => Some (Plain LQuat)
  | OTranslation, Plain (LMatRT | LCompRT) => Some (Plain LTrans)
  | OConvert to, Plain l => if kind_eqb (kind_of to) (kind_of l) then Some (Plain to) else None
  | OConvert to, (Ident l | ZeroOf l) => if lty_eqb to l then Some (Plain to) else None
  | _, _ => None
  end.

(** Same for binary operations.  Rigid transform with Identity on exactly one side, and
    vector plus Zero, are ambiguous calls: RigidTransformBase.hpp 109-118 against
    Identity.hpp 71-83; VectorBase.hpp 106-109 against Zero.hpp 71-79. *)
Definition ty_compose (a b : ty) : option ty :=
  match a, b with
  | Plain LMat, Plain LMat => Some (Plain LMat)
  | Plain LQuat, Plain LQuat => Some (Plain LQuat)
  | Plain l, Ident m =>
      match kind_of l, kind_of m with KRot, KRot => Some a | _, _ => None end
  | Ident l, Plain m =>
      match kind_of l, kind_of m with KRot, KRot => Some b | _, _ => None end
  | Ident l, Ident m => if kind_eqb (kind_of l) (kind_of m) then Some a else None
  | Plain (LMatRT | LCompRT), Plain (LMatRT | LCompRT) => Some b
  | _, _ => None
  end.

Definition ty_bin (o : binop) (a b : ty) : option ty :=
  match o, a, b with
  | OCompose, _, _ => ty_compose a b
  | OComposeFlipped, _, _ => ty_compose b a
  | ORotate, Plain (LMat | LQuat), Plain LTrans => Some (Plain LTrans)
  | ORotate, Ident l, (Plain LTrans | ZeroOf LTrans) =>
      match kind_of l with KRot => Some b | _ => None end
  | OTransform, Plain (LMatRT | LCompRT), (Plain LTrans | ZeroOf LTrans) => Some (Plain LTrans)
  | OTransform, Ident l, (Plain LTrans | ZeroOf LTrans) =>
      match kind_of l with KRT => Some b | _ => None end
  | OSum, Plain LPoint, (Plain LTrans | ZeroOf LTrans) => Some (Plain LPoint)
  | OSum, (Plain LTrans | ZeroOf LTrans), Plain LPoint => Some (Plain LPoint)
  | OSum, Plain l, Plain m =>
      if vec_kind (kind_of l) && lty_eqb l m then Some (Plain l) else None
  | OSum, ZeroOf l, ZeroOf m => if lty_eqb l m then Some a else None
  | OSubtract, Plain LPoint, (Plain LTrans | ZeroOf LTrans) => Some (Plain LPoint)
  | OSubtract, Plain LPoint, Plain LPoint => Some (Plain LTrans)
  | OSubtract, (Plain l | ZeroOf l), (Plain m | ZeroOf m) =>
      if vec_kind (kind_of l) && lty_eqb l m then Some (Plain l) else None
  | OScale, Plain LScalar, (Plain l | ZeroOf l) =>
      if col_kind (kind_of l) then Some (Plain l) else None
  | OScaleR, (Plain l | ZeroOf l), Plain LScalar =>
      if col_kind (kind_of l) then Some (Plain l) else None
  | OScaleDiv, (Plain l | ZeroOf l), Plain LScalar =>
      if col_kind (kind_of l) then Some (Plain l) else None
  | (OProduct | ODivide), Plain LScalar, Plain LScalar => Some (Plain LScalar)
  | ODot, (Plain l | ZeroOf l), (Plain m | ZeroOf m) =>
      if col_kind (kind_of l) && lty_eqb l m then Some (Plain LScalar) else None
  | _, _, _ => None
  end.

Section Sem.
  Variable eps : R.

  (** evalImpl for unary operations.
      Inverse: MatrixRotation.hpp 57-61, QuaternionRotation.hpp 63-68,
      AngleAxisRotation.hpp 61-66, RigidTransformBase.hpp 78-83 (with the constructors
      MatrixRigidTransform.hpp 46-53 and CompactRigidTransform.hpp 41-46),
      Identity.hpp 68-71.  LogMap, ExpMap: above, Identity.hpp 102-105, Zero.hpp 86-89.
      Minus: VectorBase.hpp 122-125, Zero.hpp 81-84.  SquaredNorm, Norm, Normalize:
      VectorBase.hpp 129-161 (Eigen normalized() returns a zero vector unchanged).
      ACos: ScalarBase.hpp 112-116.  rotation(), translation(): TransformBase.hpp
      14-54, MemberAccess.hpp 122-126. *)
  Definition sem_un (o : unop) (v : value) : option value :=
    match o, v with
    | OInverse, VMat m => Some (VMat (tr3 m))
    | OInverse, VQuat q => Some (VQuat (qconj q))
    | OInverse, VAA a ax => Some (VAA (- a) ax)
    | OInverse, VMatRT m t _ _ =>
        Some (VMatRT (tr3 m) (vopp (app3 (tr3 m) t)) v0 1)
    | OInverse, VCompRT q t => Some (VCompRT (qconj q) (vopp (qact (qconj q) t)))
    | OInverse, VIdent l => Some (VIdent l)
    | OLogMap, VMat m => option_map VRel (log_mat eps m)
    | OLogMap, (VMatRT _ t _ _ | VCompRT _ t) =>
        option_map (fun p => VTwist (fst p) (snd p)) (rt_log eps (rt_rot v) t)
    | OLogMap, VIdent l => Some (VZero (tangent_leaf l))
    | OExpMap, VRel w => Some (VQuat (exp_quat eps w))
    | OExpMap, VTwist w u =>
        let p := twist_exp eps w u in Some (VMatRT (fst p) (snd p) v0 1)
    | OExpMap, VZero LRel => Some (VIdent LMat)
    | OExpMap, VZero LTwist => Some (VIdent LMatRT)
    | OMinus, VZero l => Some (VZero l)
    | OMinus, v => if vec_kind (vkind v)
                   then mkvec (ty_leaf (vty v)) (fun i => - coord v i) else None
    | OSquaredNorm, v => if col_kind (vkind v) then Some (VScalar (norm2_of v)) else None
    | ONorm, v => if col_kind (vkind v) then Some (VScalar (sqrt (norm2_of v))) else None
    | ONormalize, v =>
        if col_kind (vkind v) then
          if Rlt_dec 0 (norm2_of v)
          then mkvec (ty_leaf (vty v)) (fun i => coord v i / sqrt (norm2_of v))
          else mkvec (ty_leaf (vty v)) (coord v)
        else None
    | OACos, VScalar x =>
        if Rle_dec (-1) x then if Rle_dec x 1 then Some (VScalar (acos x)) else None
        else None
    | ORotation, VMatRT m _ _ _ => Some (VMat m)
    | ORotation, VCompRT q _ => Some (VQuat q)
    | OTranslation, (VMatRT _ t _ _ | VCompRT _ t) => Some (VTrans t)
    | OConvert to, v => sem_convert to v
    | _, _ => None
    end.

  (** evalImpl(expr<Compose>): MatrixRotation.hpp 91-97, QuaternionRotation.hpp 82-89,
      Identity.hpp 73-90, RigidTransformBase.hpp 109-118: the result has the right
      operand's type; the product of rotation blocks of different types is computed
      after converting the quaternion to a matrix, and assigned through a conversion. *)
  Definition sem_compose (a b : value) : option value :=
    match a, b with
    | VMat m1, VMat m2 => Some (VMat (mul3 m1 m2))
    | VQuat q1, VQuat q2 => Some (VQuat (qmul q1 q2))
    | VIdent l, VIdent m => if kind_eqb (kind_of l) (kind_of m) then Some a else None
    | VIdent l, _ =>
        match kind_of l, vkind b with KRot, KRot => Some b | _, _ => None end
    | _, VIdent l =>
        match vkind a, kind_of l with KRot, KRot => Some a | _, _ => None end
    | VMatRT m1 t1 _ _, VMatRT m2 t2 _ _ =>
        Some (VMatRT (mul3 m1 m2) (vadd (app3 m1 t2) t1) v0 1)
    | VMatRT m1 t1 _ _, VCompRT q2 t2 =>
        Some (VCompRT (q_of_mat (mul3 m1 (qrot q2))) (vadd (app3 m1 t2) t1))
    | VCompRT q1 t1, VMatRT m2 t2 _ _ =>
        Some (VMatRT (mul3 (qrot q1) m2) (vadd (qact q1 t2) t1) v0 1)
    | VCompRT q1 t1, VCompRT q2 t2 =>
        Some (VCompRT (qmul q1 q2) (vadd (qact q1 t2) t1))
    | _, _ => None
    end.

  (** evalImpl for binary operations.
      ComposeFlipped: Compose.hpp 66-72.  Rotate: MatrixRotation.hpp 110-114,
      QuaternionRotation.hpp 100-107, Identity.hpp 88-93.  Transform: TransformBase.hpp
      233-238, Identity.hpp 95-100.  Sum: AffineBase.hpp 70-83, VectorBase.hpp 106-109,
      Zero.hpp 71-84.  Subtract: AffineBase.hpp 89-93, VectorBase.hpp 115-118.
      Scale, ScaleR, ScaleDiv, Dot: VectorBase.hpp 188-265.  Product, Divide:
      ScalarBase.hpp 79-82, 106-109. *)
  Definition sem_bin (o : binop) (a b : value) : option value :=
    match ty_bin o (vty a) (vty b) with
    | None => None
    | Some t =>
        match o, a, b with
        | OCompose, _, _ => sem_compose a b
        | OComposeFlipped, _, _ => sem_compose b a
        | ORotate, VMat m, VTrans v => Some (VTrans (app3 m v))
        | ORotate, VQuat q, VTrans v => Some (VTrans (qact q v))
        | ORotate, VIdent _, _ => Some b
        | OTransform, VIdent _, _ => Some b
        | OTransform, _, VTrans v => Some (VTrans (vadd (rt_act a v) (rt_trans a)))
        | OTransform, _, VZero _ => Some (VTrans (vadd (rt_act a v0) (rt_trans a)))
        | OSum, VZero _, VZero _ => Some a
        | OSum, _, _ => mkvec (ty_leaf t) (fun i => coord a i + coord b i)
        | OSubtract, _, _ => mkvec (ty_leaf t) (fun i => coord a i - coord b i)
        | OScale, VScalar s, _ => mkvec (ty_leaf t) (fun i => s * coord b i)
        | OScaleR, _, VScalar s => mkvec (ty_leaf t) (fun i => coord a i * s)
        | OScaleDiv, _, VScalar s =>
            if Req_EM_T s 0 then None else mkvec (ty_leaf t) (fun i => coord a i / s)
        | OProduct, VScalar x, VScalar y => Some (VScalar (x * y))
        | ODivide, VScalar x, VScalar y => option_map VScalar (odiv x y)
        | ODot, _, _ => Some (VScalar (rsum (vdim a) (fun i => coord a i * coord b i)))
        | _, _, _ => None
        end
    end.

  (** ** Local Jacobians, as matrices over the tangent spaces *)

  Definition of_m3 (m : M3) : mat := Mat 3 3 (fun i j =>
    match i, j with
    | 0, 0 => m00 m | 0, 1 => m01 m | 0, 2 => m02 m
    | 1, 0 => m10 m | 1, 1 => m11 m | 1, 2 => m12 m
    | 2, 0 => m20 m | 2, 1 => m21 m | 2, 2 => m22 m
    | _, _ => 0%R
    end)%nat.

  (** [a b; c d] *)
  Definition of_blocks (a b c d : M3) : mat := Mat 6 6 (fun i j =>
    if (i <? 3)%nat
    then if (j <? 3)%nat then mnth (of_m3 a) i j else mnth (of_m3 b) i (j - 3)
    else if (j <? 3)%nat then mnth (of_m3 c) (i - 3) j else mnth (of_m3 d) (i - 3) (j - 3)).

  (** [a b] *)
  Definition of_wide (a b : M3) : mat := Mat 3 6 (fun i j =>
    if (j <? 3)%nat then mnth (of_m3 a) i j else mnth (of_m3 b) i (j - 3)).

  Definition of_scalar (x : R) : mat := Mat 1 1 (fun _ _ => x).

  (** toRotationMatrix of a rotation value; Mat3{...} of a rotation. *)
  Definition rot_matrix (v : value) : option M3 :=
    match v with
    | VMat m => Some m
    | VQuat q => Some (qrot q)
    | VAA a ax => Some (aa_rot a ax)
    | VIdent l => match kind_of l with KRot => Some i3 | _ => None end
    | _ => None
    end.

  (** The 6x6 adjoint written by TransformBase.hpp 206-227 and
      RigidTransformBase.hpp 86-105. *)
  Definition adjoint (m : M3) (t : V3) : mat := of_blocks m z3 (mul3 (skew t) m) m.

  (** jacobianImpl for unary operations; first argument the result, second the operand.
      Inverse: MatrixRotation.hpp 63-69, QuaternionRotation.hpp 70-77,
      AngleAxisRotation.hpp 68-75, RigidTransformBase.hpp 86-105.  LogMap: LogMap.hpp
      38-60, RigidTransformBase.hpp 161-200.  ExpMap: RelativeRotation.hpp 131-151,
      Twist.hpp 133-171, Zero.hpp 91-95.  Minus: Minus.hpp 33-37.  Norms:
      VectorBase.hpp 134-183.  ACos: ScalarBase.hpp 119-128.  Convert: Convert.hpp
      30-33.  MemberAccess: MemberAccess.hpp 128-132, TransformBase.hpp 22-29, 45-53. *)
  Definition jac_un (o : unop) (val rhs : value) : option mat :=
    match o, val, rhs with
    | OInverse, VMat m, VMat _ => Some (of_m3 (opp3 m))
    | OInverse, VQuat q, VQuat _ => Some (of_m3 (opp3 (qrot q)))
    | OInverse, VAA a ax, VAA _ _ => Some (of_m3 (opp3 (aa_rot a ax)))
    | OInverse, VMatRT m t _ _, VMatRT _ _ _ _ => Some (mopp (adjoint m t))
    | OInverse, VCompRT q t, VCompRT _ _ => Some (mopp (adjoint (qrot q) t))
    | OLogMap, VRel phi, _ =>
        match vkind rhs with KRot => option_map of_m3 (log_rot_jac phi) | _ => None end
    | OLogMap, VTwist w u, _ =>
        match vkind rhs, log_rot_jac w, eade_B w u with
        | KRT, Some D, Some B =>
            Some (of_blocks D z3 (mul3 (mul3 (opp3 D) B) D) D)
        | _, _, _ => None
        end
    | OExpMap, _, VRel phi =>
        match rot_matrix val with
        | Some C => Some (of_m3 (exp_rot_jac eps C phi)) | None => None end
    | OExpMap, VMatRT m _ _ _, VTwist w u =>
        match eade_B w u with
        | Some B => let D := exp_rot_jac eps m w in Some (of_blocks D z3 B D)
        | None => None
        end
    | OExpMap, _, VZero l => Some (mid (tsize (kind_of l)))
    | OMinus, _, _ => if vec_kind (vkind rhs) then Some (mopp (mid (vdim rhs))) else None
    | OSquaredNorm, _, _ => if col_kind (vkind rhs)
                            then Some (Mat 1 (vdim rhs) (fun _ j => 2 * coord rhs j)) else None
    | ONorm, VScalar n, _ =>
        if Req_EM_T n 0 then None
        else Some (Mat 1 (vdim rhs) (fun _ j => coord rhs j / n))
    | ONormalize, _, _ =>
        let n := sqrt (norm2_of rhs) in
        if Req_EM_T n 0 then None
        else Some (Mat (vdim rhs) (vdim rhs) (fun i j =>
               ((if (i =? j)%nat then 1 else 0) - coord val i * coord val j) / n))
    | OACos, _, VScalar x =>
        if Rlt_dec 0 (1 - x * x) then Some (of_scalar (- 1 / sqrt (1 - x * x))) else None
    | ORotation, _, (VMatRT _ _ _ _ | VCompRT _ _) => Some (of_wide i3 z3)
    | OTranslation, VTrans t, (VMatRT _ _ _ _ | VCompRT _ _) =>
        Some (of_wide (skew (vopp t)) i3)
    | OConvert to, _, _ => Some (mid (tsize (kind_of to)))
    | _, _, _ => None
    end.

  (** leftJacobianImpl(expr<Compose>): Compose.hpp 57-63. *)
  Definition jacl_compose (val a b : value) : option mat := Some (mid (vdim val)).

  (** rightJacobianImpl(expr<Compose>): MatrixRotation.hpp 99-108,
      QuaternionRotation.hpp 91-98, TransformBase.hpp 206-227 (for 3x3 results the
      four corner blocks coincide and the last assignment, R, remains).  Identity of a
      rigid transform has no rotationBlock: does not compile. *)
  Definition jacr_compose (val a b : value) : option mat :=
    match a with
    | VMatRT m t _ _ => Some (adjoint m t)
    | VCompRT q t => Some (adjoint (qrot q) t)
    | _ => option_map of_m3 (rot_matrix a)
    end.

  (** leftJacobianImpl.  Compose, ComposeFlipped: Compose.hpp 57-91.  Rotate: Rotate.hpp
      35-42.  Transform: TransformBase.hpp 241-252.  Sum: Sum.hpp 98-107.  Subtract:
      Subtract.hpp 106-116.  Scale etc.: VectorBase.hpp 203-281.  Product, Divide:
      ScalarBase.hpp 86-101, 133-149. *)
  Definition jac_l (o : binop) (val a b : value) : option mat :=
    match o, val, a, b with
    | OCompose, _, _, _ => jacl_compose val a b
    | OComposeFlipped, _, _, _ => jacr_compose val b a
    | ORotate, VTrans x, _, _ => Some (of_m3 (skew (vopp x)))
    | OTransform, _, _, _ =>
        match val with
        | VTrans x => Some (of_wide (skew (vopp x)) i3)
        | VZero LTrans => Some (of_wide (skew (vopp v0)) i3)
        | _ => None
        end
    | OSum, _, _, _ => Some (mid (vdim val))
    | OSubtract, _, _, _ => Some (mid (vdim val))
    | OScale, _, _, _ => Some (Mat (vdim b) 1 (fun i _ => coord b i))
    | OScaleR, _, _, VScalar s => Some (mscal s (mid (vdim a)))
    | OScaleDiv, _, _, VScalar s =>
        if Req_EM_T s 0 then None else Some (mscal (/ s) (mid (vdim val)))
    | OProduct, _, _, VScalar y => Some (of_scalar y)
    | ODivide, _, _, VScalar y => option_map of_scalar (odiv 1 y)
    | ODot, _, _, _ => Some (Mat 1 (vdim b) (fun _ j => coord b j))
    | _, _, _, _ => None
    end.

  (** rightJacobianImpl.  Rotate: MatrixRotation.hpp 116-126, QuaternionRotation.hpp
      109-118.  Transform: TransformBase.hpp 255-261.  Others as for [jac_l]. *)
  Definition jac_r (o : binop) (val a b : value) : option mat :=
    match o, val, a, b with
    | OCompose, _, _, _ => jacr_compose val a b
    | OComposeFlipped, _, _, _ => jacl_compose val b a
    | ORotate, VTrans _, VMat m, VTrans _ => Some (of_m3 m)
    | ORotate, VTrans _, VQuat q, VTrans _ => Some (of_m3 (qrot q))
    | OTransform, _, VMatRT m _ _ _, _ => Some (of_m3 m)
    | OTransform, _, VCompRT q _, _ => Some (of_m3 (qrot q))
    | OSum, _, _, _ => Some (mid (vdim val))
    | OSubtract, _, _, _ => Some (mopp (mid (vdim val)))
    | OScale, _, VScalar s, _ => Some (mscal s (mid (vdim b)))
    | OScaleR, _, _, _ => Some (Mat (vdim a) 1 (fun i _ => coord a i))
    | OScaleDiv, _, _, VScalar s =>
        if Req_EM_T (s * s) 0 then None
        else Some (Mat (vdim a) 1 (fun i _ => - coord a i / (s * s)))
    | OProduct, _, VScalar x, _ => Some (of_scalar x)
    | ODivide, _, VScalar x, VScalar y => option_map of_scalar (odiv (- x) (y * y))
    | ODot, _, _, _ => Some (Mat 1 (vdim a) (fun _ j => coord a j))
    | _, _, _, _ => None
    end.
End Sem.
