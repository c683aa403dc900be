(** Model of the evaluation of whole expressions on doubles.  ModelExpr.v has the same over
    exact real numbers, and the preparation of expressions (which is done on types) is shared
    with it.  Citations are to /repo/include/wave/geometry/src.

    Simplifications: AngleAxisRotation, Twist, Identity and Zero leaves are not modelled on
    doubles; [None] also stands for those.
    The bottom row of a 4x4 matrix transform is not stored: no operation reads it. *)

From Coq Require Import ZArith Reals List Bool.
From Flocq Require Import Core BinarySingleNaN.
From Verif Require Import V3 ModelLeaf ModelExpr ModelFloat ModelFloatQ.
Import ListNotations.

(** Leaves that store doubles: geometry/leaf/{Scalar,Translation,RelativeRotation,Point,
    QuaternionRotation,MatrixRotation,MatrixRigidTransform,CompactRigidTransform}.hpp. *)
Inductive fvalue :=
| FScalar (s : double)
| FTrans (v : DV)
| FRel (v : DV)
| FPoint (v : DV)
| FQuat (q : DQ)
| FMat (m : DM)
| FMatRT (m : DM) (t : DV)
| FCompRT (q : DQ) (t : DV).

Definition flty (f : fvalue) : lty :=
  match f with
  | FScalar _ => LScalar | FTrans _ => LTrans | FRel _ => LRel | FPoint _ => LPoint
  | FQuat _ => LQuat | FMat _ => LMat | FMatRT _ _ => LMatRT | FCompRT _ _ => LCompRT
  end.

(** The leaf that holds a given Eigen vector. *)
Definition mkfvec (l : lty) (v : DV) : option fvalue :=
  match l with
  | LTrans => Some (FTrans v) | LRel => Some (FRel v) | LPoint => Some (FPoint v) | _ => None
  end.

(** Conversion of a matrix to a quaternion: CompactRigidTransform.hpp 107-133 and
    QuaternionRotation.hpp 125-147 assign a matrix to an Eigen quaternion, which is
    Quaternion(const Matrix3 &) of Eigen/src/Geometry/Quaternion.h (Shepperd's method). *)
Definition dq_of_mat (o : order) (m : DM) : DQ :=
  let t := dtrace o m in
  if fgt t f0 then
    let t := fsqrt (fadd t f1) in
    let h := fdiv fhalf t in
    mkDQ (fmul fhalf t)
      (mkDV (fmul (fsub (dy (r2 m)) (dz (r1 m))) h) (fmul (fsub (dz (r0 m)) (dx (r2 m))) h)
            (fmul (fsub (dx (r1 m)) (dy (r0 m))) h))
  else
    let i1 := fgt (dy (r1 m)) (dx (r0 m)) in
    let dmax := if i1 then dy (r1 m) else dx (r0 m) in
    if fgt (dz (r2 m)) dmax then
      (* i = 2, j = 0, k = 1 *)
      let t := fsqrt (fadd (fsub (fsub (dz (r2 m)) (dx (r0 m))) (dy (r1 m))) f1) in
      let h := fdiv fhalf t in
      mkDQ (fmul (fsub (dx (r1 m)) (dy (r0 m))) h)
        (mkDV (fmul (fadd (dz (r0 m)) (dx (r2 m))) h) (fmul (fadd (dz (r1 m)) (dy (r2 m))) h)
              (fmul fhalf t))
    else if i1 then
      (* i = 1, j = 2, k = 0 *)
      let t := fsqrt (fadd (fsub (fsub (dy (r1 m)) (dz (r2 m))) (dx (r0 m))) f1) in
      let h := fdiv fhalf t in
      mkDQ (fmul (fsub (dz (r0 m)) (dx (r2 m))) h)
        (mkDV (fmul (fadd (dy (r0 m)) (dx (r1 m))) h) (fmul fhalf t)
              (fmul (fadd (dy (r2 m)) (dz (r1 m))) h))
    else
      (* i = 0, j = 1, k = 2 *)
      let t := fsqrt (fadd (fsub (fsub (dx (r0 m)) (dy (r1 m))) (dz (r2 m))) f1) in
      let h := fdiv fhalf t in
      mkDQ (fmul (fsub (dy (r2 m)) (dz (r1 m))) h)
        (mkDV (fmul fhalf t) (fmul (fadd (dx (r1 m)) (dy (r0 m))) h)
              (fmul (fadd (dx (r2 m)) (dz (r0 m))) h)).

Section Machine.
  Variable M : libm.

  (** evalImpl(expr<Convert, To>, from): AffineBase.hpp 58-63, RotationBase.hpp 99-103,
      QuaternionRotation.hpp 125-147, MatrixRigidTransform.hpp 123-139,
      CompactRigidTransform.hpp 107-133. *)
  Definition fsem_convert (o : order) (to : lty) (f : fvalue) : option fvalue :=
    if lty_eqb to (flty f) then Some f
    else match to, f with
         | LMat, FQuat q => Some (FMat (dqrot o q))
         | LMatRT, FCompRT q t => Some (FMatRT (dqrot o q) t)
         | LQuat, FMat m => Some (FQuat (dq_of_mat o m))
         | LCompRT, FMatRT m t => Some (FCompRT (dq_of_mat o m) t)
         | _, _ => None
         end.

  (** evalImpl for unary operations: Inverse: MatrixRotation.hpp 57-61,
      QuaternionRotation.hpp 65-69, RigidTransformBase.hpp 78-83.  LogMap:
      MatrixRotation.hpp 71-89.  ExpMap: RelativeRotation.hpp 103-129.  Minus:
      VectorBase.hpp 122-125.  SquaredNorm, Norm, Normalize: VectorBase.hpp 129-161.  ACos:
      ScalarBase.hpp 112-116.  rotation(), translation(): TransformBase.hpp 14-54. *)
  Definition fsem_un (o : order) (op : unop) (f : fvalue) : option fvalue :=
    match op, f with
    | OInverse, FMat m => Some (FMat (dtr m))
    | OInverse, FQuat q => Some (FQuat (dqconj q))
    | OInverse, FMatRT m t => Some (FMatRT (dtr m) (dmapv fopp (dapp o (dtr m) t)))
    | OInverse, FCompRT q t => Some (FCompRT (dqconj q) (dmapv fopp (dqact o (dqconj q) t)))
    | OLogMap, FMat m => Some (FRel (dlog_mat M o m))
    | OExpMap, FRel v => Some (FQuat (mkDQ (fst (dexp_quat M o v)) (snd (dexp_quat M o v))))
    | OMinus, FScalar s => Some (FScalar (fopp s))
    | OMinus, FTrans v => Some (FTrans (dmapv fopp v))
    | OMinus, FRel v => Some (FRel (dmapv fopp v))
    | OSquaredNorm, (FTrans v | FRel v) => Some (FScalar (ddot o v v))
    | ONorm, (FTrans v | FRel v) => Some (FScalar (fsqrt (ddot o v v)))
    | ONormalize, (FTrans v | FRel v) =>
        let z := ddot o v v in
        mkfvec (flty f) (if fgt z f0 then dmapv (fun x => fdiv x (fsqrt z)) v else v)
    | OACos, FScalar s => Some (FScalar (facos M s))
    | ORotation, FMatRT m _ => Some (FMat m)
    | ORotation, FCompRT q _ => Some (FQuat q)
    | OTranslation, (FMatRT _ t | FCompRT _ t) => Some (FTrans t)
    | OConvert to, f => fsem_convert o to f
    | _, _ => None
    end.

  (** evalImpl(expr<Compose>): MatrixRotation.hpp 91-97, QuaternionRotation.hpp 82-89,
      RigidTransformBase.hpp 109-118. *)
  Definition fsem_compose (o : order) (qo : qorder) (a b : fvalue) : option fvalue :=
    match a, b with
    | FMat m1, FMat m2 => Some (FMat (dmul o m1 m2))
    | FQuat q1, FQuat q2 => Some (FQuat (dqmul qo q1 q2))
    | FMatRT m1 t1, FMatRT m2 t2 =>
        Some (FMatRT (dmul o m1 m2) (dmapv2 fadd (dapp o m1 t2) t1))
    | FCompRT q1 t1, FMatRT m2 t2 =>
        Some (FMatRT (dmul o (dqrot o q1) m2) (dmapv2 fadd (dqact o q1 t2) t1))
    | FMatRT m1 t1, FCompRT q2 t2 =>
        Some (FCompRT (dq_of_mat o (dmul o m1 (dqrot o q2))) (dmapv2 fadd (dapp o m1 t2) t1))
    | FCompRT q1 t1, FCompRT q2 t2 =>
        Some (FCompRT (dqmul qo q1 q2) (dmapv2 fadd (dqact o q1 t2) t1))
    | _, _ => None
    end.

  (** evalImpl for binary operations: ComposeFlipped: Compose.hpp 66-72.  Rotate:
      MatrixRotation.hpp 110-114, QuaternionRotation.hpp 100-107.  Transform:
      TransformBase.hpp 232-239.  Sum: AffineBase.hpp 70-83, VectorBase.hpp 106-109.
      Subtract: AffineBase.hpp 89-93, VectorBase.hpp 115-118.  Scale, ScaleR, ScaleDiv, Dot:
      VectorBase.hpp 188-265.  Scalars: ScalarBase.hpp 79-82, 106-109. *)
  Definition fsem_bin (o : order) (qo : qorder) (op : binop) (a b : fvalue) : option fvalue :=
    match op, a, b with
    | OCompose, _, _ => fsem_compose o qo a b
    | OComposeFlipped, _, _ => fsem_compose o qo b a
    | ORotate, FMat m, FTrans v => Some (FTrans (dapp o m v))
    | ORotate, FQuat q, FTrans v => Some (FTrans (dqact o q v))
    | OTransform, FMatRT m t, FTrans v => Some (FTrans (dmapv2 fadd (dapp o m v) t))
    | OTransform, FCompRT q t, FTrans v => Some (FTrans (dmapv2 fadd (dqact o q v) t))
    | OSum, FScalar x, FScalar y => Some (FScalar (fadd x y))
    | OSum, FTrans x, FTrans y => Some (FTrans (dmapv2 fadd x y))
    | OSum, FRel x, FRel y => Some (FRel (dmapv2 fadd x y))
    | OSum, FPoint x, FTrans y | OSum, FTrans x, FPoint y => Some (FPoint (dmapv2 fadd x y))
    | OSubtract, FScalar x, FScalar y => Some (FScalar (fsub x y))
    | OSubtract, FTrans x, FTrans y => Some (FTrans (dmapv2 fsub x y))
    | OSubtract, FRel x, FRel y => Some (FRel (dmapv2 fsub x y))
    | OSubtract, FPoint x, FTrans y => Some (FPoint (dmapv2 fsub x y))
    | OSubtract, FPoint x, FPoint y => Some (FTrans (dmapv2 fsub x y))
    | OScale, FScalar s, (FTrans v | FRel v) => mkfvec (flty b) (dmapv (fmul s) v)
    | OScaleR, (FTrans v | FRel v), FScalar s => mkfvec (flty a) (dmapv (fun x => fmul x s) v)
    | OScaleDiv, (FTrans v | FRel v), FScalar s => mkfvec (flty a) (dmapv (fun x => fdiv x s) v)
    | OProduct, FScalar x, FScalar y => Some (FScalar (fmul x y))
    | ODivide, FScalar x, FScalar y => Some (FScalar (fdiv x y))
    | ODot, FTrans v, FTrans w | ODot, FRel v, FRel w => Some (FScalar (ddot o v w))
    | _, _, _ => None
    end.

  (** How sums of products are computed at each node of the tree: the compiler may choose
      differently at different places. *)
  Variable ord : list bool -> order.
  Variable qord : list bool -> qorder.

  (** functions/Evaluator.hpp 28-105, on the leaf objects [mem]. *)
  Fixpoint feval_p (mem : nat -> fvalue) (path : list bool) (p : expr) : option fvalue :=
    match p with
    | XLeaf a _ => Some (mem a)
    | XUn op p =>
        match feval_p mem (true :: path) p with
        | Some f => fsem_un (ord path) op f
        | None => None
        end
    | XBin op l r =>
        match feval_p mem (true :: path) l, feval_p mem (false :: path) r with
        | Some a, Some b => fsem_bin (ord path) (qord path) op a b
        | _, _ => None
        end
    end.

  (** evaluateTo<Destination> and eval(): functions/PrepareOutput.hpp 92-121. *)
  Definition feval_to (dest : ty) (mem : nat -> fvalue) (e : expr) : option fvalue :=
    match prepare_to dest e with
    | Some (p, _) => feval_p mem [] p
    | None => None
    end.
  Definition feval (mem : nat -> fvalue) (e : expr) : option fvalue :=
    match prepare e with
    | Some (_, t) => feval_to (plain_output t) mem e
    | None => None
    end.
End Machine.
