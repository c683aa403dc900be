(** Model of the Jacobians of whole expressions as they are computed on doubles.
    ModelLeaf.v and ModelJac.v have the same over exact real numbers.  Citations are to
    /repo/include/wave/geometry/src.

    Simplifications: the local Jacobians of log of a transform, exp of a twist, norm,
    normalize, acos and the divisions are not modelled here ([None]).  Products with an identity or a cross-product
    matrix (util/math/CrossMatrix.hpp 88-179, util/math/IdentityMatrix.hpp) are written as
    products of full matrices: the terms with a factor zero add an exact zero. *)

From Coq Require Import ZArith Reals List Bool Arith.
From Flocq Require Import Core BinarySingleNaN.
From Verif Require Import V3 ModelLeaf ModelExpr ModelFloat ModelFloatQ ModelFloatExpr.
Import ListNotations.

(** ** Sums of products

    One way to compute a sum of products a_i * b_i: in any order and with any grouping, each
    product rounded before it is added, or fused with an addition.  Eigen's choice depends on
    the sizes of the matrices and on the vectorisation; the compiler may fuse. *)
Inductive sums :=
| Term (i : nat)
| Plus (s t : sums)
| Fma (i : nat) (s : sums).

Fixpoint terms (s : sums) : list nat :=
  match s with
  | Term i => [i]
  | Plus s t => terms s ++ terms t
  | Fma i s => i :: terms s
  end.

Fixpoint fsums (s : sums) (a b : nat -> double) : double :=
  match s with
  | Term i => fmul (a i) (b i)
  | Plus s t => fadd (fsums s a b) (fsums t a b)
  | Fma i s => ffma (a i) (b i) (fsums s a b)
  end.

(** ** Matrices of doubles

    The entries of a matrix; its shape is known from the types. *)
Definition fmat := nat -> nat -> double.

Definition fid : fmat := fun i j => if (i =? j)%nat then f1 else f0.
Definition fneg (A : fmat) : fmat := fun i j => fopp (A i j).
Definition fscal (s : double) (A : fmat) : fmat := fun i j => fmul s (A i j).

Definition fof_m3 (m : DM) : fmat := fun i j =>
  match i, j with
  | 0, 0 => dx (r0 m) | 0, 1 => dy (r0 m) | 0, 2 => dz (r0 m)
  | 1, 0 => dx (r1 m) | 1, 1 => dy (r1 m) | 1, 2 => dz (r1 m)
  | 2, 0 => dx (r2 m) | 2, 1 => dy (r2 m) | 2, 2 => dz (r2 m)
  | _, _ => f0
  end%nat.

(** [a b; c d] and [a b] *)
Definition fof_blocks (a b c d : DM) : fmat := fun i j =>
  if (i <? 3)%nat
  then if (j <? 3)%nat then fof_m3 a i j else fof_m3 b i (j - 3)
  else if (j <? 3)%nat then fof_m3 c (i - 3) j else fof_m3 d (i - 3) (j - 3).
Definition fof_wide (a b : DM) : fmat := fun i j =>
  if (j <? 3)%nat then fof_m3 a i j else fof_m3 b i (j - 3).

Definition dzero : DM := mkDM (mkDV f0 f0 f0) (mkDV f0 f0 f0) (mkDV f0 f0 f0).

(** The coordinates of a scalar or a vector. *)
Definition fcoord (f : fvalue) (i : nat) : double :=
  match f with
  | FScalar s => s
  | FTrans v | FRel v | FPoint v => match i with 0 => dx v | 1 => dy v | _ => dz v end
  | _ => f0
  end%nat.

(** TangentSize of the leaf. *)
Definition fdim (f : fvalue) : nat := tsize (kind_of (flty f)).

(** ** Local Jacobians *)

(** The 6x6 matrix of TransformBase.hpp 206-227 and RigidTransformBase.hpp 86-105. *)
Definition fadjoint (o : order) (m : DM) (t : DV) : fmat :=
  fof_blocks m dzero (dmul o (dskew t) m) m.

(** The rotation matrix of a rotation or of a transform's rotation block. *)
Definition frot (o : order) (f : fvalue) : option DM :=
  match f with
  | FMat m | FMatRT m _ => Some m
  | FQuat q | FCompRT q _ => Some (dqrot o q)
  | _ => None
  end.

(** jacobianImpl(expr<ExpMap>, RotationBase, RelativeRotation): RelativeRotation.hpp 131-151,
    for the rotation matrix [C] of the result.  The product with the cross-product matrix on
    the right is the one of util/math/CrossMatrix.hpp 161-169. *)
Definition dexp_rot_jac (o : order) (C : DM) (phi : DV) : DM :=
  let n2 := ddot o phi phi in
  if fgt n2 feps
  then dmapm (fun x => fdiv x n2)
         (dmapm2 fadd (dmat_cross (dmapm2 fsub did C) phi) (douter phi phi))
  else dmapm2 fadd did (dmapm (fmul fhalf) (dskew phi)).

(** jacobianImpl for unary operations; first the result, then the operand.  Inverse:
    MatrixRotation.hpp 63-69, QuaternionRotation.hpp 70-77, RigidTransformBase.hpp 86-105.
    LogMap: LogMap.hpp 38-60, which uses only the result.  ExpMap: above.
    Minus: Minus.hpp 33-37.  SquaredNorm, Norm, Normalize: VectorBase.hpp 134-183.  Member access:
    TransformBase.hpp 22-29, 45-53.  Convert: Convert.hpp 30-33. *)
Definition fjac_un (M : libm) (o : order) (op : unop) (val rhs : fvalue) : option fmat :=
  match op, val with
  | OLogMap, FRel phi => Some (fof_m3 (dlog_rot_jac M o phi))
  | OExpMap, FQuat q =>
      match rhs with FRel phi => Some (fof_m3 (dexp_rot_jac o (dqrot o q) phi)) | _ => None end
  | OInverse, FMat m => Some (fneg (fof_m3 m))
  | OInverse, FQuat q => Some (fneg (fof_m3 (dqrot o q)))
  | OInverse, FMatRT m t => Some (fneg (fadjoint o m t))
  | OInverse, FCompRT q t => Some (fneg (fadjoint o (dqrot o q) t))
  | OMinus, _ => Some (fneg fid)
  | OSquaredNorm, _ => Some (fun _ j => fmul f2 (fcoord rhs j))
  | ONorm, FScalar n => Some (fun _ j => fdiv (fcoord rhs j) n)
  | ONormalize, (FTrans _ | FRel _) =>
      match rhs with
      | FTrans x | FRel x =>
          let n := fsqrt (ddot o x x) in
          Some (fun i j => fdiv (fsub (fid i j) (fmul (fcoord val i) (fcoord val j))) n)
      | _ => None
      end
  | ORotation, _ => Some (fof_wide did dzero)
  | OTranslation, FTrans t => Some (fof_wide (dskew (dmapv fopp t)) did)
  | OConvert _, _ => Some fid
  | _, _ => None
  end.

(** rightJacobianImpl(expr<Compose>): MatrixRotation.hpp 99-108, QuaternionRotation.hpp
    91-98, TransformBase.hpp 206-227. *)
Definition fjacr_compose (o : order) (a : fvalue) : option fmat :=
  match a with
  | FMat m => Some (fof_m3 m)
  | FQuat q => Some (fof_m3 (dqrot o q))
  | FMatRT m t => Some (fadjoint o m t)
  | FCompRT q t => Some (fadjoint o (dqrot o q) t)
  | _ => None
  end.

(** leftJacobianImpl.  Compose: Compose.hpp 57-91.  Rotate: Rotate.hpp 35-42.  Transform:
    TransformBase.hpp 241-252.  Sum, Subtract: Sum.hpp 98-107, Subtract.hpp 106-116.  Scale,
    ScaleR, Dot: VectorBase.hpp 200-281.  Product: ScalarBase.hpp 86-101. *)
Definition fjac_l (o : order) (op : binop) (val a b : fvalue) : option fmat :=
  match op, val with
  | OCompose, _ => Some fid
  | OComposeFlipped, _ => fjacr_compose o b
  | ORotate, FTrans x => Some (fof_m3 (dskew (dmapv fopp x)))
  | OTransform, FTrans x => Some (fof_wide (dskew (dmapv fopp x)) did)
  | (OSum | OSubtract), _ => Some fid
  | OScale, _ => Some (fun i _ => fcoord b i)
  | OScaleR, _ => Some (fscal (fcoord b 0) fid)
  | OProduct, _ => Some (fun _ _ => fcoord b 0)
  | ODot, _ => Some (fun _ j => fcoord b j)
  | _, _ => None
  end.

(** rightJacobianImpl.  Rotate: MatrixRotation.hpp 116-126, QuaternionRotation.hpp 109-118.
    Transform: TransformBase.hpp 255-261.  Others as for [fjac_l]. *)
Definition fjac_r (o : order) (op : binop) (val a b : fvalue) : option fmat :=
  match op with
  | OCompose => fjacr_compose o a
  | OComposeFlipped => Some fid
  | ORotate | OTransform => option_map fof_m3 (frot o a)
  | OSum => Some fid
  | OSubtract => Some (fneg fid)
  | OScale => Some (fscal (fcoord a 0) fid)
  | OScaleR => Some (fun i _ => fcoord a i)
  | OProduct => Some (fun _ _ => fcoord a 0)
  | ODot => Some (fun _ j => fcoord a j)
  | _ => None
  end.

(** ** The chain rule *)
Section Chain.
  Variable M : libm.
  Variable ord : list bool -> order.
  Variable qord : list bool -> qorder.
  (** How the sums of products inside the local Jacobians of each node are computed. *)
  Variable jord : list bool -> order.
  (** How each entry of the Jacobian of each node is computed from the given number of
      products: node, row, column, number of products. *)
  Variable sch : list bool -> nat -> nat -> nat -> sums.
  Variable mem : nat -> fvalue.

  (** J * j, with an inner dimension [k]. *)
  Definition fprod (path : list bool) (k : nat) (J j : fmat) : fmat := fun r c =>
    fsums (sch path r c k) (J r) (fun i => j i c).
  (** JL * jl + JR * jr, inner dimensions [k1] and [k2]: the two products may also be
      accumulated in one sum. *)
  Definition fprod2 (path : list bool) (k1 k2 : nat) (JL jl JR jr : fmat) : fmat := fun r c =>
    fsums (sch path r c (k1 + k2))
      (fun i => if (i <? k1)%nat then JL r i else JR r (i - k1)%nat)
      (fun i => if (i <? k1)%nat then jl i c else jr (i - k1)%nat c).

  (** Forward mode with respect to the object at address [a]: JacobianEvaluator.hpp 35-248,
      TypedJacobianEvaluator.hpp 19-247, DynamicJacobianEvaluator.hpp 22-171.  They multiply
      the same local Jacobians in the same way; absent Jacobians ([Some None]) are not
      multiplied. *)
  Fixpoint fjac (path : list bool) (a : nat) (p : expr) : option (option fmat) :=
    match p with
    | XLeaf b _ => Some (if (b =? a)%nat then Some fid else None)
    | XUn op p =>
        match fjac (true :: path) a p, feval_p M ord qord mem (true :: path) p with
        | Some None, _ => Some None
        | Some (Some j), Some f =>
            match fsem_un M (ord path) op f with
            | Some v =>
                match fjac_un M (jord path) op v f with
                | Some J => Some (Some (fprod path (fdim f) J j))
                | None => None
                end
            | None => None
            end
        | _, _ => None
        end
    | XBin op l r =>
        match fjac (true :: path) a l, fjac (false :: path) a r,
              feval_p M ord qord mem (true :: path) l, feval_p M ord qord mem (false :: path) r with
        | Some None, Some None, _, _ => Some None
        | Some jl, Some jr, Some x, Some y =>
            match fsem_bin (ord path) (qord path) op x y with
            | Some v =>
                match jl, jr with
                | Some jl, Some jr =>
                    match fjac_l (jord path) op v x y, fjac_r (jord path) op v x y with
                    | Some JL, Some JR => Some (Some (fprod2 path (fdim x) (fdim y) JL jl JR jr))
                    | _, _ => None
                    end
                | Some jl, None =>
                    option_map (fun JL => Some (fprod path (fdim x) JL jl)) (fjac_l (jord path) op v x y)
                | None, Some jr =>
                    option_map (fun JR => Some (fprod path (fdim y) JR jr)) (fjac_r (jord path) op v x y)
                | None, None => Some None
                end
            | None => None
            end
        | _, _, _, _ => None
        end
    end.

  (** expr.jacobian(x): an absent Jacobian becomes zero (JacobianEvaluator.hpp 333-343). *)
  Definition fjacobian (e : expr) (a : nat) : option fmat :=
    match prepare e with
    | Some (p, _) =>
        match fjac [] a p with
        | Some (Some j) => Some j
        | Some None => Some (fun _ _ => f0)
        | None => None
        end
    | None => None
    end.
End Chain.
