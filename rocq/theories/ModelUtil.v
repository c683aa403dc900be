(** Model of the small matrix classes used in Jacobian arithmetic and of the random
    generators.  Citations are to /repo/include/wave/geometry/src. *)

From Coq Require Import Reals List Bool Arith.
From Verif Require Import Mat V3 ModelLeaf.
Import ListNotations.
Local Open Scope R_scope.

(** ** CrossMatrix *)

(** util/math/CrossMatrix.hpp 28-59: a CrossMatrix is a dense 3x3 matrix together with the
    vector it was made from.  The nested reference is modelled as a copy. *)
Record CrossMatrix := Cross { cm_dense : mat; cm_vec : V3 }.

(** util/math/CrossMatrix.hpp 37-49 (constructor, row-major comma initialiser). *)
Definition crossMatrix (v : V3) : CrossMatrix :=
  Cross (Mat 3 3 (fun i j =>
           nth (3 * i + j)
             [0; - vget v 2; vget v 1;
              vget v 2; 0; - vget v 0;
              - vget v 1; vget v 0; 0] 0)) v.

(** util/math/CrossMatrix.hpp 53-56 (unary minus). *)
Definition cross_neg (c : CrossMatrix) : CrossMatrix := crossMatrix (vopp (cm_vec c)).

(** Column [j] and row [i] of a matrix with three rows (columns), as vectors. *)
Definition mcol (A : mat) (j : nat) : V3 := mkV (mnth A 0 j) (mnth A 1 j) (mnth A 2 j).
Definition mrow (A : mat) (i : nat) : V3 := mkV (mnth A i 0) (mnth A i 1) (mnth A i 2).

(** Eigen colwise().cross(v) and rowwise().cross(v): each column (row) crossed with v,
    the column (row) on the left. *)
Definition colwise_cross (A : mat) (v : V3) : mat :=
  Mat 3 (mcols A) (fun i j => vget (vcross (mcol A j) v) i).
Definition rowwise_cross (A : mat) (v : V3) : mat :=
  Mat (mrows A) 3 (fun i j => vget (vcross (mrow A i) v) j).

(** A column of length 3 and a row of length 3. *)
Definition mcolumn (v : V3) : mat := Mat 3 1 (fun i _ => vget v i).
Definition mrowvec (v : V3) : mat := Mat 1 3 (fun _ j => vget v j).

(** util/math/CrossMatrix.hpp 88-96: CrossMatrix * 3-vector. *)
Definition cross_vec (c : CrossMatrix) (x : V3) : V3 := vcross (cm_vec c) x.
(** util/math/CrossMatrix.hpp 102-110: row 3-vector * CrossMatrix. *)
Definition vec_cross (x : V3) (c : CrossMatrix) : V3 := vcross x (cm_vec c).
(** util/math/CrossMatrix.hpp 120-128: CrossMatrix * (3 x N). *)
Definition cross_mat (c : CrossMatrix) (A : mat) : mat := colwise_cross A (vopp (cm_vec c)).
(** util/math/CrossMatrix.hpp 139-150: CrossMatrix of a negated vector * (3 x N);
    [v] is the vector under the minus sign. *)
Definition negcross_mat (v : V3) (A : mat) : mat := colwise_cross A v.
(** util/math/CrossMatrix.hpp 161-169: (N x 3) * CrossMatrix. *)
Definition mat_cross (A : mat) (c : CrossMatrix) : mat := rowwise_cross A (cm_vec c).
(** util/math/CrossMatrix.hpp 175-179: CrossMatrix * CrossMatrix. *)
Definition cross_cross (a b : CrossMatrix) : mat := rowwise_cross (cm_dense a) (cm_vec b).

(** util/math/math.hpp 45-55: uncrossMatrix. *)
Definition uncrossMatrix (A : mat) : V3 := mkV (mnth A 2 1) (mnth A 0 2) (mnth A 1 0).

(** ** Matrices as they occur in Jacobian products *)

(** A Jacobian factor: the symbolic identity (util/math/IdentityMatrix.hpp 30-36), a
    CrossMatrix, a CrossMatrix of a negated vector expression, or any other Eigen
    matrix. *)
Inductive jmat :=
| JIdent (n : nat)
| JCross (v : V3)
| JNegCross (v : V3)
| JDense (A : mat).

(** operator* on them, by overload: util/math/IdentityMatrix.hpp 50-84 and
    util/math/CrossMatrix.hpp 88-203 (the columns-of-one and rows-of-one overloads are the
    3-vector products).  [None]: the static_assert "Invalid matrix product" fails. *)
Definition jrows (a : jmat) : nat :=
  match a with JIdent n => n | JDense A => mrows A | _ => 3 end.
Definition jcols (a : jmat) : nat :=
  match a with JIdent n => n | JDense A => mcols A | _ => 3 end.

Definition jcm (a : jmat) : option CrossMatrix :=
  match a with
  | JCross v => Some (crossMatrix v)
  | JNegCross v => Some (crossMatrix (vopp v))
  | _ => None
  end.

Definition jmul (a b : jmat) : option jmat :=
  if jcols a =? jrows b then
    match a, b with
    | JIdent _, _ => Some b
    | _, JIdent _ => Some a
    | (JCross _ | JNegCross _), (JCross _ | JNegCross _) =>
        match jcm a, jcm b with
        | Some c, Some d => Some (JDense (cross_cross c d))
        | _, _ => None
        end
    | JCross v, JDense B =>
        if mcols B =? 1
        then Some (JDense (mcolumn (cross_vec (crossMatrix v) (mcol B 0))))
        else Some (JDense (cross_mat (crossMatrix v) B))
    | JNegCross v, JDense B =>
        if mcols B =? 1
        then Some (JDense (mcolumn (cross_vec (crossMatrix (vopp v)) (mcol B 0))))
        else Some (JDense (negcross_mat v B))
    | JDense A, (JCross _ | JNegCross _) =>
        match jcm b with
        | Some c =>
            if mrows A =? 1
            then Some (JDense (mrowvec (vec_cross (mrow A 0) c)))
            else Some (JDense (mat_cross A c))
        | None => None
        end
    | JDense A, JDense B => Some (JDense (mmul A B))
    end
  else None.

(** A product of Jacobian factors as the evaluators nest it:
    functions/JacobianEvaluator.hpp 85-248 (node Jacobian times operand Jacobian) and
    functions/ReverseJacobianEvaluator.hpp 52-145 (adjoint times node Jacobian) associate
    differently. *)
Inductive jprod := JP (a : jmat) | JMul (l r : jprod).

Fixpoint jeval (p : jprod) : option jmat :=
  match p with
  | JP a => Some a
  | JMul l r =>
      match jeval l, jeval r with
      | Some a, Some b => jmul a b
      | _, _ => None
      end
  end.

(** ** Random values *)

(** util/math/math.hpp 28-43: randomQuaternion; [s], [u1], [u2] are the three draws of
    uniformRandom(0, 1) in the order of the source.  The Eigen constructor takes w, x, y,
    z. *)
Definition randomQuaternion (s u1 u2 : R) : Q4 :=
  let s1 := sqrt (1 - s) in
  let s2 := sqrt s in
  let t1 := 2 * PI * u1 in
  let t2 := 2 * PI * u2 in
  mkQ (cos t2 * s2) (sin t1 * s1) (cos t1 * s1) (sin t2 * s2).

(** Leaf::Random(): AffineBase.hpp 95-102 (coefficients drawn by Eigen), RotationBase.hpp
    90-97, RigidTransformBase.hpp 65-74, with the leaf constructors
    QuaternionRotation.hpp 45-49, MatrixRotation.hpp 42-46, AngleAxisRotation.hpp 35-46,
    MatrixRigidTransform.hpp 63-68.  CompactRigidTransform.hpp 53-59 is taken as intended
    (see DESIGN.md).  [f] gives the coefficients drawn in [-1, 1]. *)
Definition random (l : lty) (s u1 u2 : R) (f : nat -> R) : option value :=
  let q := randomQuaternion s u1 u2 in
  let t := mkV (f 0%nat) (f 1%nat) (f 2%nat) in
  match l with
  | LQuat => Some (VQuat q)
  | LMat => Some (VMat (qrot q))
  | LAA => let (a, ax) := aa_of_q q in Some (VAA a ax)
  | LMatRT => Some (VMatRT (qrot q) t v0 1)
  | LCompRT => Some (VCompRT q t)
  | l => mkvec l f
  end.
