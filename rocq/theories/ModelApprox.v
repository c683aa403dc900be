(** Model of the fuzzy comparisons.  Citations are to /repo/include/wave/geometry/src. *)

From Coq Require Import Reals List Bool Arith.
From Verif Require Import Mat V3 ModelLeaf ModelExpr.
Import ListNotations.
Local Open Scope R_scope.

Definition Rleb (x y : R) : bool := if Rle_dec x y then true else false.

(** Eigen DenseBase::isZero(prec): every coefficient satisfies |x| <= prec * |1|. *)
Definition isZero_value (prec : R) (v : value) : bool :=
  forallb (fun i => Rleb (Rabs (coord v i)) (Rabs 1 * prec)) (seq 0 (vdim v)).

(** Eigen DenseBase::isApprox(other, prec):
    |a - b|^2 <= prec^2 * min (|a|^2, |b|^2). *)
Definition eigen_isApprox (prec : R) (a b : value) : bool :=
  Rleb (rsum (vdim a) (fun i => (coord a i - coord b i) * (coord a i - coord b i)))
       (prec * prec * Rmin (norm2_of a) (norm2_of b)).

Section Eps.
  Variable eps : R.

  (** x.isApprox(y, prec).  Transforms: TransformBase.hpp 115-122 (box-minus of the two,
      then isZero; a NaN coefficient makes isZero false).  Vectors and points:
      AffineBase.hpp 38-43.  Scalars: ScalarBase.hpp 28-36.  Frames are stripped by
      unframed_cast. *)
  Definition isApprox (prec : R) (m : env) (x y : expr) : bool :=
    match ekind x, ekind y with
    | Some k, Some k' =>
        if kind_eqb k k' then
          match k with
          | KRot | KRT =>
              match eval eps m (XBoxMinus x y) with
              | Some d => isZero_value prec d
              | None => false
              end
          | KScalar =>
              match eval eps m x, eval eps m y with
              | Some (VScalar a), Some (VScalar b) =>
                  Rleb (Rabs (a - b)) (prec * Rmin (Rabs a) (Rabs b))
              | _, _ => false
              end
          | _ =>
              match eval eps m x, eval eps m y with
              | Some a, Some b => eigen_isApprox prec a b
              | _, _ => false
              end
          end
        else false
    | _, _ => false
    end.

  (** v.isZero(prec): AffineBase.hpp 46-48, ScalarBase.hpp 39-42. *)
  Definition isZero (prec : R) (m : env) (x : expr) : bool :=
    match ekind x with
    | Some KScalar =>
        match eval eps m x with
        | Some (VScalar a) => Rleb (Rabs a) prec
        | _ => false
        end
    | Some (KRot | KRT) | None => false
    | Some _ =>
        match eval eps m x with Some v => isZero_value prec v | None => false end
    end.
End Eps.
