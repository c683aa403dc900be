(** Model of reverse-mode Jacobians of whole expressions as they are computed on doubles.
    ModelJac.v has the same over exact real numbers ([rev], [dynrev]); ModelFloatJac.v has
    the local Jacobians and the matrix products.  Citations are to
    /repo/include/wave/geometry/src.

    Simplifications: the identity with which the sweep starts is multiplied as a full matrix
    (util/math/IdentityMatrix.hpp: its product with a matrix is that matrix), and an adjoint
    is rounded before it is added to the map. *)

From Coq Require Import ZArith List Bool Arith.
From Flocq Require Import Core BinarySingleNaN.
From Verif Require Import ModelLeaf ModelExpr ModelFloat ModelFloatQ ModelFloatExpr ModelFloatJac.
Import ListNotations.

(** Types of the leaves, in order; are they all different?  unique_leaves_t
    (core/functions/ReverseJacobianEvaluator.hpp 224, core/traits/type_traits.hpp 407-434). *)
Fixpoint leaf_types (p : expr) : list ty :=
  match p with
  | XLeaf _ t => [t]
  | XUn _ p => leaf_types p
  | XBin _ l r => leaf_types l ++ leaf_types r
  end.
Fixpoint all_different (l : list ty) : bool :=
  match l with
  | [] => true
  | t :: l => negb (existsb (ty_eqb t) l) && all_different l
  end.

Section Sweep.
  Variable M : libm.
  Variable ord : list bool -> order.
  Variable qord : list bool -> qorder.
  Variable jord : list bool -> order.
  Variable sch : list bool -> nat -> nat -> nat -> sums.
  Variable mem : nat -> fvalue.

  (** The adjoint [A] of a node is multiplied with the local Jacobian on the right and handed
      to the child: ReverseJacobianEvaluator.hpp 24-145, DynamicReverseJacobianEvaluator.hpp
      73-195.  Result: the address of each leaf, from left to right, with its adjoint. *)
  Fixpoint frev (path : list bool) (A : fmat) (p : expr) : option (list (nat * fmat)) :=
    match p with
    | XLeaf b _ => Some [(b, A)]
    | XUn op p =>
        match feval_p M ord qord mem (true :: path) p with
        | Some f =>
            match fsem_un M (ord path) op f with
            | Some v =>
                match fjac_un M (jord path) op v f with
                | Some J => frev (true :: path) (fprod sch (true :: path) (fdim v) A J) p
                | None => None
                end
            | None => None
            end
        | None => None
        end
    | XBin op l r =>
        match feval_p M ord qord mem (true :: path) l, feval_p M ord qord mem (false :: path) r with
        | Some x, Some y =>
            match fsem_bin (ord path) (qord path) op x y with
            | Some v =>
                match fjac_l (jord path) op v x y, fjac_r (jord path) op v x y with
                | Some JL, Some JR =>
                    match frev (true :: path) (fprod sch (true :: path) (fdim v) A JL) l,
                          frev (false :: path) (fprod sch (false :: path) (fdim v) A JR) r with
                    | Some L, Some R => Some (L ++ R)
                    | _, _ => None
                    end
                | _, _ => None
                end
            | None => None
            end
        | _, _ => None
        end
    end.

  (** The tree that is prepared by both entry points: ReverseJacobianEvaluator.hpp 231-233,
      DynamicReverseJacobianEvaluator.hpp 252-254. *)
  Definition fsweep (e : expr) : option (list (nat * fmat)) :=
    match prepare e with
    | Some (_, t) =>
        match prepare_to (plain_output t) e with
        | Some (p, _) => frev [] fid p
        | None => None
        end
    | None => None
    end.

  (** expr.evalWithJacobians(): one matrix for each leaf, from left to right; not available
      ([None]) if two leaves have the same type.  ReverseJacobianEvaluator.hpp 205-236. *)
  Definition freverse (e : expr) : option (list fmat) :=
    if all_different (leaf_types e) then option_map (map snd) (fsweep e) else None.

  (** Contents of the map at address [a]: zero at first, each adjoint that arrives at [a] is
      added (DynamicReverseJacobianEvaluator.hpp 65-70, 229-240, util/math/MatrixMap.hpp
      61-65, 93-95).  Without an entry the matrix is zero (DynamicReverseJacobianEvaluator.hpp
      211-222). *)
  Definition fplus (A B : fmat) : fmat := fun i j => fadd (A i j) (B i j).
  Definition fcollect (a : nat) (L : list (nat * fmat)) : fmat :=
    fold_left (fun S x => if (fst x =? a)%nat then fplus S (snd x) else S) L (fun _ _ => f0).
  Definition fdynreverse (e : expr) (a : nat) : option fmat := option_map (fcollect a) (fsweep e).
End Sweep.
