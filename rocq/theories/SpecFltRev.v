(** Specification of the accuracy of reverse-mode Jacobians computed on doubles. *)

From Coq Require Import ZArith Reals List Bool Arith.
From Verif Require Import Mat V3 ModelLeaf SpecLeaf ModelExpr SpecExpr.
From Verif Require Import ModelFloat SpecFlt ModelFloatExpr SpecFltExpr ModelFloatJac SpecFltJac SpecFltNorm.
Import ListNotations.
Local Open Scope R_scope.

(** For each leaf, from left to right: the product of how much the local Jacobians on the way
    from the root stretch a vector, starting from [S], and the number of relative errors,
    starting from [n]. *)
Fixpoint along (m : nat -> dval) (S : R) (n : nat) (p : expr) : list (nat * (R * nat)) :=
  match p with
  | XLeaf b _ => [(b, (S, n))]
  | XUn o p => along m (Rmax tiny (S * stretch_un m o p)) (n + 6 * lcost_un o p + 1) p
  | XBin o l r =>
      along m (Rmax tiny (S * stretch_l m o l r)) (n + 6 * lcost_l o l r + 1) l ++
      along m (Rmax tiny (S * stretch_r m o l r)) (n + 6 * lcost_r o l r + 1) r
  end.

(** For an object that may occur several times: the products are summed, and each addition
    makes one more error. *)
Fixpoint gather (a : nat) (l : list (nat * (R * nat))) (S : R) (n : nat) : R * nat :=
  match l with
  | [] => (S, n)
  | (b, (S', n')) :: l => if (b =? a)%nat then gather a l (S + S') (Nat.max n n' + 1) else gather a l S n
  end.
Definition rsize (m : nat -> dval) (a : nat) (p : expr) : R := fst (gather a (along m 1 0 p) tiny 0).
Definition rcost (m : nat -> dval) (a : nat) (p : expr) : nat := snd (gather a (along m 1 0 p) tiny 0).

(** Expressions for whose adjoints accuracy is claimed: products not above 2^400, accumulated
    relative errors not above 1/2000, only [regular] operations and no division. *)
Fixpoint rfits (c : R) (m : nat -> dval) (S : R) (n : nat) (p : expr) : Prop :=
  S <= vast /\ INR n * c <= / 2000 /\
  match p with
  | XLeaf _ _ => True
  | XUn o p =>
      rfits c m (Rmax tiny (S * stretch_un m o p)) (n + 6 * lcost_un o p + 1) p /\
      regular m o p
  | XBin o l r =>
      rfits c m (Rmax tiny (S * stretch_l m o l r)) (n + 6 * lcost_l o l r + 1) l /\
      rfits c m (Rmax tiny (S * stretch_r m o l r)) (n + 6 * lcost_r o l r + 1) r /\
      match o with OScaleDiv | ODivide => False | _ => True end
  end.

(** The same without counting errors, and without log and exp. *)
Fixpoint rmild (m : nat -> dval) (S : R) (p : expr) : Prop :=
  S <= vast /\
  match p with
  | XLeaf _ _ => True
  | XUn o p =>
      rmild m (Rmax tiny (S * stretch_un m o p)) p /\
      match o with
      | OInverse | OMinus | OSquaredNorm | ORotation | OTranslation | OConvert _ => True
      | _ => False
      end
  | XBin o l r =>
      rmild m (Rmax tiny (S * stretch_l m o l r)) l /\
      rmild m (Rmax tiny (S * stretch_r m o l r)) r /\
      match o with OScaleDiv | ODivide => False | _ => True end
  end.
