(** Specification of the accuracy of Jacobians computed on doubles, measured by how much a
    matrix can stretch a vector. *)

From Coq Require Import ZArith Reals List Bool Arith.
From Verif Require Import Mat V3 ModelLeaf SpecLeaf ModelExpr SpecExpr.
From Verif Require Import ModelFloat SpecFlt ModelFloatExpr SpecFltExpr ModelFloatJac SpecFltJac.
Import ListNotations.
Local Open Scope R_scope.

(** Euclidean length of the first [n] components; the root of the sum of the squares of
    the entries of an [r] by [c] matrix. *)
Definition euclid (n : nat) (f : nat -> R) : R := sqrt (rsum n (fun i => f i * f i)).
Definition frobenius (r c : nat) (A : nat -> nat -> R) : R := euclid r (fun i => euclid c (A i)).

(** No vector becomes more than [S] times longer. *)
Definition stretches (S : R) (r c : nat) (A : nat -> nat -> R) : Prop :=
  forall x, euclid r (fun i => rsum c (fun j => A i j * x j)) <= S * euclid c x.

(** The first [r] rows and [c] columns of [F] have no infinity or NaN and stand for [J]:
    [J] stretches no vector by more than [S], and the root of the summed squares of all
    errors is at most [e * S]. *)
Definition napprox (S e : R) (r c : nat) (F : fmat) (J : mat) : Prop :=
  (forall i j, (i < r)%nat -> (j < c)%nat -> finite (F i j)) /\
  stretches S r c (mnth J) /\
  frobenius r c (fun i j => val (F i j) - mnth J i j) <= e * S.

(** ** How much local Jacobians stretch *)
Definition stretch_un (m : nat -> dval) (o : unop) (p : expr) : R :=
  match o with
  | OInverse | OTranslation => 1 + size m p
  | OSquaredNorm => 2 * size m p
  | OLogMap | ONorm => 2
  | ONormalize => Rmax tiny (2 * (5 / size m p))
  | _ => 1
  end.
Definition stretch_l (m : nat -> dval) (o : binop) (l r : expr) : R :=
  match o with
  | OComposeFlipped => 1 + size m r
  | ORotate => size m r
  | OTransform => 1 + (size m l + size m r)
  | OScale | OScaleR | OProduct | ODot => size m r
  | _ => 1
  end.
Definition stretch_r (m : nat -> dval) (o : binop) (l r : expr) : R :=
  match o with
  | OCompose => 1 + size m l
  | OScale | OScaleR | OProduct | ODot => size m l
  | _ => 1
  end.

(** ** Along the tree: the product along each path from the root to an occurrence of the
    target, summed over the paths. *)
Fixpoint nsize (m : nat -> dval) (a : nat) (p : expr) : R :=
  match p with
  | XLeaf _ _ => 1
  | XUn o p => Rmax tiny (stretch_un m o p * nsize m a p)
  | XBin o l r =>
      let L := stretch_l m o l r * nsize m a l in
      let R := stretch_r m o l r * nsize m a r in
      Rmax tiny (if mentions a l then (if mentions a r then L + R else L) else R)
  end.
Fixpoint ncost (a : nat) (p : expr) : nat :=
  match p with
  | XLeaf _ _ => 0
  | XUn o p => 6 * lcost_un o p + ncost a p + 1
  | XBin o l r =>
      let L := (6 * lcost_l o l r + ncost a l + 1)%nat in
      let R := (6 * lcost_r o l r + ncost a r + 1)%nat in
      if mentions a l then (if mentions a r then Nat.max L R else L) else R
  end.

(** Expressions for whose Jacobian accuracy is claimed: bounds not above 2^400, accumulated
    relative errors not above 1/2000, and between the root and the target only [regular]
    operations and no division. *)
Fixpoint nfits (c : R) (m : nat -> dval) (a : nat) (p : expr) : Prop :=
  mentions a p = true ->
  nsize m a p <= vast /\ INR (ncost a p) * c <= / 2000 /\
  match p with
  | XLeaf _ _ => True
  | XUn o p =>
      nfits c m a p /\
      regular m o p
  | XBin o l r =>
      nfits c m a l /\ nfits c m a r /\
      match o with OScaleDiv | ODivide => False | _ => True end
  end.

(** The same without counting errors, and without log and exp. *)
Fixpoint nmild (m : nat -> dval) (a : nat) (p : expr) : Prop :=
  mentions a p = true ->
  nsize m a p <= vast /\
  match p with
  | XLeaf _ _ => True
  | XUn o p =>
      nmild m a p /\
      match o with
      | OInverse | OMinus | OSquaredNorm | ORotation | OTranslation | OConvert _ => True
      | _ => False
      end
  | XBin o l r =>
      nmild m a l /\ nmild m a r /\
      match o with OScaleDiv | ODivide => False | _ => True end
  end.
