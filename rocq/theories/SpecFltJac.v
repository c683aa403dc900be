(** Specification of the accuracy of Jacobians computed on doubles. *)

From Coq Require Import ZArith Reals List Bool Arith Permutation.
From Verif Require Import Mat V3 ModelLeaf SpecLeaf ModelExpr SpecExpr.
From Verif Require Import ModelFloat SpecFlt ModelFloatExpr SpecFltExpr ModelFloatJac.
Import ListNotations.
Local Open Scope R_scope.

(** A way to add [n] products uses each of them once. *)
Definition adds_all (s : sums) (n : nat) : Prop := Permutation (terms s) (seq 0 n).

(** The first [r] rows and [c] columns of [F] have no infinity or NaN and stand for the
    entries of [J]: those are at most [B], the stored ones differ from them by at most
    [e * B]. *)
Definition japprox (B e : R) (r c : nat) (F : fmat) (J : mat) : Prop :=
  forall i j, (i < r)%nat -> (j < c)%nat ->
    finite (F i j) /\ Rabs (mnth J i j) <= B /\ Rabs (val (F i j) - mnth J i j) <= e * B.

(** Number of coordinates of the tangent space of the value of a prepared expression. *)
Definition dim (p : expr) : nat := match typ p with Some t => tsize (ty_kind t) | None => 0 end.

(** ** Bounds on the entries of local Jacobians and the relative errors in them *)
Definition lsize_un (m : nat -> dval) (o : unop) (p : expr) : R :=
  match o with
  | OInverse | OTranslation => Rmax 1 (size m p)
  | OSquaredNorm => 2 * size m p
  | OLogMap | ONorm => 2
  | ONormalize => Rmax tiny (2 * (5 / size m p))
  | _ => 1
  end.
Definition lcost_un (o : unop) (p : expr) : nat :=
  let (r, v) := cost (XUn o p) in
  match o with
  | OInverse => 15 * r + v + 2
  | OTranslation => v
  | OSquaredNorm => snd (cost p) + 1
  | ONorm => 4 * snd (cost p) + 4
  | ONormalize => 11 * snd (cost p) + 14
  | OLogMap => 8 * v + 650
  | OExpMap => 37 * (15 * r + 1) + 152 * snd (cost p) + 1
  | _ => 0
  end%nat.

Definition lsize_l (m : nat -> dval) (o : binop) (l r : expr) : R :=
  match o with
  | OComposeFlipped => Rmax 1 (size m r)
  | ORotate => size m r
  | OTransform => Rmax 1 (size m l + size m r)
  | OScale | OScaleR | OProduct | ODot => size m r
  | _ => 1
  end.
Definition lcost_l (o : binop) (l r : expr) : nat :=
  match o with
  | OComposeFlipped => 15 * fst (cost r) + snd (cost r) + 2
  | ORotate | OTransform => snd (cost (XBin o l r))
  | OScale | OScaleR | OProduct | ODot => snd (cost r)
  | _ => 0
  end%nat.

Definition lsize_r (m : nat -> dval) (o : binop) (l r : expr) : R :=
  match o with
  | OCompose => Rmax 1 (size m l)
  | OScale | OScaleR | OProduct | ODot => size m l
  | _ => 1
  end.
Definition lcost_r (o : binop) (l r : expr) : nat :=
  match o with
  | OCompose => 15 * fst (cost l) + snd (cost l) + 2
  | ORotate | OTransform => 15 * fst (cost l) + 1
  | OScale | OScaleR | OProduct | ODot => snd (cost l)
  | _ => 0
  end%nat.

(** ** Along the tree: products multiply sizes and add errors; sums add sizes.  Only the
    parts of the expression that contain the target count. *)
Fixpoint jsize (m : nat -> dval) (a : nat) (p : expr) : R :=
  match p with
  | XLeaf _ _ => 1
  | XUn o p => Rmax tiny (INR (dim p) * (lsize_un m o p * jsize m a p))
  | XBin o l r =>
      let L := INR (dim l) * (lsize_l m o l r * jsize m a l) in
      let R := INR (dim r) * (lsize_r m o l r * jsize m a r) in
      Rmax tiny (if mentions a l then (if mentions a r then L + R else L) else R)
  end.
Fixpoint jcost (a : nat) (p : expr) : nat :=
  match p with
  | XLeaf _ _ => 0
  | XUn o p => lcost_un o p + jcost a p + 1
  | XBin o l r =>
      let L := (lcost_l o l r + jcost a l + 1)%nat in
      let R := (lcost_r o l r + jcost a r + 1)%nat in
      if mentions a l then (if mentions a r then Nat.max L R else L) else R
  end.

(** Operations and points for whose Jacobian accuracy is claimed: no arc cosine; norms
    and normalized vectors not smaller than half the bound on their size; log of rotations
    by an angle of at least 1/16 (it is at most 3, see [fits]); exp of vectors at least 1/16
    long or known not to be longer than 2^-27. *)
Definition regular (m : nat -> dval) (o : unop) (p : expr) : Prop :=
  match o with
  | OInverse | OMinus | OSquaredNorm | ORotation | OTranslation | OConvert _ => True
  | ONorm | ONormalize => forall x, deval 0 m p = Some x -> size m p <= 2 * length_of x
  | OLogMap => forall r, deval 0 m p = Some (DRot r) -> / 16 <= rot_angle r
  | OExpMap => size m p <= / 2 ^ 27 \/ forall v, deval 0 m p = Some (DRel v) -> / 16 <= vnorm v
  | _ => False
  end.

(** Expressions for whose Jacobian accuracy is claimed: bounds not above 2^400, accumulated
    relative errors not above 1/2000, and between the root and the target only operations
    as above and no division. *)
Fixpoint jfits (c : R) (m : nat -> dval) (a : nat) (p : expr) : Prop :=
  mentions a p = true ->
  jsize m a p <= vast /\ INR (jcost a p) * c <= / 2000 /\
  match p with
  | XLeaf _ _ => True
  | XUn o p =>
      jfits c m a p /\
      regular m o p
  | XBin o l r =>
      jfits c m a l /\ jfits c m a r /\
      match o with OScaleDiv | ODivide => False | _ => True end
  end.

(** The same without counting errors: bounds not above 2^400, and between the root and the
    target no division, square root, log, exp, arc cosine. *)
Fixpoint jmild (m : nat -> dval) (a : nat) (p : expr) : Prop :=
  mentions a p = true ->
  jsize m a p <= vast /\
  match p with
  | XLeaf _ _ => True
  | XUn o p =>
      jmild m a p /\
      match o with
      | OInverse | OMinus | OSquaredNorm | ORotation | OTranslation | OConvert _ => True
      | _ => False
      end
  | XBin o l r =>
      jmild m a l /\ jmild m a r /\
      match o with OScaleDiv | ODivide => False | _ => True end
  end.
