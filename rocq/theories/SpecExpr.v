(** Specification of expression evaluation: the mathematical function each operation
    denotes on numbers, vectors, rotation matrices and rigid motions, independent of
    leaf types, conversions and order of evaluation. *)

From Coq Require Import Reals List Bool Arith Ratan.
From Verif Require Import Mat V3 ModelLeaf SpecLeaf ModelExpr.
Import ListNotations.
Local Open Scope R_scope.

(** Coordinates of a vector-like object. *)
Definition dcoord (d : dval) (i : nat) : R :=
  match d with
  | DScalar s => match i with 0%nat => s | _ => 0 end
  | DTrans v | DRel v | DPoint v => vget v i
  | DTwist w u => if (i <? 3)%nat then vget w i else vget u (i - 3)
  | _ => 0
  end.

Definition mkd (k : kind) (f : nat -> R) : option dval :=
  let v := mkV (f 0%nat) (f 1%nat) (f 2%nat) in
  match k with
  | KScalar => Some (DScalar (f 0%nat))
  | KTrans => Some (DTrans v)
  | KRel => Some (DRel v)
  | KPoint => Some (DPoint v)
  | KTwist => Some (DTwist v (mkV (f 3%nat) (f 4%nat) (f 5%nat)))
  | _ => None
  end.

Definition dnorm2 (d : dval) : R := rsum (tsize (dkind d)) (fun i => dcoord d i * dcoord d i).

Section Den.
  Variable eps : R.

  (** Meaning of the unary operations.  exp is the exact exponential; log is the value
      computed by the library (related to the exact logarithm by the C17/C20
      theorems). *)
  Definition dsem_un (o : unop) (d : dval) : option dval :=
    match o, d with
    | OInverse, DRot m => Some (DRot (tr3 m))
    | OInverse, DRT m t => Some (DRT (tr3 m) (vopp (app3 (tr3 m) t)))
    | OLogMap, DRot m => option_map DRel (log_mat eps m)
    | OLogMap, DRT m t => option_map (fun p => DTwist (fst p) (snd p)) (rt_log eps m t)
    | OExpMap, DRel v => Some (DRot (so3_exp v))
    | OExpMap, DTwist w u => Some (DRT (so3_exp w) (app3 (so3_V w) u))
    | OMinus, _ => if vec_kind (dkind d) then mkd (dkind d) (fun i => - dcoord d i) else None
    | OSquaredNorm, _ => if col_kind (dkind d) then Some (DScalar (dnorm2 d)) else None
    | ONorm, _ => if col_kind (dkind d) then Some (DScalar (sqrt (dnorm2 d))) else None
    | ONormalize, _ =>
        if col_kind (dkind d) then
          if Rlt_dec 0 (dnorm2 d)
          then mkd (dkind d) (fun i => dcoord d i / sqrt (dnorm2 d))
          else Some d
        else None
    | OACos, DScalar x =>
        if Rle_dec (-1) x then if Rle_dec x 1 then Some (DScalar (acos x)) else None else None
    | ORotation, DRT m _ => Some (DRot m)
    | OTranslation, DRT _ t => Some (DTrans t)
    | OConvert to, _ => if kind_eqb (kind_of to) (dkind d) then Some d else None
    | _, _ => None
    end.

  Definition dcompose (a b : dval) : option dval :=
    match a, b with
    | DRot m1, DRot m2 => Some (DRot (mul3 m1 m2))
    | DRT m1 t1, DRT m2 t2 => Some (DRT (mul3 m1 m2) (vadd (app3 m1 t2) t1))
    | _, _ => None
    end.

  Definition dsem_bin (o : binop) (a b : dval) : option dval :=
    match kind_bin o (dkind a) (dkind b) with
    | None => None
    | Some k =>
        match o, a, b with
        | OCompose, _, _ => dcompose a b
        | OComposeFlipped, _, _ => dcompose b a
        | ORotate, DRot m, DTrans v => Some (DTrans (app3 m v))
        | OTransform, DRT m t, DTrans v => Some (DTrans (vadd (app3 m v) t))
        | OSum, _, _ => mkd k (fun i => dcoord a i + dcoord b i)
        | OSubtract, _, _ => mkd k (fun i => dcoord a i - dcoord b i)
        | OScale, DScalar s, _ => mkd k (fun i => s * dcoord b i)
        | OScaleR, _, DScalar s => mkd k (fun i => dcoord a i * s)
        | OScaleDiv, _, DScalar s =>
            if Req_EM_T s 0 then None else mkd k (fun i => dcoord a i / s)
        | OProduct, DScalar x, DScalar y => Some (DScalar (x * y))
        | ODivide, DScalar x, DScalar y => option_map DScalar (odiv x y)
        | ODot, _, _ =>
            Some (DScalar (rsum (tsize (dkind a)) (fun i => dcoord a i * dcoord b i)))
        | _, _, _ => None
        end
    end.

  (** The function denoted by an expression, given the meaning of the leaf objects. *)
  Fixpoint deval (m : nat -> dval) (e : expr) : option dval :=
    match e with
    | XLeaf a _ => Some (m a)
    | XUn o e => match deval m e with Some d => dsem_un o d | None => None end
    | XBin o l r =>
        match deval m l, deval m r with
        | Some a, Some b => dsem_bin o a b
        | _, _ => None
        end
    end.

  (** Every exponential in the expression is taken at a vector for which the library
      uses the exact formula (or at exactly zero); elsewhere the small-angle
      approximation is used (C18, C20). *)
  Definition exp_exact (d : dval) : Prop :=
    match d with
    | DRel v => v = v0 \/ eps < vnorm2 v * vnorm2 v
    | DTwist w _ => w = v0 \/ eps < vnorm2 w
    | _ => True
    end.

  Fixpoint exps_exact (m : nat -> dval) (e : expr) : Prop :=
    match e with
    | XLeaf _ _ => True
    | XUn o e =>
        exps_exact m e /\
        match o with
        | OExpMap => forall d, deval m e = Some d -> exp_exact d
        | _ => True
        end
    | XBin _ l r => exps_exact m l /\ exps_exact m r
    end.
End Den.

(** The leaf objects named by the expression hold valid values of their type. *)
Fixpoint env_ok (m : env) (e : expr) : Prop :=
  match e with
  | XLeaf a t => vty (m a) = t /\ valid (m a)
  | XUn _ e => env_ok m e
  | XBin _ l r => env_ok m l /\ env_ok m r
  end.

(** Same expression up to the parametrization of its leaves. *)
Fixpoint same_shape (e e' : expr) : Prop :=
  match e, e' with
  | XLeaf a t, XLeaf a' t' => a = a' /\ ty_kind t = ty_kind t'
  | XUn o e, XUn o' e' => o = o' /\ same_shape e e'
  | XBin o l r, XBin o' l' r' => o = o' /\ same_shape l l' /\ same_shape r r'
  | _, _ => False
  end.

(** Addresses of the leaf objects of an expression. *)
Fixpoint leaf_addrs (e : expr) : list nat :=
  match e with
  | XLeaf a _ => [a]
  | XUn _ e => leaf_addrs e
  | XBin _ l r => leaf_addrs l ++ leaf_addrs r
  end.

(** An expression of kind [k] that the API lets one build, over leaf objects holding
    valid values, with its exponentials outside the small-angle approximation. *)
Definition good (eps : R) (m : env) (e : expr) (k : kind) : Prop :=
  ekind e = Some k /\ env_ok m e /\ exps_exact eps (fun a => den (m a)) e.

(** What eval() returns, as a geometric object. *)
Definition means (eps : R) (m : env) (e : expr) : option dval := option_map den (eval eps m e).

Definition group_kind (k : kind) : bool := match k with KRot | KRT => true | _ => false end.

Definition didentity (k : kind) : dval :=
  match k with KRT => DRT i3 v0 | _ => DRot i3 end.
