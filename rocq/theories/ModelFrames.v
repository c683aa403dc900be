(** Model of coordinate frames: framed leaves, the frames an expression announces, the
    compile-time checks, frame_cast, and evaluation of framed expressions.  Citations are
    to /repo/include/wave/geometry/src. *)

From Coq Require Import Reals List Bool Arith Cantor.
From Verif Require Import Mat V3 ModelMeta ModelJac ModelLeaf ModelExpr.
Import ListNotations.
Local Open Scope nat_scope.

(** A frame descriptor is a C++ type compared with std::is_same; a number here.  NoFrame
    (geometry/forward_declarations.hpp 15) is a type like the others. *)
Definition frame := nat.
Definition NoFrame : frame := 0.

(** Two decorators (transforms and points) or three (vectors and scalars):
    geometry/frames/frame_traits.hpp 13-41. *)
Inductive frames := F2 (l r : frame) | F3 (l m r : frame).

Definition frames_eqb (a b : frames) : bool :=
  match a, b with
  | F2 l r, F2 l' r' => (l =? l') && (r =? r')
  | F3 l m r, F3 l' m' r' => (l =? l') && (m =? m') && (r =? r')
  | _, _ => false
  end.

(** LeftFrameOf, MiddleFrameOf, RightFrameOf: frame_traits.hpp 184-220.  A type with two
    decorators has its left frame as middle frame. *)
Definition LeftFrameOf (f : frames) : frame := match f with F2 l _ | F3 l _ _ => l end.
Definition MiddleFrameOf (f : frames) : frame := match f with F2 l _ => l | F3 _ m _ => m end.
Definition RightFrameOf (f : frames) : frame := match f with F2 _ r | F3 _ _ r => r end.

(** Which kinds of leaf have three decorators: geometry/base/VectorBase.hpp 80-92
    (vectors three, points two), ScalarBase.hpp 55, leaf/Scalar.hpp 86, RotationBase.hpp
    74, RigidTransformBase.hpp 42. *)
Definition has_three_decorators (k : kind) : bool :=
  match k with KScalar | KTrans | KRel | KTwist => true | KPoint | KRot | KRT => false end.

Definition frames_fit (k : kind) (f : frames) : bool :=
  match f with F2 _ _ => negb (has_three_decorators k) | F3 _ _ _ => has_three_decorators k end.

(** A leaf type without Framed<...>; also the effect of IdentityFunctor. *)
Definition unframed (k : kind) : frames :=
  if has_three_decorators k then F3 NoFrame NoFrame NoFrame else F2 NoFrame NoFrame.

(** WrapWithFrames<FL, FR> and <FL, FM, FR>: frame_traits.hpp 120-163.  [None]: no
    operator() accepts the leaf.  Wrapping with NoFrame everywhere yields the bare leaf,
    whose frames are NoFrame.  WrapWithFrames<FL, FR> is only used for transforms. *)
Definition wrap2 (k : kind) (l r : frame) : option frames :=
  if has_three_decorators k then None else Some (F2 l r).
Definition wrap3 (k : kind) (l m r : frame) : option frames :=
  if has_three_decorators k then Some (F3 l m r)
  else if l =? m then Some (F2 l r) else None.

(** OutputFunctor of a unary node of kind [k], from its operand's frames.
    op/Inverse.hpp 24-27, op/LogMap.hpp 28-32 with log() of TransformBase.hpp 133-146,
    op/ExpMap.hpp 28-31, op/Minus.hpp 25-30, op/CommonExpressions.hpp 31-48 and
    util/macros.hpp 131-178 (no OutputFunctor: frames dropped), base/TransformBase.hpp
    14-38, core/op/Convert.hpp 23-27. *)
Definition frames_un (o : unop) (k : kind) (f : frames) : option frames :=
  match o with
  | OInverse => wrap2 k (RightFrameOf f) (LeftFrameOf f)
  | OLogMap => wrap3 k (LeftFrameOf f) (LeftFrameOf f) (RightFrameOf f)
  | OExpMap => wrap2 k (LeftFrameOf f) (LeftFrameOf f)
  | OMinus => wrap3 k (LeftFrameOf f) (RightFrameOf f) (MiddleFrameOf f)
  | OSquaredNorm | ONorm | ONormalize | OACos => Some (unframed k)
  | ORotation => wrap2 k (LeftFrameOf f) (RightFrameOf f)
  | OTranslation => wrap3 k (LeftFrameOf f) (LeftFrameOf f) (RightFrameOf f)
  | OConvert _ => Some f
  end.

(** Static assertions and OutputFunctor of a binary node.  op/Compose.hpp 21-23, 38-40,
    45-54; op/Rotate.hpp 22-23, 29-32; op/Transform.hpp 22-23, 29-33; op/Sum.hpp 28-32,
    71-95; op/Subtract.hpp 30-34, 75-103; op/Scale.hpp 45-70; op/Product.hpp,
    op/Divide.hpp and Dot (CommonExpressions.hpp 44): no checks, frames dropped. *)
Definition frames_bin (o : binop) (k : kind) (a b : frames) : option frames :=
  match o with
  | OCompose =>
      if RightFrameOf a =? LeftFrameOf b
      then wrap2 k (LeftFrameOf a) (RightFrameOf b) else None
  | OComposeFlipped =>
      if RightFrameOf b =? LeftFrameOf a
      then wrap2 k (LeftFrameOf b) (RightFrameOf a) else None
  | ORotate =>
      if RightFrameOf a =? LeftFrameOf b
      then wrap3 k (LeftFrameOf a) (MiddleFrameOf b) (RightFrameOf b) else None
  | OTransform =>
      if RightFrameOf a =? LeftFrameOf b
      then wrap3 k (LeftFrameOf a) (LeftFrameOf a) (RightFrameOf b) else None
  | OSum =>
      if (LeftFrameOf a =? LeftFrameOf b)
         && ((MiddleFrameOf a =? RightFrameOf b) || (RightFrameOf a =? MiddleFrameOf b))
      then if RightFrameOf a =? MiddleFrameOf b
           then wrap3 k (LeftFrameOf a) (MiddleFrameOf a) (RightFrameOf b)
           else wrap3 k (LeftFrameOf b) (MiddleFrameOf b) (RightFrameOf a)
      else None
  | OSubtract =>
      if (LeftFrameOf a =? LeftFrameOf b)
         && ((RightFrameOf a =? RightFrameOf b) || (MiddleFrameOf a =? MiddleFrameOf b))
      then if RightFrameOf a =? RightFrameOf b
           then wrap3 k (LeftFrameOf a) (MiddleFrameOf a) (MiddleFrameOf b)
           else wrap3 k (LeftFrameOf a) (RightFrameOf b) (RightFrameOf a)
      else None
  | OScale => wrap3 k (LeftFrameOf b) (MiddleFrameOf b) (RightFrameOf b)
  | OScaleR | OScaleDiv => wrap3 k (LeftFrameOf a) (MiddleFrameOf a) (RightFrameOf a)
  | OProduct | ODivide | ODot => Some (unframed k)
  end.

(** Framed expressions.  A leaf is Framed<Leaf, frames...> or a bare leaf (frames all
    NoFrame): frames/Framed.hpp.  [FLog x e] is LogMap<x, e> with an explicit extra frame
    (op/BoxMinus.hpp 60-62), [FCast f e] is FrameCast (frames/frame_cast.hpp). *)
Inductive fexpr :=
| FLeaf (a : nat) (t : ty) (f : frames)
| FUn (o : unop) (e : fexpr)
| FBin (o : binop) (l r : fexpr)
| FLog (x : frame) (e : fexpr)
| FCast (f : frames) (e : fexpr)
| FBoxPlus (l r : fexpr)
| FBoxMinus (l r : fexpr).

(** The same expression written with unframed leaves and no casts. *)
Fixpoint erase (e : fexpr) : expr :=
  match e with
  | FLeaf a t _ => XLeaf a t
  | FUn o e => XUn o (erase e)
  | FBin o l r => XBin o (erase l) (erase r)
  | FLog _ e => XUn OLogMap (erase e)
  | FCast _ e => erase e
  | FBoxPlus l r => XBoxPlus (erase l) (erase r)
  | FBoxMinus l r => XBoxMinus (erase l) (erase r)
  end.

(** Frames announced by an expression's output type; [None]: rejected by a frame check
    (or not an expression the API lets one build).  BoxPlus: op/BoxPlus.hpp 36-39, 79-80
    (traits of ComposeFlipped<Lhs, ExpMap<Rhs>>).  BoxMinus: op/BoxMinus.hpp 29-31, 60-62
    (traits of LogMap<RightFrameOf<Rhs>, Compose<Lhs, Inverse<Rhs>>>; the Compose<Lhs,
    Inverse<Rhs>> member carries Compose's own assertion). *)
Fixpoint frames_of (e : fexpr) : option frames :=
  match ekind (erase e) with
  | None => None
  | Some k =>
      match e with
      | FLeaf _ _ f => if frames_fit k f then Some f else None
      | FUn o e => match frames_of e with Some f => frames_un o k f | None => None end
      | FBin o l r =>
          match frames_of l, frames_of r with
          | Some a, Some b => frames_bin o k a b
          | _, _ => None
          end
      | FLog x e =>
          match frames_of e with
          | Some f => wrap3 k (LeftFrameOf f) (LeftFrameOf f) x
          | None => None
          end
      | FCast f e =>
          match frames_of e with
          | Some _ => if frames_fit k f then Some f else None
          | None => None
          end
      | FBoxPlus l r =>
          match frames_of l, frames_of r with
          | Some a, Some b =>
              if (LeftFrameOf a =? LeftFrameOf b) && (LeftFrameOf a =? MiddleFrameOf b)
                 && (RightFrameOf a =? RightFrameOf b)
              then match frames_un OExpMap k b with
                   | Some x => frames_bin OComposeFlipped k a x
                   | None => None
                   end
              else None
          | _, _ => None
          end
      | FBoxMinus l r =>
          match frames_of l, frames_of r, ekind (erase l) with
          | Some a, Some b, Some g =>
              if (LeftFrameOf a =? LeftFrameOf b) && (RightFrameOf a =? RightFrameOf b)
              then match frames_un OInverse g b with
                   | Some i =>
                       match frames_bin OCompose g a i with
                       | Some c => wrap3 k (LeftFrameOf c) (LeftFrameOf c) (RightFrameOf b)
                       | None => None
                       end
                   | None => None
                   end
              else None
          | _, _, _ => None
          end
      end
  end.

(** ** Preparation and evaluation of framed expressions

    The same steps as [prepare] of ModelExpr.v (the EvalType of a framed leaf is its
    wrapped leaf, frame_traits.hpp 176-178), keeping the frames in the tree. *)

Definition fconvert (t : ty) (p : fexpr) : fexpr :=
  match t with Plain l => FUn (OConvert l) p | _ => p end.

Definition prep_un (o : unop) (mk : fexpr -> fexpr) (x : option (fexpr * ty))
    : option (fexpr * ty) :=
  match x with
  | None => None
  | Some (p, t) =>
      match choose_unary can_convert (fun t => is_some (ty_un o t)) t (convert_to t) with
      | Some UDirect => option_map (fun r => (mk p, r)) (ty_un o t)
      | Some (UConvert t') => option_map (fun r => (mk (fconvert t' p), r)) (ty_un o t')
      | None => None
      end
  end.

Definition prep_bin (o : binop) (x y : option (fexpr * ty)) : option (fexpr * ty) :=
  match x, y with
  | Some (pl, tl), Some (pr, tr) =>
      match choose_binary can_convert (fun a b => is_some (ty_bin o a b)) tl tr
              (convert_to tl) (convert_to tr) with
      | Some BDirect => option_map (fun t => (FBin o pl pr, t)) (ty_bin o tl tr)
      | Some (BConvertRight tr') =>
          option_map (fun t => (FBin o pl (fconvert tr' pr), t)) (ty_bin o tl tr')
      | Some (BConvertLeft tl') =>
          option_map (fun t => (FBin o (fconvert tl' pl) pr, t)) (ty_bin o tl' tr)
      | Some (BConvertBoth tl' tr') =>
          option_map (fun t => (FBin o (fconvert tl' pl) (fconvert tr' pr), t))
            (ty_bin o tl' tr')
      | None => None
      end
  | _, _ => None
  end.

(** core/traits/traits_bases.hpp 88-237, core/functions/{AddConversions,PrepareExpr}.hpp;
    FrameCast: frame_cast.hpp 94-125 (PreparedType rebinds the cast to the prepared
    operand, EvalType is the operand's). *)
Fixpoint fprepare (e : fexpr) : option (fexpr * ty) :=
  match e with
  | FLeaf a t f => Some (FLeaf a t f, t)
  | FUn o e => prep_un o (FUn o) (fprepare e)
  | FBin o l r => prep_bin o (fprepare l) (fprepare r)
  | FLog x e => prep_un OLogMap (FLog x) (fprepare e)
  | FCast f e => match fprepare e with Some (p, t) => Some (FCast f p, t) | None => None end
  | FBoxPlus l r =>
      prep_bin OComposeFlipped (fprepare l) (prep_un OExpMap (FUn OExpMap) (fprepare r))
  | FBoxMinus l r =>
      match frames_of r with
      | Some b =>
          prep_un OLogMap (FLog (RightFrameOf b))
            (prep_bin OCompose (fprepare l) (prep_un OInverse (FUn OInverse) (fprepare r)))
      | None => None
      end
  end.

Definition fprepare_to (dest : ty) (e : fexpr) : option (fexpr * ty) :=
  match fprepare e with
  | None => None
  | Some (p, t) =>
      if ty_eqb dest t then Some (p, t)
      else match dest with
           | Plain l => fprepare (FUn (OConvert l) e)
           | _ => None
           end
  end.

Section Eval.
  Variable eps : R.

  (** Evaluation of a prepared tree: a framed leaf evaluates to its wrapped leaf
      (Framed.hpp 153-161); FrameCast has the leaf tag, its evalImpl returns its operand
      (traits_bases.hpp 257-260). *)
  Fixpoint feval_p (m : env) (p : fexpr) : option value :=
    match p with
    | FLeaf a _ _ => Some (m a)
    | FUn o p => match feval_p m p with Some v => sem_un eps o v | None => None end
    | FLog _ p => match feval_p m p with Some v => sem_un eps OLogMap v | None => None end
    | FCast _ p => feval_p m p
    | FBin o l r =>
        match feval_p m l, feval_p m r with
        | Some a, Some b => sem_bin o a b
        | _, _ => None
        end
    | FBoxPlus _ _ | FBoxMinus _ _ => None (* do not occur in a prepared tree *)
    end.

  (** eval(): core/functions/PrepareOutput.hpp 76-99, 108-121.  The evaluated leaf is
      wrapped by the OutputFunctor of the *prepared* expression; the result must convert
      to the announced output type. *)
  Definition feval (m : env) (e : fexpr) : option (value * frames) :=
    match frames_of e, fprepare e with
    | Some f, Some (_, t) =>
        match fprepare_to (plain_output t) e with
        | Some (p, _) =>
            match frames_of p, feval_p m p with
            | Some f', Some v => if frames_eqb f f' then Some (v, f) else None
            | _, _ => None
            end
        | None => None
        end
    | _, _ => None
    end.

  (** Constructing or assigning a framed variable of leaf type [l] and frames [f] from an
      expression: Framed.hpp 62-86 (assert_same_frames) and 112-116.  [None]: does not
      compile (or no finite value). *)
  Definition fconstruct (l : lty) (f : frames) (m : env) (e : fexpr) : option value :=
    match frames_of e with
    | Some f' =>
        if frames_eqb f f' then
          match fprepare_to (Plain l) e with
          | Some (p, _) => feval_p m p
          | None => None
          end
        else None
    | None => None
    end.

  (** ** Differentiation: a framed leaf type differs from the bare leaf type and from the
      same leaf with other frames (frame_traits.hpp 174: UniqueLeaves of Framed<...>). *)
  Definition frames_code (f : frames) : nat :=
    match f with
    | F2 l r => 2 * to_nat (l, r)
    | F3 l m r => 2 * to_nat (l, to_nat (m, r)) + 1
    end.
  Definition fleaf_obj (a : nat) (t : ty) (f : frames) : leaf :=
    Leaf a (LType (to_nat (ty_code t, frames_code f)) (tsize (ty_kind t))).

  (** As [tree] of ModelExpr.v.  FrameCast is a unary node with identity Jacobian
      (traits_bases.hpp 263-266). *)
  Fixpoint ftree (na : nat) (m : env) (p : fexpr) : option (value * etree) :=
    match p with
    | FLeaf a t f => Some (m a, ELeaf (fleaf_obj a t f))
    | FUn o p =>
        match ftree na m p with
        | Some (v, c) =>
            match sem_un eps o v with
            | Some val =>
                Some (val, EUn na (vdim val) (orzero (jac_un eps o val v) (vdim val) (vdim v)) c)
            | None => None
            end
        | None => None
        end
    | FLog _ p =>
        match ftree na m p with
        | Some (v, c) =>
            match sem_un eps OLogMap v with
            | Some val =>
                Some (val, EUn na (vdim val)
                             (orzero (jac_un eps OLogMap val v) (vdim val) (vdim v)) c)
            | None => None
            end
        | None => None
        end
    | FCast _ p =>
        match ftree na m p with
        | Some (v, c) => Some (v, EUn na (vdim v) (mid (vdim v)) c)
        | None => None
        end
    | FBin o l r =>
        match ftree na m l, ftree na m r with
        | Some (a, cl), Some (b, cr) =>
            match sem_bin o a b with
            | Some val =>
                Some (val, EBin na (vdim val)
                             (orzero (jac_l o val a b) (vdim val) (vdim a))
                             (orzero (jac_r o val a b) (vdim val) (vdim b)) cl cr)
            | None => None
            end
        | _, _ => None
        end
    | FBoxPlus _ _ | FBoxMinus _ _ => None
    end.

  Definition fexpr_jacobian (na : nat) (m : env) (e : fexpr) (target : leaf)
      : option (oc mat) :=
    match fprepare e with
    | Some (p, _) =>
        match ftree na m p with
        | Some (_, t) => Some (jacobian target t)
        | None => None
        end
    | None => None
    end.

  (** evalWithJacobians() without arguments. *)
  Definition fexpr_evalWithJacobians (na : nat) (m : env) (e : fexpr)
      : option (value * option (list mat)) :=
    match fprepare e with
    | Some (_, t0) =>
        match fprepare_to (plain_output t0) e with
        | Some (p, _) =>
            match ftree na m p with
            | Some (v, t) => Some (v, evaluateWithReverseJacobians t)
            | None => None
            end
        | None => None
        end
    | None => None
    end.
End Eval.
