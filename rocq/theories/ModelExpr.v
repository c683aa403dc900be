(** Model of expressions: how they are built, prepared (conversions inserted),
    evaluated and differentiated.  Citations are to /repo/include/wave/geometry/src. *)

From Coq Require Import Reals List Bool Arith.
From Verif Require Import Mat V3 ModelMeta ModelJac ModelLeaf.
Import ListNotations.
Local Open Scope R_scope.

(** An expression: a leaf object (its address and its type) or an operation node.
    geometry/op/*.hpp, core/storage/{Unary,Binary}Storage.hpp.  Frames are stripped:
    they are types only (geometry/frames/Framed.hpp) and are modelled in
    ModelFrames.v. *)
Inductive expr :=
| XLeaf (a : nat) (t : ty)
| XUn (o : unop) (e : expr)
| XBin (o : binop) (l r : expr).

(** geometry/op/BoxPlus.hpp 47-56, 79-80: x + v for transforms. *)
Definition XBoxPlus (l r : expr) : expr := XBin OComposeFlipped l (XUn OExpMap r).

(** geometry/op/BoxMinus.hpp 40-52, 60-62: x - y for transforms. *)
Definition XBoxMinus (l r : expr) : expr := XUn OLogMap (XBin OCompose l (XUn OInverse r)).

(** ** Which expressions the API lets one build

    The operator overloads and free functions, by BaseTmpl of the operands.
    TransformBase.hpp 126-200 (inverse, log, *, -, +), RotationBase.hpp 58-64 and
    RigidTransformBase.hpp 23-32 (product with a translation), VectorBase.hpp 20-95 and
    285-end, AffineBase.hpp, ScalarBase.hpp 44-75; base type checks: Sum.hpp 15-19 and
    40-68, Subtract.hpp 18-21, base_tmpl (type_traits.hpp 437-462). *)
Definition kind_un (o : unop) (k : kind) : option kind :=
  match o, k with
  | OInverse, (KRot | KRT) => Some k
  | OLogMap, KRot => Some KRel
  | OLogMap, KRT => Some KTwist
  | OExpMap, KRel => Some KRot
  | OExpMap, KTwist => Some KRT
  | OMinus, k => if vec_kind k then Some k else None
  | (OSquaredNorm | ONorm), k => if col_kind k then Some KScalar else None
  | ONormalize, k => if col_kind k then Some k else None
  | OACos, KScalar => Some KScalar
  | ORotation, KRT => Some KRot
  | OTranslation, KRT => Some KTrans
  | OConvert to, k => if kind_eqb (kind_of to) k then Some k else None
  | _, _ => None
  end.

Definition kind_bin (o : binop) (k1 k2 : kind) : option kind :=
  match o, k1, k2 with
  | (OCompose | OComposeFlipped), KRot, KRot => Some KRot
  | (OCompose | OComposeFlipped), KRT, KRT => Some KRT
  | ORotate, KRot, KTrans => Some KTrans
  | OTransform, KRT, KTrans => Some KTrans
  | OSum, KPoint, KTrans | OSum, KTrans, KPoint => Some KPoint
  | OSubtract, KPoint, KTrans => Some KPoint
  | OSubtract, KPoint, KPoint => Some KTrans
  | (OSum | OSubtract), _, _ => if vec_kind k1 && kind_eqb k1 k2 then Some k1 else None
  | OScale, KScalar, k => if col_kind k then Some k else None
  | (OScaleR | OScaleDiv), k, KScalar => if col_kind k then Some k else None
  | (OProduct | ODivide), KScalar, KScalar => Some KScalar
  | ODot, _, _ => if col_kind k1 && kind_eqb k1 k2 then Some KScalar else None
  | _, _, _ => None
  end.

(** Identity<Leaf> exists for transforms, Zero<Leaf> for (non-scalar) vectors:
    Identity.hpp 11-30, Zero.hpp 11-30. *)
Definition wf_ty (t : ty) : bool :=
  match t with
  | Plain _ => true
  | Ident l => match kind_of l with KRot | KRT => true | _ => false end
  | ZeroOf l => col_kind (kind_of l)
  end.

Fixpoint ekind (e : expr) : option kind :=
  match e with
  | XLeaf _ t => if wf_ty t then Some (ty_kind t) else None
  | XUn o e => match ekind e with Some k => kind_un o k | None => None end
  | XBin o l r =>
      match ekind l, ekind r with
      | Some k1, Some k2 => kind_bin o k1 k2
      | _, _ => None
      end
  end.

(** ** Preparation *)

Definition is_some {A} (o : option A) : bool := match o with Some _ => true | None => false end.

(** Is a Convert to [to] of a value of type [from] implemented?
    (is_directly_evaluable_unary<expr<Convert, To>, From>, type_traits.hpp 357-361.) *)
Definition can_convert (from to : ty) : bool :=
  match to with Plain l => is_some (ty_un (OConvert l) from) | _ => false end.

(** Converting a prepared operand: Convert<To, Rhs> (core/op/Convert.hpp). *)
Definition xconvert (t : ty) (p : expr) : expr :=
  match t with Plain l => XUn (OConvert l) p | _ => p end.

(** traits_bases.hpp 88-192 (PreparedType), functions/AddConversions.hpp 43-169,
    functions/PrepareExpr.hpp 15-31: the operand is prepared, then the first workable
    conversion is applied to it, and the node is rebound.  Returns the prepared
    expression and its EvalType; [None]: does not compile. *)
Fixpoint prepare (e : expr) : option (expr * ty) :=
  match e with
  | XLeaf a t => Some (XLeaf a t, t)
  | XUn o e =>
      match prepare e with
      | None => None
      | Some (p, t) =>
          match choose_unary can_convert (fun t => is_some (ty_un o t)) t (convert_to t) with
          | Some UDirect => option_map (fun r => (XUn o p, r)) (ty_un o t)
          | Some (UConvert t') =>
              option_map (fun r => (XUn o (xconvert t' p), r)) (ty_un o t')
          | None => None
          end
      end
  | XBin o l r =>
      match prepare l, prepare r with
      | Some (pl, tl), Some (pr, tr) =>
          match choose_binary can_convert (fun a b => is_some (ty_bin o a b)) tl tr
                  (convert_to tl) (convert_to tr) with
          | Some BDirect => option_map (fun t => (XBin o pl pr, t)) (ty_bin o tl tr)
          | Some (BConvertRight tr') =>
              option_map (fun t => (XBin o pl (xconvert tr' pr), t)) (ty_bin o tl tr')
          | Some (BConvertLeft tl') =>
              option_map (fun t => (XBin o (xconvert tl' pl) pr, t)) (ty_bin o tl' tr)
          | Some (BConvertBoth tl' tr') =>
              option_map (fun t => (XBin o (xconvert tl' pl) (xconvert tr' pr), t))
                (ty_bin o tl' tr')
          | None => None
          end
      | _, _ => None
      end
  end.

(** functions/PrepareOutput.hpp 39-71: prepareEvaluatorTo<Destination>. *)
Definition prepare_to (dest : ty) (e : expr) : option (expr * ty) :=
  match prepare e with
  | None => None
  | Some (p, t) =>
      if ty_eqb dest t then Some (p, t)
      else match dest with
           | Plain l => prepare (XUn (OConvert l) e)
           | _ => None
           end
  end.

(** plain_output_t: the PlainType of the EvalType (Identity and Zero inherit their
    leaf's, Identity.hpp 42-44, Zero.hpp 41-43). *)
Definition plain_output (t : ty) : ty := Plain (ty_leaf t).

(** ** Evaluation *)
Section Eval.
  Variable eps : R.

  (** The leaf objects in memory, by address. *)
  Definition env := nat -> value.

  (** functions/Evaluator.hpp 28-105: bottom-up evaluation of a prepared tree. *)
  Fixpoint eval_p (m : env) (p : expr) : option value :=
    match p with
    | XLeaf a _ => Some (m a)
    | XUn o p => match eval_p m p with Some v => sem_un eps o v | None => None end
    | XBin o l r =>
        match eval_p m l, eval_p m r with
        | Some a, Some b => sem_bin o a b
        | _, _ => None
        end
    end.

  (** evaluateTo<Destination>: functions/PrepareOutput.hpp 92-99. *)
  Definition evaluateTo (dest : ty) (m : env) (e : expr) : option value :=
    match prepare_to dest e with
    | Some (p, _) => eval_p m p
    | None => None
    end.

  (** eval() of an expression: ExpressionBase.hpp 42-52, PrepareOutput.hpp 108-121. *)
  Definition eval (m : env) (e : expr) : option value :=
    match prepare e with
    | Some (_, t) => evaluateTo (plain_output t) m e
    | None => None
    end.

  (** ** Differentiation *)

  Definition lty_code (l : lty) : nat :=
    match l with
    | LScalar => 0 | LTrans => 1 | LRel => 2 | LPoint => 3 | LTwist => 4 | LQuat => 5
    | LMat => 6 | LAA => 7 | LMatRT => 8 | LCompRT => 9
    end.
  Definition ty_code (t : ty) : nat :=
    match t with
    | Plain l => lty_code l
    | Ident l => 10 + lty_code l
    | ZeroOf l => 20 + lty_code l
    end.

  (** A leaf object as the Jacobian evaluators see it. *)
  Definition leaf_obj (a : nat) (t : ty) : leaf :=
    Leaf a (LType (ty_code t) (tsize (ty_kind t))).

  Definition orzero (o : option mat) (r c : nat) : mat :=
    match o with Some J => J | None => mzero r c end.

  (** The evaluated tree of a prepared expression, with the local Jacobians the
      evaluators would compute at each node.  [na] stands for the address of an
      operation node (they are temporaries inside the evaluator; one number is used for
      all, since the evaluators only compare them with leaf addresses).  Where no local
      Jacobian is computable the matrix is a placeholder; theorems about targets below
      such a node exclude it explicitly. *)
  Fixpoint tree (na : nat) (m : env) (p : expr) : option (value * etree) :=
    match p with
    | XLeaf a t => Some (m a, ELeaf (leaf_obj a t))
    | XUn o p =>
        match tree na m p with
        | Some (v, c) =>
            match sem_un eps o v with
            | Some val =>
                Some (val, EUn na (vdim val) (orzero (jac_un eps o val v) (vdim val) (vdim v)) c)
            | None => None
            end
        | None => None
        end
    | XBin o l r =>
        match tree na m l, tree na m r with
        | Some (a, cl), Some (b, cr) =>
            match sem_bin o a b with
            | Some val =>
                Some (val, EBin na (vdim val)
                             (orzero (jac_l o val a b) (vdim val) (vdim a))
                             (orzero (jac_r o val a b) (vdim val) (vdim b)) cl cr)
            | None => None
            end
        | _, _ => None
        end
    end.

  (** Whether every local Jacobian that expr.jacobian(x) multiplies together, x being the
      object at address [a], is a finite matrix: the evaluators compute the local
      Jacobian of a node only for operands that contain the target
      (JacobianEvaluator.hpp 85-248). *)
  Definition is_def {A} (o : option A) : bool := match o with Some _ => true | None => false end.
  Fixpoint mentions (a : nat) (p : expr) : bool :=
    match p with
    | XLeaf b _ => (b =? a)%nat
    | XUn _ p => mentions a p
    | XBin _ l r => mentions a l || mentions a r
    end.
  Fixpoint jac_defined (m : env) (a : nat) (p : expr) : bool :=
    match p with
    | XLeaf _ _ => true
    | XUn o p =>
        jac_defined m a p &&
        match eval_p m p with
        | Some v =>
            match sem_un eps o v with
            | Some val => negb (mentions a p) || is_def (jac_un eps o val v)
            | None => false
            end
        | None => false
        end
    | XBin o l r =>
        jac_defined m a l && jac_defined m a r &&
        match eval_p m l, eval_p m r with
        | Some x, Some y =>
            match sem_bin o x y with
            | Some val =>
                (negb (mentions a l) || is_def (jac_l o val x y)) &&
                (negb (mentions a r) || is_def (jac_r o val x y))
            | None => false
            end
        | _, _ => false
        end
    end.
  (** jacobian(x) with respect to the object at [a] contains no infinity or NaN. *)
  Definition expr_jacobian_defined (m : env) (e : expr) (a : nat) : bool :=
    match prepare e with Some (p, _) => jac_defined m a p | None => false end.

  (** expr.jacobian(x): ExpressionBase.hpp 55-60, TypedJacobianEvaluator.hpp 254-326,
      JacobianEvaluator.hpp 350-357.  Prepared for the EvalType, so no conversion at
      the root. *)
  Definition expr_jacobian (na : nat) (m : env) (e : expr) (target : leaf) : option (oc mat) :=
    match prepare e with
    | Some (p, _) =>
        match tree na m p with
        | Some (_, t) => Some (jacobian target t)
        | None => None
        end
    | None => None
    end.

  (** expr.evalWithJacobians(x): ExpressionBase.hpp 74-78, TypedJacobianEvaluator.hpp
      285-349, JacobianEvaluator.hpp 365-374.  Prepared for the plain output type. *)
  Definition expr_evalWithJacobian (na : nat) (m : env) (e : expr) (target : leaf)
      : option (value * oc mat) :=
    match prepare e with
    | Some (_, t0) =>
        match prepare_to (plain_output t0) e with
        | Some (p, _) =>
            match tree na m p with
            | Some (v, t) => Some (v, evalWithJacobian target t)
            | None => None
            end
        | None => None
        end
    | None => None
    end.

  (** expr.evalWithJacobians(): ExpressionBase.hpp 65-70, ReverseJacobianEvaluator.hpp
      224-242. *)
  Definition expr_evalWithJacobians (na : nat) (m : env) (e : expr)
      : option (value * option (list mat)) :=
    match prepare e with
    | Some (_, t0) =>
        match prepare_to (plain_output t0) e with
        | Some (p, _) =>
            match tree na m p with
            | Some (v, t) => Some (v, evaluateWithReverseJacobians t)
            | None => None
            end
        | None => None
        end
    | None => None
    end.

  (** evaluateWithDynamicReverseJacobians: DynamicReverseJacobianEvaluator.hpp 246-258. *)
  Definition expr_evaluateWithDynamicReverse (g : nat -> nat -> R) (na : nat) (m : env)
      (e : expr) : option (value * option MatrixMap) :=
    match prepare e with
    | Some (_, t0) =>
        match prepare_to (plain_output t0) e with
        | Some (p, _) =>
            match tree na m p with
            | Some (v, t) => Some (v, evaluateDynamicReverseJacobians g t)
            | None => None
            end
        | None => None
        end
    | None => None
    end.

  (** evaluateWithDynamicJacobians: DynamicJacobianEvaluator.hpp 296-305. *)
  Definition expr_evaluateWithDynamic (na : nat) (m : env) (e : expr) (target : leaf)
      : option (value * mat) :=
    match prepare e with
    | Some (_, t0) =>
        match prepare_to (plain_output t0) e with
        | Some (p, _) =>
            match tree na m p with
            | Some (v, t) => Some (v, evaluateDynamicJacobian target t)
            | None => None
            end
        | None => None
        end
    | None => None
    end.
End Eval.
