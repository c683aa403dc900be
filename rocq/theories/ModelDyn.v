(** Model of expression objects in memory, of Dynamic, Proxy and RefProxy, and of the
    evaluation and dynamic differentiation of expressions that contain them.  Citations
    are relative to /repo/include/wave/geometry/src.

    In ModelExpr.v an expression is a tree over the addresses of its leaves.  Here the
    objects that hold such trees are modelled: what each operation object stores for
    each operand (a leaf by value, a reference to another object, or a proxy by value),
    what a proxy points at, and the evaluator each Dynamic object caches. *)

From Coq Require Import Reals List Arith Bool.
From Verif Require Import Mat ModelMeta ModelJac ModelLeaf ModelExpr.
Import ListNotations.

(** What an operation object holds for an operand: core/storage/UnaryStorage.hpp 12-70,
    BinaryStorage.hpp 12-57 with the member types picked by RefSelector.hpp 28-44.
    A leaf member held by value is an object of its own, at address [i]; its value is in
    the memory [vals].  A proxy held by value is the address of the Dynamic it points at
    (dynamic/RefProxy.hpp 41-74: a pointer; dynamic/Proxy.hpp 28-60: a shared_ptr) and
    its leaf type. *)
Inductive node :=
| NOwn (i : nat) (t : ty)
| NRef (a : nat)
| NProxy (d : nat) (l : lty)
| NUn (o : unop) (n : node)
| NBin (o : binop) (n1 n2 : node).

(** Objects with an address: a leaf, an operation expression, a Dynamic expression
    (Dynamic.hpp 18-122; [l] is its output type plain_output_t) and a proxy variable. *)
Inductive obj :=
| OLeaf (t : ty)
| OExpr (n : node)
| ODyn (n : node) (l : lty)
| OProxy (d : nat) (l : lty).

(** The memory: values of leaf objects, the live objects ([None]: no live object there),
    and the lazy_evaluator member of each Dynamic (Dynamic.hpp 121-122), which is the
    evaluated tree of its expression. *)
Record state := State {
  vals : env;
  objs : nat -> option obj;
  cache : nat -> option (value * etree)
}.

Definition setf {A} (f : nat -> A) (a : nat) (x : A) : nat -> A :=
  fun b => if (b =? a)%nat then x else f b.

Definition is_dyn (s : state) (a : nat) : bool :=
  match objs s a with Some (ODyn _ _) => true | _ => false end.

(** The expression an evaluator sees when it is given [n]: references to expression
    objects are followed; a proxy is a node without operands (Proxy.hpp 89-93:
    prepareExpr of a proxy is the proxy itself), which appears here as a leaf at the
    address of the Dynamic it points at.  A Dynamic used directly as an operand is a
    unary operation returning its operand's value (Dynamic.hpp 144-171), and is left
    out.  [None]: a reference to an object that no longer exists, a proxy of another
    type than its Dynamic (not constructible in C++), or two objects at one address.
    [f] bounds the nesting of references: in C++ it is bounded by the type of the
    expression. *)
Fixpoint outline (f : nat) (s : state) (n : node) : option expr :=
  match f with
  | 0%nat => None
  | S f =>
      match n with
      | NOwn i t => if is_dyn s i then None else Some (XLeaf i t)
      | NRef a =>
          match objs s a with
          | Some (OLeaf t) => Some (XLeaf a t)
          | Some (OExpr n') => outline f s n'
          | Some (ODyn n' _) => outline f s n'
          | Some (OProxy d l) => outline f s (NProxy d l)
          | None => None
          end
      | NProxy d l =>
          match objs s d with
          | Some (ODyn _ l') => if lty_eqb l l' then Some (XLeaf d (Plain l)) else None
          | _ => None
          end
      | NUn o n => option_map (XUn o) (outline f s n)
      | NBin o n1 n2 =>
          match outline f s n1, outline f s n2 with
          | Some e1, Some e2 => Some (XBin o e1 e2)
          | _, _ => None
          end
      end
  end.

Section Dyn.
  Variable eps : R.
  (** Address of the operation nodes held by evaluators, as in [tree]. *)
  Variable na : nat.

  (** functions/Evaluator.hpp 28-105 and Proxy.hpp 95-110: constructing the evaluator of
      a prepared expression.  A proxy's evaluator calls dynEvaluate() of the Dynamic it
      points at, which changes that Dynamic's cached evaluator.  The local Jacobians are
      recorded with the tree; the code computes them when asked, from the values the
      evaluator holds. *)
  Fixpoint ev (dynev : state -> nat -> option (value * state)) (s : state) (p : expr)
      : option (value * etree * state) :=
    match p with
    | XLeaf a t =>
        if is_dyn s a then
          match dynev s a with
          | Some (v, s') => Some (v, ELeaf (leaf_obj a t), s')
          | None => None
          end
        else Some (vals s a, ELeaf (leaf_obj a t), s)
    | XUn o p =>
        match ev dynev s p with
        | Some (v, c, s') =>
            match sem_un eps o v with
            | Some val =>
                Some (val,
                      EUn na (vdim val) (orzero (jac_un eps o val v) (vdim val) (vdim v)) c, s')
            | None => None
            end
        | None => None
        end
    | XBin o l r =>
        match ev dynev s l with
        | Some (a, cl, s1) =>
            match ev dynev s1 r with
            | Some (b, cr, s2) =>
                match sem_bin o a b with
                | Some val =>
                    Some (val, EBin na (vdim val)
                                 (orzero (jac_l o val a b) (vdim val) (vdim a))
                                 (orzero (jac_r o val a b) (vdim val) (vdim b)) cl cr, s2)
                | None => None
                end
            | None => None
            end
        | None => None
        end
    end.

  (** Dynamic.hpp 39-45, 59-62: dynEvaluate constructs a new evaluator from the current
      operand, whatever was cached, keeps it, and returns its value. *)
  Fixpoint dynEvaluate (f : nat) (s : state) (d : nat) : option (value * state) :=
    match f with
    | 0%nat => None
    | S f =>
        match objs s d with
        | Some (ODyn n _) =>
            match outline f s n with
            | Some e =>
                match prepare e with
                | Some (p, _) =>
                    match ev (dynEvaluate f) s p with
                    | Some (v, t, s') =>
                        Some (v, State (vals s') (objs s') (setf (cache s') d (Some (v, t))))
                    | None => None
                    end
                | None => None
                end
            | None => None
            end
        | _ => None
        end
    end.

  (** Dynamic.hpp 47-52: evaluator() constructs only if there is none. *)
  Definition evaluator (f : nat) (s : state) (d : nat) : option (value * etree) :=
    match cache s d with
    | Some c => Some c
    | None => match dynEvaluate f s d with
              | Some (_, s') => cache s' d
              | None => None
              end
    end.

  (** functions/DynamicJacobianEvaluator.hpp 22-248, and Proxy.hpp 112-135 for proxies:
      the identity if the target is what the proxy points at, else dynJacobian of that
      Dynamic (Dynamic.hpp 64-69), which uses the cached evaluator. *)
  Fixpoint djac (dj : nat -> option mat) (s : state) (t : nat) (T : etree) : option mat :=
    match T with
    | ELeaf l =>
        if is_dyn s (l_addr l) then
          if (l_addr l =? t)%nat then Some (mid (l_dim l)) else dj (l_addr l)
        else Some (if (l_addr l =? t)%nat then mid (l_dim l) else mempty)
    | EUn a n J c =>
        if (a =? t)%nat then Some (mid n)
        else match djac dj s t c with
             | Some jc => Some (if nonempty jc then mmul J jc else mempty)
             | None => None
             end
    | EBin a n JL JR l r =>
        if (a =? t)%nat then Some (mid n)
        else match djac dj s t l, djac dj s t r with
             | Some jl, Some jr =>
                 Some (if nonempty jl && nonempty jr then madd (mmul JL jl) (mmul JR jr)
                       else if nonempty jl then mmul JL jl
                       else if nonempty jr then mmul JR jr
                       else mempty)
             | _, _ => None
             end
    end.

  Fixpoint dynJacobian (f : nat) (s : state) (t : nat) (d : nat) : option mat :=
    match f with
    | 0%nat => None
    | S f => match evaluator f s d with
             | Some (_, T) => djac (dynJacobian f s t) s t T
             | None => None
             end
    end.

  (** functions/DynamicReverseJacobianEvaluator.hpp 73-195, and Proxy.hpp 171-180 for
      proxies: dynReverse (Dynamic.hpp 72-81) goes on in the cached evaluator. *)
  Fixpoint drev (dr : MatrixMap -> mat -> nat -> option MatrixMap) (s : state)
      (m : MatrixMap) (adj : mat) (T : etree) : option MatrixMap :=
    match T with
    | ELeaf l => if is_dyn s (l_addr l) then dr m adj (l_addr l) else mm_add m (l_addr l) adj
    | EUn _ _ J c => drev dr s m (mmul adj J) c
    | EBin _ _ JL JR l r =>
        match drev dr s m (mmul adj JL) l with
        | Some m' => drev dr s m' (mmul adj JR) r
        | None => None
        end
    end.

  Fixpoint dynReverse (f : nat) (s : state) (m : MatrixMap) (adj : mat) (d : nat)
      : option MatrixMap :=
    match f with
    | 0%nat => None
    | S f => match evaluator f s d with
             | Some (_, T) => drev (dynReverse f s) s m adj T
             | None => None
             end
    end.

  (** getLeaves (DynamicReverseJacobianEvaluator.hpp 31-47): through proxies by dynLeaves
      (Proxy.hpp 240-255, Dynamic.hpp 55-57), which reads the Dynamic's operand and not
      its cached evaluator.  The second component is the leaf's TangentSize. *)
  Fixpoint xleaves (dl : nat -> option (list (nat * nat))) (s : state) (e : expr)
      : option (list (nat * nat)) :=
    match e with
    | XLeaf a t => if is_dyn s a then dl a else Some [(a, tsize (ty_kind t))]
    | XUn _ e => xleaves dl s e
    | XBin _ l r =>
        match xleaves dl s l, xleaves dl s r with
        | Some a, Some b => Some (a ++ b)
        | _, _ => None
        end
    end.

  Fixpoint dynLeaves (f : nat) (s : state) (d : nat) : option (list (nat * nat)) :=
    match f with
    | 0%nat => None
    | S f =>
        match objs s d with
        | Some (ODyn n _) =>
            match outline f s n with
            | Some e => xleaves (dynLeaves f s) s e
            | None => None
            end
        | _ => None
        end
    end.

  (** ** The public functions, applied to an expression object *)

  (** prepareEvaluatorTo<plain_output_t<Expr>>: functions/PrepareOutput.hpp 39-71. *)
  Definition prepared (f : nat) (s : state) (n : node) : option expr :=
    match outline f s n with
    | Some e =>
        match prepare e with
        | Some (_, t0) => option_map fst (prepare_to (plain_output t0) e)
        | None => None
        end
    | None => None
    end.

  (** eval(): ExpressionBase.hpp 42-52, PrepareOutput.hpp 108-121. *)
  Definition node_eval (f : nat) (s : state) (n : node) : option (value * state) :=
    match prepared f s n with
    | Some p =>
        match ev (dynEvaluate f) s p with
        | Some (v, _, s') => Some (v, s')
        | None => None
        end
    | None => None
    end.

  (** evaluateWithDynamicJacobians: DynamicJacobianEvaluator.hpp 262-305. [t] is the
      object given to getWrtTarget: a leaf, or for a proxy what it points at
      (Proxy.hpp 235-238, RefProxy.hpp 105-108); [dim] is its TangentSize. *)
  Definition node_withDynamic (f : nat) (s : state) (n : node) (t dim : nat)
      : option (value * mat * state) :=
    match prepared f s n with
    | Some p =>
        match ev (dynEvaluate f) s p with
        | Some (v, T, s') =>
            match djac (dynJacobian f s' t) s' t T with
            | Some j => Some (v, if nonempty j then j else mzero (edim T) dim, s')
            | None => None
            end
        | None => None
        end
    | None => None
    end.

  (** evaluateWithDynamicReverseJacobians: DynamicReverseJacobianEvaluator.hpp 200-258. *)
  Definition node_withReverse (g : nat -> nat -> R) (f : nat) (s : state) (n : node)
      : option (value * MatrixMap * state) :=
    match prepared f s n with
    | Some p =>
        match ev (dynEvaluate f) s p with
        | Some (v, T, s') =>
            match xleaves (dynLeaves f s') s' p with
            | Some ls =>
                match drev (dynReverse f s') s'
                        (mm_setZero (mm_make g (sort_keys ls) (edim T))) (mid (edim T)) T with
                | Some m => Some (v, m, s')
                | None => None
                end
            | None => None
            end
        | None => None
        end
    | None => None
    end.

  (** functions/JacobianEvaluator.hpp 85-248 and Proxy.hpp 137-168: static forward mode.
      A unary operation is differentiated as usual.  A binary operation asks
      contains_same_type (IsSameType.hpp 47-59) of its operands, which has no case for a
      proxy: compile error. *)
  Fixpoint has_proxy (s : state) (T : etree) : bool :=
    match T with
    | ELeaf l => is_dyn s (l_addr l)
    | EUn _ _ _ c => has_proxy s c
    | EBin _ _ _ _ l r => has_proxy s l || has_proxy s r
    end.

  Fixpoint sjac (dj : nat -> option mat) (s : state) (t : leaf) (T : etree)
      : option (oc (option mat)) :=
    match T with
    | ELeaf l =>
        if is_dyn s (l_addr l) then
          if (l_addr l =? l_addr t)%nat then Some (Ok (Some (mid (l_dim l))))
          else match dj (l_addr l) with
               | Some j => Some (Ok (if nonempty j then Some j else None))
               | None => None
               end
        else Some (fwd t T)
    | EUn _ _ J c =>
        match sjac dj s t c with
        | Some (Ok (Some jc)) => Some (Ok (Some (mmul J jc)))
        | Some (Ok None) => Some (Ok None)
        | Some NoCompile => Some NoCompile
        | None => None
        end
    | EBin _ _ _ _ _ _ => if has_proxy s T then Some NoCompile else Some (fwd t T)
    end.

  (** jacobian(target): ExpressionBase.hpp 55-60, JacobianEvaluator.hpp 333-357.  With a
      proxy among the leaves UniqueLeaves is false (Proxy.hpp 222-223), so the leaves are
      told apart by address. *)
  Definition node_jacobian (f : nat) (s : state) (n : node) (t : leaf) : option (oc mat * state) :=
    match outline f s n with
    | Some e =>
        match prepare e with
        | Some (p, _) =>
            match ev (dynEvaluate f) s p with
            | Some (_, T, s') =>
                if has_proxy s' T then
                  match sjac (dynJacobian f s' (l_addr t)) s' t T with
                  | Some (Ok (Some j)) => Some (Ok j, s')
                  | Some (Ok None) => Some (Ok (mzero (edim T) (l_dim t)), s')
                  | Some NoCompile => Some (NoCompile, s')
                  | None => None
                  end
                else Some (jacobian t T, s')
            | None => None
            end
        | None => None
        end
    | None => None
    end.

  (** ** Histories *)

  (** What a program can do to these objects: assign a leaf; construct, assign or destroy
      an object (a Dynamic constructed from an expression has no evaluator yet); copy a
      Dynamic, which copies the cached evaluator too (Dynamic.hpp 34-35, 121-122: no
      user-declared copy operations); and call the public functions. *)
  Inductive action :=
  | ASet (a : nat) (v : value)
  | APut (a : nat) (o : option obj)
  | ACopyDyn (a b : nat)
  | AEval (f : nat) (n : node)
  | AForward (f : nat) (n : node) (t dim : nat)
  | AReverse (g : nat -> nat -> R) (f : nat) (n : node).

  Definition act (s : state) (x : action) : option state :=
    match x with
    | ASet a v => Some (State (setf (vals s) a v) (objs s) (cache s))
    | APut a o => Some (State (vals s) (setf (objs s) a o) (setf (cache s) a None))
    | ACopyDyn a b => Some (State (vals s) (setf (objs s) b (objs s a))
                                  (setf (cache s) b (cache s a)))
    | AEval f n => option_map snd (node_eval f s n)
    | AForward f n t dim => option_map snd (node_withDynamic f s n t dim)
    | AReverse g f n => option_map snd (node_withReverse g f s n)
    end.

  Fixpoint history (h : list action) (s : state) : option state :=
    match h with
    | [] => Some s
    | x :: h => match act s x with Some s' => history h s' | None => None end
    end.
End Dyn.
