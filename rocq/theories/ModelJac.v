(** Model of the Jacobian evaluators: how local derivatives are combined over an
    expression tree.  Citations are relative to
    /repo/include/wave/geometry/src/core/functions unless said otherwise.

    The input is the tree that exists after an [Evaluator] has been constructed:
    every node is evaluated, so its jacobianImpl / leftJacobianImpl /
    rightJacobianImpl are fixed matrices.  How these matrices come about for each
    operation is modelled in ModelExpr.v, which produces such trees. *)

From Coq Require Import Reals List Arith Bool.
From Verif Require Import Mat ModelMeta.
Import ListNotations.

(** A C++ type of a leaf, with its TangentSize
    (core/traits/traits_bases.hpp 50-59 and the traits of each leaf). *)
Record ltype := LType { ty_id : nat; ty_dim : nat }.

Definition ltype_eqb (a b : ltype) : bool :=
  ((ty_id a =? ty_id b) && (ty_dim a =? ty_dim b))%nat.

(** A leaf object: its address and its type. *)
Record leaf := Leaf { l_addr : nat; l_type : ltype }.

Definition l_dim (l : leaf) : nat := ty_dim (l_type l).

(** Evaluated expression tree (Evaluator.hpp 28-105).  [a] is the address of the
    (prepared) node object held by the evaluator, [n] its TangentSize, and the
    matrices its local Jacobians. *)
Inductive etree :=
| ELeaf (l : leaf)
| EUn (a n : nat) (J : mat) (c : etree)
| EBin (a n : nat) (JL JR : mat) (l r : etree).

Definition edim (e : etree) : nat :=
  match e with
  | ELeaf l => l_dim l
  | EUn _ n _ _ => n
  | EBin _ n _ _ _ _ => n
  end.

(** IsSameType.hpp 47-59: contains_same_type.  The target is a leaf type, so
    [is_same] never holds at an operation node. *)
Fixpoint contains_same_type (t : ltype) (e : etree) : bool :=
  match e with
  | ELeaf l => ltype_eqb (l_type l) t
  | EUn _ _ _ c => contains_same_type t c
  | EBin _ _ _ _ l r => contains_same_type t l || contains_same_type t r
  end.

(** core/traits/type_traits.hpp 407-434: has_unique_leaves_{leaf,unary,binary}. *)
Fixpoint unique_leaves (e : etree) : option (list ltype) :=
  match e with
  | ELeaf l => Some [l_type l]
  | EUn _ _ _ c => unique_leaves c
  | EBin _ _ _ _ l r =>
      match unique_leaves l, unique_leaves r with
      | Some a, Some b => concat_if_unique ltype_eqb a b
      | _, _ => None
      end
  end.

(** IsSame.hpp 23-49 on leaves: same type and same address. *)
Definition is_same (l target : leaf) : bool :=
  ltype_eqb (l_type l) (l_type target) && (l_addr l =? l_addr target)%nat.

(** ** Forward mode, identity by address (JacobianEvaluator.hpp) *)

(** JacobianEvaluator.hpp 35-64 (same type), 67-81 (other leaf), 85-115 (unary),
    118-174 / 177-211 / 214-248 (binary; both sides, lhs only, rhs only contain
    the target type).  A binary node with the type on neither side matches no
    specialization: compile error.  [None] is boost::none. *)
Fixpoint fwd (t : leaf) (e : etree) : oc (option mat) :=
  match e with
  | ELeaf l =>
      if ltype_eqb (l_type l) (l_type t)
      then (if is_same l t then Ok (Some (mid (l_dim l))) else Ok None)
      else Ok None
  | EUn _ _ J c =>
      match fwd t c with
      | Ok (Some jc) => Ok (Some (mmul J jc))
      | Ok None => Ok None
      | NoCompile => NoCompile
      end
  | EBin _ _ JL JR l r =>
      match contains_same_type (l_type t) l, contains_same_type (l_type t) r with
      | true, true =>
          match fwd t l, fwd t r with
          | Ok (Some jl), Ok (Some jr) => Ok (Some (madd (mmul JL jl) (mmul JR jr)))
          | Ok (Some jl), Ok None => Ok (Some (mmul JL jl))
          | Ok None, Ok (Some jr) => Ok (Some (mmul JR jr))
          | Ok None, Ok None => Ok None
          | _, _ => NoCompile
          end
      | true, false =>
          match fwd t l with
          | Ok (Some jl) => Ok (Some (mmul JL jl))
          | Ok None => Ok None
          | NoCompile => NoCompile
          end
      | false, true =>
          match fwd t r with
          | Ok (Some jr) => Ok (Some (mmul JR jr))
          | Ok None => Ok None
          | NoCompile => NoCompile
          end
      | false, false => NoCompile
      end
  end.

(** JacobianEvaluator.hpp 333-343: evaluateOneJacobian; none becomes Zero(). *)
Definition evaluateJacobian (t : leaf) (e : etree) : oc mat :=
  match fwd t e with
  | Ok (Some j) => Ok j
  | Ok None => Ok (mzero (edim e) (l_dim t))
  | NoCompile => NoCompile
  end.

(** ** Forward mode, identity by type (TypedJacobianEvaluator.hpp) *)

(** TypedJacobianEvaluator.hpp 19-39, 42-83, 86-148, 151-197, 200-247.  Nodes that
    do not contain the target type match no specialization. *)
Fixpoint typed (t : ltype) (e : etree) : oc mat :=
  match e with
  | ELeaf l => if ltype_eqb (l_type l) t then Ok (mid (l_dim l)) else NoCompile
  | EUn _ _ J c =>
      if contains_same_type t c then
        match typed t c with Ok jc => Ok (mmul J jc) | NoCompile => NoCompile end
      else NoCompile
  | EBin _ _ JL JR l r =>
      match contains_same_type t l, contains_same_type t r with
      | true, true =>
          match typed t l, typed t r with
          | Ok jl, Ok jr => Ok (madd (mmul JL jl) (mmul JR jr))
          | _, _ => NoCompile
          end
      | true, false => match typed t l with Ok jl => Ok (mmul JL jl) | _ => NoCompile end
      | false, true => match typed t r with Ok jr => Ok (mmul JR jr) | _ => NoCompile end
      | false, false => NoCompile
      end
  end.

(** TypedJacobianEvaluator.hpp 254-278: evaluateTypedJacobian.  The debug-only
    assertion of line 260 is not part of the model (it is compiled out with
    NDEBUG); its condition appears as a hypothesis in the theorems instead. *)
Definition evaluateTypedJacobian (t : leaf) (e : etree) : oc mat :=
  if contains_same_type (l_type t) e then typed (l_type t) e
  else Ok (mzero (edim e) (l_dim t)).

(** TypedJacobianEvaluator.hpp 310-326: evaluateJacobianAuto, called by
    ExpressionBase::jacobian (core/base/ExpressionBase.hpp 55-60). *)
Definition jacobian (t : leaf) (e : etree) : oc mat :=
  match unique_leaves e with
  | Some _ => evaluateTypedJacobian t e
  | None => evaluateJacobian t e
  end.

(** TypedJacobianEvaluator.hpp 285-301 and 333-349: evalWithJacobians(targets...);
    in the typed case TypedJacobianEvaluator is instantiated without the
    contains_same_type guard. *)
Definition evalWithJacobian (t : leaf) (e : etree) : oc mat :=
  match unique_leaves e with
  | Some _ => typed (l_type t) e
  | None => evaluateJacobian t e
  end.

(** ** Dynamic forward mode (DynamicJacobianEvaluator.hpp) *)

(** An Eigen dynamic matrix with size() == 0 represents zero. *)
Definition mempty : mat := mzero 0 0.
Definition msize (A : mat) : nat := (mrows A * mcols A)%nat.
Definition nonempty (A : mat) : bool := (0 <? msize A)%nat.

(** DynamicJacobianEvaluator.hpp 22-50, 53-95, 98-171.  The target is a bare
    address; node addresses are compared too (IsSame.hpp 67-76). *)
Fixpoint dyn (t : nat) (e : etree) : mat :=
  match e with
  | ELeaf l => if (l_addr l =? t)%nat then mid (l_dim l) else mempty
  | EUn a n J c =>
      if (a =? t)%nat then mid n
      else let jc := dyn t c in
           if nonempty jc then mmul J jc else mempty
  | EBin a n JL JR l r =>
      if (a =? t)%nat then mid n
      else let jl := dyn t l in
           let jr := dyn t r in
           if nonempty jl && nonempty jr then madd (mmul JL jl) (mmul JR jr)
           else if nonempty jl then mmul JL jl
           else if nonempty jr then mmul JR jr
           else mempty
  end.

(** DynamicJacobianEvaluator.hpp 262-288. *)
Definition evaluateDynamicJacobian (t : leaf) (e : etree) : mat :=
  let j := dyn (l_addr t) e in
  if nonempty j then j else mzero (edim e) (l_dim t).

(** ** Static reverse mode (ReverseJacobianEvaluator.hpp) *)

(** ReverseJacobianEvaluator.hpp 24-41, 44-82, 85-145: the tuple of leaf
    Jacobians, concatenated left to right (140-144). *)
Fixpoint rev (adj : mat) (e : etree) : list mat :=
  match e with
  | ELeaf l => [adj]
  | EUn _ _ J c => rev (mmul adj J) c
  | EBin _ _ JL JR l r => (rev (mmul adj JL) l ++ rev (mmul adj JR) r)%list
  end.

(** ReverseJacobianEvaluator.hpp 205-242 and ExpressionBase.hpp 65-70:
    evalWithJacobians(); [None] is the static_assert for non-unique leaves. *)
Definition evaluateWithReverseJacobians (e : etree) : option (list mat) :=
  match unique_leaves e with
  | Some _ => Some (rev (mid (edim e)) e)
  | None => None
  end.

(** ** Dynamic reverse mode (DynamicReverseJacobianEvaluator.hpp) *)

(** DynamicReverseJacobianEvaluator.hpp 31-45: getLeaves. *)
Fixpoint getLeaves (e : etree) : list (nat * nat) :=
  match e with
  | ELeaf l => [(l_addr l, l_dim l)]
  | EUn _ _ _ c => getLeaves c
  | EBin _ _ _ _ l r => (getLeaves l ++ getLeaves r)%list
  end.

(** DynamicReverseJacobianEvaluator.hpp 48-61: sorted by address; std::sort is
    modelled by insertion sort.  std::sort is not stable, but entries with equal
    keys are only distinguishable by their widths (see the theorem's hypothesis). *)
Fixpoint insert_key (x : nat * nat) (l : list (nat * nat)) : list (nat * nat) :=
  match l with
  | [] => [x]
  | y :: tl => if (fst x <=? fst y)%nat then x :: l else y :: insert_key x tl
  end.

Fixpoint sort_keys (l : list (nat * nat)) : list (nat * nat) :=
  match l with
  | [] => []
  | x :: tl => insert_key x (sort_keys tl)
  end.

Definition getLeavesMap (e : etree) : list (nat * nat) := sort_keys (getLeaves e).

(** DynamicReverseJacobianEvaluator.hpp 73-90 (leaf: accumulate), 93-132, 135-195.
    [None] is a failed Eigen size assertion. *)
Fixpoint dynrev (m : MatrixMap) (adj : mat) (e : etree) : option MatrixMap :=
  match e with
  | ELeaf l => mm_add m (l_addr l) adj
  | EUn _ _ J c => dynrev m (mmul adj J) c
  | EBin _ _ JL JR l r =>
      match dynrev m (mmul adj JL) l with
      | Some m' => dynrev m' (mmul adj JR) r
      | None => None
      end
  end.

(** DynamicReverseJacobianEvaluator.hpp 229-240. *)
Definition evaluateDynamicReverseJacobians (garbage : nat -> nat -> R) (e : etree)
  : option MatrixMap :=
  let m := mm_setZero (mm_make garbage (getLeavesMap e) (edim e)) in
  dynrev m (mid (edim e)) e.

(** ** N-ary (compound) expressions at the root of a tree *)

(** Tangent sizes of the elements (core/storage/NaryStorage.hpp 112-137). *)
Definition nary_sizes (cs : list etree) : list nat := map edim cs.
Definition nary_dim (cs : list etree) : nat := sum_sequence (nary_sizes cs).

(** JacobianEvaluator.hpp 291-302: combineChildJacobians.  [children] is the tuple
    of the child evaluators that were kept; [i] is the index *in that tuple*, and
    it is also the index used with rowsWrt. *)
Fixpoint combineChildJacobians (t : leaf) (sizes : list nat) (i : nat)
    (children : list etree) (jac : mat) : oc mat :=
  match children with
  | [] => Ok jac
  | c :: tl =>
      match fwd t c with
      | NoCompile => NoCompile
      | Ok oj =>
          (* the assignment is compiled whether or not it is executed *)
          match set_rowsWrt sizes jac i
                  (match oj with Some j => j | None => mzero (edim c) (l_dim t) end) with
          | NoCompile => NoCompile
          | Ok jac' =>
              combineChildJacobians t sizes (S i) tl
                (match oj with Some _ => jac' | None => jac end)
          end
      end
  end.

(** JacobianEvaluator.hpp 252-329 and 333-343. *)
Definition nary_fwd (t : leaf) (cs : list etree) : oc mat :=
  let sel := filter (contains_same_type (l_type t)) cs in
  match sel with
  | [] => Ok (mzero (nary_dim cs) (l_dim t))
  | _ :: _ => combineChildJacobians t (nary_sizes cs) 0 sel (mzero (nary_dim cs) (l_dim t))
  end.

(** DynamicJacobianEvaluator.hpp 198-228.  [garbage] is the content of the matrix
    after resize(). *)
Fixpoint dyn_combine (garbage : nat -> nat -> R) (t dim : nat)
    (cs : list etree) (row_reached : nat) (jac : mat) : mat :=
  match cs with
  | [] => jac
  | c :: tl =>
      let cj := dyn t c in
      let jac' :=
        if nonempty cj then
          let jac1 :=
            if nonempty jac then jac
            else
              let j0 := Mat dim (mcols cj) garbage in
              mset_block j0 0 0 row_reached (mcols cj) (mzero row_reached (mcols cj)) in
          mset_block jac1 row_reached 0 (edim c) (mcols jac1) cj
        else if nonempty jac then
          mset_block jac row_reached 0 (edim c) (mcols jac) (mzero (edim c) (mcols jac))
        else jac in
      dyn_combine garbage t dim tl (row_reached + edim c) jac'
  end.

(** DynamicJacobianEvaluator.hpp 174-248 and 262-274 on an n-ary root. *)
Definition nary_dyn (garbage : nat -> nat -> R) (t : leaf) (cs : list etree) : mat :=
  let j := dyn_combine garbage (l_addr t) (nary_dim cs) cs 0 mempty in
  if nonempty j then j else mzero (nary_dim cs) (l_dim t).
