(** Model of numerical differentiation by forward differences.  Citations are to
    /repo/include/wave/geometry/src/core/functions/NumericalJacobian.hpp unless another
    file is named. *)

From Coq Require Import Reals List Bool Arith.
From Verif Require Import Mat V3 ModelMeta ModelJac ModelLeaf ModelExpr ModelCompound.
Import ListNotations.
Local Open Scope R_scope.

(** x + d: box-plus for rotations and rigid transforms (geometry/base/TransformBase.hpp
    126-200), Sum for vectors, points and scalars. *)
Definition plus_expr (k : kind) (l r : expr) : expr :=
  match k with KRot | KRT => XBoxPlus l r | _ => XBin OSum l r end.

(** y - x: box-minus, or Subtract. *)
Definition minus_expr (k : kind) (l r : expr) : expr :=
  match k with KRot | KRT => XBoxMinus l r | _ => XBin OSubtract l r end.

Section Eps.
  Variable eps : R.

  (** Lines 75-79 with makeTangent 13-60: value + (delta along one coordinate),
      constructed as the plain type of the value.  Simplification: compounds are not
      modelled. *)
  Definition add_delta (l : lty) (v : value) (coeff : nat) (delta : R) : option value :=
    match mkvec (tangent_leaf l) (fun i => if (i =? coeff)%nat then delta else 0) with
    | Some d =>
        evaluateTo eps (Plain l) (two_leaves v d)
          (plus_expr (kind_of l) (XLeaf 0 (Plain l)) (XLeaf 1 (Plain (tangent_leaf l))))
    | None => None
    end.

  Section Target.
    (** [na]: the address of the (temporary) operation nodes, as in ModelExpr; [target]:
        the address of the object to differentiate by. *)
    Variables (na target coeff : nat) (delta : R) (m : env).

    (** evaluateWithDeltaImpl: lines 65-83. *)
    Definition delta_if (b : nat) (l : lty) (v : value) : option value :=
      if (b =? target)%nat then add_delta l v coeff delta else Some v.

    (** EvaluatorWithDelta: leaf 99-111, unary 114-137, binary 140-172; run on the
        prepared expression of an evaluator.  Returns the value and the EvalType of the
        node.  Each operation is applied to the operands' plain values as a fresh
        expression, prepared again for the node's plain output type. *)
    Fixpoint with_delta (p : expr) : option (value * ty) :=
      match p with
      | XLeaf b t =>
          match evaluateTo eps (plain_output t) m (XLeaf b t) with
          | Some v => option_map (fun w => (w, t)) (delta_if b (ty_leaf t) v)
          | None => None
          end
      | XUn o p =>
          match with_delta p with
          | Some (v, t) =>
              match ty_un o t with
              | Some r =>
                  match evaluateTo eps (plain_output r) (fun _ => v)
                          (XUn o (XLeaf 0 (plain_output t))) with
                  | Some w => option_map (fun w => (w, r)) (delta_if na (ty_leaf r) w)
                  | None => None
                  end
              | None => None
              end
          | None => None
          end
      | XBin o p q =>
          match with_delta p, with_delta q with
          | Some (v1, t1), Some (v2, t2) =>
              match ty_bin o t1 t2 with
              | Some r =>
                  match evaluateTo eps (plain_output r) (two_leaves v1 v2)
                          (XBin o (XLeaf 0 (plain_output t1)) (XLeaf 1 (plain_output t2))) with
                  | Some w => option_map (fun w => (w, r)) (delta_if na (ty_leaf r) w)
                  | None => None
                  end
              | None => None
              end
          | _, _ => None
          end
      end.
  End Target.

  (** One column: lines 236-247 ([value]: 230; diff: the tangent type constructed from
      forward_value - value). *)
  Definition num_column (na target : nat) (delta : R) (m : env) (p : expr) (value : value)
      (i : nat) : option (nat -> R) :=
    match with_delta na target i delta m p with
    | Some (w, t) =>
        let l := ty_leaf t in
        option_map (fun d j => coord d j / delta)
          (evaluateTo eps (Plain (tangent_leaf l)) (two_leaves w value)
             (minus_expr (kind_of l) (XLeaf 0 (Plain l)) (XLeaf 1 (Plain l))))
    | None => None
    end.

  Fixpoint all_some {A} (l : list (option A)) : option (list A) :=
    match l with
    | [] => Some []
    | Some x :: l => option_map (cons x) (all_some l)
    | None :: _ => None
    end.

  (** evaluateNumericalJacobian: lines 222-270.  [delta] is a parameter; the code uses
      sqrt(epsilon) (234). *)
  Definition numericalJacobian (delta : R) (na : nat) (m : env) (e : expr) (target : nat)
      (l : lty) : option mat :=
    match prepare e with
    | Some (_, t) =>
        match prepare_to (plain_output t) e with
        | Some (p, _) =>
            match eval_p eps m p with
            | Some v =>
                let cols := tsize (kind_of l) in
                option_map (fun cs => Mat (tsize (ty_kind t)) cols (fun i j => nth j cs (fun _ => 0) i))
                  (all_some (map (num_column na target delta m p v) (seq 0 cols)))
            | None => None
            end
        | None => None
        end
    | None => None
    end.

  (** evaluateNumericalJacobians(expr, targets...): lines 272-288. *)
  Definition numericalJacobians (delta : R) (na : nat) (m : env) (e : expr)
      (targets : list (nat * lty)) : option (list mat) :=
    all_some (map (fun x => numericalJacobian delta na m e (fst x) (snd x)) targets).

  (** *** Compound expressions *)

  (** The prepared elements: core/functions/PrepareExpr.hpp 34-44.  The plain output type
      of a compound differs from its EvalType when an element evaluates to a symbolic
      Identity or Zero; the conversion PrepareOutput.hpp 56-71 then asks for does not exist
      (n-ary conversions are not implemented, core/storage/NaryStorage.hpp 116-117). *)
  Fixpoint prepare_elements (es : list expr) : option (list expr) :=
    match es with
    | [] => Some []
    | e :: es =>
        match prepare e with
        | Some (p, Plain _) => option_map (cons p) (prepare_elements es)
        | _ => None
        end
    end.

  (** EvaluatorWithDelta, n-ary: lines 175-217.  Simplification: elements are not
      compounds, and the compound itself, a temporary copy of the caller's object, is
      never the target. *)
  Definition compound_with_delta (na target coeff : nat) (delta : R) (m : env)
      (ps : list expr) : option compound :=
    all_some (map (fun p => option_map fst (with_delta na target coeff delta m p)) ps).

  (** One column: lines 236-247.  The difference of compounds is taken element by element
      and copied into a vector ([garbage]: its uninitialised content). *)
  Definition compound_column (garbage : nat -> R) (na target : nat) (delta : R) (m : env)
      (ps : list expr) (value : compound) (i : nat) : option (nat -> R) :=
    match compound_with_delta na target i delta m ps with
    | Some w =>
        option_map (fun d j => mget (compound_vector garbage d) j 0%nat / delta)
          (compound_minus eps w value)
    | None => None
    end.

  (** evaluateNumericalJacobian of a compound expression: lines 222-270. *)
  Definition numericalCompoundJacobian (garbage : nat -> R) (delta : R) (na : nat) (m : env)
      (es : list expr) (target : nat) (l : lty) : option mat :=
    match prepare_elements es with
    | Some ps =>
        match all_some (map (eval_p eps m) ps) with
        | Some vs =>
            let cols := tsize (kind_of l) in
            option_map (fun cs => Mat (sum_sequence (map vdim vs)) cols (fun i j => nth j cs (fun _ => 0) i))
              (all_some (map (compound_column garbage na target delta m ps vs) (seq 0 cols)))
        | None => None
        end
    | None => None
    end.
End Eps.
