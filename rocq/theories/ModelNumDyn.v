(** Model of numerical differentiation through Dynamic expressions and proxies.
    Citations are relative to /repo/include/wave/geometry/src. *)

From Coq Require Import Reals List Bool Arith.
From Verif Require Import Mat V3 ModelMeta ModelJac ModelLeaf ModelExpr ModelCompound ModelNum ModelDyn.
Import ListNotations.
Local Open Scope R_scope.

Section Eps.
  Variable eps : R.

  Section Target.
    (** As in ModelNum.v: the address of (temporary) operation nodes, the target, the
        coordinate and the step. *)
    Variables (na target coeff : nat) (delta : R).

    (** EvaluatorWithDelta on an expression that need not be prepared
        (core/functions/NumericalJacobian.hpp: leaf 99-111, unary 114-137, binary
        140-172; dynamic/Proxy.hpp 182-196 for proxies).  [dd] is dynEvaluateWithDelta of
        the Dynamic a proxy points at; the offset is added to what it returns if that
        Dynamic is the target.  The type of a node is its EvalType, computed through its
        PreparedType (core/traits/traits_bases.hpp 88-192), whether or not the node is
        prepared.  Simplification: operation nodes, and Dynamics used directly as an
        operand, are not the target. *)
    Fixpoint dwith_delta (dd : nat -> option value) (s : state) (e : expr) : option (value * ty) :=
      match e with
      | XLeaf b t =>
          match (if is_dyn s b then dd b
                 else evaluateTo eps (plain_output t) (vals s) (XLeaf b t)) with
          | Some v => option_map (fun w => (w, t)) (delta_if eps target coeff delta b (ty_leaf t) v)
          | None => None
          end
      | XUn o e1 =>
          match dwith_delta dd s e1, prepare (XUn o e1) with
          | Some (v, t), Some (_, r) =>
              match evaluateTo eps (plain_output r) (fun _ => v)
                      (XUn o (XLeaf 0 (plain_output t))) with
              | Some w => option_map (fun w => (w, r)) (delta_if eps target coeff delta na (ty_leaf r) w)
              | None => None
              end
          | _, _ => None
          end
      | XBin o e1 e2 =>
          match dwith_delta dd s e1, dwith_delta dd s e2, prepare (XBin o e1 e2) with
          | Some (v1, t1), Some (v2, t2), Some (_, r) =>
              match evaluateTo eps (plain_output r) (two_leaves v1 v2)
                      (XBin o (XLeaf 0 (plain_output t1)) (XLeaf 1 (plain_output t2))) with
              | Some w => option_map (fun w => (w, r)) (delta_if eps target coeff delta na (ty_leaf r) w)
              | None => None
              end
          | _, _, _ => None
          end
      end.

    (** dynamic/Dynamic.hpp 113-117: dynEvaluateWithDelta recurses into the operand as it
        is now, not into the prepared expression and not into the cached evaluator. *)
    Fixpoint dynWithDelta (f : nat) (s : state) (d : nat) : option value :=
      match f with
      | 0%nat => None
      | S f =>
          match objs s d with
          | Some (ODyn n _) =>
              match outline f s n with
              | Some e => option_map fst (dwith_delta (dynWithDelta f s) s e)
              | None => None
              end
          | _ => None
          end
      end.
  End Target.

  (** One column: NumericalJacobian.hpp 236-247; [p] is the prepared expression the
      evaluator holds. *)
  Definition dnum_column (na target : nat) (delta : R) (f : nat) (s : state) (p : expr)
      (value : value) (i : nat) : option (nat -> R) :=
    match dwith_delta na target i delta (dynWithDelta na target i delta f s) s p with
    | Some (w, t) =>
        let l := ty_leaf t in
        option_map (fun d j => coord d j / delta)
          (evaluateTo eps (Plain (tangent_leaf l)) (two_leaves w value)
             (minus_expr (kind_of l) (XLeaf 0 (Plain l)) (XLeaf 1 (Plain l))))
    | None => None
    end.

  (** evaluateNumericalJacobian of an expression object: NumericalJacobian.hpp 222-270.
      [target] is what getWrtTarget gives: a leaf object or, for a proxy, the Dynamic it
      points at (Proxy.hpp 235-238).  Evaluation changes the evaluators Dynamics cache. *)
  Definition node_numerical (delta : R) (na f : nat) (s : state) (n : node) (target : nat)
      (l : lty) : option (mat * state) :=
    match outline f s n with
    | Some e =>
        match prepare e with
        | Some (_, t) =>
            match prepare_to (plain_output t) e with
            | Some (p, _) =>
                match ev eps na (dynEvaluate eps na f) s p with
                | Some (v, _, s') =>
                    let cols := tsize (kind_of l) in
                    option_map
                      (fun cs => (Mat (tsize (ty_kind t)) cols (fun i j => nth j cs (fun _ => 0) i), s'))
                      (all_some (map (dnum_column na target delta f s' p v) (seq 0 cols)))
                | None => None
                end
            | None => None
            end
        | None => None
        end
    | None => None
    end.
End Eps.
