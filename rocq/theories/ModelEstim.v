(** Model of the estimation layer: noise models and factors.  Citations are to
    /repo/include/wave/geometry/src. *)

From Coq Require Import Reals List Bool Arith.
From Verif Require Import Mat ModelMeta ModelJac V3 ModelLeaf ModelExpr ModelCompound.
Import ListNotations.
Local Open Scope R_scope.
Local Open Scope mat_scope.

(** ** Noise: estimation/Noise.hpp *)

(** Eigen's diagonal matrix. *)
Definition mdiag (n : nat) (f : nat -> R) : mat :=
  Mat n n (fun i j => if (i =? j)%nat then f i else 0).

(** A noise model: covariance() and inverseSqrtCov(). *)
Record noise := Noise { covariance : mat; inverseSqrtCov : mat }.

(** All of f 0, ..., f (n-1) are positive. *)
Fixpoint all_pos (n : nat) (f : nat -> R) : bool :=
  match n with
  | O => true
  | S n => all_pos n f && (if Rlt_dec 0 (f n) then true else false)
  end.

(** FullNoise::FromCovariance: Noise.hpp 19-52.  [(U, lam)] is the result of Eigen's
    SelfAdjointEigenSolver on the covariance (eigenvectors as columns, eigenvalues);
    operatorInverseSqrt() is U * diag(sqrt(1 / lam)) * U^T.  None: an eigenvalue is not
    positive, so a coefficient is infinite or NaN. *)
Definition FullNoise (solver : mat -> mat * (nat -> R)) (cov : mat) : option noise :=
  let '(U, lam) := solver cov in
  let n := mrows cov in
  if all_pos n lam
  then Some (Noise cov (U ** mdiag n (fun i => sqrt (1 / lam i)) ** mtr U))
  else None.

(** DiagonalNoise::FromStdDev(vector): Noise.hpp 101-105. *)
Definition DiagonalNoise (n : nat) (stddev : nat -> R) : noise :=
  Noise (mdiag n (fun i => stddev i * stddev i)) (mdiag n (fun i => / stddev i)).

(** DiagonalNoise::FromStdDev(s1, s2, ...): Noise.hpp 108-116 (one argument per
    coordinate). *)
Definition DiagonalNoise_list (stddev : list R) : noise :=
  let vec (l : list R) := mdiag (length l) (fun i => nth i l 0) in
  Noise (vec (map (fun s => s * s) stddev)) (vec (map (fun s => 1 / s) stddev)).

(** ** Factors: estimation/Factor.hpp 46-130, impl/Factor_impl.hpp *)

(** What a measurement functor returns: a vector expression, or a compound of them
    (Factor.hpp 57-60). *)
Inductive prediction := PVector (e : expr) | PCompound (es : list expr).

(** A factor: the functor (an expression built from its arguments), the measured value
    (one element, or a compound) and the measurement's noise. *)
Record factor := Factor {
  functor : list expr -> prediction;
  measured : compound;
  noise_of : noise }.

(** A parameter: a leaf object. *)
Definition param := (nat * ty)%type.
Definition param_expr (p : param) : expr := XLeaf (fst p) (snd p).
Definition param_leaf (p : param) : leaf := leaf_obj (fst p) (snd p).

(** The environment with the factor's measurement at address [z]. *)
Definition with_measurement (m : env) (z : nat) (v : value) : env :=
  fun b => if (b =? z)%nat then v else m b.

Section Eps.
  Variable eps : R.
  (** Content of uninitialised vectors. *)
  Variable garbage : nat -> R.

  (** The unnormalised residual valueAsVector(eval(expr - measurement.value)):
      Factor_impl.hpp 34-37.  [z] is the address of the factor's measurement. *)
  Definition residual (m : env) (z : nat) (p : prediction) (meas : compound) : option compound :=
    match p, meas with
    | PVector e, [v] =>
        match eval eps (with_measurement m z v) (XBin OSubtract e (XLeaf z (vty v))) with
        | Some r => Some [r]
        | None => None
        end
    | PVector _, _ => None
    | PCompound es, _ =>
        match compound_eval eps m es with
        | Some c => compound_minus eps c meas
        | None => None
        end
    end.

  (** Factor::evaluate(parameters...): Factor_impl.hpp 30-42. *)
  Definition evaluate (m : env) (z : nat) (f : factor) (params : list param) : option mat :=
    match residual m z (functor f (map param_expr params)) (measured f) with
    | Some r => Some (inverseSqrtCov (noise_of f) ** compound_vector garbage r)
    | None => None
    end.

  (** The trees of the elements of a compound, prepared for evaluation. *)
  Fixpoint trees (na : nat) (m : env) (es : list expr) : option (list etree) :=
    match es with
    | [] => Some []
    | e :: es =>
        match prepare e with
        | Some (p, _) =>
            match tree eps na m p, trees na m es with
            | Some (_, t), Some ts => Some (t :: ts)
            | _, _ => None
            end
        | None => None
        end
    end.

  (** expr.evalWithJacobians(parameters...): ExpressionBase.hpp 74-78; compounds:
      JacobianEvaluator.hpp 252-374 (the typed evaluator has no n-ary case, so a compound
      in which no leaf type repeats does not compile). *)
  Definition prediction_with_jacobians (na : nat) (m : env) (p : prediction)
      (params : list param) : option (compound * list (oc mat)) :=
    match p with
    | PVector e =>
        match eval eps m e with
        | Some v =>
            Some ([v], map (fun q => match expr_evalWithJacobian eps na m e (param_leaf q) with
                                     | Some (_, J) => J
                                     | None => NoCompile
                                     end) params)
        | None => None
        end
    | PCompound es =>
        match compound_eval eps m es, trees na m es with
        | Some c, Some ts => Some (c, map (fun q => nary_fwd (param_leaf q) ts) params)
        | _, _ => None
        end
    end.

  (** Factor::evaluateWithJacobians(parameters...): Factor_impl.hpp 44-60.  The first
      element of the tuple is replaced by the normalised residual; the Jacobians are left
      as they are. *)
  Definition evaluateWithJacobians (na : nat) (m : env) (f : factor) (params : list param)
      : option (mat * list (oc mat)) :=
    match prediction_with_jacobians na m (functor f (map param_expr params)) params with
    | Some (c, jacs) =>
        match compound_minus eps c (measured f) with
        | Some r => Some (inverseSqrtCov (noise_of f) ** compound_vector garbage r, jacs)
        | None => None
        end
    | None => None
    end.
End Eps.
