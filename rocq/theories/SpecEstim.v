(** Specification for the estimation layer. *)

From Coq Require Import Reals List Bool Arith.
From Verif Require Import Mat V3 ModelLeaf SpecLeaf ModelExpr SpecExpr SpecDeriv.
Import ListNotations.
Local Open Scope R_scope.
Local Open Scope mat_scope.

(** The diagonal matrix with the given diagonal. *)
Definition is_diagonal (n : nat) (f : nat -> R) (D : mat) : Prop :=
  has_shape n n D /\
  forall i j, (i < n)%nat -> (j < n)%nat -> mnth D i j = if (i =? j)%nat then f i else 0.

(** S = U diag(lam) U^T with U orthogonal: what an eigensolver of symmetric matrices
    returns. *)
Definition eigen_decomposition (n : nat) (S U : mat) (lam : nat -> R) : Prop :=
  has_shape n n U /\ mtr U ** U == mid n /\ U ** mtr U == mid n /\
  exists D, is_diagonal n lam D /\ S == U ** D ** mtr U.

(** x^T S x > 0 for every x <> 0. *)
Definition positive_definite (n : nat) (S : mat) : Prop :=
  has_shape n n S /\
  forall x, (exists i, (i < n)%nat /\ x i <> 0) -> 0 < rsum n (fun i => x i * mvec S x i).

(** L whitens residuals of covariance S: the covariance L S L^T of L r is the identity. *)
Definition whitens (n : nat) (L S : mat) : Prop := L ** S ** mtr L == mid n.

(** L can be inverted: only the zero residual is normalised to zero. *)
Definition injective_matrix (n : nat) (L : mat) : Prop :=
  has_shape n n L /\ exists M, has_shape n n M /\ M ** L == mid n.

(** The coordinates of several vectors, one after the other. *)
Definition coords_of (d : dval) : list R := map (dcoord d) (seq 0 (tsize (dkind d))).
Definition stacked (ds : list dval) : list R := flat_map coords_of ds.

(** The normalised residual L (prediction - measurement), coordinate by coordinate. *)
Definition normalised (n : nat) (L : mat) (prediction measurement : list dval) (i : nat) : R :=
  rsum n (fun j => mnth L i j * (nth j (stacked prediction) 0 - nth j (stacked measurement) 0)).

(** The values of several expressions. *)
Fixpoint devals (eps : R) (m : nat -> dval) (es : list expr) : option (list dval) :=
  match es with
  | [] => Some []
  | e :: es =>
      match deval eps m e, devals eps m es with
      | Some d, Some ds => Some (d :: ds)
      | _, _ => None
      end
  end.

(** [J] is the derivative of the normalised residual L (f - z), where f stacks the
    expressions [es], with respect to the object at [a]: whenever that object moves with
    velocity d, coordinate i of the normalised residual has derivative (J d)_i. *)
Definition is_residual_derivative (eps : R) (m : env) (es : list expr) (zs : list dval) (L : mat)
    (a : nat) (J : mat) : Prop :=
  forall c d, c 0 = den (m a) -> moves c d ->
    exists r, near (fun s => devals eps (dupd (fun b => den (m b)) a (c s)) es = Some (r s)) /\
      forall i, (i < mrows L)%nat ->
        derivable_pt_lim (fun s => normalised (mrows L) L (r s) zs i) 0 (mvec J d i).
