(** Specification of differentiation: what it means for a geometric object to move with a
    given velocity, with the library's convention that perturbations act on the left
    (x [+] d = exp(d) * x). *)

From Coq Require Import Reals List Bool Arith.
From Verif Require Import Mat V3 ModelLeaf SpecLeaf ModelExpr SpecExpr.
Import ListNotations.
Local Open Scope R_scope.

(** Tangent coordinates as vectors: (rotation, translation). *)
Definition tv (d : nat -> R) : V3 := mkV (d 0%nat) (d 1%nat) (d 2%nat).
Definition tw (d : nat -> R) : V3 := mkV (d 3%nat) (d 4%nat) (d 5%nat).

(** Rotation and translation of a transform. *)
Definition drot (x : dval) : M3 := match x with DRot m | DRT m _ => m | _ => i3 end.
Definition dtr (x : dval) : V3 := match x with DRT _ t => t | _ => v0 end.

(** The curve [c] of valid objects, of constant kind, passes through [c 0] with velocity
    [d]: for vectors, d_i is the derivative of the i-th coordinate; for rotations
    m' = [w]x m; for rigid motions m' = [w]x m and t' = w x t + u with d = (w, u). *)
Definition moves (c : R -> dval) (d : nat -> R) : Prop :=
  near (fun s => dkind (c s) = dkind (c 0) /\ dvalid (c s)) /\
  match dkind (c 0) with
  | KRot => m3_deriv (fun s => drot (c s)) 0 (mul3 (skew (tv d)) (drot (c 0)))
  | KRT =>
      m3_deriv (fun s => drot (c s)) 0 (mul3 (skew (tv d)) (drot (c 0))) /\
      v3_deriv (fun s => dtr (c s)) 0 (vadd (vcross (tv d) (dtr (c 0))) (tw d))
  | k => forall i, (i < tsize k)%nat -> derivable_pt_lim (fun s => dcoord (c s) i) 0 (d i)
  end.

(** Same for a partial curve: defined near 0. *)
Definition moves_opt (c : R -> option dval) (d : nat -> R) : Prop :=
  exists r, near (fun s => c s = Some (r s)) /\ moves r d.

(** The environment with the object at address [a] replaced. *)
Definition upd (m : env) (a : nat) (v : value) : env :=
  fun b => if (b =? a)%nat then v else m b.

(** Same for the objects' meanings. *)
Definition dupd (m : nat -> dval) (a : nat) (x : dval) : nat -> dval :=
  fun b => if (b =? a)%nat then x else m b.

(** The motion x [+] (s d): coordinates x + s d for vectors and points, exp(s d) x for
    rotations and rigid motions, with the exact exponential. *)
Definition dpert (x : dval) (d : nat -> R) (s : R) : dval :=
  match x with
  | DScalar y => DScalar (y + s * d 0%nat)
  | DTrans v => DTrans (vadd v (vscal s (tv d)))
  | DRel v => DRel (vadd v (vscal s (tv d)))
  | DPoint v => DPoint (vadd v (vscal s (tv d)))
  | DTwist w u => DTwist (vadd w (vscal s (tv d))) (vadd u (vscal s (tw d)))
  | DRot m => DRot (mul3 (so3_exp (vscal s (tv d))) m)
  | DRT m t =>
      let E := so3_exp (vscal s (tv d)) in
      DRT (mul3 E m) (vadd (app3 E t) (app3 (so3_V (vscal s (tv d))) (vscal s (tw d))))
  end.

Section Smooth.
  Variable eps : R.

  (** Points at which the operation's Jacobian is defined and exact. *)
  Definition smooth_un (o : unop) (x : dval) : Prop :=
    match o, x with
    | OLogMap, (DRot m | DRT m _) => eps < rot_angle m * rot_angle m /\ rot_angle m < PI
    | OExpMap, DTwist w _ => w <> v0
    | (ONorm | ONormalize), _ => 0 < dnorm2 x
    | OACos, DScalar y => -1 < y < 1
    | _, _ => True
    end.

  (** Every operation applied to a sub-expression that contains the object at [a] is at
      such a point.  The product of a symbolic Identity with an expression that
      contains the target is excluded: the library has no Jacobian for it. *)
  Fixpoint smooth (m : nat -> dval) (a : nat) (e : expr) : Prop :=
    match e with
    | XLeaf _ _ => True
    | XUn o e =>
        smooth m a e /\
        (In a (leaf_addrs e) -> forall x, deval eps m e = Some x -> smooth_un o x)
    | XBin o l r =>
        smooth m a l /\ smooth m a r /\
        (In a (leaf_addrs r) -> o = ORotate \/ o = OTransform ->
           forall i, option_map snd (prepare l) <> Some (Ident i))
    end.
End Smooth.

(** [J] is the derivative, at the current leaf values, of the function denoted by [e]
    with respect to the object at [a]: whenever that object moves with velocity d, the
    value of the expression moves with velocity J d. *)
Definition is_derivative (eps : R) (m : env) (e : expr) (a : nat) (J : mat) : Prop :=
  forall c d, c 0 = den (m a) -> moves c d ->
    moves_opt (fun s => deval eps (dupd (fun b => den (m b)) a (c s)) e) (mvec J d).
