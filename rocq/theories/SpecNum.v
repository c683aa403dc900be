(** Specification of numerical differentiation. *)

From Coq Require Import Reals List Bool Arith.
From Verif Require Import Mat V3 ModelLeaf SpecLeaf ModelExpr SpecExpr SpecDeriv.
Local Open Scope R_scope.

(** The j-th coordinate direction. *)
Definition dir (j : nat) : nat -> R := fun i => if (i =? j)%nat then 1 else 0.

(** y' [-] y: difference of coordinates, or (rotation, translation) coordinates of
    log(y' y^-1). *)
Definition ddiff (eps : R) (y' y : dval) : option (nat -> R) :=
  match y', y with
  | DRot m', DRot m => option_map vget (log_mat eps (mul3 m' (tr3 m)))
  | DRT m' t', DRT m t =>
      let q := mul3 m' (tr3 m) in
      option_map (fun p i => if (i <? 3)%nat then vget (fst p) i else vget (snd p) (i - 3))
        (rt_log eps q (vsub t' (app3 q t)))
  | DScalar _, DScalar _ | DTrans _, DTrans _ | DRel _, DRel _ | DPoint _, DPoint _
  | DTwist _ _, DTwist _ _ => Some (fun i => dcoord y' i - dcoord y i)
  | _, _ => None
  end.

(** The value of [e] when the object at [a] is replaced by x [+] (h d). *)
Definition perturbed (eps : R) (m : env) (e : expr) (a : nat) (d : nat -> R) (h : R) : option dval :=
  deval eps (dupd (fun b => den (m b)) a (dpert (den (m a)) d h)) e.

(** The argument of an exponential is strictly outside the library's small-angle
    approximations. *)
Definition exp_strict (eps : R) (d : dval) : Prop :=
  match d with
  | DRel v => eps < vnorm2 v * vnorm2 v
  | DTwist w _ => eps < vnorm2 w
  | _ => True
  end.
