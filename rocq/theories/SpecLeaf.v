(** Specification side of the leaf layer: what a value means, independent of how it is
    stored, and when a stored value is a valid representation. *)

From Coq Require Import Reals List Bool Arith.
From Verif Require Import Mat V3 ModelLeaf.
Local Open Scope R_scope.

(** The geometric object a value stands for: a number, a vector, a rotation matrix or a
    rigid motion x |-> m x + t. *)
Inductive dval :=
| DScalar (s : R)
| DTrans (v : V3)
| DRel (v : V3)
| DPoint (v : V3)
| DTwist (w u : V3)
| DRot (m : M3)
| DRT (m : M3) (t : V3).

Definition den (v : value) : dval :=
  match v with
  | VScalar s => DScalar s
  | VTrans v => DTrans v
  | VRel v => DRel v
  | VPoint v => DPoint v
  | VTwist w u => DTwist w u
  | VQuat q => DRot (qrot q)
  | VMat m => DRot m
  | VAA a ax => DRot (aa_rot a ax)
  | VMatRT m t _ _ => DRT m t
  | VCompRT q t => DRT (qrot q) t
  | VIdent l => match kind_of l with KRT => DRT i3 v0 | _ => DRot i3 end
  | VZero l =>
      match kind_of l with
      | KScalar => DScalar 0 | KRel => DRel v0 | KPoint => DPoint v0
      | KTwist => DTwist v0 v0 | _ => DTrans v0
      end
  end.

Definition dkind (d : dval) : kind :=
  match d with
  | DScalar _ => KScalar | DTrans _ => KTrans | DRel _ => KRel | DPoint _ => KPoint
  | DTwist _ _ => KTwist | DRot _ => KRot | DRT _ _ => KRT
  end.

(** A stored value is valid: unit quaternion, orthonormal matrix of determinant one,
    unit axis, bottom row (0 0 0 1). *)
Definition valid (v : value) : Prop :=
  match v with
  | VQuat q => unitq q
  | VMat m => is_rot m
  | VAA _ ax => unitv ax
  | VMatRT m _ r c => is_rot m /\ r = v0 /\ c = 1
  | VCompRT q _ => unitq q
  | VIdent l => match kind_of l with KRot | KRT => True | _ => False end
  | VZero l => match kind_of l with KTrans | KRel | KTwist => True | _ => False end
  | _ => True
  end.

Definition dvalid (d : dval) : Prop :=
  match d with
  | DRot m => is_rot m
  | DRT m _ => is_rot m
  | _ => True
  end.

(** ** Exponential of so(3) and se(3)

    Two independent descriptions.  The first is the defining one: the exponential of w
    is the value at time 1 of the motion that starts at the identity and turns with
    constant angular velocity w (and, for a twist (w,u), moves every point x with
    velocity w x x + u).  The second is the closed form, Rodrigues' formula. *)

Definition m3_deriv (f : R -> M3) (s : R) (d : M3) : Prop :=
  derivable_pt_lim (fun s => m00 (f s)) s (m00 d) /\ derivable_pt_lim (fun s => m01 (f s)) s (m01 d)
  /\ derivable_pt_lim (fun s => m02 (f s)) s (m02 d) /\ derivable_pt_lim (fun s => m10 (f s)) s (m10 d)
  /\ derivable_pt_lim (fun s => m11 (f s)) s (m11 d) /\ derivable_pt_lim (fun s => m12 (f s)) s (m12 d)
  /\ derivable_pt_lim (fun s => m20 (f s)) s (m20 d) /\ derivable_pt_lim (fun s => m21 (f s)) s (m21 d)
  /\ derivable_pt_lim (fun s => m22 (f s)) s (m22 d).

Definition v3_deriv (f : R -> V3) (s : R) (d : V3) : Prop :=
  derivable_pt_lim (fun s => vx (f s)) s (vx d) /\ derivable_pt_lim (fun s => vy (f s)) s (vy d)
  /\ derivable_pt_lim (fun s => vz (f s)) s (vz d).

Definition so3_flow (w : V3) (E : R -> M3) : Prop :=
  E 0 = i3 /\ forall s, m3_deriv E s (mul3 (skew w) (E s)).

Definition se3_flow (w u : V3) (E : R -> M3) (t : R -> V3) : Prop :=
  so3_flow w E /\ t 0 = v0 /\ forall s, v3_deriv t s (vadd (vcross w (t s)) u).

(** Rodrigues' formula for the rotation by |v| about v/|v|. *)
Definition so3_exp (v : V3) : M3 :=
  if Req_EM_T (vnorm v) 0 then i3
  else rodrigues (sin (vnorm v) / vnorm v) ((1 - cos (vnorm v)) / (vnorm v * vnorm v)) v.

(** The matrix "V" with exp(w,u) = (exp w, V(w) u). *)
Definition so3_V (v : V3) : M3 :=
  if Req_EM_T (vnorm v) 0 then i3
  else rodrigues ((1 - cos (vnorm v)) / (vnorm v * vnorm v))
                 ((1 - sin (vnorm v) / vnorm v) / (vnorm v * vnorm v)) v.

(** The rotation angle in [0, pi] of a rotation matrix. *)
Definition rot_angle (m : M3) : R := acos ((trace3 m - 1) / 2).

(** [P] holds for all arguments close to 0. *)
Definition near (P : R -> Prop) : Prop := exists e, 0 < e /\ forall s, Rabs s < e -> P s.
