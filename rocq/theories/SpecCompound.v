(** Specification for compounds. *)

From Coq Require Import Reals List Bool Arith.
From Verif Require Import Mat V3 ModelLeaf SpecLeaf ModelExpr SpecExpr.
Import ListNotations.
Local Open Scope R_scope.

(** y is x moved by the displacement d: coordinates add for vectors, points and scalars;
    y = exp(d) x for rotations and rigid motions. *)
Definition displaced (x d y : dval) : Prop :=
  match x, d, y with
  | DRot X, DRel v, DRot Y => Y = mul3 (so3_exp v) X
  | DRT X tx, DTwist w u, DRT Y ty =>
      Y = mul3 (so3_exp w) X /\ ty = vadd (app3 (so3_exp w) tx) (app3 (so3_V w) u)
  | DScalar a, DScalar b, DScalar c => c = a + b
  | DTrans a, DTrans b, DTrans c | DRel a, DRel b, DRel c | DPoint a, DTrans b, DPoint c =>
      c = vadd a b
  | DTwist a a', DTwist b b', DTwist c c' => c = vadd a b /\ c' = vadd a' b'
  | _, _, _ => False
  end.

(** The displacement turns by less than half a turn (so it is determined by its ends). *)
Definition less_than_half_turn (x d : dval) : Prop :=
  match x, d with
  | DRot _, DRel v => vnorm v < PI
  | DRT _ _, DTwist w _ => vnorm w < PI
  | _, _ => True
  end.

(** A relation holds between corresponding elements of equally long tuples. *)
Definition each2 {A B} (P : A -> B -> Prop) (x : list A) (y : list B) : Prop :=
  length x = length y /\
  forall i a b, nth_error x i = Some a -> nth_error y i = Some b -> P a b.
Definition each3 {A B C} (P : A -> B -> C -> Prop) (x : list A) (y : list B) (z : list C) : Prop :=
  length x = length y /\ length x = length z /\
  forall i a b c, nth_error x i = Some a -> nth_error y i = Some b -> nth_error z i = Some c ->
    P a b c.

(** The two ends of a displacement, outside the small-angle approximations of the
    library (C17-C20): equal rotations, or an angle above the threshold and below pi. *)
Definition difference_exact (eps : R) (x y : dval) : Prop :=
  match x, y with
  | DRot X, DRot Y =>
      Y = X \/ (eps < rot_angle (mul3 Y (tr3 X)) * rot_angle (mul3 Y (tr3 X)) /\
                rot_angle (mul3 Y (tr3 X)) < PI)
  | DRT X _, DRT Y _ =>
      Y = X \/ (eps < rot_angle (mul3 Y (tr3 X)) * rot_angle (mul3 Y (tr3 X)) /\
                rot_angle (mul3 Y (tr3 X)) < PI)
  | _, _ => True
  end.

(** The kind of displacement vectors of each kind of object. *)
Definition displacement_kind (k : kind) : kind :=
  match k with KRot => KRel | KRT => KTwist | KPoint => KTrans | k => k end.
