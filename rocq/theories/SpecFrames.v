(** Specification of coordinate frames: frames are placed in space, and an annotated
    quantity is what it says it is with respect to the placement. *)

From Coq Require Import Reals List Bool Arith.
From Verif Require Import Mat V3 ModelLeaf SpecLeaf ModelExpr SpecExpr ModelFrames.
Local Open Scope R_scope.

(** Where every frame is: the orientation of its axes and its origin, in some common
    coordinates. *)
Record pose := mkPose { axes : M3; origin : V3 }.
Definition placement := frame -> pose.
Definition placement_ok (pl : placement) : Prop := forall f, is_rot (axes (pl f)).

(** Orientation of frame [b] seen from [a]; vector from the origin of [b] to the origin
    of [c], in the axes of [a]. *)
Definition rot_between (pl : placement) (a b : frame) : M3 :=
  mul3 (tr3 (axes (pl a))) (axes (pl b)).
Definition displacement (pl : placement) (a b c : frame) : V3 :=
  app3 (tr3 (axes (pl a))) (vsub (origin (pl c)) (origin (pl b))).

(** The quantity announced by frames [f]:
    - rotation <A,B>: the orientation of B seen from A; rigid transform <A,B>: that and
      the position of B's origin in A; point <A,B>: position of B's origin in A;
    - translation <A,B,C>: the displacement from B to C, in A;
    - relative rotation <A,B,C>: in A, rotating B by it gives C; twist: same with rigid
      transforms;
    - numbers announce nothing. *)
Definition announces (pl : placement) (f : frames) (d : dval) : Prop :=
  match d, f with
  | DScalar _, _ => True
  | DRot m, F2 a b => m = rot_between pl a b
  | DRT m t, F2 a b => m = rot_between pl a b /\ t = displacement pl a a b
  | DPoint v, F2 a b => v = displacement pl a a b
  | DTrans v, F3 a b c => v = displacement pl a b c
  | DRel v, F3 a b c => mul3 (so3_exp v) (rot_between pl a b) = rot_between pl a c
  | DTwist w u, F3 a b c =>
      mul3 (so3_exp w) (rot_between pl a b) = rot_between pl a c /\
      vadd (app3 (so3_exp w) (displacement pl a a b)) (app3 (so3_V w) u)
      = displacement pl a a c
  | _, _ => False
  end.

(** All annotations NoFrame, or none. *)
Definition is_unframed (f : frames) : Prop :=
  LeftFrameOf f = NoFrame /\ MiddleFrameOf f = NoFrame /\ RightFrameOf f = NoFrame.
Definition fully_framed (f : frames) : Prop :=
  LeftFrameOf f <> NoFrame /\ MiddleFrameOf f <> NoFrame /\ RightFrameOf f <> NoFrame.

(** An unframed quantity claims nothing. *)
Definition claims (pl : placement) (f : frames) (d : dval) : Prop :=
  is_unframed f \/ announces pl f d.

(** Every leaf is either entirely framed and holds what it announces, or unframed. *)
Fixpoint leaves_announced (pl : placement) (m : env) (e : fexpr) : Prop :=
  match e with
  | FLeaf a _ f => is_unframed f \/ (fully_framed f /\ announces pl f (den (m a)))
  | FUn _ e | FLog _ e | FCast _ e => leaves_announced pl m e
  | FBin _ l r | FBoxPlus l r | FBoxMinus l r =>
      leaves_announced pl m l /\ leaves_announced pl m r
  end.

(** Every logarithm is taken of a rotation by less than pi and either of the identity or
    outside the library's small-angle branch. *)
Definition log_exact (eps : R) (d : dval) : Prop :=
  match d with
  | DRot m | DRT m _ => (m = i3 \/ eps < rot_angle m * rot_angle m) /\ rot_angle m < PI
  | _ => True
  end.
Fixpoint logs_exact (eps : R) (m : nat -> dval) (e : expr) : Prop :=
  match e with
  | XLeaf _ _ => True
  | XUn o e =>
      logs_exact eps m e /\
      match o with
      | OLogMap => forall d, deval eps m e = Some d -> log_exact eps d
      | _ => True
      end
  | XBin _ l r => logs_exact eps m l /\ logs_exact eps m r
  end.

(** Expressions in which the frames have the meaning above: no frame_cast, exponential,
    box-plus, box-minus or scaling; sums and differences of points and translations (and
    numbers) only; the vector moved by a rigid transform starts at the origin of the
    frame it is expressed in.  For each exclusion there is a counterexample in
    PropsFrames.v. *)
Fixpoint frame_strict (e : fexpr) : Prop :=
  match e with
  | FLeaf _ _ _ => True
  | FUn o e => o <> OExpMap /\ frame_strict e
  | FBin o l r =>
      match o with
      | OScale | OScaleR | OScaleDiv => False
      | OTransform =>
          forall f, frames_of r = Some f -> MiddleFrameOf f = LeftFrameOf f
      | OSum | OSubtract =>
          forall k, ekind (erase l) = Some k -> k <> KRel /\ k <> KTwist
      | _ => True
      end /\ frame_strict l /\ frame_strict r
  | _ => False
  end.

(** Each object has one type: its leaf type and its frames. *)
Fixpoint fleaves (e : fexpr) : list (nat * ty * frames) :=
  match e with
  | FLeaf a t f => (a, t, f) :: nil
  | FUn _ e | FLog _ e | FCast _ e => fleaves e
  | FBin _ l r | FBoxPlus l r | FBoxMinus l r => fleaves l ++ fleaves r
  end%list.
Definition one_type_per_object (e : fexpr) : Prop :=
  forall a t f t' f', In (a, t, f) (fleaves e) -> In (a, t', f') (fleaves e) ->
    t = t' /\ f = f'.

(** No leaf carries frames. *)
Definition no_frames (e : fexpr) : Prop :=
  forall a t f, In (a, t, f) (fleaves e) -> is_unframed f.
Fixpoint no_casts (e : fexpr) : Prop :=
  match e with
  | FLeaf _ _ _ => True
  | FCast _ _ | FLog _ _ => False
  | FUn _ e => no_casts e
  | FBin _ l r | FBoxPlus l r | FBoxMinus l r => no_casts l /\ no_casts r
  end.
