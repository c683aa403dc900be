(** Specification of the parts of a rigid motion or twist. *)

From Coq Require Import Reals List Bool Arith.
From Verif Require Import V3 ModelLeaf SpecLeaf ModelMember.
Local Open Scope R_scope.

(** The rotation and the translation of a rigid motion; the angular and the linear part
    of a twist. *)
Definition dpart (p : part) (d : dval) : option dval :=
  match p, d with
  | PRotation, DRT r _ => Some (DRot r)
  | PTranslation, DRT _ t => Some (DTrans t)
  | PRotation, DTwist w _ => Some (DRel w)
  | PTranslation, DTwist _ u => Some (DTrans u)
  | _, _ => None
  end.

Definition other (p : part) : part :=
  match p with PRotation => PTranslation | PTranslation => PRotation end.

(** What may be assigned to a part. *)
Definition part_kind (p : part) (k : kind) : option kind :=
  match p, k with
  | PRotation, KRT => Some KRot
  | PRotation, KTwist => Some KRel
  | PTranslation, (KRT | KTwist) => Some KTrans
  | _, _ => None
  end.

(** A stored object: not a symbolic Identity or Zero. *)
Definition stored (v : value) : Prop := exists l, vty v = Plain l.
