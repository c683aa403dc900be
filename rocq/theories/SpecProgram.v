(** Specification of straight-line programs of assignments, on geometric objects instead of
    stored values. *)

From Coq Require Import Reals List Bool Arith.
From Verif Require Import V3 ModelLeaf SpecLeaf ModelExpr SpecExpr ModelMember SpecMember.
Import ListNotations.
Local Open Scope R_scope.

Definition upd {A} (f : nat -> A) (a : nat) (x : A) : nat -> A :=
  fun b => if (b =? a)%nat then x else f b.

(** The rigid motion or twist with one part replaced. *)
Definition with_part (p : part) (old d : dval) : option dval :=
  match p, old, d with
  | PRotation, DRT _ t, DRot r => Some (DRT r t)
  | PTranslation, DRT r _, DTrans t => Some (DRT r t)
  | PRotation, DTwist _ u, DRel w => Some (DTwist w u)
  | PTranslation, DTwist w _, DTrans u => Some (DTwist w u)
  | _, _, _ => None
  end.

(** The declared types of the variables an expression mentions. *)
Fixpoint declared (T : nat -> ty) (e : expr) : Prop :=
  match e with
  | XLeaf a t => T a = t
  | XUn _ e => declared T e
  | XBin _ l r => declared T l /\ declared T r
  end.

(** [e] is an expression of kind [k] whose value in the state [s] is [d]; its exponentials are
    outside the small-angle approximation. *)
Definition computes (eps : R) (T : nat -> ty) (s : nat -> dval) (e : expr) (k : kind) (d : dval) : Prop :=
  declared T e /\ ekind e = Some k /\ exps_exact eps s e /\ deval eps s e = Some d.

(** Execution of a program from declarations T and state s to declarations T' and state s'. *)
Inductive executes (eps : R) : (nat -> ty) -> (nat -> dval) -> list stmt ->
    (nat -> ty) -> (nat -> dval) -> Prop :=
| ex_done T s : executes eps T s [] T s
| ex_new T s l a e d prog T' s' :
    computes eps T s e (kind_of l) d ->
    executes eps (upd T a (Plain l)) (upd s a d) prog T' s' ->
    executes eps T s (SNew l a e :: prog) T' s'
| ex_assign T s l a e d prog T' s' :
    T a = Plain l -> l <> LCompRT -> computes eps T s e (kind_of l) d ->
    executes eps T (upd s a d) prog T' s' ->
    executes eps T s (SLeaf a e :: prog) T' s'
| ex_copy T s a b prog T' s' :
    T a = Plain LCompRT -> T b = Plain LCompRT ->
    executes eps T (upd s a (s b)) prog T' s' ->
    executes eps T s (SLeaf a (XLeaf b (Plain LCompRT)) :: prog) T' s'
| ex_part T s l a p e k d d' prog T' s' :
    T a = Plain l -> part_kind p (kind_of l) = Some k -> computes eps T s e k d ->
    with_part p (s a) d = Some d' ->
    executes eps T (upd s a d') prog T' s' ->
    executes eps T s (SPart a p e :: prog) T' s'.

(** The memory holds valid objects of the declared types that mean the state. *)
Definition represents (m : env) (T : nat -> ty) (s : nat -> dval) : Prop :=
  forall a, vty (m a) = T a /\ valid (m a) /\ den (m a) = s a.
