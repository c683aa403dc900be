(** What a source expression means and which objects it depends on, independently of
    how operations store their operands. *)

From Coq Require Import Reals List Arith Bool.
From Verif Require Import Mat ModelMeta ModelJac ModelLeaf ModelExpr ModelDyn SpecDyn ModelStore.
Import ListNotations.

(** [e'] is [e] with other leaf objects, which have in [m'] the values the original ones
    have in [m]. *)
Inductive copy_of (m m' : env) : expr -> expr -> Prop :=
| co_leaf a a' t : m' a' = m a -> copy_of m m' (XLeaf a t) (XLeaf a' t)
| co_un o e e' : copy_of m m' e e' -> copy_of m m' (XUn o e) (XUn o e')
| co_bin o e1 e1' e2 e2' : copy_of m m' e1 e1' -> copy_of m m' e2 e2' ->
    copy_of m m' (XBin o e1 e2) (XBin o e1' e2').

(** [reflects s m x e]: [e] is the expression that the program text [x], executed in the
    memory [s], stands for, with leaf values in [m].  A named operand stands for the very
    leaf objects it leads to, so that later assignments to them are seen; a moved-from
    one for leaves with the values it had; a temporary for a leaf with its value. *)
Inductive reflects (s : state) (m : env) : src -> expr -> Prop :=
| rf_name a e : stands s no_stop (NRef a) e -> reflects s m (SName a) e
| rf_move a e e' : stands s no_stop (NRef a) e -> copy_of (vals s) m e e' ->
    reflects s m (SMove a) e'
| rf_temp v t i : m i = v -> reflects s m (STemp v t) (XLeaf i t)
| rf_const v t i : m i = v -> reflects s m (SConstTemp v t) (XLeaf i t)
| rf_un o x e : reflects s m x e -> reflects s m (SUn o x) (XUn o e)
| rf_bin o x y e1 e2 : reflects s m x e1 -> reflects s m y e2 ->
    reflects s m (SBin o x y) (XBin o e1 e2)
| rf_dyn l x e : reflects s m x e -> reflects s m (SDynamic l x) e
| rf_ref x e : reflects s m x e -> reflects s m (SRef x) e
| rf_proxy l x e : reflects s m x e -> reflects s m (SProxy l x) e.

(** auto z = a; makes a copy of what [a] is. *)
Definition initializer (x : src) : src := match x with SName a => SMove a | x => x end.

(** The addresses an object mentions. *)
Fixpoint addrs (n : node) : list nat :=
  match n with
  | NOwn i _ => [i]
  | NRef a => [a]
  | NProxy d _ => [d]
  | NUn _ n => addrs n
  | NBin _ n1 n2 => addrs n1 ++ addrs n2
  end.
Definition obj_addrs (o : obj) : list nat :=
  match o with
  | OLeaf _ => []
  | OExpr n | ODyn n _ => addrs n
  | OProxy d _ => [d]
  end.

(** ... and those of them that are other objects, not its own members. *)
Fixpoint outer (n : node) : list nat :=
  match n with
  | NOwn _ _ => []
  | NRef a => [a]
  | NProxy d _ => [d]
  | NUn _ n => outer n
  | NBin _ n1 n2 => outer n1 ++ outer n2
  end.

(** Everything that can be reached from the addresses [l]. *)
Inductive reach (s : state) (l : list nat) : nat -> Prop :=
| re_in a : In a l -> reach s l a
| re_step a o b : reach s l a -> objs s a = Some o -> In b (obj_addrs o) -> reach s l b.

(** The objects a program text mentions that must outlive what is built from it: the
    named leaves and expressions, the targets of proxies, and what moved-from
    expressions refer to.  Not temporaries, and not the proxy variables themselves. *)
Fixpoint kept (s : state) (x : src) : list nat :=
  match x with
  | SName a => match objs s a with Some (OProxy d _) => [d] | _ => [a] end
  | SMove a => match objs s a with
               | Some (OProxy d _) => [d]
               | Some (OExpr n) | Some (ODyn n _) => outer n
               | _ => []
               end
  | STemp _ _ | SConstTemp _ _ => []
  | SRef (SName a) => [a]
  | SUn _ x | SDynamic _ x | SRef x | SProxy _ x => kept s x
  | SBin _ x y => kept s x ++ kept s y
  end.

(** No const temporaries, and ref() only of named objects. *)
Fixpoint safe (x : src) : Prop :=
  match x with
  | SName _ | SMove _ | STemp _ _ => True
  | SConstTemp _ _ => False
  | SUn _ x | SDynamic _ x | SProxy _ x => safe x
  | SRef x => exists a, x = SName a
  | SBin _ x y => safe x /\ safe y
  end.

(** Names are those of live objects, ref() is given a Dynamic, and the compiler gives a
    Dynamic the type of the expression it holds. *)
Fixpoint well_typed (s : state) (x : src) : Prop :=
  match x with
  | SName a | SMove a => objs s a <> None
  | STemp _ _ | SConstTemp _ _ => True
  | SUn _ x => well_typed s x
  | SRef x => well_typed s x /\ forall a, x = SName a -> is_dyn s a = true
  | SDynamic l x | SProxy l x =>
      well_typed s x /\ forall m e, reflects s m x e -> evaluates_as e (Plain l)
  | SBin _ x y => well_typed s x /\ well_typed s y
  end.

(** makeProxy is only given rvalues (there is no other overload). *)
Fixpoint compiles (x : src) : Prop :=
  match x with
  | SName _ | SMove _ | STemp _ _ | SConstTemp _ _ => True
  | SUn _ x | SDynamic _ x | SRef x => compiles x
  | SProxy _ x => (forall a, x <> SName a) /\ compiles x
  | SBin _ x y => compiles x /\ compiles y
  end.

(** A memory without dangling references: every live object stands for an expression
    (so everything it refers to is alive), and proxies point at Dynamics of their type.
    No object refers to a proxy variable, and every address below [k] only. *)
Definition sound (s : state) (k : nat) : Prop :=
  (forall a o, objs s a = Some o ->
     (exists e, stands s no_stop (NRef a) e /\
        forall n l, o = ODyn n l -> evaluates_as e (Plain l)) /\
     (a < k)%nat /\
     (forall b, In b (obj_addrs o) -> (b < k)%nat /\ forall d l, objs s b <> Some (OProxy d l))).

(** Programs.  An object may be destroyed when no other object mentions it: for named
    objects this is the programmer's obligation (declarations in the usual order meet it,
    because objects are destroyed in reverse order); for the target of a Proxy it is what
    shared_ptr guarantees. *)
Inductive stmt :=
| PDeclare (x : src)
| PSet (a : nat) (v : value)
| PRebind (p q : nat)
| PDestroy (a : nat).

Inductive runs : list stmt -> state * nat -> state * nat -> Prop :=
| rn_nil s : runs [] s s
| rn_declare x s z s1 z1 l s2 : safe x -> well_typed s x -> declare x z s = Some (s1, z1) ->
    runs l (s1, z1) s2 -> runs (PDeclare x :: l) (s, z) s2
| rn_set a v s z l s2 : runs l (State (setf (vals s) a v) (objs s) (cache s), z) s2 ->
    runs (PSet a v :: l) (s, z) s2
| rn_rebind p q s z s1 l s2 : rebind p q s = Some s1 -> runs l (s1, z) s2 ->
    runs (PRebind p q :: l) (s, z) s2
| rn_destroy a s z l s2 :
    (forall b o, b <> a -> objs s b = Some o -> ~ In a (obj_addrs o)) ->
    runs l (put a None s, z) s2 -> runs (PDestroy a :: l) (s, z) s2.

Definition empty_state (m : env) : state := State m (fun _ => None) (fun _ => None).
