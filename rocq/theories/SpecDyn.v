(** What an expression object stands for, independently of evaluators and caches. *)

From Coq Require Import Reals List Arith Bool.
From Verif Require Import Mat ModelMeta ModelJac ModelLeaf ModelExpr ModelDyn.
Import ListNotations.

(** The type an expression evaluates to when no conversion of the result is asked for. *)
Definition evaluates_as (e : expr) (t : ty) : Prop := exists p, prepare e = Some (p, t).

(** [stands s stop n e]: in the memory [s], the expression object [n] stands for the
    expression [e] over leaf objects: references lead to the object referred to, a proxy
    to what the Dynamic it points at holds now.  The Dynamics in [stop] are regarded as
    variables of their own: proxies to them are leaves.  The condition on types is what
    the C++ compiler checks when a Proxy<Leaf> or RefProxy<Leaf> is made from an
    expression; caches are not mentioned. *)
Inductive stands (s : state) (stop : nat -> bool) : node -> expr -> Prop :=
| st_own i t : is_dyn s i = false -> stands s stop (NOwn i t) (XLeaf i t)
| st_leaf a t : objs s a = Some (OLeaf t) -> stands s stop (NRef a) (XLeaf a t)
| st_expr a n e : objs s a = Some (OExpr n) -> stands s stop n e -> stands s stop (NRef a) e
| st_dyn a n l e : objs s a = Some (ODyn n l) -> stands s stop n e -> stands s stop (NRef a) e
| st_var a d l e : objs s a = Some (OProxy d l) -> stands s stop (NProxy d l) e ->
    stands s stop (NRef a) e
| st_stop d n l : stop d = true -> objs s d = Some (ODyn n l) ->
    stands s stop (NProxy d l) (XLeaf d (Plain l))
| st_proxy d n l e : stop d = false -> objs s d = Some (ODyn n l) -> stands s stop n e ->
    evaluates_as e (Plain l) -> stands s stop (NProxy d l) e
| st_un o n e : stands s stop n e -> stands s stop (NUn o n) (XUn o e)
| st_bin o n1 n2 e1 e2 : stands s stop n1 e1 -> stands s stop n2 e2 ->
    stands s stop (NBin o n1 n2) (XBin o e1 e2).

Definition no_stop : nat -> bool := fun _ => false.
Definition only (t : nat) : nat -> bool := fun d => (d =? t)%nat.

(** The same memory, apart from what Dynamic objects have cached. *)
Definition same_mem (s s' : state) : Prop := vals s' = vals s /\ objs s' = objs s.

(** The memory as if nothing had ever been evaluated. *)
Definition scratch (s : state) : state := State (vals s) (objs s) (fun _ => None).

(** [m] gives every leaf its value in [s]; and if [t] is a Dynamic object, it gives [t]
    the value of the expression it holds. *)
Definition reads (eps : R) (s : state) (t : nat) (m : env) : Prop :=
  (forall a, is_dyn s a = false -> m a = vals s a) /\
  (forall n l, objs s t = Some (ODyn n l) ->
     exists e, stands s no_stop (NProxy t l) e /\ eval eps (vals s) e = Some (m t)).

(** A history without the calls that only evaluate or differentiate. *)
Definition no_queries (h : list action) : list action :=
  filter (fun x => match x with
                   | AEval _ _ | AForward _ _ _ _ | AReverse _ _ _ => false
                   | _ => true
                   end) h.

(** The objects an expression object leads to: the leaves it holds, everything it refers
    to, and what its proxies point at. *)
Inductive uses (s : state) : node -> nat -> Prop :=
| u_own i t : uses s (NOwn i t) i
| u_ref a : uses s (NRef a) a
| u_expr a n b : objs s a = Some (OExpr n) -> uses s n b -> uses s (NRef a) b
| u_dyn a n l b : objs s a = Some (ODyn n l) -> uses s n b -> uses s (NRef a) b
| u_var a d l b : objs s a = Some (OProxy d l) -> uses s (NProxy d l) b -> uses s (NRef a) b
| u_target d l : uses s (NProxy d l) d
| u_proxy d n l l' b : objs s d = Some (ODyn n l) -> uses s n b -> uses s (NProxy d l') b
| u_un o n b : uses s n b -> uses s (NUn o n) b
| u_left o n1 n2 b : uses s n1 b -> uses s (NBin o n1 n2) b
| u_right o n1 n2 b : uses s n2 b -> uses s (NBin o n1 n2) b.

(** A proxy, or unary operations applied to one. *)
Inductive chain : node -> Prop :=
| ch_proxy d l : chain (NProxy d l)
| ch_un o n : chain n -> chain (NUn o n).
