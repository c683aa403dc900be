(** When threads disturb one another, independently of how calls are carried out. *)

From Coq Require Import Reals List Arith Bool.
From Verif Require Import Mat ModelMeta ModelJac ModelLeaf ModelExpr ModelDyn ModelConc.
Import ListNotations.

(** Two accesses conflict if they are to the same place and one of them changes it.  A data
    race: two threads are about to make conflicting accesses (undefined behaviour). *)
Definition conflict (a b : access) : Prop :=
  where_ a = where_ b /\ (writes a = true \/ writes b = true).
Definition racy (c : config) : Prop :=
  exists i j p q a b, i <> j /\ nth_error (threads c) i = Some p /\
    nth_error (threads c) j = Some q /\ next p = Some a /\ next q = Some b /\ conflict a b.

(** The leaf objects an expression object leads to, and the Dynamic objects it leads to
    through a proxy (a Dynamic used directly is only a wrapper of its operand). *)
Inductive touches (s : state) : node -> loc -> Prop :=
| t_own i t : touches s (NOwn i t) (Leaf i)
| t_leaf a t : objs s a = Some (OLeaf t) -> touches s (NRef a) (Leaf a)
| t_expr a n x : objs s a = Some (OExpr n) -> touches s n x -> touches s (NRef a) x
| t_dyn a n l x : objs s a = Some (ODyn n l) -> touches s n x -> touches s (NRef a) x
| t_var a d l x : objs s a = Some (OProxy d l) -> touches s (NProxy d l) x ->
    touches s (NRef a) x
| t_target d l : touches s (NProxy d l) (Evaluator d)
| t_proxy d n l l' x : objs s d = Some (ODyn n l) -> touches s n x ->
    touches s (NProxy d l') x
| t_un o n x : touches s n x -> touches s (NUn o n) x
| t_left o n1 n2 x : touches s n1 x -> touches s (NBin o n1 n2) x
| t_right o n1 n2 x : touches s n2 x -> touches s (NBin o n1 n2) x.

Definition q_node (q : query) : node :=
  match q with
  | QEval _ n | QForward _ n _ _ | QReverse _ _ n | QAssign _ _ _ n => n
  end.
Definition assigns (q : query) (x : loc) : Prop :=
  match q with QAssign a _ _ _ => x = Leaf a | _ => False end.

(** What a thread uses, and what it may change: leaves it assigns to, and Dynamics its
    expressions reach through proxies, even if it only evaluates. *)
Definition uses_ (s : state) (qs : list query) (x : loc) : Prop :=
  exists q, In q qs /\ (touches s (q_node q) x \/ assigns q x).
Definition changes (s : state) (qs : list query) (x : loc) : Prop :=
  exists q, In q qs /\ (assigns q x \/ exists d, x = Evaluator d /\ touches s (q_node q) x).

(** No thread changes what another one uses. *)
Definition independent (s : state) (ths : list (list query)) : Prop :=
  forall i j qs qs' x, i <> j -> nth_error ths i = Some qs -> nth_error ths j = Some qs' ->
    changes s qs x -> ~ uses_ s qs' x.

Section Alone.
  Variable eps : R.
  Variable na : nat.
  (** What a thread gets if it is the only one: the functions of ModelDyn.v in turn. *)
  Definition ask (s : state) (q : query) : option (answer * state) :=
    match q with
    | QEval f n => option_map (fun x => (AValue (fst x), snd x)) (node_eval eps na f s n)
    | QForward f n t dim =>
        option_map (fun x => (AJacobian (fst (fst x)) (snd (fst x)), snd x))
          (node_withDynamic eps na f s n t dim)
    | QReverse g f n =>
        option_map (fun x => (AJacobians (fst (fst x)) (snd (fst x)), snd x))
          (node_withReverse eps na g f s n)
    | QAssign a l f n =>
        option_map (fun x => (AAssigned, State (setf (vals (snd x)) a (fst x)) (objs (snd x))
                                               (cache (snd x))))
          (node_evalTo eps na f s l n)
    end.
  Fixpoint alone (s : state) (qs : list query) : option (list answer * state) :=
    match qs with
    | [] => Some ([], s)
    | q :: qs =>
        match ask s q with
        | Some (x, s') => option_map (fun r => (x :: fst r, snd r)) (alone s' qs)
        | None => None
        end
    end.
End Alone.
