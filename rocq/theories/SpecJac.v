(** Specification of the Jacobian of an evaluated expression tree, independent of
    any of the evaluators: the sum, over every occurrence of the target object in
    the tree, of the product of the local Jacobians on the way from the root to
    that occurrence (the multivariate chain rule). *)

From Coq Require Import Reals List Arith Bool.
From Verif Require Import Mat ModelMeta ModelJac.
Import ListNotations.
Local Open Scope mat_scope.

(** Leaf objects, in the order in which they are written in the expression. *)
Fixpoint leaves (e : etree) : list leaf :=
  match e with
  | ELeaf l => [l]
  | EUn _ _ _ c => leaves c
  | EBin _ _ _ _ l r => (leaves l ++ leaves r)%list
  end.

(** Every occurrence of a leaf, with the product of the local Jacobians from the
    root to it. *)
Fixpoint occurrences (e : etree) : list (leaf * mat) :=
  match e with
  | ELeaf l => [(l, mid (l_dim l))]
  | EUn _ _ J c => map (fun p => (fst p, J ** snd p)) (occurrences c)
  | EBin _ _ JL JR l r =>
      (map (fun p => (fst p, JL ** snd p)) (occurrences l)
       ++ map (fun p => (fst p, JR ** snd p)) (occurrences r))%list
  end.

Definition leaf_eq_dec (a b : leaf) : {a = b} + {a <> b}.
Proof.
  decide equality; [|apply Nat.eq_dec].
  decide equality; apply Nat.eq_dec.
Defined.

(** Derivative of the tree with respect to the object [t]. *)
Definition true_jacobian (t : leaf) (e : etree) : mat :=
  msum (edim e) (l_dim t)
    (map snd (filter (fun p => if leaf_eq_dec (fst p) t then true else false)
                (occurrences e))).

(** Derivative of a compound expression: the children's derivatives stacked. *)
Definition true_nary_jacobian (t : leaf) (cs : list etree) : mat :=
  vstack (l_dim t) (map (true_jacobian t) cs).

(** The local Jacobians have the shapes that the C++ matrix types have, and no
    expression has a tangent space of dimension 0. *)
Fixpoint wf_tree (e : etree) : Prop :=
  match e with
  | ELeaf l => (0 < l_dim l)%nat
  | EUn _ n J c => (0 < n)%nat /\ has_shape n (edim c) J /\ wf_tree c
  | EBin _ n JL JR l r =>
      (0 < n)%nat /\ has_shape n (edim l) JL /\ has_shape n (edim r) JR /\
      wf_tree l /\ wf_tree r
  end.

(** Addresses of the operation nodes. *)
Fixpoint node_addrs (e : etree) : list nat :=
  match e with
  | ELeaf _ => []
  | EUn a _ _ c => a :: node_addrs c
  | EBin a _ _ _ l r => a :: (node_addrs l ++ node_addrs r)%list
  end.

(** [t]'s address is not shared by an operation node nor by a leaf object of
    another type. *)
Definition addr_unambiguous (t : leaf) (e : etree) : Prop :=
  ~ In (l_addr t) (node_addrs e) /\
  forall l, In l (leaves e) -> l_addr l = l_addr t -> l = t.

(** No two leaf objects of different types share an address. *)
Definition addrs_unambiguous (e : etree) : Prop :=
  forall l l', In l (leaves e) -> In l' (leaves e) -> l_addr l = l_addr l' -> l = l'.

(** All leaves of the expression have different C++ types. *)
Definition unique_types (e : etree) : Prop := NoDup (map l_type (leaves e)).
