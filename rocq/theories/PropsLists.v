(** The compile-time lists: unions that must not repeat an element (C34), and the selection
    of the elements of a compound that contain the target's type (C07). *)

From Coq Require Import Reals List Arith Bool Lia Sorted.
From Coq Require ListDec.
From Verif Require Import Mat ModelMeta ModelJac.
Import ListNotations.

Definition eqb_dec {A : Type} (eqb : A -> A -> bool) (H : forall x y, eqb x y = true <-> x = y) (x y : A)
  : {x = y} + {x <> y}.
Proof.
  destruct (eqb x y) eqn:D; [left; now apply H|right]. intros F. apply H in F. rewrite F in D. discriminate.
Defined.

Section Union.
  Context {A : Type} (eqb : A -> A -> bool) (eqb_eq : forall x y, eqb x y = true <-> x = y).

  Lemma find_from_none l x i : find_from eqb l x i = None <-> ~ In x l.
  Proof.
    revert i. induction l as [|h tl IH]; intros i; cbn; [tauto|].
    destruct (eqb h x) eqn:E.
    - apply eqb_eq in E. subst. split; [discriminate|intros H; exfalso; apply H; auto].
    - rewrite IH. split; [|tauto]. intros H [->|H']; [|tauto].
      rewrite (proj2 (eqb_eq x x) eq_refl) in E. discriminate.
  Qed.

  Lemma union_two a b : NoDup a ->
    (NoDup (a ++ b) -> concat_if_unique eqb a b = Some (a ++ b)) /\
    (~ NoDup (a ++ b) -> concat_if_unique eqb a b = None).
  Proof.
    revert a. induction b as [|x b IH]; intros a Ha; cbn.
    - rewrite app_nil_r. split; [auto|tauto].
    - unfold find_idx. destruct (find_from eqb a x 0) eqn:E.
      + split; [|auto]. intros H. exfalso. apply NoDup_remove_2 in H. apply H, in_or_app. left.
        destruct (in_dec (eqb_dec eqb eqb_eq) x a) as [Hin|Hn]; [exact Hin|].
        apply (find_from_none a x 0) in Hn. congruence.
      + apply find_from_none in E.
        assert (Hx : NoDup (a ++ [x])).
        { apply NoDup_rev in Ha. rewrite <- (rev_involutive (a ++ [x])). apply NoDup_rev. rewrite rev_app_distr. cbn.
          constructor; [now rewrite <- in_rev|exact Ha]. }
        destruct (IH (a ++ [x]) Hx) as [H1 H2].
        replace ((a ++ [x]) ++ b) with (a ++ x :: b) in * by (rewrite <- app_assoc; reflexivity). auto.
  Qed.
End Union.

Lemma NoDup_app_l {A} (a b : list A) : NoDup (a ++ b) -> NoDup a.
Proof.
  induction a as [|x a IH]; cbn; intros H; [constructor|]. inversion_clear H as [|? ? N H'].
  constructor; [intros F; apply N, in_or_app; auto|auto].
Qed.

(** The union of any number of lists of distinct elements is their concatenation when no
    element occurs twice in all of them together, and is rejected otherwise. *)
Theorem c34_union_of_lists {A : Type} (eqb : A -> A -> bool) (a : list A) (ls : list (list A)) :
  (forall x y, eqb x y = true <-> x = y) -> NoDup a ->
  (NoDup (a ++ concat ls) -> concat_if_unique_many eqb (Some a) (map Some ls) = Ok (Some (a ++ concat ls))) /\
  (~ NoDup (a ++ concat ls) -> concat_if_unique_many eqb (Some a) (map Some ls) = Ok None).
Proof.
  intros He. revert a. induction ls as [|b ls IH]; intros a Ha.
  - cbn. rewrite app_nil_r. split; [auto|tauto].
  - destruct (union_two eqb He a b Ha) as [U1 U2].
    assert (D : NoDup (a ++ b) \/ ~ NoDup (a ++ b)).
    { destruct (concat_if_unique eqb a b) eqn:E.
      - left. destruct (ListDec.NoDup_dec (eqb_dec eqb He) (a ++ b)) as [H|H]; [exact H|]. apply U2 in H. congruence.
      - right. intros H. apply U1 in H. congruence. }
    destruct ls as [|c ls].
    + cbn [map concat concat_if_unique_many]. rewrite app_nil_r. destruct D as [D|D].
      * rewrite (U1 D). split; [auto|tauto].
      * rewrite (U2 D). split; [tauto|auto].
    + change (concat (b :: c :: ls)) with (b ++ concat (c :: ls)). rewrite app_assoc.
      change (concat_if_unique_many eqb (Some a) (map Some (b :: c :: ls))) with
        (match concat_if_unique eqb a b with
         | Some ab => concat_if_unique_many eqb (Some ab) (map Some (c :: ls))
         | None => Ok None end).
      destruct D as [D|D].
      * rewrite (U1 D). apply (IH (a ++ b) D).
      * rewrite (U2 D). split; [|auto]. intros H. exfalso. apply D. eapply NoDup_app_l; eauto.
Qed.
Print Assumptions c34_union_of_lists.

(** Of three or more lists none may be missing: one that was itself rejected makes the
    program fail to compile, where with two lists the result is just "not unique". *)
Theorem c34_rejected_list {A : Type} (eqb : A -> A -> bool) (a : option (list A)) (b c : option (list A)) us :
  a = None \/ b = None ->
  concat_if_unique_many eqb a [b] = Ok None /\ concat_if_unique_many eqb a (b :: c :: us) = NoCompile.
Proof. intros [->| ->]; [|destruct a]; cbn; auto; destruct b; auto. Qed.
Print Assumptions c34_rejected_list.

Example c34_union_example :
  NoDup [1; 2] /\ NoDup ([1; 2] ++ concat [[3]; [5; 4]]) /\ ~ NoDup ([1; 2] ++ concat [[3]; [5; 2]]).
Proof.
  split; [|split].
  - repeat constructor; cbn; lia.
  - repeat constructor; cbn; lia.
  - cbn. intros H. inversion_clear H as [|? ? _ H']. inversion_clear H' as [|? ? N _]. apply N. cbn. auto.
Qed.

(** The two selections of the elements of a compound (by type, and by index) keep the same
    elements, in the order in which they appear: those which satisfy the test. *)
Theorem c07_selected_elements {A : Type} (p : A -> bool) (l : list A) :
  tfilter p l = filter p l /\
  let ix := filter_index_sequence (fun i => match nth_error l i with Some x => p x | None => false end)
              (seq 0 (length l)) in
  map (nth_error l) ix = map Some (tfilter p l) /\
  (forall i, In i ix <-> exists x, nth_error l i = Some x /\ p x = true) /\
  Sorted.StronglySorted lt ix.
Proof.
  assert (F : forall l, tfilter p l = filter p l).
  { intros k. induction k as [|x k IH]; [reflexivity|]. unfold tfilter in *. cbn. rewrite IH. destruct (p x); reflexivity. }
  assert (G : forall q s, filter_index_sequence q s = filter q s).
  { intros q s. induction s as [|x k IH]; [reflexivity|]. unfold filter_index_sequence in *. cbn. rewrite IH. destruct (q x); reflexivity. }
  split; [apply F|]. intros ix. unfold ix. rewrite G, F. clear ix.
  assert (H : forall pre l', l = pre ++ l' ->
     map (nth_error l) (filter (fun i => match nth_error l i with Some x => p x | None => false end)
        (seq (length pre) (length l'))) = map Some (filter p l')).
  { intros pre l'. revert pre. induction l' as [|x l' IH]; intros pre E; [reflexivity|].
    cbn [length seq filter].
    assert (N : nth_error l (length pre) = Some x) by (rewrite E, nth_error_app2, Nat.sub_diag by lia; reflexivity).
    rewrite N. specialize (IH (pre ++ [x])). rewrite app_length in IH. cbn [length] in IH. rewrite Nat.add_1_r in IH.
    rewrite <- app_assoc in IH. specialize (IH E).
    destruct (p x); cbn [map]; rewrite ?N, IH; reflexivity. }
  split; [exact (H [] l eq_refl)|]. split.
  - intros i. rewrite filter_In, in_seq. split.
    + intros [_ Hp]. destruct (nth_error l i) as [x|]; [|discriminate]. eauto.
    + intros (x & E & Hp). rewrite E. split; [|exact Hp]. split; [lia|]. apply nth_error_Some. congruence.
  - generalize 0. generalize (length l). intros n. induction n as [|n IH]; intros s; cbn; [constructor|].
    destruct (match nth_error l s with Some x => p x | None => false end); [|apply IH].
    constructor; [apply IH|]. apply Forall_forall. intros i Hi. apply filter_In in Hi. destruct Hi as [Hi _].
    apply in_seq in Hi. lia.
Qed.
Print Assumptions c07_selected_elements.

(** The selection a Jacobian of a compound makes is this one. *)
Theorem c07_selects_children t cs :
  nary_fwd t cs =
  match tfilter (contains_same_type (l_type t)) cs with
  | [] => Ok (mzero (nary_dim cs) (l_dim t))
  | sel => combineChildJacobians t (nary_sizes cs) 0 sel (mzero (nary_dim cs) (l_dim t))
  end.
Proof.
  rewrite (proj1 (c07_selected_elements (contains_same_type (l_type t)) cs)). unfold nary_fwd.
  destruct (filter (contains_same_type (l_type t)) cs); reflexivity.
Qed.
