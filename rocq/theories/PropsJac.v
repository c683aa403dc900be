(** Theorems about the Jacobian evaluators: C03 - C08 and C34.  The specification
    is [true_jacobian] of SpecJac.v (sum over occurrences of products of local
    Jacobians); that it is the derivative of the value is C01. *)

From Coq Require Import Reals List Arith Bool Lia Lra.
From Verif Require Import Mat ModelMeta ModelJac SpecJac MetaProofs JacProofs NaryProofs.
Import ListNotations.
Local Open Scope mat_scope.
Local Open Scope R_scope.

(** Running example: x0 (dim 3, address 10) used twice, y (dim 2, address 20). *)
Definition ex_x := Leaf 10 (LType 0 3).
Definition ex_y := Leaf 20 (LType 1 2).
Definition ex_z := Leaf 30 (LType 0 3).
Definition exJ r c := Mat r c (fun i j => 1 + INR i + 2 * INR j).
Definition ex_shared := EBin 1 3 (exJ 3 3) (exJ 3 2) (ELeaf ex_x)
                          (EBin 2 2 (exJ 2 2) (exJ 2 3) (ELeaf ex_y) (ELeaf ex_x)).
Definition ex_unique := EBin 1 3 (exJ 3 3) (exJ 3 2) (ELeaf ex_x)
                          (EUn 2 2 (exJ 2 2) (ELeaf ex_y)).

Lemma ex_shared_wf : wf_tree ex_shared.
Proof. cbn. unfold has_shape, l_dim. cbn. repeat split; lia. Qed.
Lemma ex_unique_wf : wf_tree ex_unique.
Proof. cbn. unfold has_shape, l_dim. cbn. repeat split; lia. Qed.
Lemma ex_unique_types : unique_types ex_unique.
Proof. unfold unique_types. cbn. repeat constructor; cbn; intuition congruence. Qed.
Lemma ex_shared_unamb : addr_unambiguous ex_x ex_shared /\ addrs_unambiguous ex_shared.
Proof.
  split; [split|].
  - cbn. lia.
  - cbn. intros l [<-|[<-|[<-|[]]]]; cbn; intros; auto; lia.
  - unfold addrs_unambiguous. cbn. intros l l' [<-|[<-|[<-|[]]]] [<-|[<-|[<-|[]]]]; cbn;
      intros; auto; lia.
Qed.

(** *** Forward mode: the untyped evaluator computes the chain-rule sum *)

Theorem c01_forward_is_chain_rule : forall t e,
  wf_tree e -> In t (leaves e) ->
  exists j, evaluateJacobian t e = Ok j /\ j == true_jacobian t e.
Proof.
  intros t e Hwf Hin.
  assert (Hc : contains_same_type (l_type t) e = true) by (apply contains_in, in_map, Hin).
  destruct (evaluateJacobian_compiles t e Hwf Hc) as (j & Hj).
  exists j. split; auto. apply evaluateJacobian_correct; auto.
Qed.
Print Assumptions c01_forward_is_chain_rule.

(** expr.jacobian(x), whichever evaluator it selects. *)
Theorem c01_jacobian_is_chain_rule : forall t e,
  wf_tree e -> In t (leaves e) ->
  exists j, jacobian t e = Ok j /\ j == true_jacobian t e.
Proof. exact jacobian_correct. Qed.
Print Assumptions c01_jacobian_is_chain_rule.

(** evalWithJacobians(x). *)
Theorem c01_evalWithJacobian_is_chain_rule : forall t e,
  wf_tree e -> In t (leaves e) ->
  exists j, evalWithJacobian t e = Ok j /\ j == true_jacobian t e.
Proof. exact evalWithJacobian_correct. Qed.
Print Assumptions c01_evalWithJacobian_is_chain_rule.

Example c01_shared_example : exists j,
  jacobian ex_x ex_shared = Ok j /\ has_shape 3 3 j /\ mnth j 0 0 <> 0.
Proof.
  eexists. split; [reflexivity|]. split; [split; reflexivity|]. cbn. lra.
Qed.

(** *** C03 *)

Theorem c03_typed_equals_untyped : forall t e,
  wf_tree e -> unique_types e -> In t (leaves e) ->
  exists jt ju, evaluateTypedJacobian t e = Ok jt /\ evaluateJacobian t e = Ok ju /\ jt == ju.
Proof.
  intros t e Hwf Hu Hin.
  assert (Hc : contains_same_type (l_type t) e = true) by (apply contains_in, in_map, Hin).
  destruct (typed_unique_correct t e Hwf Hu Hin) as (jt & Hjt & Heq).
  destruct (evaluateJacobian_compiles t e Hwf Hc) as (ju & Hju).
  exists jt, ju. unfold evaluateTypedJacobian. rewrite Hc. split; auto. split; auto.
  rewrite Heq. symmetry. apply evaluateJacobian_correct; auto.
Qed.
Print Assumptions c03_typed_equals_untyped.

Example c03_example : wf_tree ex_unique /\ unique_types ex_unique /\ In ex_y (leaves ex_unique).
Proof. split; [exact ex_unique_wf|]. split; [exact ex_unique_types|]. cbn; auto. Qed.

(** Both hypotheses matter.  With a repeated type, or a target that is another
    object of the same type, the typed evaluator differs: it sums over all leaves
    of the type. *)
Theorem c03_not_unique_differs : exists t e jt ju,
  wf_tree e /\ In t (leaves e) /\ evaluateTypedJacobian t e = Ok jt /\
  evaluateJacobian t e = Ok ju /\ ~ jt == ju.
Proof.
  exists ex_x, (EBin 1 3 (exJ 3 3) (exJ 3 3) (ELeaf ex_x) (ELeaf ex_z)).
  do 2 eexists. split; [cbn; unfold has_shape, l_dim; cbn; repeat split; lia|].
  split; [cbn; auto|]. split; [reflexivity|]. split; [reflexivity|].
  intros (_ & _ & H). specialize (H 0%nat 0%nat). cbn in H.
  assert (E : 0 + (1 + 0 + 2 * 0) * 1 = 1) by ring. revert H. cbn. intros H.
  specialize (H ltac:(lia) ltac:(lia)). revert H. cbn. lra.
Qed.
Print Assumptions c03_not_unique_differs.

(** *** C04 *)

Theorem c04_reverse_equals_forward : forall e,
  wf_tree e -> unique_types e ->
  exists js, evaluateWithReverseJacobians e = Some js /\
    length js = length (leaves e) /\
    forall i t, nth_error (leaves e) i = Some t ->
      exists jr jf, nth_error js i = Some jr /\ evaluateJacobian t e = Ok jf /\ jr == jf.
Proof.
  intros e Hwf Hu. destruct (reverse_correct e Hwf Hu) as (js & Hjs & Heq).
  exists js. split; auto. split.
  - clear Hjs. rewrite <- (map_length (fun t => true_jacobian t e) (leaves e)).
    induction Heq; simpl; auto.
  - intros i t Hi.
    destruct (c01_forward_is_chain_rule t e Hwf (nth_error_In _ _ Hi)) as (jf & Hjf & Hf).
    assert (Hn : nth_error (map (fun t => true_jacobian t e) (leaves e)) i
                 = Some (true_jacobian t e)) by (rewrite nth_error_map, Hi; reflexivity).
    clear Hjs Hi. revert i Hn. induction Heq as [|a b l l' Hab HF IH]; intros i Hn.
    + destruct i; discriminate.
    + destruct i as [|i]; simpl in Hn.
      * injection Hn as Hn. exists a, jf. split; auto. split; auto. rewrite Hab, Hn, Hf.
        reflexivity.
      * destruct (IH i Hn) as (jr & jf' & H1 & H2 & H3). exists jr, jf'. auto.
Qed.
Print Assumptions c04_reverse_equals_forward.

(** The call is accepted exactly when no leaf type is repeated. *)
Theorem c04_reverse_accepted_iff : forall e,
  evaluateWithReverseJacobians e <> None <-> unique_types e.
Proof.
  intros e. rewrite <- unique_iff. unfold evaluateWithReverseJacobians.
  destruct (unique_leaves e) as [L|]; split.
  - eauto.
  - intros _; discriminate.
  - congruence.
  - intros (L & H); discriminate.
Qed.
Print Assumptions c04_reverse_accepted_iff.

(** *** C05 *)

Theorem c05_dynamic_equals_static : forall t e,
  wf_tree e -> addr_unambiguous t e -> In t (leaves e) ->
  exists j, evaluateJacobian t e = Ok j /\ evaluateDynamicJacobian t e == j.
Proof.
  intros t e Hwf Hu Hin.
  destruct (c01_forward_is_chain_rule t e Hwf Hin) as (j & Hj & Heq).
  exists j. split; auto. rewrite Heq. apply evaluateDynamicJacobian_correct; auto.
  clear Hu Hj Heq. revert Hwf Hin.
  induction e as [l|a n J c IH|a n JL JR l IHl r IHr]; cbn; intros Hwf Hin.
  - destruct Hin as [<-|[]]. exact Hwf.
  - apply IH; tauto.
  - apply in_app_iff in Hin. tauto.
Qed.
Print Assumptions c05_dynamic_equals_static.

Theorem c05_dynamic_absent_zero : forall t e,
  wf_tree e -> addr_unambiguous t e -> (0 < l_dim t)%nat -> ~ In t (leaves e) ->
  evaluateDynamicJacobian t e == mzero (edim e) (l_dim t).
Proof.
  intros t e Hwf Hu Ht Hin. rewrite evaluateDynamicJacobian_correct by auto.
  rewrite true_jacobian_absent by auto. reflexivity.
Qed.
Print Assumptions c05_dynamic_absent_zero.

Example c05_example :
  wf_tree ex_shared /\ addr_unambiguous ex_x ex_shared /\ In ex_x (leaves ex_shared).
Proof. split; [exact ex_shared_wf|]. split; [apply ex_shared_unamb|]. cbn; auto. Qed.

(** The hypothesis on addresses is needed: dynamic evaluators compare bare
    addresses, so an object sharing the target's address without being the target
    (e.g. a member placed first in it) is mistaken for it. *)
Theorem c05_address_clash_differs : exists t e j,
  wf_tree e /\ In t (leaves e) /\ evaluateJacobian t e = Ok j /\
  ~ evaluateDynamicJacobian t e == j.
Proof.
  exists ex_x, (EBin 1 3 (exJ 3 3) (exJ 3 3) (ELeaf ex_x) (ELeaf (Leaf 10 (LType 2 3)))).
  eexists. split; [cbn; unfold has_shape, l_dim; cbn; repeat split; lia|].
  split; [cbn; auto|]. split; [reflexivity|].
  intros (_ & _ & H). specialize (H 0%nat 0%nat). cbn in H.
  specialize (H ltac:(lia) ltac:(lia)). revert H. cbn. lra.
Qed.
Print Assumptions c05_address_clash_differs.

(** *** C06 *)

Theorem c06_dynamic_reverse : forall garbage e,
  wf_tree e -> addrs_unambiguous e ->
  exists m, evaluateDynamicReverseJacobians garbage e = Some m /\
    (forall t, In t (leaves e) ->
       exists jr jf, mm_at m (l_addr t) = Some jr /\ evaluateJacobian t e = Ok jf /\ jr == jf) /\
    (forall k, ~ In k (map l_addr (leaves e)) -> mm_at m k = None).
Proof.
  intros g e Hwf Hu. destruct (dynreverse_correct g e Hwf Hu) as (m & Hm & H1 & H2).
  exists m. split; auto. split; auto. intros t Hin.
  destruct (H1 t Hin) as (jr & Hjr & Heq).
  destruct (c01_forward_is_chain_rule t e Hwf Hin) as (jf & Hjf & Hf).
  exists jr, jf. split; auto. split; auto. rewrite Heq, Hf. reflexivity.
Qed.
Print Assumptions c06_dynamic_reverse.

(** A leaf used twice: the block is the sum of the two path products. *)
Example c06_example : forall garbage, exists m jr,
  evaluateDynamicReverseJacobians garbage ex_shared = Some m /\
  mm_at m 10%nat = Some jr /\ jr == exJ 3 3 [+] (exJ 3 2 ** exJ 2 3).
Proof.
  intros g. destruct (dynreverse_correct g ex_shared ex_shared_wf (proj2 ex_shared_unamb))
    as (m & Hm & H1 & _).
  destruct (H1 ex_x ltac:(cbn; auto)) as (jr & Hjr & Heq).
  exists m, jr. split; auto. split; [exact Hjr|]. rewrite Heq.
  assert (E : true_jacobian ex_x ex_shared
    = ((exJ 3 3 ** mid 3) [+] ((exJ 3 2 ** (exJ 2 3 ** mid 3)) [+] mzero 3 3)))
    by reflexivity.
  rewrite E, madd_mzero_r.
  rewrite (mmul_mid_r (exJ 3 3)) by reflexivity.
  rewrite (mmul_mid_r (exJ 2 3)) by reflexivity. reflexivity.
Qed.

(** *** C07 *)

(** Dynamic forward mode: for every number of elements. *)
Theorem c07_dynamic_nary_stacks : forall garbage t cs,
  (0 < l_dim t)%nat -> Forall wf_tree cs -> Forall (addr_unambiguous t) cs ->
  nary_dyn garbage t cs == vstack (l_dim t) (map (true_jacobian t) cs).
Proof. intros. apply nary_dyn_correct; auto. Qed.
Print Assumptions c07_dynamic_nary_stacks.

Definition ex_p := Leaf 40 (LType 3 3).

Example c07_dynamic_example :
  Forall wf_tree [ELeaf ex_p; ELeaf ex_x; ex_shared] /\
  Forall (addr_unambiguous ex_x) [ELeaf ex_p; ELeaf ex_x; ex_shared].
Proof.
  split; repeat constructor; try exact ex_shared_wf; cbn; unfold l_dim; cbn; try lia; auto.
  - intros l [<-|[]]; cbn; intros; lia.
  - intros l [<-|[]]; cbn; intros; auto.
  - intros l [<-|[<-|[<-|[]]]]; cbn; intros; auto; lia.
Qed.

(** Static forward mode: correct if the elements containing the target's type
    precede all others.  Missing: every other arrangement, for which the property
    is false (next two theorems). *)
Theorem c07_static_nary_stacks_partial : forall t sel post,
  (0 < l_dim t)%nat -> Forall wf_tree (sel ++ post) ->
  Forall (fun c => contains_same_type (l_type t) c = true) sel ->
  Forall (fun c => contains_same_type (l_type t) c = false) post ->
  exists res, nary_fwd t (sel ++ post) = Ok res /\
              res == vstack (l_dim t) (map (true_jacobian t) (sel ++ post)).
Proof. intros. apply nary_fwd_prefix_correct; auto. Qed.
Print Assumptions c07_static_nary_stacks_partial.

Example c07_static_example :
  contains_same_type (l_type ex_x) ex_shared = true /\
  contains_same_type (l_type ex_x) (ELeaf ex_p) = false.
Proof. split; reflexivity. Qed.

(** An element that does not contain the target before one that does: the block is
    written to the rows of the wrong element. *)
Theorem c07_static_nary_stacks_refuted : exists t cs res,
  Forall wf_tree cs /\ In t (concat (map leaves cs)) /\
  nary_fwd t cs = Ok res /\
  ~ res == vstack (l_dim t) (map (true_jacobian t) cs).
Proof.
  exists ex_x, [ELeaf ex_p; ELeaf ex_x]. eexists.
  split; [repeat constructor; cbn; unfold l_dim; cbn; lia|].
  split; [cbn; auto|]. split; [reflexivity|].
  intros (_ & _ & H). specialize (H 0%nat 0%nat). cbn in H.
  specialize (H ltac:(lia) ltac:(lia)). revert H.
  unfold true_jacobian. cbn. lra.
Qed.
Print Assumptions c07_static_nary_stacks_refuted.

(** With elements of different sizes the same situation does not compile. *)
Theorem c07_static_nary_rejected : exists t cs,
  Forall wf_tree cs /\ In t (concat (map leaves cs)) /\ nary_fwd t cs = NoCompile.
Proof.
  exists ex_x, [ELeaf ex_y; ELeaf ex_x].
  split; [repeat constructor; cbn; unfold l_dim; cbn; lia|].
  split; [cbn; auto|]. reflexivity.
Qed.
Print Assumptions c07_static_nary_rejected.

(** *** C08 *)

(** Forward mode by address: any result for an object that does not occur is zero. *)
Theorem c08_absent_zero : forall t e j,
  wf_tree e -> ~ In t (leaves e) -> evaluateJacobian t e = Ok j ->
  j == mzero (edim e) (l_dim t).
Proof.
  intros t e j Hwf Hin Hj. rewrite (evaluateJacobian_correct t e j Hwf Hj).
  rewrite true_jacobian_absent by auto. reflexivity.
Qed.
Print Assumptions c08_absent_zero.

(** jacobian(): zero for absent objects, if leaf types are repeated or the
    target's type does not occur.  Missing: an absent object of a type that occurs
    exactly once in an expression with distinct leaf types (false, see below), and
    acceptance in general (false, see c08_absent_rejected). *)
Theorem c08_jacobian_absent_zero_partial : forall t e j,
  wf_tree e -> ~ In t (leaves e) ->
  ~ unique_types e \/ ~ In (l_type t) (map l_type (leaves e)) ->
  jacobian t e = Ok j -> j == mzero (edim e) (l_dim t).
Proof.
  intros t e j Hwf Hin Hor Hj.
  rewrite (jacobian_sound t e j Hwf) by (auto; tauto).
  rewrite true_jacobian_absent by auto. reflexivity.
Qed.
Print Assumptions c08_jacobian_absent_zero_partial.

Example c08_example_unique : exists j,
  jacobian (Leaf 77 (LType 9 4)) ex_unique = Ok j /\ j == mzero 3 4.
Proof. eexists. split; [reflexivity|]. reflexivity. Qed.

Example c08_example_shared : exists j, jacobian ex_z ex_shared = Ok j /\ j == mzero 3 3.
Proof. eexists. split; [reflexivity|]. reflexivity. Qed.

(** Another object of the same type as a leaf gets that leaf's Jacobian (without
    assertions; with assertions the program aborts). *)
Theorem c08_jacobian_absent_zero_refuted : exists t e j,
  wf_tree e /\ ~ In t (leaves e) /\ jacobian t e = Ok j /\ ~ j == mzero (edim e) (l_dim t).
Proof.
  exists ex_z, ex_unique. eexists. split; [exact ex_unique_wf|].
  split; [cbn; intuition discriminate|]. split; [reflexivity|].
  intros (_ & _ & H). specialize (H 0%nat 0%nat). cbn in H.
  specialize (H ltac:(lia) ltac:(lia)). revert H. cbn. lra.
Qed.
Print Assumptions c08_jacobian_absent_zero_refuted.

(** Repeated leaf types and a target type that occurs nowhere: no overload. *)
Theorem c08_absent_rejected : exists t e,
  wf_tree e /\ ~ In t (leaves e) /\ jacobian t e = NoCompile.
Proof.
  exists ex_p, ex_shared. split; [exact ex_shared_wf|].
  split; [cbn; intuition discriminate|]. reflexivity.
Qed.
Print Assumptions c08_absent_rejected.

(** *** C34 *)

Theorem c34_unique_leaves_exact : forall e,
  (unique_leaves e <> None <-> NoDup (map l_type (leaves e))).
Proof.
  intros e. rewrite <- (unique_iff e). destruct (unique_leaves e) as [L|]; split.
  - eauto.
  - intros _; discriminate.
  - congruence.
  - intros (L & H); discriminate.
Qed.
Print Assumptions c34_unique_leaves_exact.

(** When it exists, the list holds the leaf types in order. *)
Theorem c34_unique_leaves_list : forall e L,
  unique_leaves e = Some L -> L = map l_type (leaves e).
Proof. intros e L H. apply (unique_leaves_some e L H). Qed.
Print Assumptions c34_unique_leaves_list.

Example c34_example : unique_leaves ex_unique <> None /\ unique_leaves ex_shared = None.
Proof. split; [discriminate|reflexivity]. Qed.
