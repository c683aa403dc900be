(** C27, C28, C29: evaluation and differentiation of expression objects, with Dynamic
    objects and proxies, always reflects the current leaf values and bindings. *)

From Coq Require Import Reals List Arith Bool Lia Lra.
From Verif Require Import Mat V3 ModelMeta ModelJac SpecJac ModelLeaf ModelExpr SpecLeaf SpecExpr ExprProofs
  JacProofs SpecDeriv DerivProofs DerivTree JacDef DerivUn PropsExpr PropsDeriv ModelDyn SpecDyn DynProofs.
Import ListNotations.
Local Open Scope R_scope.
Local Open Scope mat_scope.

Section P.
  Variables (eps : R) (na : nat).

  Lemma prepared_out f s n e0 : outline f s n = Some e0 -> forall f', (f <= f')%nat ->
    prepared f' s n = out_expr e0.
  Proof. intros H f' L. unfold prepared. now rewrite (outline_mono _ _ _ _ H f' L). Qed.

  Lemma eval_out m e : eval eps m e = match out_expr e with Some p => eval_p eps m p | None => None end.
  Proof.
    unfold eval, out_expr, evaluateTo. destruct (prepare e) as [[p t]|]; [|reflexivity].
    destruct (prepare_to (plain_output t) e) as [[q u]|]; reflexivity.
  Qed.

  (** Main lemma on evaluators: either the expanded expression has no value and neither
      has the evaluator, or they agree. *)
  Definition env_for (s : state) (stop : nat -> bool) (m : env) : Prop :=
    (forall a, is_dyn s a = false -> m a = vals s a) /\
    (forall d c, stop d = true -> newest eps na s d c -> m d = fst c) /\
    (forall d n l, stop d = true -> objs s d = Some (ODyn n l) ->
       exists T, vt eps na s (XLeaf d (Plain l)) (m d) T).

  Lemma env_for_none s : env_for s no_stop (vals s).
  Proof. split; [reflexivity|]. split; discriminate. Qed.

  Lemma run_ev s stop m n e : env_for s stop m -> stands s stop n e ->
    exists F, forall f, (F <= f)%nat ->
    match prepared f s n, out_expr e with
    | Some p0, Some p => ppx s stop p0 p /\
        match tree eps na m p with
        | Some (v, T) => exists T0 s', ev eps na (dynEvaluate eps na f) s p0 = Some (v, T0, s') /\
            ev_post eps na s p0 v T0 s' /\ expands eps na s stop T0 T
        | None => ev eps na (dynEvaluate eps na f) s p0 = None
        end
    | None, None => True
    | _, _ => False
    end.
  Proof.
    intros (Hm & Hd & He) St. destruct (stands_xp _ _ _ _ St) as (f0 & e0 & O & X).
    pose proof (out_xp _ _ _ _ X) as R.
    destruct (out_expr e0) as [p0|] eqn:Q0, (out_expr e) as [p|] eqn:Q; try contradiction.
    - destruct (tree eps na m p) as [[v T]|] eqn:E.
      + destruct (vt_of_tree eps na s stop m p0 p Hm He R v T E) as (T0 & V).
        destruct (ev_complete eps na _ _ _ _ V) as (F & HF).
        exists (f0 + F)%nat. intros f L. rewrite (prepared_out _ _ _ _ O f), Q0 by lia.
        split; [exact R|]. destruct (HF f s ltac:(lia) (same_mem_refl s)) as (s' & E').
        exists T0, s'. split; [exact E'|]. split; [eapply ev_sound; eauto|].
        destruct (tree_of_vt eps na s stop m p0 p Hm Hd R v T0 V)
          as (T' & E1 & X1). rewrite E in E1. injection E1 as <-. exact X1.
      + exists f0. intros f L. rewrite (prepared_out _ _ _ _ O f), Q0 by lia.
        split; [exact R|].
        destruct (ev eps na (dynEvaluate eps na f) s p0) as [[[v T0] s']|] eqn:E'; [|reflexivity].
        destruct (ev_sound _ _ _ _ _ _ _ _ E') as (V & _).
        destruct (tree_of_vt eps na s stop m p0 p Hm Hd R v T0 V)
          as (T' & E1 & X1). congruence.
    - exists f0. intros f L. rewrite (prepared_out _ _ _ _ O f), Q0 by lia. exact I.
  Qed.

  (** *** Values *)

  (** eval() of an expression object with any number of proxies, references and Dynamics
      gives the value, at the current leaf values, of the expression it currently stands
      for, whatever evaluators the Dynamics have cached. *)
  Theorem c28_eval_is_current : forall s n e, stands s no_stop n e ->
    exists F, forall f, (F <= f)%nat ->
      option_map fst (node_eval eps na f s n) = eval eps (vals s) e.
  Proof.
    intros s n e St. destruct (run_ev s no_stop (vals s) n e (env_for_none s) St) as (F & HF). exists F. intros f L.
    specialize (HF f L). rewrite eval_out. unfold node_eval.
    destruct (prepared f s n) as [p0|], (out_expr e) as [p|]; try contradiction; [|reflexivity].
    destruct HF as (_ & HF). rewrite <- (tree_value eps na).
    destruct (tree eps na (vals s) p) as [[v T]|].
    - destruct HF as (T0 & s' & -> & _). reflexivity.
    - now rewrite HF.
  Qed.

  (** Evaluating and differentiating change no leaf, no binding, no expression object. *)
  Lemma node_eval_mem f s n v s' : node_eval eps na f s n = Some (v, s') -> same_mem s s'.
  Proof.
    unfold node_eval. destruct (prepared f s n); [|discriminate].
    destruct (ev _ _ _ _ _) as [[[v0 T] s0]|] eqn:E; [|discriminate].
    intros H. injection H as <- <-. apply (ev_sound _ _ _ _ _ _ _ _ E).
  Qed.
  Lemma node_forward_mem f s n t dim v J s' :
    node_withDynamic eps na f s n t dim = Some (v, J, s') -> same_mem s s'.
  Proof.
    unfold node_withDynamic. destruct (prepared f s n); [|discriminate].
    destruct (ev _ _ _ _ _) as [[[v0 T] s0]|] eqn:E; [|discriminate].
    destruct (djac _ _ _ _); [|discriminate].
    intros H. injection H as <- <- <-. apply (ev_sound _ _ _ _ _ _ _ _ E).
  Qed.
  Lemma node_reverse_mem g f s n v J s' :
    node_withReverse eps na g f s n = Some (v, J, s') -> same_mem s s'.
  Proof.
    unfold node_withReverse. destruct (prepared f s n); [|discriminate].
    destruct (ev _ _ _ _ _) as [[[v0 T] s0]|] eqn:E; [|discriminate].
    destruct (xleaves _ _ _); [|discriminate].
    destruct (drev _ _ _ _ _); [|discriminate].
    intros H. injection H as <- <- <-. apply (ev_sound _ _ _ _ _ _ _ _ E).
  Qed.

  Lemma act_query_mem s x s' : act eps na s x = Some s' ->
    match x with AEval _ _ | AForward _ _ _ _ | AReverse _ _ _ => same_mem s s' | _ => True end.
  Proof.
    destruct x as [a v|a o|a b|f n|f n t dim|g f n]; cbn [act]; try (intros _; exact I).
    - destruct (node_eval eps na f s n) as [[v s0]|] eqn:E; [|discriminate].
      cbn. intros H. injection H as <-. eapply node_eval_mem; eauto.
    - destruct (node_withDynamic eps na f s n t dim) as [[[v J] s0]|] eqn:E; [|discriminate].
      cbn. intros H. injection H as <-. eapply node_forward_mem; eauto.
    - destruct (node_withReverse eps na g f s n) as [[[v J] s0]|] eqn:E; [|discriminate].
      cbn. intros H. injection H as <-. eapply node_reverse_mem; eauto.
  Qed.

  Lemma act_mem s1 s2 x s1' : same_mem s1 s2 ->
    match x with AEval _ _ | AForward _ _ _ _ | AReverse _ _ _ => False | _ => True end ->
    act eps na s1 x = Some s1' -> exists s2', act eps na s2 x = Some s2' /\ same_mem s1' s2'.
  Proof.
    intros (M1 & M2) Hx. destruct x as [a v|a o|a b|f n|f n t dim|g f n]; try contradiction;
      cbn [act]; intros H; injection H as <-; eexists; (split; [reflexivity|]);
      split; cbn; congruence.
  Qed.

  Lemma history_mem h : forall s1 s2 s1', same_mem s1 s2 -> history eps na h s1 = Some s1' ->
    exists s2', history eps na (no_queries h) s2 = Some s2' /\ same_mem s1' s2'.
  Proof.
    induction h as [|x h IH]; intros s1 s2 s1' M H; cbn [history] in H.
    - injection H as <-. exists s2. split; [reflexivity|exact M].
    - destruct (act eps na s1 x) as [s|] eqn:A; [|discriminate].
      pose proof (act_query_mem _ _ _ A) as Q. pose proof (act_mem s1 s2 x s M) as N.
      destruct x; cbn [no_queries filter]; fold (no_queries h); cbn [history];
        try (destruct (N I A) as (s2' & -> & M'); exact (IH _ _ _ M' H));
        exact (IH _ _ _ (same_mem_trans _ _ _ (same_mem_sym _ _ Q) M) H).
  Qed.

  (** After any history of assignments to leaves, constructions, rebindings, copies,
      evaluations and differentiations, eval() equals evaluating from scratch: the value,
      at the current leaf values, of the expression the object stands for now; and all
      the evaluations and differentiations in the history may as well not have been. *)
  Theorem c28_any_history : forall h s0 s n e, history eps na h s0 = Some s ->
    stands s no_stop n e ->
    exists F, forall f, (F <= f)%nat ->
      option_map fst (node_eval eps na f s n) = eval eps (vals s) e /\
      option_map fst (node_eval eps na f (scratch s) n) = eval eps (vals s) e.
  Proof.
    intros h s0 s n e _ St.
    assert (St' : stands (scratch s) no_stop n e)
      by (clear - St; induction St; econstructor; eauto).
    destruct (c28_eval_is_current s n e St) as (F1 & H1).
    destruct (c28_eval_is_current (scratch s) n e St') as (F2 & H2).
    exists (F1 + F2)%nat. intros f L. split; [apply H1|apply H2]; lia.
  Qed.

  Theorem c28_queries_leave_no_trace : forall h s0 s, history eps na h s0 = Some s ->
    exists s', history eps na (no_queries h) s0 = Some s' /\ vals s' = vals s /\ objs s' = objs s.
  Proof. intros h s0 s H. exact (history_mem h s0 s0 s (same_mem_refl s0) H). Qed.

  (** *** Derivatives *)

  Lemma out_type s stop f n e m k v : 0 <= eps -> stands s stop n e -> good eps m e k ->
    forall p0 p, prepared f s n = Some p0 -> out_expr e = Some p -> eval_p eps m p = Some v ->
    exists u, vty v = u /\ (forall a t, p0 = XLeaf a t -> t = u) /\
      (forall a t, p = XLeaf a t -> t = u).
  Proof.
    intros He St (Gk & Ge & Gx) p0 p P0 P V. unfold prepared in P0.
    destruct (outline f s n) as [e0|] eqn:O; [|discriminate].
    destruct (stands_xp _ _ _ _ St) as (f1 & e1 & O1 & X).
    pose proof (outline_det _ _ _ _ _ _ O O1) as <-. clear O1.
    pose proof (prepare_xp _ _ _ _ X) as R. unfold rel_prep in R. unfold out_expr in P.
    destruct (prepare e) as [[q u]|] eqn:Q; [|discriminate].
    destruct (prepare e0) as [[q0 u0]|] eqn:Q0; [|contradiction]. destruct R as (-> & _).
    pose proof (prepare_to_xp _ _ (plain_output u) _ _ X) as R. unfold rel_prep in R.
    destruct (prepare_to (plain_output u) e) as [[r w]|] eqn:W; [|discriminate]. injection P as <-.
    destruct (prepare_to (plain_output u) e0) as [[r0 w0]|] eqn:W0; [|contradiction].
    injection P0 as <-. destruct R as (-> & _).
    destruct (prepare_to_sound eps He m e _ _ _ k W Gk Ge Gx) as (-> & S).
    destruct (proj2 S v V) as (Tv & _). exists (plain_output u). split; [exact Tv|].
    cbn [fst]. split; intros a t ->; eapply prepare_to_leaf_ty; eauto.
  Qed.

  Lemma reads_env s t m : reads eps s t m -> env_for s (only t) m.
  Proof.
    intros (H1 & H2). split; [exact H1|].
    assert (K : forall n l, objs s t = Some (ODyn n l) ->
      exists f e0 p0 T, outline f s n = Some e0 /\ prepare e0 = Some (p0, Plain l) /\
        vt eps na s p0 (m t) T).
    { intros n l O. destruct (H2 n l O) as (e & St & Ev).
      inversion St as [| | | | |d' n' l' S' O'|d' n' l' e' S' O' St' (p & P)| |]; subst; [discriminate|].
      rewrite O in O'. injection O' as <-.
      destruct (stands_xp _ _ _ _ St') as (f & e0 & Ou & X).
      pose proof (prepare_xp _ _ _ _ X) as R. rewrite P in R. unfold rel_prep in R.
      destruct (prepare e0) as [[p0 u]|] eqn:P0; [|contradiction]. destruct R as (-> & R).
      rewrite eval_out in Ev. unfold out_expr in Ev. rewrite P in Ev. unfold prepare_to in Ev.
      rewrite P in Ev. change (plain_output (Plain l)) with (Plain l) in Ev.
      replace (ty_eqb (Plain l) (Plain l)) with true in Ev
        by (symmetry; now apply ty_eqb_eq).
      cbn in Ev. rewrite <- (tree_value eps na) in Ev.
      destruct (tree eps na (vals s) p) as [[v T]|] eqn:E; [|discriminate].
      cbn in Ev. injection Ev as <-.
      destruct (vt_of_tree eps na s no_stop (vals s) p0 p (fun _ _ => eq_refl)
        ltac:(discriminate) R v T E) as (T0 & V).
      exists f, e0, p0, T0. auto. }
    split.
    - intros d c S N. unfold only in S. apply Nat.eqb_eq in S. subst d.
      pose proof N as (n & l & _ & _ & _ & _ & O & _). destruct (K n l O) as (f & e0 & p0 & T & Ou & P & V).
      assert (N' : newest eps na s t (m t, T)) by (exists n, l, f, e0, p0, (Plain l); auto).
      now rewrite (newest_det _ _ _ _ _ _ N N').
    - intros d n l S O. unfold only in S. apply Nat.eqb_eq in S. subst d.
      destruct (K n l O) as (f & e0 & p0 & T & Ou & P & V). eexists. eapply vt_dyn; eauto.
  Qed.

  (** The dynamic forward Jacobian of an expression object with proxies, with respect to
      an object [t]: that of the expression it currently stands for, where [t], if it is
      something a proxy points at, is a variable of its own; at the current values. *)
  Theorem c29_forward : forall s n e t l m k, 0 <= eps -> reads eps s t m ->
    stands s (only t) n e -> good eps m e k ->
    exists F, forall f, (F <= f)%nat ->
      option_map fst (node_withDynamic eps na f s n t (tsize (kind_of l))) =
      expr_evaluateWithDynamic eps na m e (leaf_obj t (Plain l)).
  Proof.
    intros s n e t l m k He Rd St G.
    destruct (run_ev s (only t) m n e (reads_env _ _ _ Rd) St) as (F & HF).
    assert (EE : expr_evaluateWithDynamic eps na m e (leaf_obj t (Plain l)) =
      match out_expr e with
      | Some p => match tree eps na m p with
                  | Some (v, T) => Some (v, evaluateDynamicJacobian (leaf_obj t (Plain l)) T)
                  | None => None
                  end
      | None => None
      end).
    { unfold expr_evaluateWithDynamic, out_expr. destruct (prepare e) as [[q u]|]; [|reflexivity].
      destruct (prepare_to (plain_output u) e) as [[r w]|]; reflexivity. }
    rewrite EE. clear EE.
    pose proof (HF F (le_n F)) as HF0.
    destruct (out_expr e) as [p|] eqn:P.
    2:{ exists F. intros f L. specialize (HF f L). unfold node_withDynamic.
        destruct (prepared f s n); [contradiction|reflexivity]. }
    destruct (tree eps na m p) as [[v T]|] eqn:ET.
    2:{ exists F. intros f L. specialize (HF f L). unfold node_withDynamic.
        destruct (prepared f s n) as [p0|]; [|reflexivity]. destruct HF as (_ & ->). reflexivity. }
    destruct (prepared F s n) as [p0|] eqn:P0; [|contradiction].
    destruct HF0 as (R & T0 & _ & _ & (V0 & _) & X0).
    destruct (djac_correct _ _ _ _ _ _ X0) as (F2 & HF2).
    exists (F + F2)%nat. intros f L. specialize (HF f ltac:(lia)). unfold node_withDynamic.
    assert (Hf : prepared f s n = Some p0).
    { unfold prepared in *. destruct (outline F s n) as [e0|] eqn:O; [|discriminate].
      rewrite (outline_mono _ _ _ _ O f) by lia. exact P0. }
    rewrite Hf in *. destruct HF as (_ & T1 & s' & -> & (V1 & M & _ & Fr) & _).
    destruct (vt_det _ _ _ _ _ _ V0 _ _ V1) as (_ & ->).
    rewrite (HF2 f s') by (assumption || lia).
    cbn [option_map fst]. f_equal. f_equal. unfold evaluateDynamicJacobian. cbn [leaf_obj l_addr].
    replace (edim T0) with (edim T); [reflexivity|].
    assert (Ep : eval_p eps m p = Some v) by (rewrite <- (tree_value eps na), ET; reflexivity).
    destruct (out_type s (only t) F n e m k v He St G p0 p P0 P Ep) as (u & U1 & U2 & U3).
    rewrite (vt_edim eps na s p0 v T0 u V0 U1 U2), (tree_edim eps na m p v T u ET U1 U3). reflexivity.
  Qed.

  (** The dynamic reverse Jacobians: those of the expression the object currently stands
      for, with one entry for each leaf object behind any proxy. *)
  Theorem c29_reverse : forall g s n e k, 0 <= eps -> stands s no_stop n e ->
    good eps (vals s) e k ->
    exists F, forall f, (F <= f)%nat ->
      option_map fst (node_withReverse eps na g f s n) =
      match expr_evaluateWithDynamicReverse eps g na (vals s) e with
      | Some (v, Some mm) => Some (v, mm)
      | _ => None
      end.
  Proof.
    intros g s n e k He St G.
    destruct (run_ev s no_stop (vals s) n e (env_for_none s) St) as (F & HF).
    assert (EE : expr_evaluateWithDynamicReverse eps g na (vals s) e =
      match out_expr e with
      | Some p => match tree eps na (vals s) p with
                  | Some (v, T) => Some (v, evaluateDynamicReverseJacobians g T)
                  | None => None
                  end
      | None => None
      end).
    { unfold expr_evaluateWithDynamicReverse, out_expr. destruct (prepare e) as [[q u]|]; [|reflexivity].
      destruct (prepare_to (plain_output u) e) as [[r w]|]; reflexivity. }
    rewrite EE. clear EE.
    pose proof (HF F (le_n F)) as HF0.
    destruct (out_expr e) as [p|] eqn:P.
    2:{ exists F. intros f L. specialize (HF f L). unfold node_withReverse.
        destruct (prepared f s n); [contradiction|reflexivity]. }
    destruct (tree eps na (vals s) p) as [[v T]|] eqn:ET.
    2:{ exists F. intros f L. specialize (HF f L). unfold node_withReverse.
        destruct (prepared f s n) as [p0|]; [|reflexivity]. destruct HF as (_ & ->). reflexivity. }
    destruct (prepared F s n) as [p0|] eqn:P0; [|contradiction].
    destruct HF0 as (R & T0 & _ & _ & (V0 & _) & X0).
    destruct (drev_correct _ _ _ _ _ X0) as (F2 & HF2).
    destruct (xleaves_correct eps na s (vals s) p0 p R v T ET) as (F3 & HF3).
    exists (F + F2 + F3)%nat. intros f L. specialize (HF f ltac:(lia)). unfold node_withReverse.
    assert (Hf : prepared f s n = Some p0).
    { unfold prepared in *. destruct (outline F s n) as [e0|] eqn:O; [|discriminate].
      rewrite (outline_mono _ _ _ _ O f) by lia. exact P0. }
    rewrite Hf in *. destruct HF as (_ & T1 & s' & -> & (V1 & M & _ & Fr) & _).
    destruct (vt_det _ _ _ _ _ _ V0 _ _ V1) as (_ & ->).
    rewrite (xleaves_mem2 f s s' p0 M), HF3 by lia.
    rewrite (HF2 f s') by (assumption || lia).
    replace (edim T0) with (edim T).
    - unfold evaluateDynamicReverseJacobians, getLeavesMap.
      match goal with |- context [dynrev ?a ?b ?c] => destruct (dynrev a b c); reflexivity end.
    - assert (Ep : eval_p eps (vals s) p = Some v) by (rewrite <- (tree_value eps na), ET; reflexivity).
      destruct (out_type s no_stop F n e (vals s) k v He St G p0 p P0 P Ep) as (u & U1 & U2 & U3).
      rewrite (vt_edim eps na s p0 v T0 u V0 U1 U2), (tree_edim eps na (vals s) p v T u ET U1 U3). reflexivity.
  Qed.

  (** Hence it is the derivative of the expression the object stands for. *)
  Theorem c29_forward_is_derivative : forall s n e t l m k x, 0 <= eps < 1 -> reads eps s t m ->
    stands s (only t) n e -> good eps m e k -> means eps m e = Some x ->
    In t (leaf_addrs e) -> vty (m t) = Plain l -> smooth eps (fun b => den (m b)) t e ->
    na <> t ->
    exists F v J, den v = x /\ has_shape (tsize k) (tsize (kind_of l)) J /\
      is_derivative eps m e t J /\
      forall f, (F <= f)%nat -> exists s',
        node_withDynamic eps na f s n t (tsize (kind_of l)) = Some (v, J, s').
  Proof.
    intros s n e t l m k x He Rd St G Hx Ha Hl Hs Hna.
    destruct (c29_forward s n e t l m k (proj1 He) Rd St G) as (F & HF).
    destruct (c01_jacobian_is_derivative eps na m e k t l x He G Hx Ha Hl Hs) as (_ & J & EJ & SJ & DJ).
    destruct (c01_other_modes_same_matrix eps na (fun _ _ => 0) m e k t l x J He G Hx Ha Hl Hs EJ)
      as (_ & D & _).
    destruct (D Hna) as (v & J2 & E2 & Dv & Q).
    exists F, v, J2. split; [exact Dv|]. split.
    { destruct Q as (Q1 & Q2 & _), SJ as (S1 & S2). split; congruence. }
    split.
    { apply (is_derivative_meq eps m e k t x J J2 He G); auto. now symmetry. }
    intros f L. specialize (HF f L). rewrite E2 in HF.
    destruct (node_withDynamic eps na f s n t (tsize (kind_of l))) as [[[v' J'] s']|]; [|discriminate].
    cbn in HF. injection HF as -> ->. exists s'. reflexivity.
  Qed.

  (** The reverse entries likewise. *)
  Theorem c29_reverse_is_derivative : forall g s n e k x, 0 <= eps < 1 ->
    stands s no_stop n e -> good eps (vals s) e k -> means eps (vals s) e = Some x ->
    (exists a l, In a (leaf_addrs e) /\ vty (vals s a) = Plain l /\
       smooth eps (fun b => den (vals s b)) a e) ->
    exists F v mm, den v = x /\
      (forall a l, In a (leaf_addrs e) -> vty (vals s a) = Plain l ->
         smooth eps (fun b => den (vals s b)) a e ->
         exists J, mm_at mm a = Some J /\ is_derivative eps (vals s) e a J) /\
      forall f, (F <= f)%nat -> exists s', node_withReverse eps na g f s n = Some (v, mm, s').
  Proof.
    intros g s n e k x He St G Hx (a0 & l0 & Ha0 & Hl0 & Hs0).
    destruct (c29_reverse g s n e k (proj1 He) St G) as (F & HF).
    assert (K : forall a l, In a (leaf_addrs e) -> vty (vals s a) = Plain l ->
      smooth eps (fun b => den (vals s b)) a e -> exists v mm J,
      expr_evaluateWithDynamicReverse eps g na (vals s) e = Some (v, Some mm) /\ den v = x /\
      mm_at mm a = Some J /\ is_derivative eps (vals s) e a J).
    { intros a l Ha Hl Hs.
      destruct (c01_jacobian_is_derivative eps na (vals s) e k a l x He G Hx Ha Hl Hs) as (_ & J & EJ & SJ & DJ).
      destruct (c01_other_modes_same_matrix eps na g (vals s) e k a l x J He G Hx Ha Hl Hs EJ)
        as (_ & _ & v & mm & J3 & E & Dv & M & Q).
      exists v, mm, J3. repeat split; auto.
      apply (is_derivative_meq eps (vals s) e k a x J J3 He G); auto. now symmetry. }
    destruct (K a0 l0 Ha0 Hl0 Hs0) as (v & mm & _ & E & Dv & _ & _).
    exists F, v, mm. split; [exact Dv|]. split.
    - intros a l Ha Hl Hs. destruct (K a l Ha Hl Hs) as (v' & mm' & J & E' & _ & M & D).
      rewrite E in E'. injection E' as <- <-. eauto.
    - intros f L. specialize (HF f L). rewrite E in HF.
      destruct (node_withReverse eps na g f s n) as [[[v' J'] s']|]; [|discriminate].
      cbn in HF. injection HF as -> ->. exists s'. reflexivity.
  Qed.


  (** *** Static forward mode *)
  Lemma run_pp s stop m p0 p v T : env_for s stop m -> ppx s stop p0 p ->
    tree eps na m p = Some (v, T) -> exists F T0, vt eps na s p0 v T0 /\ expands eps na s stop T0 T /\
      forall f, (F <= f)%nat -> exists s', ev eps na (dynEvaluate eps na f) s p0 = Some (v, T0, s') /\
        same_mem s s' /\ freshT eps na s' T0.
  Proof.
    intros (Hm & Hd & He) R E.
    destruct (vt_of_tree eps na s stop m p0 p Hm He R v T E) as (T0 & V).
    destruct (ev_complete eps na _ _ _ _ V) as (F & HF). exists F, T0. split; [exact V|]. split.
    - destruct (tree_of_vt eps na s stop m p0 p Hm Hd R v T0 V) as (T' & E1 & X1). congruence.
    - intros f L. destruct (HF f s L (same_mem_refl s)) as (s' & E'). exists s'.
      split; [exact E'|]. destruct (ev_sound _ _ _ _ _ _ _ _ E') as (_ & M & _ & Fr). auto.
  Qed.

  Lemma expands_none s stop T0 T : expands eps na s stop T0 T -> has_proxy s T0 = false -> T0 = T.
  Proof.
    induction 1 as [l D|l D S|l v T0 T D S N X IH|a n J c c' X IH
      |a n JL JR l l' r r' X1 IH1 X2 IH2]; cbn; intros H.
    - reflexivity.
    - reflexivity.
    - congruence.
    - f_equal. auto.
    - apply orb_false_iff in H. destruct H. f_equal; auto.
  Qed.

  Lemma has_proxy_mem s s' T : same_mem s s' -> has_proxy s' T = has_proxy s T.
  Proof.
    intros M. induction T as [l|a n J c IH|a n JL JR l IHl r IHr]; cbn; auto.
    - now rewrite (is_dyn_mem _ _ _ M).
    - now rewrite IHl, IHr.
  Qed.

  Inductive all_na (na0 : nat) : etree -> Prop :=
  | ap_leaf l : all_na na0 (ELeaf l)
  | ap_un n J c : all_na na0 c -> all_na na0 (EUn na0 n J c)
  | ap_bin n JL JR l r : all_na na0 l -> all_na na0 r -> all_na na0 (EBin na0 n JL JR l r).

  Lemma vt_na s p v T : vt eps na s p v T -> all_na na T.
  Proof. induction 1; constructor; auto. Qed.

  Lemma sjac_correct s t T0 T : na <> l_addr t -> expands eps na s (only (l_addr t)) T0 T ->
    all_na na T0 -> wf_tree T -> has_proxy s T0 = true ->
    exists F, forall f s', (F <= f)%nat -> same_mem s s' -> freshT eps na s' T0 ->
      sjac (dynJacobian eps na f s' (l_addr t)) s' t T0 = Some NoCompile \/
      sjac (dynJacobian eps na f s' (l_addr t)) s' t T0 =
        Some (Ok (if nonempty (dyn (l_addr t) T) then Some (dyn (l_addr t) T) else None)).
  Proof.
    intros Hna X. induction X as [l D|l D S|l v T0 T D S N X IH|a n J c c' X IH
      |a n JL JR l l' r r' X1 IH1 X2 IH2]; intros Pos Wf Hp; cbn in Hp.
    - congruence.
    - exists 0%nat. intros f s' _ M _. right. cbn. unfold only in S.
      rewrite (is_dyn_mem _ _ _ M), D, S. cbn in Wf.
      unfold nonempty, msize. cbn. destruct (l_dim l); [lia|reflexivity].
    - destruct (djac_correct _ _ _ _ _ _ X) as (G & HG).
      exists (1 + G)%nat. intros f s' L M Fr. right. destruct f as [|f]; [lia|].
      inversion Fr as [? D'|l0 v0 T1 N' C F'| |]; subst; [rewrite (is_dyn_mem _ _ _ M) in D'; congruence|].
      pose proof (newest_det _ _ _ _ _ _ (newest_mem _ _ _ _ _ _ M N) N') as E. injection E as <- <-.
      cbn [sjac]. unfold only in S. rewrite (is_dyn_mem _ _ _ M), D, S.
      cbn [dynJacobian]. unfold evaluator. rewrite C, (HG f s') by (assumption || lia). reflexivity.
    - inversion Pos; subst. destruct (IH ltac:(assumption) (proj2 (proj2 Wf)) Hp) as (G & HG). exists G.
      intros f s' L M Fr. inversion Fr; subst. cbn [sjac dyn].
      destruct (Nat.eqb_spec a (l_addr t)) as [E|_]; [contradiction|].
      destruct (HG f s' L M ltac:(assumption)) as [-> | ->]; [now left|right].
      destruct (nonempty (dyn (l_addr t) c')) eqn:Ne; [|reflexivity].
      destruct Wf as (W1 & (W2 & _) & _). unfold nonempty, msize in *. cbn [mmul mrows mcols].
      apply Nat.ltb_lt in Ne. rewrite W2.
      replace (0 <? n * mcols (dyn (l_addr t) c'))%nat with true; [reflexivity|].
      symmetry. apply Nat.ltb_lt. nia.
    - exists 0%nat. intros f s' _ M _. left. cbn [sjac has_proxy].
      now rewrite (has_proxy_mem _ _ _ M), (has_proxy_mem _ _ _ M), Hp.
  Qed.

  (** jacobian(x) of an expression object containing proxies, where it compiles: the
      derivative of the expression the object currently stands for. *)
  Theorem c29_static_is_derivative : forall s n e t l m k x, 0 <= eps < 1 -> reads eps s t m ->
    stands s (only t) n e -> good eps m e k -> means eps m e = Some x ->
    In t (leaf_addrs e) -> vty (m t) = Plain l -> smooth eps (fun b => den (m b)) t e ->
    na <> t ->
    exists F, forall f, (F <= f)%nat -> exists r s',
      node_jacobian eps na f s n (leaf_obj t (Plain l)) = Some (r, s') /\
      match r with Ok J => is_derivative eps m e t J | NoCompile => True end.
  Proof.
    intros s n e t l m k x He Rd St G Hx Ha Hl Hs Hna.
    destruct (stands_xp _ _ _ _ St) as (f0 & e0 & O & X).
    pose proof (prepare_xp _ _ _ _ X) as R.
    destruct (prepare_total e k (proj1 G)) as (p & u & P & _ & _). rewrite P in R. unfold rel_prep in R.
    destruct (prepare e0) as [[p0 u0]|] eqn:P0; [|contradiction]. destruct R as (-> & R).
    destruct (core_prepare eps na m e k t l x He G Hx Ha Hl Hs p u P) as (v & T & E & Wf & Ed & Kv & Vv & Hin & D).
    set (tgt := leaf_obj t (Plain l)) in *.
    destruct (run_pp s (only t) m p0 p v T (reads_env _ _ _ Rd) R E) as (F & T0 & V & Xp & HF).
    destruct (has_proxy s T0) eqn:Hp.
    - destruct (sjac_correct s tgt T0 T Hna Xp (vt_na _ _ _ _ V) Wf Hp) as (F2 & HF2).
      exists (f0 + F + F2)%nat. intros f L. destruct (HF f ltac:(lia)) as (s' & E' & M & Fr).
      unfold node_jacobian. rewrite (outline_mono _ _ _ _ O f) by lia. rewrite P0, E'.
      rewrite (has_proxy_mem _ _ _ M), Hp.
      destruct (HF2 f s' ltac:(lia) M Fr) as [-> | ->].
      + exists NoCompile, s'. split; [reflexivity|exact I].
      + assert (Q : evaluateDynamicJacobian tgt T == true_jacobian tgt T).
        { apply evaluateDynamicJacobian_correct; [exact Wf| |apply tsize_pos].
          pose proof (tree_leaves_env eps na m p e v T (proj1 (proj2 G)) (prepare_leaves _ _ _ P) E) as Lv.
          split.
          - intros Hi. apply Hna. symmetry. exact (proj2 (tree_leaves _ _ _ _ _ _ E) _ Hi).
          - rewrite Lv. intros q Hq Eq. apply in_map_iff in Hq as (b & <- & _). cbn in Eq. subst b.
            rewrite Hl. reflexivity. }
        assert (Dd : is_derivative eps m e t (evaluateDynamicJacobian tgt T)).
        { apply (is_derivative_meq eps m e k t x (true_jacobian tgt T)); auto. now symmetry. }
        unfold evaluateDynamicJacobian in Dd.
        destruct (nonempty (dyn (l_addr tgt) T)).
        * exists (Ok (dyn (l_addr tgt) T)), s'. split; [reflexivity|exact Dd].
        * exists (Ok (mzero (edim T0) (l_dim tgt))), s'. split; [reflexivity|].
          replace (edim T0) with (edim T); [exact Dd|]. rewrite Ed.
          assert (Tv : vty v = u).
          { pose proof (prepare_sound eps (proj1 He) m e p u P (proj1 (proj2 G)) (proj2 (proj2 G))) as S.
            apply S. rewrite <- (tree_value eps na), E. reflexivity. }
          symmetry. apply (vt_edim eps na s p0 v T0 u V Tv). intros a t0 ->.
          eapply prepare_leaf_ty; eauto.
    - pose proof (expands_none _ _ _ _ Xp Hp) as ->.
      destruct (jacobian_correct tgt T Wf Hin) as (J & EJ & QJ).
      exists (f0 + F)%nat. intros f L. destruct (HF f ltac:(lia)) as (s' & E' & M & Fr).
      unfold node_jacobian. rewrite (outline_mono _ _ _ _ O f) by lia. rewrite P0, E'.
      rewrite (has_proxy_mem _ _ _ M), Hp, EJ. exists (Ok J), s'. split; [reflexivity|].
      apply (is_derivative_meq eps m e k t x (true_jacobian tgt T)); auto. now symmetry.
  Qed.

  (** jacobian(x) of a proxy, or of unary operations on a proxy, compiles. *)
  Fixpoint xchain (e : expr) : bool :=
    match e with XLeaf _ _ => true | XUn _ e => xchain e | XBin _ _ _ => false end.
  Fixpoint tchain (T : etree) : bool :=
    match T with ELeaf _ => true | EUn _ _ _ T => tchain T | EBin _ _ _ _ _ _ => false end.

  Lemma chain_outline f : forall s n e, chain n -> outline f s n = Some e -> xchain e = true.
  Proof.
    induction f as [|f IH]; intros s n e C H; [discriminate|]. cbn [outline] in H.
    destruct C as [d l|o n C].
    - destruct (objs s d) as [[|?|n' l'|?]|]; try discriminate.
      destruct (lty_eqb l l'); [|discriminate]. injection H as <-. reflexivity.
    - destruct (outline f s n) as [e0|] eqn:E; [|discriminate]. injection H as <-. cbn. eauto.
  Qed.
  Lemma chain_prepare e : forall p t, xchain e = true -> prepare e = Some (p, t) -> xchain p = true.
  Proof.
    induction e as [a t0|o e IH|o l IHl r IHr]; intros p t C H; cbn [prepare] in H; [|cbn in C|discriminate].
    - injection H as <- _. reflexivity.
    - destruct (prepare e) as [[p0 t0]|]; [|discriminate]. specialize (IH _ _ C eq_refl).
      destruct (choose_unary _ _ t0 (convert_to t0)) as [[|t']|]; [| |discriminate].
      + destruct (ty_un o t0); [|discriminate]. injection H as <- _. exact IH.
      + destruct (ty_un o t'); [|discriminate]. injection H as <- _. unfold xconvert.
        destruct t'; exact IH.
  Qed.
  Lemma chain_vt s p v T : vt eps na s p v T -> xchain p = true -> tchain T = true.
  Proof. induction 1; cbn; auto; discriminate. Qed.
  Lemma chain_sjac dj s t T : tchain T = true -> sjac dj s t T <> Some NoCompile.
  Proof.
    induction T as [l|a n J c IH|a n JL JR l IHl r IHr]; cbn; intros C; [|specialize (IH C)|discriminate].
    - destruct (is_dyn s (l_addr l)).
      + destruct (l_addr l =? l_addr t)%nat; [discriminate|]. destruct (dj (l_addr l)); discriminate.
      + destruct (ltype_eqb _ _); [destruct (is_same _ _)|]; discriminate.
    - destruct (sjac dj s t c) as [[[|]|]|]; congruence.
  Qed.

  Theorem c29_static_chain_compiles : forall f s n t r s', chain n ->
    node_jacobian eps na f s n t = Some (r, s') -> exists J, r = Ok J.
  Proof.
    intros f s n t r s' C H. unfold node_jacobian in H.
    destruct (outline f s n) as [e|] eqn:O; [|discriminate].
    destruct (prepare e) as [[p u]|] eqn:P; [|discriminate].
    destruct (ev eps na (dynEvaluate eps na f) s p) as [[[v T] s1]|] eqn:E; [|discriminate].
    destruct (ev_sound _ _ _ _ _ _ _ _ E) as (V & M & _).
    pose proof (chain_vt _ _ _ _ V (chain_prepare _ _ _ (chain_outline _ _ _ _ C O) P)) as Ct.
    assert (B : forall e0 p0 u0 v0 T0 g n0, chain n0 -> outline g s n0 = Some e0 ->
      prepare e0 = Some (p0, u0) -> vt eps na s p0 v0 T0 -> has_proxy s T0 = true).
    { clear. intros e0 p0 u0 v0 T0 g n0 C. revert e0 p0 u0 v0 T0 g.
      induction C as [d l|o n C IH]; intros e0 p0 u0 v0 T0 g O P V.
      - destruct g; [discriminate|]. cbn [outline] in O.
        destruct (objs s d) as [[|?|n' l'|?]|] eqn:D; try discriminate.
        destruct (lty_eqb l l'); [|discriminate]. injection O as <-. cbn in P. injection P as <- _.
        inversion V; subst; cbn; unfold is_dyn; now rewrite D.
      - destruct g; [discriminate|]. cbn [outline] in O.
        destruct (outline g s n) as [e1|] eqn:O1; [|discriminate]. injection O as <-.
        cbn [prepare] in P. destruct (prepare e1) as [[p1 t1]|] eqn:P1; [|discriminate].
        assert (W : forall v T, vt eps na s p1 v T -> has_proxy s T = true) by (intros; eapply IH; eauto).
        destruct (choose_unary _ _ t1 (convert_to t1)) as [[|t']|]; [| |discriminate].
        + destruct (ty_un o t1); [|discriminate]. injection P as <- _. inversion V; subst. cbn. eauto.
        + destruct (ty_un o t'); [|discriminate]. injection P as <- _. inversion V; subst. cbn.
          unfold xconvert in *. destruct t'; eauto;
            match goal with H : vt _ _ _ (XUn _ _) _ _ |- _ => inversion H; subst; cbn; eauto end. }
    rewrite (has_proxy_mem _ _ _ M), (B _ _ _ _ _ _ _ C O P V) in H.
    pose proof (chain_sjac (dynJacobian eps na f s1 (l_addr t)) s1 t T Ct) as NC.
    destruct (sjac _ s1 t T) as [[[j|]|]|]; try congruence; injection H as <- <-; eauto.
  Qed.

  (** *** C27 *)

  Lemma eval_p_ext m m' p : (forall a, In a (leaf_addrs p) -> m a = m' a) ->
    eval_p eps m p = eval_p eps m' p.
  Proof.
    induction p as [a t|o p IH|o l IHl r IHr]; cbn; intros H.
    - rewrite H by auto. reflexivity.
    - now rewrite IH.
    - rewrite IHl, IHr; auto; intros; apply H; apply in_app_iff; auto.
  Qed.

  (** Assigning to a leaf: an expression object built before evaluates with the new
      value. *)
  Theorem c27_assigned_leaf_is_seen : forall s n e a v s', stands s no_stop n e ->
    act eps na s (ASet a v) = Some s' ->
    exists F, forall f, (F <= f)%nat ->
      option_map fst (node_eval eps na f s' n) = eval eps (upd (vals s) a v) e.
  Proof.
    intros s n e a v s' St H. cbn in H. injection H as <-.
    assert (St' : stands (State (setf (vals s) a v) (objs s) (cache s)) no_stop n e)
      by (clear - St; induction St; econstructor; eauto).
    exact (c28_eval_is_current _ n e St').
  Qed.

  Lemma stands_put s stop n e b o : stands s stop n e -> (forall x, uses s n x -> x <> b) ->
    stands (State (vals s) (setf (objs s) b o) (setf (cache s) b None)) stop n e.
  Proof.
    assert (K : forall a, a <> b -> setf (objs s) b o a = objs s a).
    { intros a Ha. unfold setf. destruct (Nat.eqb_spec a b); congruence. }
    assert (D : forall a, a <> b ->
      is_dyn (State (vals s) (setf (objs s) b o) (setf (cache s) b None)) a = is_dyn s a).
    { intros a Ha. unfold is_dyn. cbn. now rewrite K. }
    induction 1 as [i t H|a t H|a n e H St IH|a n l e H St IH|a d l e H St IH|d n l S H
      |d n l e S H St IH T|o' n e St IH|o' n1 n2 e1 e2 St1 IH1 St2 IH2]; intros U.
    - constructor. rewrite D; [exact H|apply U; constructor].
    - constructor. cbn. rewrite K; [exact H|apply U; constructor].
    - apply (st_expr _ _ a n e); [cbn; rewrite K; [exact H|apply U; constructor]|].
      apply IH. intros x Hx. apply U. eapply u_expr; eauto.
    - apply (st_dyn _ _ a n l e); [cbn; rewrite K; [exact H|apply U; constructor]|].
      apply IH. intros x Hx. apply U. eapply u_dyn; eauto.
    - apply (st_var _ _ a d l e); [cbn; rewrite K; [exact H|apply U; constructor]|].
      apply IH. intros x Hx. apply U. eapply u_var; eauto.
    - apply (st_stop _ _ d n l S). cbn. rewrite K; [exact H|apply U; constructor].
    - apply (st_proxy _ _ d n l e S); [cbn; rewrite K; [exact H|apply U; constructor]| |exact T].
      apply IH. intros x Hx. apply U. eapply u_proxy; eauto.
    - constructor. apply IH. intros x Hx. apply U. now constructor.
    - constructor; [apply IH1|apply IH2]; intros x Hx; apply U; [now apply u_left|now apply u_right].
  Qed.

  Lemma stands_leaves s n e : stands s no_stop n e -> forall a, In a (leaf_addrs e) -> uses s n a.
  Proof.
    induction 1 as [i t H|a t H|a n e H St IH|a n l e H St IH|a d l e H St IH|d n l S H
      |d n l e S H St IH T|o' n e St IH|o' n1 n2 e1 e2 St1 IH1 St2 IH2]; cbn; intros x Hx.
    - destruct Hx as [<-|[]]. constructor.
    - destruct Hx as [<-|[]]. constructor.
    - eapply u_expr; eauto.
    - eapply u_dyn; eauto.
    - eapply u_var; eauto.
    - discriminate S.
    - eapply u_proxy; eauto.
    - constructor; auto.
    - apply in_app_iff in Hx. destruct Hx; [apply u_left|apply u_right]; auto.
  Qed.

  (** Assigning to, constructing, rebinding or destroying anything the expression does
      not lead to does not change its value. *)
  Theorem c27_others_do_not_matter : forall s n e b x s', stands s no_stop n e -> ~ uses s n b ->
    (exists v, x = ASet b v) \/ (exists o, x = APut b o) ->
    act eps na s x = Some s' ->
    exists F, forall f, (F <= f)%nat ->
      option_map fst (node_eval eps na f s' n) = option_map fst (node_eval eps na f s n).
  Proof.
    intros s n e b x s' St U Hx H. destruct (c28_eval_is_current s n e St) as (F1 & H1).
    destruct Hx as [(v & ->)|(o & ->)].
    - destruct (c27_assigned_leaf_is_seen s n e b v s' St H) as (F2 & H2).
      exists (F1 + F2)%nat. intros f L. rewrite H1, H2 by lia. rewrite !eval_out.
      destruct (out_expr e) as [p|] eqn:P; [|reflexivity]. apply eval_p_ext. intros a Ha.
      unfold upd. destruct (Nat.eqb_spec a b) as [->|]; [|reflexivity].
      exfalso. apply U. apply (stands_leaves s n e St). revert Ha P. clear. unfold out_expr.
      destruct (prepare e) as [[q t]|]; [|discriminate].
      destruct (prepare_to (plain_output t) e) as [[r w]|] eqn:E; [|discriminate].
      intros Ha P. injection P as <-. pose proof (prepare_to_leaves _ _ _ _ E) as L. cbn in Ha.
      assert (Q : forall e, leaf_addrs e = map fst (PropsDeriv.xleaves e)).
      { induction e0 as [a t0|o e0 IH|o l IHl r0 IHr]; cbn; auto. now rewrite IHl, IHr, map_app. }
      rewrite Q, <- L, <- Q. exact Ha.
    - cbn in H. injection H as <-.
      assert (St' : stands (State (vals s) (setf (objs s) b o) (setf (cache s) b None)) no_stop n e).
      { apply stands_put; [exact St|]. intros x Hx ->. contradiction. }
      destruct (c28_eval_is_current _ n e St') as (F2 & H2).
      exists (F1 + F2)%nat. intros f L. rewrite H1, H2 by lia. reflexivity.
  Qed.
End P.
Print Assumptions c28_eval_is_current.
Print Assumptions c28_any_history.
Print Assumptions c28_queries_leave_no_trace.
Print Assumptions c29_forward.
Print Assumptions c29_reverse.
Print Assumptions c29_forward_is_derivative.
Print Assumptions c29_reverse_is_derivative.
Print Assumptions c29_static_is_derivative.
Print Assumptions c29_static_chain_compiles.
Print Assumptions c27_assigned_leaf_is_seen.
Print Assumptions c27_others_do_not_matter.

(** *** A concrete memory *)

(** Leaves 1 (a MatrixRotation), 2 (a QuaternionRotation) and 6 (a Translation);
    d20 = makeDynamic(R * q);  p21 = ref(d20);  d22 = makeDynamic(p21 * v);
    and d20 has been evaluated long ago, with other values. *)
Definition dx_node : node :=
  NBin OSum (NProxy 22 LTrans) (NBin ORotate (NProxy 20 LMat) (NRef 6)).
Definition dx : state := State ex_m
  (fun a => match a with
            | 1 => Some (OLeaf (Plain LMat))
            | 2 => Some (OLeaf (Plain LQuat))
            | 6 => Some (OLeaf (Plain LTrans))
            | 20 => Some (ODyn (NBin OCompose (NRef 1) (NRef 2)) LMat)
            | 21 => Some (OProxy 20 LMat)
            | 22 => Some (ODyn (NBin ORotate (NRef 21) (NRef 6)) LTrans)
            | 23 => Some (OExpr dx_node)
            | _ => None
            end%nat)
  (fun a => if (a =? 20)%nat then Some (VTrans v0, ELeaf (leaf_obj 9 (Plain LTrans))) else None).

Definition dx_rq : expr := XBin OCompose (XLeaf 1 (Plain LMat)) (XLeaf 2 (Plain LQuat)).
Definition dx_e : expr :=
  XBin OSum (XBin ORotate dx_rq (XLeaf 6 (Plain LTrans)))
    (XBin ORotate dx_rq (XLeaf 6 (Plain LTrans))).

Lemma dx_stands : stands dx no_stop (NRef 23) dx_e.
Proof.
  assert (Q : stands dx no_stop (NProxy 20 LMat) dx_rq).
  { eapply st_proxy; [reflexivity|reflexivity| |eexists; vm_compute; reflexivity].
    constructor; constructor; reflexivity. }
  eapply st_expr; [reflexivity|]. constructor.
  - eapply st_proxy; [reflexivity|reflexivity| |eexists; vm_compute; reflexivity].
    constructor; [|constructor; reflexivity]. eapply st_var; [reflexivity|exact Q].
  - constructor; [exact Q|constructor; reflexivity].
Qed.

(** Seen as a function of the Dynamic d20. *)
Definition dx_e20 : expr :=
  XBin OSum (XBin ORotate (XLeaf 20 (Plain LMat)) (XLeaf 6 (Plain LTrans)))
    (XBin ORotate (XLeaf 20 (Plain LMat)) (XLeaf 6 (Plain LTrans))).

Lemma dx_stands20 : stands dx (only 20) (NRef 23) dx_e20.
Proof.
  assert (Q : stands dx (only 20) (NProxy 20 LMat) (XLeaf 20 (Plain LMat)))
    by (eapply st_stop; reflexivity).
  eapply st_expr; [reflexivity|]. constructor.
  - eapply st_proxy; [reflexivity|reflexivity| |eexists; vm_compute; reflexivity].
    constructor; [|constructor; reflexivity]. eapply st_var; [reflexivity|exact Q].
  - constructor; [exact Q|constructor; reflexivity].
Qed.

Lemma dx_good : good (1/4) (vals dx) dx_e KTrans.
Proof.
  split; [reflexivity|]. split; cbn.
  - repeat split; auto using ex_q; try apply ex_rot.
  - repeat split.
Qed.

Lemma dx_rq_good : good (1/4) ex_m dx_rq KRot.
Proof.
  split; [reflexivity|]. split; cbn.
  - repeat split; auto using ex_q; try apply ex_rot.
  - repeat split.
Qed.

(** The hypotheses of the theorems hold here, with stale evaluators around. *)
Example c28_example : exists F, forall f, (F <= f)%nat ->
  option_map fst (node_eval (1/4) 100 f dx (NRef 23)) = eval (1/4) ex_m dx_e.
Proof. exact (c28_eval_is_current (1/4) 100 dx (NRef 23) dx_e dx_stands). Qed.

Example c28_history_example :
  history (1/4) 100 [AEval 9 (NRef 23); ASet 6 (VTrans (mkV 0 0 2)); ACopyDyn 20 30; APut 24 None;
      AForward 9 (NRef 23) 6 3] (scratch dx) <> None.
Proof. cbv -[Rplus Rmult Ropp Rminus Rdiv Rinv IZR sqrt]. discriminate. Qed.

Example c27_example : ~ uses dx (NRef 23) 3.
Proof.
  assert (A : forall a b, (a = 1 \/ a = 2 \/ a = 6)%nat -> uses dx (NRef a) b -> b = a).
  { intros a b Ha U. inversion U; subst; auto;
      destruct Ha as [->|[->| ->]]; cbn in *; discriminate. }
  assert (B : forall l, ~ uses dx (NProxy 20 l) 3).
  { intros l U. inversion U as [| | | | | |d n l0 l' b Ho Un| | |]; subst. cbn in Ho.
    injection Ho as <- <-. inversion Un; subst;
      match goal with H : uses dx (NRef _) 3 |- _ => apply A in H; [discriminate|tauto] end. }
  intros U. inversion U as [|a Ea|a n b Ho Un|a n l b Ho Un|a d l b Ho Un| | | | |]; subst;
    cbn in Ho; try discriminate. injection Ho as <-.
  unfold dx_node in Un. inversion Un as [| | | | | | | |o n1 n2 b U1|o n1 n2 b U2]; subst.
  - inversion U1 as [| | | | | |d n l0 l' b Ho Un'| | |]; subst. cbn in Ho. injection Ho as <- <-.
    inversion Un' as [| | | | | | | |o n1 n2 b V|o n1 n2 b V]; subst.
    + inversion V as [|a Ea|a n b Ho Uq|a n l b Ho Uq|a d l b Ho Uq| | | | |]; subst; cbn in Ho;
        try discriminate. injection Ho as <- <-. exact (B _ Uq).
    + apply A in V; [discriminate|tauto].
  - inversion U2 as [| | | | | | | |o n1 n2 b V|o n1 n2 b V]; subst.
    + exact (B _ V).
    + apply A in V; [discriminate|tauto].
Qed.

Example c29_example : exists m x, reads (1/4) dx 20 m /\ stands dx (only 20) (NRef 23) dx_e20 /\
  good (1/4) m dx_e20 KTrans /\ means (1/4) m dx_e20 = Some x /\ In 20%nat (leaf_addrs dx_e20) /\
  vty (m 20%nat) = Plain LMat /\ smooth (1/4) (fun b => den (m b)) 20 dx_e20.
Proof.
  destruct (good_deval (1/4) ex_m dx_rq KRot (den (VMat (mul3 (mkM 0 (-1) 0 1 0 0 0 0 1) (qrot (mkQ 0 0 1 0))))))
    as (Kd & Vd); [lra|exact dx_rq_good|reflexivity|].
  set (M := mul3 (mkM 0 (-1) 0 1 0 0 0 0 1) (qrot (mkQ 0 0 1 0))) in *.
  assert (RM : is_rot M) by exact Vd.
  exists (upd ex_m 20 (VMat M)).
  assert (G : good (1/4) (upd ex_m 20 (VMat M)) dx_e20 KTrans).
  { split; [reflexivity|]. split; cbn.
    - repeat split; auto; apply RM.
    - repeat split. }
  assert (exists x, means (1/4) (upd ex_m 20 (VMat M)) dx_e20 = Some x) as (x & Hx).
  { rewrite (good_means (1/4) _ dx_e20 KTrans ltac:(lra) G). cbn. eexists; reflexivity. }
  exists x. split; [|split; [exact dx_stands20|split; [exact G|split; [exact Hx|split; [cbn; tauto|split; [reflexivity|cbn; repeat split; intros [H|H] [Ho|Ho]; try discriminate; intuition discriminate]]]]]].
  split.
  - intros a Ha. cbn. unfold upd. destruct (Nat.eqb_spec a 20); [subst a; discriminate|reflexivity].
  - intros n l Ho. cbn in Ho. injection Ho as <- <-. exists dx_rq. split.
    + eapply st_proxy; [reflexivity|reflexivity| |eexists; vm_compute; reflexivity].
      constructor; constructor; reflexivity.
    + reflexivity.
Qed.

(** jacobian(x) of a binary operation with a proxy operand does not compile. *)
Theorem c29_static_binary_refuted : exists s n e,
  stands s no_stop n e /\ good (1/4) (vals s) e KTrans /\ In 6%nat (leaf_addrs e) /\
  forall f, (4 <= f)%nat -> exists s',
    node_jacobian (1/4) 100 f s n (leaf_obj 6 (Plain LTrans)) = Some (NoCompile, s').
Proof.
  exists dx, (NBin ORotate (NProxy 20 LMat) (NRef 6)), (XBin ORotate dx_rq (XLeaf 6 (Plain LTrans))).
  split.
  { constructor; [|constructor; reflexivity].
    eapply st_proxy; [reflexivity|reflexivity| |eexists; vm_compute; reflexivity].
    constructor; constructor; reflexivity. }
  split.
  { split; [reflexivity|]. split; cbn; repeat split; auto using ex_q; try apply ex_rot. }
  split; [cbn; tauto|]. intros f L. do 4 (destruct f as [|f]; [lia|]). eexists. reflexivity.
Qed.
Print Assumptions c29_static_binary_refuted.
