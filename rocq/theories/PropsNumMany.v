(** C09: the numerical Jacobians with respect to several targets, from one call. *)

From Coq Require Import Reals Lra Lia List Bool Arith.
From Verif Require Import Mat ModelMeta ModelJac SpecJac V3 ModelLeaf SpecLeaf LeafProofs ModelExpr SpecExpr
  ExprProofs PropsExpr Calc SpecDeriv DerivProofs DerivTree PropsDeriv ModelCompound ModelNum SpecNum
  NumProofs NumLimit PropsNum NumLip NumVal NumTree NumStep PropsNumSmall.
Import ListNotations.
Local Open Scope R_scope.

(** evaluateNumericalJacobians(expr, t1, ..., tn) returns n matrices in the order of the
    targets.  As the step tends to zero they converge, together, to what jacobian() returns
    for each of the targets. *)
Theorem c09_many_targets_converge : forall eps na m e k x targets, 0 < eps < 1 ->
  good eps m e k -> means eps m e = Some x ->
  Forall (fun t => In (fst t) (leaf_addrs e) /\ vty (m (fst t)) = Plain (snd t) /\ na <> fst t /\
                   smooth eps (fun b => den (m b)) (fst t) e) targets ->
  exists Js, Forall2 (fun t J => expr_jacobian eps na m e (leaf_obj (fst t) (Plain (snd t))) = Some (Ok J) /\
                                 has_shape (tsize k) (tsize (kind_of (snd t))) J) targets Js /\
  forall tau, 0 < tau -> near (fun h => h <> 0 ->
    exists Ns, numericalJacobians eps h na m e targets = Some Ns /\
      length Ns = length targets /\
      forall n t J N, nth_error targets n = Some t -> nth_error Js n = Some J -> nth_error Ns n = Some N ->
        has_shape (tsize k) (tsize (kind_of (snd t))) N /\
        forall i j, (i < tsize k)%nat -> (j < tsize (kind_of (snd t)))%nat -> Rabs (mget N i j - mget J i j) < tau).
Proof.
  intros eps na m e k x targets He G Hx. induction targets as [|[a l] ts IH]; intros HF.
  - exists []. split; [constructor|]. intros tau _. apply near_all. intros h _. exists [].
    split; [reflexivity|]. split; [reflexivity|]. intros [|n] t J N H; discriminate H.
  - apply Forall_cons_iff in HF. destruct HF as [(Ha & Hl & Hna & Hs) HF']. cbn [fst snd] in *.
    destruct (IH HF') as (Js & F & C). clear IH.
    destruct (c09_numerical_jacobian_converges eps na m e k a l x He G Hx Ha Hl Hna Hs) as (J & EJ & SJ & CJ).
    exists (J :: Js). split; [constructor; auto|]. intros tau Ht.
    refine (near_impl2 _ _ _ _ (C tau Ht) (CJ tau Ht)). intros h H1 H2 Hh.
    destruct (H1 Hh) as (Ns & E & L & Q). destruct (H2 Hh) as (N & EN & SN & QN).
    exists (N :: Ns). split; [|split].
    + unfold numericalJacobians in *. cbn [map fst snd all_some]. rewrite EN, E. reflexivity.
    + cbn. now rewrite L.
    + intros [|n] t J' N' Et EJ' EN'; cbn [nth_error] in *.
      * injection Et as <-. injection EJ' as <-. injection EN' as <-. cbn [snd]. auto.
      * eapply Q; eauto.
Qed.
Print Assumptions c09_many_targets_converge.

(** Two targets of one expression: a rotation matrix and a vector. *)
Example c09_many_targets_example :
  (exists x, means (1/4) ex_m ex_d1 = Some x) /\ good (1/4) ex_m ex_d1 KScalar /\
  Forall (fun t => In (fst t) (leaf_addrs ex_d1) /\ vty (ex_m (fst t)) = Plain (snd t) /\ 100%nat <> fst t /\
                   smooth (1/4) (fun b => den (ex_m b)) (fst t) ex_d1) [(1%nat, LMat); (7%nat, LRel)].
Proof.
  split; [|split].
  - rewrite (good_means (1/4) ex_m ex_d1 KScalar ltac:(lra) ex_d1_good). cbn. eexists; reflexivity.
  - exact ex_d1_good.
  - constructor; [|constructor; [|constructor]]; cbn [fst snd];
      (split; [cbn; tauto|split; [reflexivity|split; [lia|apply ex_d1_smooth]]]).
Qed.
