(** C46: the Jacobians of an expression, taken together, are its total derivative.
    C47: naming an intermediate result does not change values, and Jacobians follow the
    chain rule. *)

From Coq Require Import Reals Lra Lia List Bool Arith.
From Verif Require Import Mat ModelMeta ModelJac SpecJac JacProofs NaryProofs V3 ModelLeaf SpecLeaf
  LeafProofs ModelExpr SpecExpr ExprProofs PropsExpr Calc SpecDeriv SpecTotal DerivProofs DerivUn
  DerivTree JacDef PropsDeriv TotalDeriv.
Import ListNotations.
Local Open Scope R_scope.
Local Open Scope mat_scope.

Local Arguments mvec : simpl never.

(** If any number of different leaf objects move at the same time, each with its own
    velocity, the expression moves with the sum of (returned Jacobian) * (velocity). *)
Theorem c46_joint_motion : forall eps na m e k x S J, 0 <= eps < 1 ->
  good eps m e k -> means eps m e = Some x -> NoDup S ->
  (forall a, In a S -> In a (leaf_addrs e) /\ (exists l, vty (m a) = Plain l) /\
     smooth eps (fun b => den (m b)) a e /\
     expr_jacobian eps na m e (leaf_obj a (vty (m a))) = Some (Ok (J a))) ->
  forall c d, (forall a, In a S -> c a 0 = den (m a) /\ moves (c a) (d a)) ->
  moves_opt (fun s => deval eps (dmoved (fun b => den (m b)) S c s) e)
    (fun i => sum_over S (fun a => mvec (J a) (d a) i)).
Proof.
  intros eps na m e k x S J He G Hx ND HS c d Hc.
  pose proof (core_x eps m e k x He G Hx) as Dx.
  destruct (prepare_total e k (proj1 G)) as (p & t & P & _ & _).
  destruct G as (Gk & Ge & Gx).
  destruct (total_moves eps (proj1 He) (proj2 He) na m S c d ND
    (fun a Ha => proj1 (Hc a Ha)) (fun a Ha => proj1 (proj2 (HS a Ha)))
    (fun a Ha => proj2 (Hc a Ha)) e p t x P Ge Gx
    (fun a Ha => proj1 (proj2 (proj2 (HS a Ha)))) Dx) as (v & T & I).
  destruct I as [I1 I2 I3 I4 I5 I6 I7 I8 I9 I10].
  apply (mo_ext _ _ _ (vkind v) I10).
  - intros y Ey. rewrite I6 in Ey. injection Ey as <-. now apply valid_dkind.
  - intros i _. unfold vel. apply sum_over_ext. intros a Ha. apply mvec_meq.
    destruct (HS a Ha) as (Hin & _ & _ & EJ).
    unfold expr_jacobian in EJ. rewrite P, I1 in EJ. injection EJ as EJ.
    destruct (jacobian_correct (leaf_obj a (vty (m a))) T I4) as (J' & EJ' & HJ).
    + rewrite (tree_leaves_env eps na m p e v T Ge (prepare_leaves e p t P) I1). apply in_map_iff. eauto.
    + rewrite EJ in EJ'. injection EJ' as <-. symmetry. exact HJ.
Qed.
Print Assumptions c46_joint_motion.

(** The same with the map returned by one call of evaluateWithDynamicReverseJacobians. *)
Theorem c46_reverse_joint_motion : forall eps g na m e k x S v mm J, 0 <= eps < 1 ->
  good eps m e k -> means eps m e = Some x -> NoDup S ->
  expr_evaluateWithDynamicReverse eps g na m e = Some (v, Some mm) ->
  (forall a, In a S -> In a (leaf_addrs e) /\ (exists l, vty (m a) = Plain l) /\
     smooth eps (fun b => den (m b)) a e /\ mm_at mm a = Some (J a)) ->
  forall c d, (forall a, In a S -> c a 0 = den (m a) /\ moves (c a) (d a)) ->
  moves_opt (fun s => deval eps (dmoved (fun b => den (m b)) S c s) e)
    (fun i => sum_over S (fun a => mvec (J a) (d a) i)).
Proof.
  intros eps g na m e k x S v mm J He G Hx ND HR HS c d Hc.
  set (J' := fun a => match expr_jacobian eps na m e (leaf_obj a (vty (m a))) with
                      | Some (Ok j) => j | _ => J a end).
  assert (HJ : forall a, In a S ->
    expr_jacobian eps na m e (leaf_obj a (vty (m a))) = Some (Ok (J' a)) /\ J a == J' a).
  { intros a Ha. destruct (HS a Ha) as (Hin & (l & El) & Hs & Hm).
    destruct (c01_jacobian_is_derivative eps na m e k a l x He G Hx Hin El Hs) as (_ & j & Ej & _ & _).
    unfold J'. rewrite El, Ej. split; [reflexivity|].
    destruct (c01_other_modes_same_matrix eps na g m e k a l x j He G Hx Hin El Hs Ej)
      as (_ & _ & v' & mm' & J3 & E3 & _ & A3 & Q3).
    rewrite HR in E3. injection E3 as <- <-. rewrite Hm in A3. injection A3 as ->. exact Q3. }
  pose proof (c46_joint_motion eps na m e k x S J' He G Hx ND) as U.
  assert (H0 : forall a, In a S -> In a (leaf_addrs e) /\ (exists l, vty (m a) = Plain l) /\
     smooth eps (fun b => den (m b)) a e /\
     expr_jacobian eps na m e (leaf_obj a (vty (m a))) = Some (Ok (J' a))).
  { intros a Ha. destruct (HS a Ha) as (A & B & C & _). repeat split; auto. apply HJ, Ha. }
  specialize (U H0 c d Hc).
  apply (mo_ext _ _ _ k U).
  - intros y Ey. pose proof (core_x eps m e k x He G Hx) as Dx.
    assert (E0 : deval eps (dmoved (fun b => den (m b)) S c 0) e = Some x).
    { rewrite <- Dx. apply deval_ext; [clear; induction e; cbn; auto|].
      intros b _. unfold dmoved. destruct (List.in_dec _ _ _) as [Hb|]; [|reflexivity]. apply Hc, Hb. }
    rewrite E0 in Ey. injection Ey as <-. exact (proj1 (good_deval eps m e k x (proj1 He) G Dx)).
  - intros i _. apply sum_over_ext. intros a Ha. apply mvec_meq. symmetry. apply HJ, Ha.
Qed.
Print Assumptions c46_reverse_joint_motion.

(** *** C47: naming an intermediate result *)

Lemma inline_deval eps m x s e y : deval eps m s = Some y ->
  deval eps m (inline x s e) = deval eps (dupd m x y) e.
Proof.
  intros Hs. induction e as [b t|o e IH|o l IHl r IHr]; cbn.
  - unfold dupd. destruct (Nat.eqb_spec b x); [exact Hs|reflexivity].
  - now rewrite IH.
  - now rewrite IHl, IHr.
Qed.

Lemma inline_deval_opt eps m x s e : In x (leaf_addrs e) -> deval eps m s = None ->
  deval eps m (inline x s e) = None.
Proof.
  intros Hin Hs. induction e as [b t|o e IH|o l IHl r IHr]; cbn in *.
  - destruct Hin as [->|[]]. now rewrite Nat.eqb_refl.
  - now rewrite IH.
  - apply in_app_iff in Hin as [Hin|Hin]; [now rewrite IHl|]. rewrite (IHr Hin).
    destruct (deval eps m (inline x s l)); reflexivity.
Qed.

Lemma inline_addrs x s e a : In a (leaf_addrs (inline x s e)) <->
  (In a (leaf_addrs e) /\ a <> x) \/ (In a (leaf_addrs s) /\ In x (leaf_addrs e)).
Proof.
  induction e as [b t|o e IH|o l IHl r IHr]; cbn.
  - destruct (Nat.eqb_spec b x) as [->|N]; cbn.
    + split; [auto|]. intros [([->|[]] & H)|(H & _)]; [contradiction|exact H].
    + split; [intros [->|[]]; auto|]. intros [([->|[]] & H)|(_ & [->|[]])]; [auto|contradiction].
  - exact IH.
  - rewrite !in_app_iff, IHl, IHr. tauto.
Qed.

Lemma upd_den m x v b : den (upd m x v b) = dupd (fun q => den (m q)) x (den v) b.
Proof. unfold upd, dupd. destruct (b =? x)%nat; reflexivity. Qed.

Lemma exps_exact_env eps m m' e : (forall b, m b = m' b) -> exps_exact eps m e -> exps_exact eps m' e.
Proof.
  intros E. assert (D : forall q, deval eps m q = deval eps m' q).
  { induction q; cbn; [now rewrite E|now rewrite IHq|now rewrite IHq1, IHq2]. }
  induction e; cbn; auto.
  - intros (A & B). split; [auto|]. destruct o; auto. intros d0 Hd. apply B. now rewrite D.
  - tauto.
Qed.

Lemma inline_good eps m x s ks v e k : 0 <= eps -> good eps m s ks -> eval eps m s = Some v ->
  good eps (upd m x v) e k -> good eps m (inline x s e) k.
Proof.
  intros He Gs Ev (Gk & Ge & Gx).
  assert (Ds : deval eps (fun b => den (m b)) s = Some (den v)).
  { rewrite <- (good_means eps m s ks He Gs). unfold means. now rewrite Ev. }
  assert (Kv : ty_kind (vty v) = ks).
  { destruct (good_deval eps m s ks (den v) He Gs Ds) as (Kd & _). destruct Gs as (A & B & C).
    destruct (eval_sound eps He m s ks A B C) as (l & _ & _ & S2).
    destruct (S2 v Ev) as (_ & Vv). pose proof (valid_dkind v Vv) as X. unfold vkind in X. congruence. }
  assert (Gx' : exps_exact eps (dupd (fun b => den (m b)) x (den v)) e).
  { apply (exps_exact_env eps (fun b => den (upd m x v b))); [intros; apply upd_den|exact Gx]. }
  clear Gx. destruct Gs as (Ks & Es & Xs).
  revert k Gk Ge Gx'. induction e as [b t|o e IH|o l IHl r IHr]; cbn [inline ekind env_ok exps_exact]; intros k Gk Ge Gx.
  - unfold upd in Ge. destruct (b =? x)%nat.
    + destruct Ge as (T & V). destruct (wf_ty t) eqn:W; [|discriminate]. injection Gk as <-.
      rewrite <- T, Kv. repeat split; auto.
    + repeat split; cbn; tauto.
  - destruct (ekind e) as [k'|] eqn:K; [|discriminate].
    destruct Gx as (Gx & Ho). destruct (IH k' eq_refl Ge Gx) as (A & B & C). repeat split.
    + cbn. now rewrite A.
    + exact B.
    + exact C.
    + destruct o; auto. intros d0. rewrite (inline_deval eps _ x s e _ Ds). apply Ho.
  - destruct (ekind l) as [k1|] eqn:K1; [|discriminate]. destruct (ekind r) as [k2|] eqn:K2; [|discriminate].
    destruct Ge as (Gl & Gr), Gx as (Xl & Xr).
    destruct (IHl k1 eq_refl Gl Xl) as (A & B & C). destruct (IHr k2 eq_refl Gr Xr) as (A' & B' & C').
    repeat split; auto. cbn. now rewrite A, A'.
Qed.

(** Evaluating a sub-expression early and storing the result in a variable [x] gives the
    same value as writing the sub-expression in place of [x]. *)
Theorem c47_early_evaluation : forall eps m x s ks v e k, 0 <= eps ->
  good eps m s ks -> eval eps m s = Some v -> good eps (upd m x v) e k ->
  good eps m (inline x s e) k /\ means eps m (inline x s e) = means eps (upd m x v) e.
Proof.
  intros eps m x s ks v e k He Gs Ev G.
  pose proof (inline_good eps m x s ks v e k He Gs Ev G) as G'. split; [exact G'|].
  assert (Ds : deval eps (fun b => den (m b)) s = Some (den v)).
  { rewrite <- (good_means eps m s ks He Gs). unfold means. now rewrite Ev. }
  rewrite (good_means eps m _ k He G'), (good_means eps _ e k He G), (inline_deval eps _ x s e _ Ds).
  apply deval_ext; [clear; induction e; cbn; auto|]. intros b _. symmetry. apply upd_den.
Qed.
Print Assumptions c47_early_evaluation.

Lemma eval_plain eps m e k v : 0 <= eps -> good eps m e k -> eval eps m e = Some v ->
  exists l, vty v = Plain l /\ kind_of l = k.
Proof.
  intros He (A & B & C) Ev. destruct (eval_sound eps He m e k A B C) as (l & Hl & _ & S2).
  exists l. split; [apply (S2 v Ev)|exact Hl].
Qed.

(** The Jacobian of the inlined expression is the product of the Jacobian with respect to
    the variable and the Jacobian of the sub-expression, plus, if the target also occurs
    outside the sub-expression, the Jacobian with respect to those occurrences. *)
Theorem c47_jacobian_chain_rule : forall eps na m x s ks v e k y a l lx Js Jx J, 0 <= eps < 1 ->
  good eps m s ks -> eval eps m s = Some v -> vty v = Plain lx ->
  good eps (upd m x v) e k -> means eps (upd m x v) e = Some y ->
  In x (leaf_addrs e) -> In a (leaf_addrs s) -> vty (m a) = Plain l ->
  smooth eps (fun b => den (m b)) a s ->
  smooth eps (fun b => den (upd m x v b)) x e ->
  smooth eps (fun b => den (m b)) a (inline x s e) ->
  expr_jacobian eps na m s (leaf_obj a (Plain l)) = Some (Ok Js) ->
  expr_jacobian eps na (upd m x v) e (leaf_obj x (Plain lx)) = Some (Ok Jx) ->
  expr_jacobian eps na m (inline x s e) (leaf_obj a (Plain l)) = Some (Ok J) ->
  (a = x \/ ~ In a (leaf_addrs e) -> J == Jx ** Js) /\
  (forall Ja, a <> x -> In a (leaf_addrs e) ->
     smooth eps (fun b => den (upd m x v b)) a e ->
     expr_jacobian eps na (upd m x v) e (leaf_obj a (Plain l)) = Some (Ok Ja) ->
     J == (Jx ** Js) [+] Ja).
Proof.
  intros eps na m x s ks v e k y a l lx Js Jx J He Gs Ev Tv Ge Hy Hxe Has Tl Ss Sx Si HJs HJx HJ.
  destruct (c47_early_evaluation eps m x s ks v e k (proj1 He) Gs Ev Ge) as (Gi & Mi).
  rewrite Hy in Mi.
  assert (Ms : means eps m s = Some (den v)) by (unfold means; now rewrite Ev).
  assert (Ds : deval eps (fun b => den (m b)) s = Some (den v)) by exact (core_x eps m s ks _ He Gs Ms).
  assert (Hai : In a (leaf_addrs (inline x s e))) by (apply inline_addrs; auto).
  assert (Tx : vty (upd m x v x) = Plain lx) by (unfold upd; now rewrite Nat.eqb_refl).
  destruct (eval_plain eps m s ks v (proj1 He) Gs Ev) as (l' & Tl' & Kl').
  assert (l' = lx) by congruence. subst l'.
  destruct (c01_jacobian_is_derivative eps na m s ks a l _ He Gs Ms Has Tl Ss) as (_ & Js' & E1 & Sh1 & D1).
  rewrite HJs in E1. injection E1 as <-.
  destruct (c01_jacobian_is_derivative eps na (upd m x v) e k x lx y He Ge Hy Hxe Tx Sx)
    as (_ & Jx' & E2 & Sh2 & _).
  rewrite HJx in E2. injection E2 as <-.
  destruct (c01_jacobian_is_derivative eps na m (inline x s e) k a l y He Gi Mi Hai Tl Si)
    as (_ & J' & E3 & Sh3 & D3).
  rewrite HJ in E3. injection E3 as <-.
  assert (ShP : has_shape (tsize k) (tsize (kind_of l)) (Jx ** Js)).
  { destruct Sh1, Sh2. split; cbn; assumption. }
  assert (Cmp : mcols Jx = mrows Js).
  { destruct Sh1 as (-> & _), Sh2 as (_ & ->). now rewrite Kl'. }
  assert (Main : forall S Ja JJ, NoDup S -> In x S -> (forall b, In b S -> b = x \/ (b = a /\ a <> x)) ->
     (forall b, In b S -> b = a -> a <> x -> In a (leaf_addrs e) /\
       smooth eps (fun b => den (upd m x v b)) a e /\
       expr_jacobian eps na (upd m x v) e (leaf_obj a (Plain l)) = Some (Ok Ja)) ->
     (In a S \/ a = x \/ ~ In a (leaf_addrs e)) ->
     has_shape (tsize k) (tsize (kind_of l)) JJ ->
     (forall d i, sum_over S (fun b => mvec (if (b =? x)%nat then Jx else Ja)
                       (if (b =? x)%nat then mvec Js d else d) i) = mvec JJ d i) ->
     J == JJ).
  { intros S Ja JJ ND HxS HS HSa Hcov ShJ Hsum.
    apply (c01_derivative_unique eps m (inline x s e) k a l y J JJ He Gi Mi Hai Tl Sh3 ShJ D3).
    intros c d C0 Mc.
    destruct (D1 c d C0 Mc) as (r & Nr & Mr).
    assert (R0 : r 0 = den v).
    { pose proof (near_0 _ Nr) as E0. cbv beta in E0.
      rewrite (core_at0 eps m s ks a _ He Gs Ms c C0) in E0. congruence. }
    pose proof (c46_joint_motion eps na (upd m x v) e k y S (fun b => if (b =? x)%nat then Jx else Ja)
      He Ge Hy ND) as U.
    specialize (U ltac:(
      intros b Hb; destruct (HS b Hb) as [->|(-> & Nax)];
      [ rewrite Nat.eqb_refl, Tx; repeat split; eauto
      | destruct (HSa a Hb eq_refl Nax) as (P1 & P2 & P3);
        assert (Ta : vty (upd m x v a) = Plain l)
          by (unfold upd; destruct (Nat.eqb_spec a x); [contradiction|exact Tl]);
        destruct (Nat.eqb_spec a x); [contradiction|]; rewrite Ta; repeat split; eauto ])).
    specialize (U (fun b => if (b =? x)%nat then r else c)
                  (fun b => if (b =? x)%nat then mvec Js d else d)).
    specialize (U ltac:(
      intros b Hb; cbv beta; destruct (Nat.eqb_spec b x) as [->|Nb];
      [ split; [rewrite R0; unfold upd; now rewrite Nat.eqb_refl|exact Mr]
      | destruct (HS b Hb) as [->|(-> & _)]; [contradiction|];
        split; [rewrite C0; unfold upd; destruct (Nat.eqb_spec a x); [contradiction|reflexivity]
               |exact Mc] ])).
    assert (EN : near (fun t => deval eps (dmoved (fun b => den (upd m x v b)) S
                      (fun b => if (b =? x)%nat then r else c) t) e =
                    deval eps (dupd (fun b => den (m b)) a (c t)) (inline x s e))).
    { apply (near_impl _ _) with (2 := Nr). intros t Er.
      rewrite (inline_deval eps _ x s e _ Er).
      apply deval_ext; [clear; induction e; cbn; auto|]. intros b Hb.
      unfold dmoved, dupd. destruct (Nat.eqb_spec b x) as [->|Nb].
      - destruct (List.in_dec _ _ _); [reflexivity|contradiction].
      - destruct (List.in_dec _ _ _) as [Hi|Hi].
        + destruct (HS b Hi) as [->|(-> & _)]; [contradiction|]. now rewrite Nat.eqb_refl.
        + destruct (Nat.eqb_spec b a) as [->|Nba].
          * exfalso. destruct Hcov as [H|[H|H]]; contradiction.
          * unfold upd. destruct (Nat.eqb_spec b x); [contradiction|reflexivity]. }
    pose proof (mo_near _ _ _ EN U) as U'.
    apply (mo_ext _ _ _ k U').
    - intros z Ez. rewrite (core_at0 eps m (inline x s e) k a y He Gi Mi c C0) in Ez. injection Ez as <-.
      apply (good_deval eps m _ k y (proj1 He) Gi (core_x _ _ _ _ _ He Gi Mi)).
    - intros i _. apply Hsum. }
  split.
  - intros Hc. apply (Main [x] Jx (Jx ** Js)); auto.
    + constructor; [intros []|constructor].
    + now left.
    + intros b [<-|[]]. now left.
    + intros b [<-|[]] E N. exfalso. now apply N.
    + intros d i. unfold sum_over. cbn. rewrite Nat.eqb_refl. rewrite mvec_mmul by exact Cmp. ring.
  - intros Ja Nax Hae Sa HJa.
    assert (Ta : vty (upd m x v a) = Plain l)
      by (unfold upd; destruct (Nat.eqb_spec a x); [contradiction|exact Tl]).
    destruct (c01_jacobian_is_derivative eps na (upd m x v) e k a l y He Ge Hy Hae Ta Sa)
      as (_ & Ja' & E4 & Sh4 & _).
    rewrite HJa in E4. injection E4 as <-.
    apply (Main [x; a] Ja).
    + constructor; [intros [E|[]]; congruence|]. constructor; [intros []|constructor].
    + now left.
    + intros b [<-|[<-|[]]]; auto.
    + intros b _ _ _. auto.
    + left. right. now left.
    + destruct ShP as (A & B). split; [exact A|exact B].
    + intros d i. unfold sum_over. cbn. rewrite Nat.eqb_refl. destruct (Nat.eqb_spec a x); [contradiction|].
      rewrite mvec_madd.
      * rewrite mvec_mmul by exact Cmp. ring.
      * destruct ShP as (A & _), Sh4 as (B & _). congruence.
      * destruct ShP as (_ & A), Sh4 as (_ & B). congruence.
Qed.
Print Assumptions c47_jacobian_chain_rule.

(** Satisfiability: in |exp(phi) * (q^-1 * (R v))|, all four objects move at once. *)
Example c46_example : exists x J, means (1/4) ex_m ex_d1 = Some x /\
  forall c d, (forall a, In a [7; 2; 1; 6]%nat -> c a 0 = den (ex_m a) /\ moves (c a) (d a)) ->
  moves_opt (fun s => deval (1/4) (dmoved (fun b => den (ex_m b)) [7; 2; 1; 6]%nat c s) ex_d1)
    (fun i => mvec (J 7%nat) (d 7%nat) i + (mvec (J 2%nat) (d 2%nat) i + (mvec (J 1%nat) (d 1%nat) i +
             (mvec (J 6%nat) (d 6%nat) i + 0)))).
Proof.
  assert (He : 0 <= 1/4 < 1) by lra.
  assert (exists x, means (1/4) ex_m ex_d1 = Some x) as (x & Hx).
  { rewrite (good_means (1/4) ex_m ex_d1 KScalar (proj1 He) ex_d1_good). cbn. eexists; reflexivity. }
  exists x.
  exists (fun a => match expr_jacobian (1/4) 100 ex_m ex_d1 (leaf_obj a (vty (ex_m a))) with
                   | Some (Ok j) => j | _ => mid 0 end).
  split; [exact Hx|]. intros c d Hc.
  apply (c46_joint_motion (1/4) 100 ex_m ex_d1 KScalar x [7; 2; 1; 6]%nat
    (fun a => match expr_jacobian (1/4) 100 ex_m ex_d1 (leaf_obj a (vty (ex_m a))) with
                   | Some (Ok j) => j | _ => mid 0 end) He ex_d1_good Hx); [| |exact Hc].
  - repeat constructor; cbn; intuition congruence.
  - intros a Ha.
    assert (Hl : exists l, vty (ex_m a) = Plain l)
      by (destruct Ha as [<-|[<-|[<-|[<-|[]]]]]; cbn; eauto).
    assert (Hi : In a (leaf_addrs ex_d1)) by (cbn in *; tauto).
    destruct Hl as (l & El).
    destruct (c01_jacobian_is_derivative (1/4) 100 ex_m ex_d1 KScalar a l x He ex_d1_good Hx Hi El
      (ex_d1_smooth a)) as (_ & j & Ej & _).
    rewrite El, Ej.
    split; [exact Hi|]. split; [eauto|]. split; [apply ex_d1_smooth|reflexivity].
Qed.

(** The rotated vector R v of the same expression, evaluated early into variable 20. *)
Definition ex_sub : expr := XBin ORotate (XLeaf 1 (Plain LMat)) (XLeaf 6 (Plain LTrans)).
Definition ex_tot : expr :=
  XUn ONorm (XBin ORotate (XUn OExpMap (XLeaf 7 (Plain LRel)))
    (XBin ORotate (XUn OInverse (XLeaf 2 (Plain LQuat))) (XLeaf 20 (Plain LTrans)))).
Example c47_example : exists v Js Jx J, eval (1/4) ex_m ex_sub = Some v /\ inline 20 ex_sub ex_tot = ex_d1 /\
  means (1/4) ex_m ex_d1 = means (1/4) (upd ex_m 20 v) ex_tot /\
  expr_jacobian (1/4) 100 ex_m ex_sub (leaf_obj 1 (Plain LMat)) = Some (Ok Js) /\
  expr_jacobian (1/4) 100 (upd ex_m 20 v) ex_tot (leaf_obj 20 (Plain LTrans)) = Some (Ok Jx) /\
  expr_jacobian (1/4) 100 ex_m ex_d1 (leaf_obj 1 (Plain LMat)) = Some (Ok J) /\ J == Jx ** Js.
Proof.
  assert (He : 0 <= 1/4 < 1) by lra.
  assert (exists v, eval (1/4) ex_m ex_sub = Some v /\ vty v = Plain LTrans) as (v & Ev & Tv).
  { eexists. split; [reflexivity|reflexivity]. }
  assert (Gs : good (1/4) ex_m ex_sub KTrans).
  { split; [reflexivity|]. split; cbn; repeat split; auto; apply ex_rot. }
  assert (Dv : exists w, den v = DTrans w /\ vnorm2 w = vnorm2 (mkV 1 2 3) /\ valid v).
  { destruct (eval_sound (1/4) (proj1 He) ex_m ex_sub KTrans) as (l & _ & _ & S2); try apply Gs.
    destruct (S2 v Ev) as (_ & Vv).
    assert (Ms : means (1/4) ex_m ex_sub = Some (den v)) by (unfold means; now rewrite Ev).
    rewrite (good_means (1/4) ex_m ex_sub KTrans (proj1 He) Gs) in Ms. cbn in Ms. injection Ms as Ms.
    rewrite <- Ms. eexists. split; [reflexivity|]. split; [|exact Vv].
    rewrite rot_norm2 by apply ex_rot. v3unf. ring. }
  destruct Dv as (w & Dv & Nw & Vv).
  assert (G : good (1/4) (upd ex_m 20 v) ex_tot KScalar).
  { split; [reflexivity|]. split; cbn.
    - repeat split; auto using ex_q.
    - repeat split. intros d [= <-]. cbn. right. v3unf. lra. }
  destruct (c47_early_evaluation (1/4) ex_m 20 ex_sub KTrans v ex_tot KScalar (proj1 He) Gs Ev G) as (Gi & Mi).
  assert (exists y, means (1/4) (upd ex_m 20 v) ex_tot = Some y) as (y & Hy).
  { rewrite (good_means (1/4) _ ex_tot KScalar (proj1 He) G). cbn. rewrite Dv. cbn. eexists; reflexivity. }
  assert (Ss : smooth (1/4) (fun b => den (ex_m b)) 1 ex_sub).
  { cbn. repeat split. intros _ [H|H] i; discriminate. }
  assert (Sx : smooth (1/4) (fun b => den (upd ex_m 20 v b)) 20 ex_tot).
  { unfold ex_tot. cbn [smooth leaf_addrs]. repeat split;
      try (intros _ [H|H] i; vm_compute; discriminate).
    all: try (intros _ z _; destruct z; exact I).
    - intros _ z H. cbn in H. injection H as <-. exact I.
    - intros _ z H. cbn in H. rewrite Dv in H. cbn [deval ex_m den dsem_un dsem_bin option_map] in H. injection H as <-.
      cbn [smooth_un]. rewrite dnorm2_trans.
      rewrite rot_norm2 by apply so3_exp_is_rot.
      rewrite rot_norm2 by (apply is_rot_tr, qrot_is_rot, ex_q).
      rewrite Nw. v3unf. lra. }
  assert (Ei : inline 20 ex_sub ex_tot = ex_d1) by reflexivity.
  assert (Hd : means (1/4) ex_m ex_d1 = Some y) by (rewrite <- Ei, Mi; exact Hy).
  assert (Ms : means (1/4) ex_m ex_sub = Some (den v)) by (unfold means; now rewrite Ev).
  destruct (c01_jacobian_is_derivative (1/4) 100 ex_m ex_sub KTrans 1 LMat _ He Gs Ms)
    as (_ & Js & HJs & _); [cbn; auto|reflexivity|exact Ss|].
  destruct (c01_jacobian_is_derivative (1/4) 100 (upd ex_m 20 v) ex_tot KScalar 20 LTrans y He G Hy)
    as (_ & Jx & HJx & _); [cbn; tauto|exact Tv|exact Sx|].
  destruct (c01_jacobian_is_derivative (1/4) 100 ex_m ex_d1 KScalar 1 LMat y He ex_d1_good Hd)
    as (_ & J & HJ & _); [cbn; tauto|reflexivity|apply ex_d1_smooth|].
  exists v, Js, Jx, J. repeat (split; [first [assumption|congruence]|]).
  apply (c47_jacobian_chain_rule (1/4) 100 ex_m 20 ex_sub KTrans v ex_tot KScalar y 1 LMat LTrans Js Jx J); auto.
  - cbn; tauto.
  - cbn; tauto.
  - rewrite Ei. apply ex_d1_smooth.
  - right. cbn. intuition congruence.
Qed.
