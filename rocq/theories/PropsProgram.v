(** C44: programs of assignments compute what they say. *)

From Coq Require Import Reals List Bool Arith Lra.
From Verif Require Import Mat V3 ModelLeaf SpecLeaf LeafProofs ModelExpr SpecExpr ExprProofs
  PropsExpr ModelMember SpecMember PropsMember SpecProgram.
Import ListNotations.
Local Open Scope R_scope.

Lemma declared_env_ok m T s : represents m T s -> forall e, declared T e -> env_ok m e.
Proof.
  intros H. induction e as [a t|o e IH|o l IHl r IHr]; cbn; auto.
  - intros <-. destruct (H a) as (A & B & _). auto.
  - intros [A B]. auto.
Qed.
Lemma computes_means eps m T s e k d : 0 <= eps -> represents m T s -> computes eps T s e k d ->
  good eps m e k /\ means eps m e = Some d.
Proof.
  intros He H (D & K & X & V).
  assert (G : good eps m e k).
  { split; [exact K|]. split; [eapply declared_env_ok; eauto|].
    refine (exps_exact_ext eps _ _ e e (shape_refl e) _ X). intros b _. destruct (H b) as (_ & _ & E). now rewrite E. }
  split; [exact G|]. rewrite (good_means eps m e k He G), <- V.
  apply (deval_ext eps _ _ e e (shape_refl e)). intros b _. destruct (H b) as (_ & _ & E). now rewrite E.
Qed.
Lemma represents_upd m m' T s a t d : represents m T s ->
  vty (m' a) = t -> valid (m' a) -> den (m' a) = d -> (forall b, b <> a -> m' b = m b) ->
  represents m' (upd T a t) (upd s a d).
Proof.
  intros H A B C O b. unfold upd. destruct (Nat.eqb_spec b a) as [->|N]; [auto|]. rewrite (O b N). apply H.
Qed.
Lemma represents_ext m T s T' s' : (forall a, T a = T' a) -> (forall a, s a = s' a) ->
  represents m T s -> represents m T' s'.
Proof. intros A B H a. rewrite <- A, <- B. apply H. Qed.
Lemma upd_same {A} (f : nat -> A) a x : f a = x -> forall b, upd f a x b = f b.
Proof. intros E b. unfold upd. destruct (Nat.eqb_spec b a) as [->|N]; congruence. Qed.

(** Running any program of constructions, assignments and assignments to parts gives memory
    that holds the mathematically computed state, in valid objects of their declared
    types. *)
Theorem c44_programs : forall eps T s prog T' s' m, 0 <= eps ->
  executes eps T s prog T' s' -> represents m T s ->
  exists m', run eps m prog = Some m' /\ represents m' T' s'.
Proof.
  intros eps T s prog T' s' m He E. revert m.
  induction E as [T s|T s l a e d prog T' s' C E IH|T s l a e d prog T' s' Ta N C E IH
    |T s a b prog T' s' Ta Tb E IH|T s l a p e k d d' prog T' s' Ta P C W E IH]; intros m H.
  - exists m. split; [reflexivity|exact H].
  - destruct (computes_means eps m T s e _ d He H C) as [G M].
    destruct (c44_constructs_leaf eps m a e l d He G M) as (m1 & A & D & Ty & V & O).
    destruct (IH m1) as (m' & R & H').
    { eapply represents_upd; eauto. }
    exists m'. split; [|exact H']. cbn [run step]. rewrite A. exact R.
  - destruct (computes_means eps m T s e _ d He H C) as [G M].
    assert (Tm : vty (m a) = Plain l) by (destruct (H a) as (X & _); congruence).
    destruct (c44_assigns_leaf eps m a e l d He Tm G M N) as (m1 & A & D & Ty & V & O).
    destruct (IH m1) as (m' & R & H').
    { eapply represents_ext with (T := upd T a (Plain l)) (s := upd s a d); [now apply upd_same|reflexivity|].
      eapply represents_upd; eauto. }
    exists m'. split; [|exact H']. cbn [run step]. rewrite A. exact R.
  - assert (Tm : vty (m a) = Plain LCompRT) by (destruct (H a) as (X & _); congruence).
    destruct (IH (store m a (m b))) as (m' & R & H').
    { destruct (H b) as (X1 & X2 & X3).
      eapply represents_ext with (T := upd T a (Plain LCompRT)) (s := upd s a (s b)); [now apply upd_same|reflexivity|].
      eapply represents_upd; [exact H| | | |]; unfold store; rewrite ?Nat.eqb_refl; try congruence; auto.
      intros c Hc. apply Nat.eqb_neq in Hc. now rewrite Hc. }
    exists m'. split; [|exact H']. cbn [run step]. unfold assign_leaf. rewrite Tm. exact R.
  - destruct (computes_means eps m T s e _ d He H C) as [G M].
    destruct (H a) as (X1 & X2 & X3).
    assert (Tm : vty (m a) = Plain l) by congruence.
    assert (Km : vkind (m a) = kind_of l) by (unfold vkind; rewrite Tm; reflexivity).
    destruct (c44_assigns_part eps m a p e k d He (ex_intro _ l Tm) X2) as (m1 & A & D1 & D2 & Ty & V & O);
      [rewrite Km; exact P|exact G|exact M|].
    assert (D : den (m1 a) = d').
    { rewrite X3 in D2. clear - D1 D2 W. destruct p, (s a), d, (den (m1 a)); cbn in *; congruence. }
    destruct (IH m1) as (m' & R & H').
    { eapply represents_ext with (T := upd T a (Plain l)) (s := upd s a d'); [now apply upd_same|reflexivity|].
      eapply represents_upd; eauto. congruence. }
    exists m'. split; [|exact H']. cbn [run step]. rewrite A. exact R.
Qed.
Print Assumptions c44_programs.

(** Five statements over the example memory: a new matrix rotation from a quaternion, its
    composition with itself assigned back, a part of a transform assigned. *)
Example c44_programs_example :
  let q := XLeaf 2 (Plain LQuat) in let r := XLeaf 90 (Plain LMat) in
  let prog := [SNew LMat 90 q; SLeaf 90 (XBin OCompose r q); SPart 5 PRotation r;
               SPart 5 PTranslation (XBin ORotate r (XUn OTranslation (XLeaf 5 (Plain LCompRT))));
               SLeaf 6 (XUn OTranslation (XLeaf 5 (Plain LCompRT)))] in
  let T := fun a => vty (ex_m a) in let s := fun a => den (ex_m a) in
  let Q := qrot (mkQ 0 0 1 0) in
  represents ex_m T s /\
  exists T' s' t, executes (1/4) T s prog T' s' /\ s 5%nat = DRT (qrot (mkQ 0 0 1 0)) t /\
    s' 6%nat = DTrans (app3 (mul3 Q Q) t) /\ T' 90%nat = Plain LMat.
Proof.
  cbn zeta. split.
  { intros a. split; [reflexivity|]. split; [|reflexivity].
    do 12 (destruct a as [|a]; [cbn; auto using ex_rot, ex_q, ex_ax|]). exact I. }
  do 3 eexists. split.
  - eapply ex_new; [unfold computes; cbn; repeat split; reflexivity|].
    eapply ex_assign; [reflexivity|discriminate|unfold computes; cbn; repeat split; reflexivity|].
    eapply ex_part; [reflexivity|reflexivity|unfold computes; cbn; repeat split; reflexivity|reflexivity|].
    eapply ex_part; [reflexivity|reflexivity|unfold computes; cbn; repeat split; reflexivity|reflexivity|].
    eapply ex_assign; [reflexivity|discriminate|unfold computes; cbn; repeat split; reflexivity|].
    apply ex_done.
  - cbn. repeat split; reflexivity.
Qed.
