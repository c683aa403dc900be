(** C44: member access and assignment. *)

From Coq Require Import Reals List Bool Arith Lia Lra.
From Verif Require Import Mat V3 ModelMeta ModelJac ModelLeaf ModelExpr SpecLeaf LeafProofs
  SpecExpr ExprProofs PropsExpr PropsVec ModelMember SpecMember.
Import ListNotations.
Local Open Scope R_scope.

(** Reading a part. *)
Theorem c44_reads_part : forall p v d, dpart p (den v) = Some d -> stored v -> valid v ->
  exists w, get_part p v = Some w /\ den w = d /\ valid w.
Proof.
  intros p v d H (l & S) V.
  destruct p, v; cbn in *; try discriminate S; try discriminate H; injection H as <-;
    eexists; (split; [reflexivity|split; [reflexivity|]]); cbn; tauto.
Qed.
Print Assumptions c44_reads_part.

(** x.rotation() and x.translation() of any transform expression mean its parts. *)
Theorem c44_transform_parts : forall eps m e, 0 <= eps -> good eps m e KRT ->
  means eps m (XUn ORotation e) =
    match means eps m e with Some d => dpart PRotation d | None => None end /\
  means eps m (XUn OTranslation e) =
    match means eps m e with Some d => dpart PTranslation d | None => None end.
Proof.
  intros eps m e He G.
  rewrite (good_means eps m _ KRT He G).
  rewrite (good_means eps m _ KRot He) by (eapply good_un; [exact G|reflexivity|discriminate]).
  rewrite (good_means eps m _ KTrans He) by (eapply good_un; [exact G|reflexivity|discriminate]).
  cbn [deval]. destruct (deval eps _ e) as [d|] eqn:E; [|auto].
  destruct (good_deval eps m e KRT d He G E) as (K & _).
  destruct d; try discriminate K. auto.
Qed.
Print Assumptions c44_transform_parts.

(** Assigning a part: the part becomes the value the right-hand side had before the
    assignment (whatever objects it mentions, including the assigned one), the other
    part and every other object keep their values, and the object stays a valid member
    of its type. *)
Theorem c44_assigns_part : forall eps m a p e k d, 0 <= eps ->
  stored (m a) -> valid (m a) -> part_kind p (vkind (m a)) = Some k -> good eps m e k ->
  means eps m e = Some d ->
  exists m', assign_part eps m a p e = Some m' /\
    dpart p (den (m' a)) = Some d /\
    dpart (other p) (den (m' a)) = dpart (other p) (den (m a)) /\
    vty (m' a) = vty (m a) /\ valid (m' a) /\
    forall b, b <> a -> m' b = m b.
Proof.
  intros eps m a p e k d He (l & S) V P G M.
  assert (Q : exists lp, part_type p (m a) = Some lp /\ kind_of lp = k).
  { destruct p, (m a) as [| | | | | | | |? ? ? ?|? ?|l'|l']; cbn in *; try discriminate S;
      try discriminate P; injection P as <-; eexists; split; reflexivity. }
  destruct Q as (lp & Q1 & Q2).
  destruct (c45_evaluateTo_same_value eps m e k lp He G Q2) as (S1 & S2).
  unfold means in M. rewrite M in S1.
  destruct (evaluateTo eps (Plain lp) m e) as [w|] eqn:E; [|discriminate S1].
  injection S1 as S1. destruct (S2 w eq_refl) as (T & W). clear S2.
  unfold assign_part. rewrite Q1, E.
  assert (B : forall v b, b <> a -> store m a v b = m b).
  { intros v b Hb. unfold store. apply Nat.eqb_neq in Hb. now rewrite Hb. }
  assert (A : forall v, store m a v a = v).
  { intros v. unfold store. now rewrite Nat.eqb_refl. }
  destruct p, (m a) as [| | | | | | | |? ? ? ?|? ?|l'|l'] eqn:Ma; cbn in S; try discriminate S;
    cbn in P; try discriminate P; cbn in Q1; injection Q1 as <-;
    destruct w; cbn in T; try discriminate T;
    (eexists; split; [reflexivity|]; rewrite A; split; [cbn in *; congruence|];
     split; [reflexivity|]; split; [reflexivity|]; split; [cbn in *; tauto|]; exact (B _)).
Qed.
Print Assumptions c44_assigns_part.

(** A right-hand side of another kind is rejected. *)
Theorem c44_wrong_kind_rejected : forall eps m a p e k, ekind e = Some k -> stored (m a) ->
  part_kind p (vkind (m a)) <> Some k -> assign_part eps m a p e = None.
Proof.
  intros eps m a p e k K (l & S) P. unfold assign_part.
  destruct (part_type p (m a)) as [lp|] eqn:Q; [|reflexivity].
  rewrite (c45_other_kind_rejected eps m e k lp K); [reflexivity|].
  destruct p, (m a) as [| | | | | | | |? ? ? ?|? ?|l'|l']; cbn in *; try discriminate S;
    try discriminate Q; injection Q as <-; cbn; congruence.
Qed.
Print Assumptions c44_wrong_kind_rejected.

(** Afterwards x.rotation() and x.translation() read the new parts. *)
Theorem c44_read_after_write : forall eps m a p e k d l, 0 <= eps ->
  vty (m a) = Plain l -> kind_of l = KRT -> valid (m a) -> part_kind p KRT = Some k ->
  good eps m e k -> means eps m e = Some d ->
  let get p := match p with PRotation => XUn ORotation (XLeaf a (Plain l))
                          | PTranslation => XUn OTranslation (XLeaf a (Plain l)) end in
  exists m', assign_part eps m a p e = Some m' /\
    means eps m' (get p) = Some d /\
    means eps m' (get (other p)) = means eps m (get (other p)).
Proof.
  intros eps m a p e k d l He T Kl V P G M get.
  assert (Kv : vkind (m a) = KRT). { unfold vkind. now rewrite T. }
  destruct (c44_assigns_part eps m a p e k d He (ex_intro _ l T) V) as
    (m' & A & D1 & D2 & T' & V' & _); [now rewrite Kv|exact G|exact M|].
  exists m'. split; [exact A|]. rewrite T in T'.
  assert (GL : forall n, vty (n a) = Plain l -> valid (n a) ->
    good eps n (XLeaf a (Plain l)) KRT).
  { intros n Tn Vn. pose proof (good_leaf eps n a (Plain l) Tn Vn) as G0.
    change (ty_kind (Plain l)) with (kind_of l) in G0. rewrite Kl in G0. exact G0. }
  assert (R : forall n, vty (n a) = Plain l -> valid (n a) ->
    forall q, means eps n (get q) = dpart q (den (n a))).
  { intros n Tn Vn q. pose proof (GL n Tn Vn) as G1.
    destruct (c44_transform_parts eps n _ He G1) as (R1 & R2).
    rewrite (good_means eps n _ KRT He G1) in R1, R2. cbn [deval] in R1, R2.
    destruct q; [exact R1|exact R2]. }
  rewrite (R m' T' V'), (R m' T' V'), (R m T V). auto.
Qed.
Print Assumptions c44_read_after_write.

(** x = e: the object takes the value of the right-hand side, whatever objects that
    mentions; nothing else changes. *)
Theorem c44_assigns_leaf : forall eps m a e l d, 0 <= eps -> vty (m a) = Plain l ->
  good eps m e (kind_of l) -> means eps m e = Some d -> l <> LCompRT ->
  exists m', assign_leaf eps m a e = Some m' /\ den (m' a) = d /\
    vty (m' a) = Plain l /\ valid (m' a) /\ forall b, b <> a -> m' b = m b.
Proof.
  intros eps m a e l d He T G M N.
  destruct (c45_evaluateTo_same_value eps m e (kind_of l) l He G eq_refl) as (S1 & S2).
  unfold means in M. rewrite M in S1.
  destruct (evaluateTo eps (Plain l) m e) as [w|] eqn:E; [|discriminate S1].
  injection S1 as S1. destruct (S2 w eq_refl) as (Tw & W).
  exists (store m a w). split.
  - unfold assign_leaf. rewrite T. destruct l; try (rewrite E; reflexivity). contradiction.
  - unfold store. rewrite Nat.eqb_refl. split; [exact S1|]. split; [exact Tw|].
    split; [exact W|]. intros b Hb. apply Nat.eqb_neq in Hb. now rewrite Hb.
Qed.
Print Assumptions c44_assigns_leaf.

(** Constructing a leaf from an expression. *)
Theorem c44_constructs_leaf : forall eps m a e l d, 0 <= eps ->
  good eps m e (kind_of l) -> means eps m e = Some d ->
  exists m', construct_leaf eps l m a e = Some m' /\ den (m' a) = d /\
    vty (m' a) = Plain l /\ valid (m' a) /\ forall b, b <> a -> m' b = m b.
Proof.
  intros eps m a e l d He G M.
  destruct (c45_evaluateTo_same_value eps m e (kind_of l) l He G eq_refl) as (S1 & S2).
  unfold means in M. rewrite M in S1. unfold construct_leaf.
  destruct (evaluateTo eps (Plain l) m e) as [w|] eqn:E; [|discriminate S1].
  injection S1 as S1. destruct (S2 w eq_refl) as (Tw & W).
  exists (store m a w). split; [reflexivity|].
  unfold store. rewrite Nat.eqb_refl. split; [exact S1|]. split; [exact Tw|].
  split; [exact W|]. intros b Hb. apply Nat.eqb_neq in Hb. now rewrite Hb.
Qed.
Print Assumptions c44_constructs_leaf.

(** Expressions that do not mention an object do not see it change. *)
Lemma fresh_ok m m' : forall e, (forall b, In b (leaf_addrs e) -> m' b = m b) ->
  env_ok m e -> env_ok m' e.
Proof.
  induction e; cbn; intros H E.
  - rewrite H; auto.
  - auto.
  - destruct E as (E1 & E2). split; [apply IHe1|apply IHe2]; auto;
      intros b Hb; apply H, in_or_app; auto.
Qed.
Lemma shape_refl e : same_shape e e.
Proof. induction e; cbn; auto. Qed.
Lemma fresh_good eps m m' e k : (forall b, In b (leaf_addrs e) -> m' b = m b) ->
  good eps m e k -> good eps m' e k.
Proof.
  intros H (K & E & X). split; [exact K|]. split; [exact (fresh_ok m m' e H E)|].
  refine (exps_exact_ext eps _ _ e e (shape_refl e) _ X). intros b Hb. cbn. now rewrite H.
Qed.
Lemma fresh_means eps m m' e k : 0 <= eps -> (forall b, In b (leaf_addrs e) -> m' b = m b) ->
  good eps m e k -> means eps m' e = means eps m e.
Proof.
  intros He H G. rewrite (good_means eps m' e k He) by (eapply fresh_good; eauto).
  rewrite (good_means eps m e k He G). apply (deval_ext eps _ _ e e (shape_refl e)).
  intros b Hb. cbn. now rewrite H.
Qed.

(** RT x(r, t): a new transform with the rotation and translation given, whatever the
    memory held before. *)
Theorem c44_constructs_transform : forall eps l g m a r t R T, 0 <= eps -> kind_of l = KRT ->
  ~ In a (leaf_addrs r) -> ~ In a (leaf_addrs t) ->
  good eps m r KRot -> good eps m t KTrans ->
  means eps m r = Some (DRot R) -> means eps m t = Some (DTrans T) ->
  exists m', construct_rt eps l g m a r t = Some m' /\ den (m' a) = DRT R T /\
    vty (m' a) = Plain l /\ valid (m' a) /\ forall b, b <> a -> m' b = m b.
Proof.
  intros eps l g m a r t R T He Kl Nr Nt Gr Gt Mr Mt.
  assert (F : forall (n : env) e, (forall b, b <> a -> n b = m b) -> ~ In a (leaf_addrs e) ->
    forall b, In b (leaf_addrs e) -> n b = m b).
  { intros n e Hn Ne b Hb. apply Hn. intros ->. contradiction. }
  assert (St : forall v b, b <> a -> store m a v b = m b).
  { intros v b Hb. unfold store. apply Nat.eqb_neq in Hb. now rewrite Hb. }
  assert (Gx : forall l1 e k1 n, kind_of l1 = k1 -> good eps m e k1 -> ~ In a (leaf_addrs e) ->
     (forall b, b <> a -> n b = m b) -> forall d, means eps m e = Some d ->
     exists w, evaluateTo eps (Plain l1) n e = Some w /\ den w = d /\ vty w = Plain l1 /\ valid w).
  { intros l1 e k1 n K1 G1 Ne Hn d M1.
    pose proof (fresh_good eps m n e k1 (F n e Hn Ne) G1) as G2.
    pose proof (fresh_means eps m n e k1 He (F n e Hn Ne) G1) as M2. rewrite M1 in M2.
    destruct (c45_evaluateTo_same_value eps n e k1 l1 He G2 K1) as (S1 & S2).
    unfold means in M2. rewrite M2 in S1.
    destruct (evaluateTo eps (Plain l1) n e) as [w|]; [|discriminate S1].
    injection S1 as S1. destruct (S2 w eq_refl). exists w. auto. }
  assert (A : forall n w, store n a w a = w).
  { intros. unfold store. now rewrite Nat.eqb_refl. }
  unfold construct_rt.
  assert (Q : exists v lr, fresh_rt l g = Some v /\ part_type PRotation v = Some lr /\
    kind_of lr = KRot /\ forall w, vty w = Plain lr -> exists v1, set_part PRotation v w = Some v1 /\
      part_type PTranslation v1 = Some LTrans /\
      forall u, vty u = Plain LTrans -> exists v2, set_part PTranslation v1 u = Some v2 /\
        vty v2 = Plain l /\ (valid w -> valid v2) /\
        (den w = DRot R -> den u = DTrans T -> den v2 = DRT R T)).
  { destruct l; try discriminate Kl; cbn [fresh_rt]; eexists; eexists;
      (split; [reflexivity|]; split; [reflexivity|]; split; [reflexivity|]);
      intros w Tw; destruct w; try discriminate Tw; eexists;
      (split; [reflexivity|]; split; [reflexivity|]);
      intros u Tu; destruct u; try discriminate Tu; eexists;
      (split; [reflexivity|]; split; [reflexivity|]; split; [cbn; tauto|]);
      cbn; congruence. }
  destruct Q as (v & lr & Q1 & Q2 & Q3 & Q4). rewrite Q1.
  destruct (Gx lr r KRot (store m a v) Q3 Gr Nr (St v) _ Mr) as (w & E & D & Tw & W).
  destruct (Q4 w Tw) as (v1 & S1 & P1 & Q5).
  unfold assign_part at 1. rewrite A, Q2, E, S1. cbn [option_map].
  set (m1 := store (store m a v) a v1).
  assert (H1 : forall b, b <> a -> m1 b = m b).
  { intros b Hb. unfold m1, store. apply Nat.eqb_neq in Hb. now rewrite Hb. }
  assert (M1 : m1 a = v1) by apply A.
  destruct (Gx LTrans t KTrans m1 eq_refl Gt Nt H1 _ Mt) as (u & E2 & D2 & Tu & U).
  destruct (Q5 u Tu) as (v2 & S2 & Tv & Vv & Dv).
  unfold assign_part. rewrite M1, P1, E2, S2. cbn [option_map].
  eexists. split; [reflexivity|]. rewrite A. split; [auto|]. split; [exact Tv|].
  split; [auto|]. intros b Hb. unfold store at 1. pose proof Hb as Hb'.
  apply Nat.eqb_neq in Hb. rewrite Hb. exact (H1 b Hb').
Qed.
Print Assumptions c44_constructs_transform.

(** Putting assignments together: the two statements
      x.rotation() = x.rotation().inverse(); x.translation() = -(x.rotation() * x.translation());
    invert a rigid transform in place. *)
Definition invert_in_place (a : nat) (l : lty) : list stmt :=
  let x := XLeaf a (Plain l) in
  [SPart a PRotation (XUn OInverse (XUn ORotation x));
   SPart a PTranslation (XUn OMinus (XBin ORotate (XUn ORotation x) (XUn OTranslation x)))].
Theorem c44_invert_in_place : forall eps m a l, 0 <= eps -> kind_of l = KRT ->
  vty (m a) = Plain l -> valid (m a) ->
  exists m', run eps m (invert_in_place a l) = Some m' /\
    Some (den (m' a)) = means eps m (XUn OInverse (XLeaf a (Plain l))) /\
    vty (m' a) = Plain l /\ valid (m' a) /\ forall b, b <> a -> m' b = m b.
Proof.
  intros eps m a l He Kl T V.
  assert (GL : forall n, vty (n a) = Plain l -> valid (n a) ->
    good eps n (XLeaf a (Plain l)) KRT).
  { intros n Tn Vn. pose proof (good_leaf eps n a (Plain l) Tn Vn) as G0.
    change (ty_kind (Plain l)) with (kind_of l) in G0. rewrite Kl in G0. exact G0. }
  assert (GR : forall n, vty (n a) = Plain l -> valid (n a) ->
    good eps n (XUn ORotation (XLeaf a (Plain l))) KRot).
  { intros n Tn Vn. eapply good_un; [now apply GL|reflexivity|discriminate]. }
  assert (GT : forall n, vty (n a) = Plain l -> valid (n a) ->
    good eps n (XUn OTranslation (XLeaf a (Plain l))) KTrans).
  { intros n Tn Vn. eapply good_un; [now apply GL|reflexivity|discriminate]. }
  assert (KK : forall n : env, vty (n a) = Plain l -> vkind (n a) = KRT).
  { intros n Tn. unfold vkind. now rewrite Tn. }
  assert (DD : exists R0 t0, den (m a) = DRT R0 t0).
  { pose proof (valid_dkind (m a) V) as D. rewrite (KK m T) in D.
    destruct (den (m a)); try discriminate D. eauto. }
  destruct DD as (R0 & t0 & D).
  set (e1 := XUn OInverse (XUn ORotation (XLeaf a (Plain l)))).
  assert (G1 : good eps m e1 KRot).
  { eapply good_un; [now apply GR|reflexivity|discriminate]. }
  destruct (c44_assigns_part eps m a PRotation e1 KRot (DRot (tr3 R0)) He (ex_intro _ l T) V)
    as (m1 & A1 & P1 & Q1 & T1 & V1 & B1);
    [now rewrite (KK m T)|exact G1|
     rewrite (good_means eps m e1 KRot He G1); cbn [e1 deval]; rewrite D; reflexivity|].
  rewrite T in T1. rewrite D in Q1.
  assert (D1 : den (m1 a) = DRT (tr3 R0) t0).
  { pose proof (valid_dkind (m1 a) V1) as D1. rewrite (KK m1 T1) in D1.
    destruct (den (m1 a)); try discriminate D1. cbn in P1, Q1. congruence. }
  set (e2 := XUn OMinus (XBin ORotate (XUn ORotation (XLeaf a (Plain l)))
                           (XUn OTranslation (XLeaf a (Plain l))))).
  assert (G2 : good eps m1 e2 KTrans).
  { apply (good_un eps m1 OMinus _ KTrans); [|reflexivity|discriminate].
    eapply good_bin; [now apply GR|now apply GT|reflexivity]. }
  destruct (c44_assigns_part eps m1 a PTranslation e2 KTrans (DTrans (vopp (app3 (tr3 R0) t0)))
    He (ex_intro _ l T1) V1) as (m2 & A2 & P2 & Q2 & T2 & V2 & B2);
    [now rewrite (KK m1 T1)|exact G2| |].
  { rewrite (good_means eps m1 e2 KTrans He G2). cbn [e2 deval]. rewrite D1. cbn.
    reflexivity. }
  rewrite T1 in T2. rewrite D1 in Q2.
  exists m2. split.
  { unfold invert_in_place. cbn [run step]. fold e1 e2. rewrite A1, A2. reflexivity. }
  split.
  { rewrite (good_means eps m _ KRT He)
      by (eapply good_un; [now apply GL|reflexivity|discriminate]).
    cbn [deval]. rewrite D. cbn [dsem_un].
    pose proof (valid_dkind (m2 a) V2) as D2. rewrite (KK m2 T2) in D2.
    destruct (den (m2 a)); try discriminate D2. cbn in P2, Q2. congruence. }
  split; [exact T2|]. split; [exact V2|].
  intros b Hb. rewrite B2, B1 by exact Hb. reflexivity.
Qed.
Print Assumptions c44_invert_in_place.

(** The hypotheses are met: object 4 of the example memory is a 4x4 matrix transform, 5 a
    compact one, 8 a twist; the right-hand side may mention the assigned object. *)
Example c44_example_matrix :
  stored (ex_m 4%nat) /\ valid (ex_m 4%nat) /\ part_kind PTranslation (vkind (ex_m 4%nat)) = Some KTrans /\
  let e := XBin OSum (XUn OTranslation (XLeaf 4 (Plain LMatRT))) (XLeaf 6 (Plain LTrans)) in
  good (1/4) ex_m e KTrans /\ means (1/4) ex_m e = Some (DTrans (mkV 2 4 6)).
Proof.
  assert (V4 : valid (ex_m 4%nat)) by (cbn; auto using ex_rot).
  split; [exists LMatRT; reflexivity|]. split; [exact V4|]. split; [reflexivity|]. cbn zeta.
  assert (G : good (1/4) ex_m (XBin OSum (XUn OTranslation (XLeaf 4 (Plain LMatRT)))
    (XLeaf 6 (Plain LTrans))) KTrans).
  { eapply good_bin; [eapply good_un; [apply (good_leaf _ _ 4 (Plain LMatRT))|reflexivity|discriminate]|
      apply (good_leaf _ _ 6 (Plain LTrans))|reflexivity]; try reflexivity; try exact V4; exact I. }
  split; [exact G|]. rewrite (good_means (1/4) ex_m _ KTrans) by (lra || exact G).
  cbn. do 3 f_equal; lra.
Qed.
Example c44_example_twist :
  stored (ex_m 8%nat) /\ valid (ex_m 8%nat) /\ part_kind PRotation (vkind (ex_m 8%nat)) = Some KRel /\
  good (1/4) ex_m (XUn OMinus (XLeaf 7 (Plain LRel))) KRel /\
  means (1/4) ex_m (XUn OMinus (XLeaf 7 (Plain LRel))) <> None.
Proof.
  split; [exists LTwist; reflexivity|]. split; [exact I|]. split; [reflexivity|].
  assert (G : good (1/4) ex_m (XUn OMinus (XLeaf 7 (Plain LRel))) KRel).
  { eapply good_un; [apply (good_leaf _ _ 7 (Plain LRel))|reflexivity|discriminate];
      try reflexivity; exact I. }
  split; [exact G|]. rewrite (good_means (1/4) ex_m _ KRel) by (lra || exact G). discriminate.
Qed.
Example c44_example_construct :
  good (1/4) ex_m (XLeaf 2 (Plain LQuat)) KRot /\ good (1/4) ex_m (XLeaf 6 (Plain LTrans)) KTrans /\
  ~ In 4%nat (leaf_addrs (XLeaf 2 (Plain LQuat))) /\
  means (1/4) ex_m (XLeaf 2 (Plain LQuat)) = Some (DRot (qrot (mkQ 0 0 1 0))) /\
  means (1/4) ex_m (XLeaf 6 (Plain LTrans)) = Some (DTrans (mkV 1 2 3)).
Proof.
  assert (G1 : good (1/4) ex_m (XLeaf 2 (Plain LQuat)) KRot)
    by (apply (good_leaf _ _ 2 (Plain LQuat)); [reflexivity|exact ex_q]).
  assert (G2 : good (1/4) ex_m (XLeaf 6 (Plain LTrans)) KTrans)
    by (apply (good_leaf _ _ 6 (Plain LTrans)); [reflexivity|exact I]).
  split; [exact G1|]. split; [exact G2|]. split; [cbn; intros [H|[]]; discriminate H|].
  split; [rewrite (good_means (1/4) ex_m _ KRot) by (lra || exact G1)|
          rewrite (good_means (1/4) ex_m _ KTrans) by (lra || exact G2)]; reflexivity.
Qed.
