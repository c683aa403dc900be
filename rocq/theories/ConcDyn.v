(** The accesses made by evaluation and differentiation when nobody interferes. *)
From Coq Require Import Reals List Arith Bool Lia FunctionalExtensionality.
From Verif Require Import Mat ModelMeta ModelJac ModelLeaf ModelExpr SpecLeaf SpecExpr ExprProofs ModelDyn SpecDyn DynProofs
  ModelConc SpecConc ConcGen.
Import ListNotations.

Lemma is_dyn_objs s s1 a : objs s1 = objs s -> is_dyn s1 a = is_dyn s a.
Proof. intros E. unfold is_dyn. now rewrite E. Qed.
Lemma outline_objs f : forall s s' n, objs s' = objs s -> outline f s' n = outline f s n.
Proof.
  induction f as [|f IH]; intros s s' n M; [reflexivity|]. cbn [outline].
  rewrite !M. destruct n as [i t|a|d l|o n|o n1 n2].
  - now rewrite (is_dyn_objs _ _ _ M).
  - destruct (objs s a) as [[t|n'|n' l|d l]|]; auto.
  - reflexivity.
  - now rewrite (IH _ _ _ M).
  - now rewrite !(IH _ _ _ M).
Qed.

(** What evaluating an expression touches. *)
Inductive xt (s : state) : expr -> loc -> Prop :=
| xt_leaf a t : is_dyn s a = false -> xt s (XLeaf a t) (Leaf a)
| xt_eval d t : is_dyn s d = true -> xt s (XLeaf d t) (Evaluator d)
| xt_in d t n l f e x : objs s d = Some (ODyn n l) -> outline f s n = Some e -> xt s e x ->
    xt s (XLeaf d t) x
| xt_un o e x : xt s e x -> xt s (XUn o e) x
| xt_left o l r x : xt s l x -> xt s (XBin o l r) x
| xt_right o l r x : xt s r x -> xt s (XBin o l r) x.

(** A predicate on expressions that only depends on the leaves. *)
Lemma prepare_ind (P : expr -> Prop) :
  (forall o e, P (XUn o e) <-> P e) ->
  (forall o l r l' r', (P l <-> P l') -> (P r <-> P r') -> (P (XBin o l r) <-> P (XBin o l' r'))) ->
  forall e p t, prepare e = Some (p, t) -> (P e <-> P p).
Proof.
  intros HU HB. assert (HC : forall t p, P (xconvert t p) <-> P p).
  { intros t p. unfold xconvert. destruct t; try tauto. apply HU. }
  induction e as [a t0|o e IH|o l IHl r IHr]; intros p t H; cbn [prepare] in H.
  - injection H as <- _. tauto.
  - destruct (prepare e) as [[p0 t0]|]; [|discriminate]. specialize (IH _ _ eq_refl).
    destruct (choose_unary _ _ t0 (convert_to t0)) as [[|t']|]; [| |discriminate].
    + destruct (ty_un o t0); [|discriminate]. injection H as <- _. rewrite !HU. exact IH.
    + destruct (ty_un o t'); [|discriminate]. injection H as <- _. rewrite !HU, HC. exact IH.
  - destruct (prepare l) as [[pl tl]|]; [|discriminate]. destruct (prepare r) as [[pr tr]|]; [|discriminate].
    specialize (IHl _ _ eq_refl). specialize (IHr _ _ eq_refl).
    destruct (choose_binary _ _ tl tr (convert_to tl) (convert_to tr)) as [[|t'|t'|t' u']|];
      try discriminate;
      match type of H with option_map _ ?x = _ => destruct x; [|discriminate] end;
      injection H as <- _; apply HB; rewrite ?HC; assumption.
Qed.
Lemma prepare_to_ind (P : expr -> Prop) :
  (forall o e, P (XUn o e) <-> P e) ->
  (forall o l r l' r', (P l <-> P l') -> (P r <-> P r') -> (P (XBin o l r) <-> P (XBin o l' r'))) ->
  forall d e p t, prepare_to d e = Some (p, t) -> (P e <-> P p).
Proof.
  intros HU HB d e p t H. unfold prepare_to in H.
  destruct (prepare e) as [[p0 t0]|] eqn:E; [|discriminate].
  destruct (ty_eqb d t0). { injection H as <- _. eapply prepare_ind; eauto. }
  destruct d; try discriminate. rewrite <- (prepare_ind P HU HB _ _ _ H). now rewrite HU.
Qed.

Lemma xt_un_iff s x o e : xt s (XUn o e) x <-> xt s e x.
Proof. split; [inversion 1; auto|now constructor]. Qed.
Lemma xt_bin_iff s x o l r : xt s (XBin o l r) x <-> xt s l x \/ xt s r x.
Proof. split; [inversion 1; auto|intros [H|H]; [now apply xt_left|now apply xt_right]]. Qed.
Lemma xt_prepare s e p t x : prepare e = Some (p, t) -> (xt s e x <-> xt s p x).
Proof.
  apply (prepare_ind (fun e => xt s e x)); [intros; apply xt_un_iff|].
  intros o l r l' r' E1 E2. rewrite !xt_bin_iff. tauto.
Qed.
Lemma xt_prepare_to s d e p t x : prepare_to d e = Some (p, t) -> (xt s e x <-> xt s p x).
Proof.
  apply (prepare_to_ind (fun e => xt s e x)); [intros; apply xt_un_iff|].
  intros o l r l' r' E1 E2. rewrite !xt_bin_iff. tauto.
Qed.

Lemma outline_eq f s n e : outline (S f) s n = Some e -> 
  match n with
  | NOwn i t => is_dyn s i = false /\ e = XLeaf i t
  | NRef a =>
      match objs s a with
      | Some (OLeaf t) => e = XLeaf a t
      | Some (OExpr n') => outline f s n' = Some e
      | Some (ODyn n' _) => outline f s n' = Some e
      | Some (OProxy d l) => outline f s (NProxy d l) = Some e
      | None => False
      end
  | NProxy d l => e = XLeaf d (Plain l) /\ exists n, objs s d = Some (ODyn n l)
  | NUn o n => exists e', outline f s n = Some e' /\ e = XUn o e'
  | NBin o n1 n2 => exists e1 e2, outline f s n1 = Some e1 /\ outline f s n2 = Some e2 /\ e = XBin o e1 e2
  end.
Proof.
  cbn [outline]. destruct n as [i t|a|d l|o n|o n1 n2].
  - destruct (is_dyn s i); [discriminate|]. intros H. injection H as <-. auto.
  - destruct (objs s a) as [[t|n'|n' l|d l]|]; try discriminate; auto. intros H. now injection H as <-.
  - destruct (objs s d) as [[t|n'|n' l'|d' l']|]; try discriminate.
    destruct (lty_eqb l l') eqn:E; [|discriminate]. apply lty_eqb_eq in E as <-. intros H. injection H as <-. eauto.
  - destruct (outline f s n) as [e'|]; [|discriminate]. intros H. injection H as <-. eauto.
  - destruct (outline f s n1) as [e1|]; [|discriminate]. destruct (outline f s n2) as [e2|]; [|discriminate].
    intros H. injection H as <-. eauto.
Qed.

(** Only objects the expression object leads to are touched. *)
Lemma xt_touches s e x : xt s e x -> forall f n, outline f s n = Some e -> touches s n x.
Proof.
  induction 1 as [a t D|d t D|d t m l g e x O U X IH|o e x X IH|o l r x X IH|o l r x X IH];
    (induction f as [|f IHf]; intros n H; [discriminate|]); apply outline_eq in H.
  - destruct n as [i t'|b|d' l|o n|o n1 n2].
    + destruct H as (_ & H). injection H as -> ->. constructor.
    + destruct (objs s b) as [[t'|n'|n' l|d' l]|] eqn:B; try contradiction.
      * injection H as -> ->. eapply t_leaf; eauto.
      * eapply t_expr; eauto.
      * eapply t_dyn; eauto.
      * eapply t_var; eauto.
    + destruct H as (H & n & O). injection H as -> ->. unfold is_dyn in D. rewrite O in D. discriminate.
    + destruct H as (e' & _ & H). discriminate.
    + destruct H as (e1 & e2 & _ & _ & H). discriminate.
  - destruct n as [i t'|b|d' l|o n|o n1 n2].
    + destruct H as (D' & H). injection H as -> ->. congruence.
    + destruct (objs s b) as [[t'|n'|n' l|d' l]|] eqn:B; try contradiction.
      * injection H as -> ->. unfold is_dyn in D. rewrite B in D. discriminate.
      * eapply t_expr; eauto.
      * eapply t_dyn; eauto.
      * eapply t_var; eauto.
    + destruct H as (H & n & O). injection H as -> ->. constructor.
    + destruct H as (e' & _ & H). discriminate.
    + destruct H as (e1 & e2 & _ & _ & H). discriminate.
  - destruct n as [i t'|b|d' l'|o n|o n1 n2].
    + destruct H as (D' & H). injection H as -> ->. unfold is_dyn in D'. rewrite O in D'. discriminate.
    + destruct (objs s b) as [[t'|n'|n' l'|d' l']|] eqn:B; try contradiction.
      * injection H as -> ->. congruence.
      * eapply t_expr; eauto.
      * eapply t_dyn; eauto.
      * eapply t_var; eauto.
    + destruct H as (H & n & O'). injection H as -> ->. rewrite O in O'. injection O' as <- <-.
      eapply t_proxy; eauto.
    + destruct H as (e' & _ & H). discriminate.
    + destruct H as (e1 & e2 & _ & _ & H). discriminate.
  - destruct n as [i t'|b|d' l'|o' n|o' n1 n2]; try (destruct H as (_ & H); discriminate); try (destruct H as (H & _); discriminate).
    + destruct (objs s b) as [[t'|n'|n' l'|d' l']|] eqn:B; try contradiction; try discriminate.
      * eapply t_expr; eauto.
      * eapply t_dyn; eauto.
      * eapply t_var; eauto.
    + destruct H as (e9 & H & E). inversion E; subst. apply t_un. eauto.
    + destruct H as (e1 & e2 & _ & _ & H). discriminate.
  - destruct n as [i t'|b|d' l'|o' n|o' n1 n2]; try (destruct H as (_ & H); discriminate); try (destruct H as (H & _); discriminate).
    + destruct (objs s b) as [[t'|n'|n' l'|d' l']|] eqn:B; try contradiction; try discriminate.
      * eapply t_expr; eauto.
      * eapply t_dyn; eauto.
      * eapply t_var; eauto.
    + destruct H as (e' & _ & E). discriminate.
    + destruct H as (e1 & e2 & H1 & H2 & E). inversion E; subst. apply t_left. eauto.
  - destruct n as [i t'|b|d' l'|o' n|o' n1 n2]; try (destruct H as (_ & H); discriminate); try (destruct H as (H & _); discriminate).
    + destruct (objs s b) as [[t'|n'|n' l'|d' l']|] eqn:B; try contradiction; try discriminate.
      * eapply t_expr; eauto.
      * eapply t_dyn; eauto.
      * eapply t_var; eauto.
    + destruct H as (e' & _ & E). discriminate.
    + destruct H as (e1 & e2 & H1 & H2 & E). inversion E; subst. apply t_right. eauto.
Qed.

(** Everything below is an expression object that exists. *)
Inductive ok (s : state) : expr -> Prop :=
| ok_leaf a t : is_dyn s a = false -> ok s (XLeaf a t)
| ok_dyn d t n l f e : objs s d = Some (ODyn n l) -> outline f s n = Some e -> ok s e -> ok s (XLeaf d t)
| ok_un o e : ok s e -> ok s (XUn o e)
| ok_bin o l r : ok s l -> ok s r -> ok s (XBin o l r).
Lemma ok_un_iff s o e : ok s (XUn o e) <-> ok s e.
Proof. split; [inversion 1; auto|now constructor]. Qed.
Lemma ok_bin_iff s o l r : ok s (XBin o l r) <-> ok s l /\ ok s r.
Proof. split; [inversion 1; auto|intros []; now constructor]. Qed.
Lemma ok_prepare s e p t : prepare e = Some (p, t) -> (ok s e <-> ok s p).
Proof.
  apply (prepare_ind (ok s)); [apply ok_un_iff|]. intros o l r l' r' E1 E2. rewrite !ok_bin_iff. tauto.
Qed.
Lemma ok_prepare_to s d e p t : prepare_to d e = Some (p, t) -> (ok s e <-> ok s p).
Proof.
  apply (prepare_to_ind (ok s)); [apply ok_un_iff|]. intros o l r l' r' E1 E2. rewrite !ok_bin_iff. tauto.
Qed.
Lemma vt_ok eps na s p v T : vt eps na s p v T -> ok s p.
Proof.
  induction 1; try (now constructor). eapply ok_dyn; eauto. eapply ok_prepare; eauto.
Qed.

Lemma touches_xt s n x : touches s n x -> forall f e, outline f s n = Some e -> ok s e -> xt s e x.
Proof.
  induction 1 as [i t|a t O|a n x O X IH|a n l x O X IH|a d l x O X IH|d l|d n l l' x O X IH
    |o n x X IH|o n1 n2 x X IH|o n1 n2 x X IH]; intros [|f] e H K; try discriminate; apply outline_eq in H.
  - destruct H as (D & ->). now constructor.
  - rewrite O in H. subst. constructor. unfold is_dyn. now rewrite O.
  - rewrite O in H. eauto.
  - rewrite O in H. eauto.
  - rewrite O in H. eauto.
  - destruct H as (-> & n & O). constructor. unfold is_dyn. now rewrite O.
  - destruct H as (-> & n' & O'). inversion K as [a t D|d' t n2 l2 f2 e2 O2 U2 K2| |]; subst.
    + unfold is_dyn in D. rewrite O in D. discriminate.
    + rewrite O in O2. injection O2 as E1 E2. subst n2 l2. eapply xt_in; [exact O|exact U2|]. eapply IH; [exact U2|exact K2].
  - destruct H as (e' & H & ->). inversion K; subst. apply xt_un. eauto.
  - destruct H as (e1 & e2 & H1 & H2 & ->). inversion K; subst. apply xt_left. eauto.
  - destruct H as (e1 & e2 & H1 & H2 & ->). inversion K; subst. apply xt_right. eauto.
Qed.

(** *** Evaluation *)
Section Run.
  Variable eps : R.
  Variable na : nat.
  Local Notation dynEvaluate := (dynEvaluate eps na).
  Local Notation ev := (ev eps na).

  (** The result does not depend on the caches, and the caches only where nothing is
      evaluated. *)
  Definition overlay (c1 c1' c2 c2' : nat -> option (value * etree)) : Prop :=
    forall x, (c1' x = c1 x /\ c2' x = c2 x) \/ c1' x = c2' x.

  Lemma ev_overlay D :
    (forall s1 s2 d v s1', D s1 d = Some (v, s1') -> same_mem s1 s2 -> exists s2',
       D s2 d = Some (v, s2') /\ same_mem s1 s1' /\ same_mem s2 s2' /\
       overlay (cache s1) (cache s1') (cache s2) (cache s2')) ->
    forall p s1 s2 v T s1', ev D s1 p = Some (v, T, s1') -> same_mem s1 s2 -> exists s2',
       ev D s2 p = Some (v, T, s2') /\ same_mem s1 s1' /\ same_mem s2 s2' /\
       overlay (cache s1) (cache s1') (cache s2) (cache s2').
  Proof.
    intros HD. induction p as [a t|o p IH|o l IHl r IHr]; intros s1 s2 v T s1' H M; cbn [ModelDyn.ev] in *.
    - rewrite (is_dyn_mem _ _ _ M). destruct (is_dyn s1 a).
      + destruct (D s1 a) as [[v0 s0]|] eqn:E; [|discriminate]. injection H as <- <- <-.
        destruct (HD _ _ _ _ _ E M) as (s2' & -> & R). eauto.
      + injection H as <- <- <-. exists s2. rewrite (proj1 M). split; [reflexivity|].
        split; [apply same_mem_refl|]. split; [apply same_mem_refl|]. intros x. now left.
    - destruct (ev D s1 p) as [[[v0 c] s0]|] eqn:E; [|discriminate].
      destruct (sem_un eps o v0) as [val|] eqn:Sm; [|discriminate]. injection H as <- <- <-.
      destruct (IH _ _ _ _ _ E M) as (s2' & -> & R). rewrite Sm. eauto.
    - destruct (ev D s1 l) as [[[va cl] sa]|] eqn:E1; [|discriminate].
      destruct (ev D sa r) as [[[vb cr] sb]|] eqn:E2; [|discriminate].
      destruct (sem_bin o va vb) as [val|] eqn:Sm; [|discriminate]. injection H as <- <- <-.
      destruct (IHl _ _ _ _ _ E1 M) as (sa' & -> & M1 & M2 & O1).
      assert (M3 : same_mem sa sa').
      { exact (same_mem_trans _ _ _ (same_mem_sym _ _ M1) (same_mem_trans _ _ _ M M2)). }
      destruct (IHr _ _ _ _ _ E2 M3) as (sb' & -> & M4 & M5 & O2). rewrite Sm.
      exists sb'. split; [reflexivity|]. split; [eapply same_mem_trans; eauto|]. split; [eapply same_mem_trans; eauto|].
      intros x. destruct (O2 x) as [(A & B)|A]; [|now right].
      destruct (O1 x) as [(C & C')|C]; [left; split; congruence|right; congruence].
  Qed.

  Lemma dyn_overlay f : forall s1 s2 d v s1', dynEvaluate f s1 d = Some (v, s1') -> same_mem s1 s2 ->
    exists s2', dynEvaluate f s2 d = Some (v, s2') /\ same_mem s1 s1' /\ same_mem s2 s2' /\
      overlay (cache s1) (cache s1') (cache s2) (cache s2').
  Proof.
    induction f as [|f IH]; intros s1 s2 d v s1' H M; [discriminate|]. cbn [ModelDyn.dynEvaluate] in *.
    rewrite (proj2 M). destruct (objs s1 d) as [[|?|n l|? ?]|]; try discriminate.
    rewrite (outline_mem _ _ _ _ M). destruct (outline f s1 n) as [e|]; [|discriminate].
    destruct (prepare e) as [[p t]|]; [|discriminate].
    destruct (ev (dynEvaluate f) s1 p) as [[[v0 T] s0]|] eqn:E; [|discriminate]. injection H as <- <-.
    destruct (ev_overlay _ IH _ _ _ _ _ _ E M) as (s2' & -> & M1 & M2 & O).
    eexists. split; [reflexivity|]. split; [exact M1|]. split; [exact M2|].
    intros x. cbn. unfold setf. destruct (x =? d)%nat; [now right|apply O].
  Qed.

  (** A list of accesses that reaches exactly [X] and changes exactly the evaluators. *)
  Definition is_ev (x : loc) : bool := match x with Evaluator _ => true | Leaf _ => false end.
  Definition below (X : loc -> Prop) (tr : list access) : Prop :=
    forall a, In a tr -> X (where_ a) /\ (writes a = true -> is_ev (where_ a) = true).
  Definition foot (X : loc -> Prop) (tr : list access) : Prop :=
    below X tr /\ forall x, X x -> exists a, In a tr /\ where_ a = x /\ writes a = is_ev x.

  Definition mem_of (s : state) : mem := Mem (vals s) (cache s).

  Lemma foot_iff X Y tr : (forall x, X x <-> Y x) -> foot X tr -> foot Y tr.
  Proof.
    intros E (B & C). split.
    - intros a A. destruct (B a A). split; [now apply E|assumption].
    - intros x Hx. apply C. now apply E.
  Qed.
  Lemma foot_app X Y Z tr tr' : (forall x, Z x <-> X x \/ Y x) -> foot X tr -> foot Y tr' -> foot Z (tr ++ tr').
  Proof.
    intros E (B & C) (B' & C'). split.
    - intros a A. apply in_app_or in A as [A|A]; [destruct (B a A)|destruct (B' a A)];
        (split; [apply E; tauto|assumption]).
    - intros x Hx. apply E in Hx as [Hx|Hx].
      + destruct (C x Hx) as (a & A & R). exists a. split; [apply in_or_app; now left|exact R].
      + destruct (C' x Hx) as (a & A & R). exists a. split; [apply in_or_app; now right|exact R].
  Qed.

  Variable s : state.

  Lemma pev_run f :
    (forall s1 d v s', objs s1 = objs s -> dynEvaluate f s1 d = Some (v, s') -> is_dyn s d = true ->
       exists tr, runs (pdyn eps na s f d) (mem_of s1) tr v (mem_of s') /\
         objs s' = objs s /\ forall t, foot (xt s (XLeaf d t)) tr) ->
    forall p s1 v T s', objs s1 = objs s -> ev (dynEvaluate f) s1 p = Some (v, T, s') ->
      exists tr, runs (pev eps na s (pdyn eps na s f) p) (mem_of s1) tr (v, T) (mem_of s') /\
        objs s' = objs s /\ foot (xt s p) tr.
  Proof.
    intros HD. induction p as [a t|o p IH|o l IHl r IHr]; intros s1 v T s' M H; cbn [ModelDyn.ev pev] in *.
    - rewrite (is_dyn_objs _ _ a M) in H. destruct (is_dyn s a) eqn:D.
      + destruct (dynEvaluate f s1 a) as [[v0 s0]|] eqn:E; [|discriminate]. injection H as <- <- <-.
        destruct (HD _ _ _ _ M E D) as (tr & Rn & O & F). exists (tr ++ []). split; [|split; [exact O|]].
        * eapply runs_bind; [exact Rn|constructor].
        * rewrite app_nil_r. apply F.
      + injection H as <- <- <-. exists [Acc (Leaf a) false]. split; [constructor; constructor|].
        split; [exact M|]. split.
        * intros b [<-|[]]. cbn. split; [now constructor|discriminate].
        * intros x X. inversion X; subst; [|congruence|].
          -- eexists. split; [now left|]. split; reflexivity.
          -- exfalso. unfold is_dyn in D.
             match goal with H : objs s a = Some _ |- _ => rewrite H in D end. discriminate.
    - destruct (ev (dynEvaluate f) s1 p) as [[[v0 c] s0]|] eqn:E; [|discriminate].
      destruct (sem_un eps o v0) as [val|] eqn:Sm; [|discriminate]. injection H as <- <- <-.
      destruct (IH _ _ _ _ M E) as (tr & Rn & O & F). exists (tr ++ []). split; [|split; [exact O|]].
      + eapply runs_bind; [exact Rn|]. cbn. rewrite Sm. constructor.
      + rewrite app_nil_r. eapply foot_iff; [|exact F]. intros x. symmetry. apply xt_un_iff.
    - destruct (ev (dynEvaluate f) s1 l) as [[[va cl] sa]|] eqn:E1; [|discriminate].
      destruct (ev (dynEvaluate f) sa r) as [[[vb cr] sb]|] eqn:E2; [|discriminate].
      destruct (sem_bin o va vb) as [val|] eqn:Sm; [|discriminate]. injection H as <- <- <-.
      destruct (IHl _ _ _ _ M E1) as (tr1 & R1 & O1 & F1). destruct (IHr _ _ _ _ O1 E2) as (tr2 & R2 & O2 & F2).
      exists (tr1 ++ (tr2 ++ [])). split; [|split; [exact O2|]].
      + eapply runs_bind; [exact R1|]. cbn beta iota. eapply runs_bind; [exact R2|]. cbn beta iota. rewrite Sm. constructor.
      + rewrite app_nil_r. eapply foot_app; [|exact F1|exact F2]. intros x. apply xt_bin_iff.
  Qed.

  Lemma pdyn_run f : forall s1 d v s', objs s1 = objs s -> dynEvaluate f s1 d = Some (v, s') ->
    is_dyn s d = true ->
    exists tr, runs (pdyn eps na s f d) (mem_of s1) tr v (mem_of s') /\
      objs s' = objs s /\ forall t, foot (xt s (XLeaf d t)) tr.
  Proof.
    induction f as [|f IH]; intros s1 d v s' M H D; [discriminate|]. cbn [ModelDyn.dynEvaluate pdyn] in *.
    rewrite M in H. destruct (objs s d) as [[|?|n l|? ?]|] eqn:O; try discriminate.
    rewrite (outline_objs _ _ _ _ M) in H. destruct (outline f s n) as [e|] eqn:U; [|discriminate].
    destruct (prepare e) as [[p t]|] eqn:P; [|discriminate].
    destruct (ev (dynEvaluate f) s1 p) as [[[v0 T] s0]|] eqn:E; [|discriminate]. injection H as <- <-.
    set (s1' := State (vals s1) (objs s1) (setf (cache s1) d None)).
    assert (M1 : same_mem s1 s1') by (split; reflexivity).
    destruct (ev_overlay _ (dyn_overlay f) _ _ _ _ _ _ E M1) as (s0' & E' & M2 & M3 & OV).
    destruct (pev_run f IH _ s1' _ _ _ M E') as (tr & Rn & O0 & F).
    exists (Acc (Evaluator d) true :: (tr ++ [Acc (Evaluator d) true; Acc (Evaluator d) false])).
    split; [|split; [cbn; rewrite (proj2 M2); exact M|]].
    - constructor. eapply runs_bind; [exact Rn|]. cbn beta iota. constructor. constructor. cbn [mcache].
      unfold setf at 1. rewrite Nat.eqb_refl. cbn beta iota.
      match goal with |- runs _ ?a _ _ ?b => assert (a = b) as ->; [|constructor] end.
      unfold mem_of. cbn [vals cache mvals mcache]. f_equal.
      + rewrite (proj1 M3), (proj1 M2). reflexivity.
      + apply functional_extensionality. intros x. unfold setf. destruct (Nat.eqb_spec x d) as [->|NE]; [reflexivity|].
        destruct (OV x) as [(A & B)|A]; [|now rewrite A]. rewrite A, B. cbn. unfold setf.
        destruct (Nat.eqb_spec x d); [contradiction|reflexivity].
    - intros t'. assert (Hx : forall x, xt s (XLeaf d t') x <-> x = Evaluator d \/ xt s p x).
      { intros x. split.
        - inversion 1 as [a2 t2 D2|d2 t2 D2|d2 t2 n2 l2 f2 e2 x2 O2 U2 X2| | |]; subst; [congruence|now left|].
          rewrite O in O2. injection O2 as E2 E3. subst n2 l2. rewrite (outline_det _ _ _ _ _ _ U2 U) in X2.
          right. apply (xt_prepare _ _ _ _ _ P). exact X2.
        - intros [->|X]; [now constructor|]. eapply xt_in; [exact O|exact U|]. apply (xt_prepare _ _ _ _ _ P). exact X. }
      split.
      + intros a [<-|A]; [cbn; split; [apply Hx; now left|auto]|].
        apply in_app_or in A as [A|[<-|[<-|[]]]]; [|cbn; split; [apply Hx; now left|auto]..].
        destruct (proj1 F a A) as (A1 & A2). split; [apply Hx; now right|exact A2].
      + intros x X. apply Hx in X as [->|X].
        * exists (Acc (Evaluator d) true). split; [now left|]. split; reflexivity.
        * destruct (proj2 F x X) as (a & A & R). exists a. split; [right; apply in_or_app; now left|exact R].
  Qed.

  Lemma eval_run f p s1 v T s' : objs s1 = objs s -> ev (dynEvaluate f) s1 p = Some (v, T, s') ->
    exists tr, runs (pev eps na s (pdyn eps na s f) p) (mem_of s1) tr (v, T) (mem_of s') /\
      objs s' = objs s /\ foot (xt s p) tr.
  Proof. apply pev_run, pdyn_run. Qed.

  (** *** Differentiation after evaluation *)
  Definition reads_only (X : loc -> Prop) (tr : list access) : Prop :=
    forall a, In a tr -> X (where_ a) /\ writes a = false.

  Lemma vt_dyn_inv s1 p v T l : vt eps na s1 p v T -> T = ELeaf l -> exists t, p = XLeaf (l_addr l) t.
  Proof. intros V ->. inversion V; subst; cbn; eauto. Qed.

  Lemma newest_xt s1 d c : objs s1 = objs s -> newest eps na s1 d c -> exists p, vt eps na s1 p (fst c) (snd c) /\
    forall x t, xt s p x -> xt s (XLeaf d t) x.
  Proof.
    intros M (n & l & f & e & p & u & O & U & P & V). exists p. split; [exact V|].
    intros x t X. rewrite M in O. rewrite (outline_objs _ _ _ _ M) in U. eapply xt_in; eauto. eapply xt_prepare; eauto.
  Qed.

  Lemma pdjac_run f t : forall s1, objs s1 = objs s -> forall T p v j, vt eps na s1 p v T -> freshT eps na s1 T ->
    djac (dynJacobian eps na f s1 t) s1 t T = Some j ->
    exists tr, runs (pdjac s (pdynJacobian eps na s f t) t T) (mem_of s1) tr j (mem_of s1) /\ reads_only (xt s p) tr.
  Proof.
    induction f as [|f IHf]; intros s1 M.
    - induction T as [l|a n J c IH|a n JL JR l IHl r IHr]; intros p v j V F H; cbn [djac pdjac] in *.
      + rewrite (is_dyn_objs _ _ _ M) in H. destruct (is_dyn s (l_addr l)).
        * destruct (l_addr l =? t)%nat; [|discriminate]. injection H as <-.
          exists []. split; [constructor|intros ? []].
        * injection H as <-. exists []. split; [constructor|intros ? []].
      + inversion F; subst. destruct (a =? t)%nat; [injection H as <-; exists []; split; [constructor|intros ? []]|].
        inversion V; subst.
        destruct (djac _ s1 t c) as [jc|] eqn:E; [|discriminate]. injection H as <-.
        destruct (IH _ _ _ ltac:(eassumption) ltac:(assumption) eq_refl) as (tr & Rn & K).
        exists (tr ++ []). split; [eapply runs_bind; [exact Rn|constructor]|]. rewrite app_nil_r.
        intros zz ZZ. destruct (K zz ZZ). split; [now apply xt_un|assumption].
      + inversion F; subst. destruct (a =? t)%nat; [injection H as <-; exists []; split; [constructor|intros ? []]|].
        inversion V; subst.
        destruct (djac _ s1 t l) as [jl|] eqn:E1; [|discriminate].
        destruct (djac _ s1 t r) as [jr|] eqn:E2; [|discriminate]. injection H as <-.
        destruct (IHl _ _ _ ltac:(eassumption) ltac:(assumption) eq_refl) as (tr1 & R1 & K1).
        destruct (IHr _ _ _ ltac:(eassumption) ltac:(assumption) eq_refl) as (tr2 & R2 & K2).
        exists (tr1 ++ (tr2 ++ [])). split.
        * eapply runs_bind; [exact R1|]. eapply runs_bind; [exact R2|constructor].
        * rewrite app_nil_r. intros zz ZZ. apply in_app_or in ZZ as [ZZ|ZZ]; [destruct (K1 zz ZZ)|destruct (K2 zz ZZ)];
            (split; [|assumption]); [now apply xt_left|now apply xt_right].
    - induction T as [l|a n J c IH|a n JL JR l IHl r IHr]; intros p v j V F H; cbn [djac pdjac] in *.
      + rewrite (is_dyn_objs _ _ _ M) in H. destruct (is_dyn s (l_addr l)) eqn:D.
        * destruct (l_addr l =? t)%nat; [injection H as <-; exists []; split; [constructor|intros ? []]|].
          destruct (vt_dyn_inv _ _ _ _ l V eq_refl) as (t' & ->).
          inversion F as [l0 D0|l0 v0 T0 N C F0| |]; subst; [rewrite (is_dyn_objs _ _ _ M) in D0; congruence|].
          cbn [dynJacobian pdynJacobian] in *. unfold evaluator in H. rewrite C in H.
          destruct (newest_xt _ _ _ M N) as (p0 & V0 & X0). cbn [fst snd] in V0.
          destruct (IHf s1 M _ _ _ _ V0 F0 H) as (tr & Rn & K).
          exists (Acc (Evaluator (l_addr l)) false :: tr). split.
          -- unfold pevaluator. cbn [bind]. constructor. unfold mem_of at 1. cbn [mcache]. rewrite C. cbn [bind snd]. exact Rn.
          -- intros zz [<-|ZZ]; [cbn; split; [now constructor|reflexivity]|].
             destruct (K zz ZZ). split; [now apply X0|assumption].
        * injection H as <-. exists []. split; [constructor|intros ? []].
      + inversion F; subst. destruct (a =? t)%nat; [injection H as <-; exists []; split; [constructor|intros ? []]|].
        inversion V; subst.
        destruct (djac _ s1 t c) as [jc|] eqn:E; [|discriminate]. injection H as <-.
        destruct (IH _ _ _ ltac:(eassumption) ltac:(assumption) eq_refl) as (tr & Rn & K).
        exists (tr ++ []). split; [eapply runs_bind; [exact Rn|constructor]|]. rewrite app_nil_r.
        intros zz ZZ. destruct (K zz ZZ). split; [now apply xt_un|assumption].
      + inversion F; subst. destruct (a =? t)%nat; [injection H as <-; exists []; split; [constructor|intros ? []]|].
        inversion V; subst.
        destruct (djac _ s1 t l) as [jl|] eqn:E1; [|discriminate].
        destruct (djac _ s1 t r) as [jr|] eqn:E2; [|discriminate]. injection H as <-.
        destruct (IHl _ _ _ ltac:(eassumption) ltac:(assumption) eq_refl) as (tr1 & R1 & K1).
        destruct (IHr _ _ _ ltac:(eassumption) ltac:(assumption) eq_refl) as (tr2 & R2 & K2).
        exists (tr1 ++ (tr2 ++ [])). split.
        * eapply runs_bind; [exact R1|]. eapply runs_bind; [exact R2|constructor].
        * rewrite app_nil_r. intros zz ZZ. apply in_app_or in ZZ as [ZZ|ZZ]; [destruct (K1 zz ZZ)|destruct (K2 zz ZZ)];
            (split; [|assumption]); [now apply xt_left|now apply xt_right].
  Qed.

  Lemma pdrev_run f : forall s1, objs s1 = objs s -> forall T p v m adj m', vt eps na s1 p v T ->
    freshT eps na s1 T -> drev (dynReverse eps na f s1) s1 m adj T = Some m' ->
    exists tr, runs (pdrev s (pdynReverse eps na s f) m adj T) (mem_of s1) tr m' (mem_of s1) /\ reads_only (xt s p) tr.
  Proof.
    induction f as [|f IHf]; intros s1 M;
      (induction T as [l|a n J c IH|a n JL JR l IHl r IHr]; intros p v m adj m' V F H; cbn [drev pdrev] in *).
    - rewrite (is_dyn_objs _ _ _ M) in H. destruct (is_dyn s (l_addr l)); [discriminate|].
      rewrite H. exists []. split; [constructor|intros ? []].
    - inversion F; subst. inversion V; subst.
      destruct (IH _ _ _ _ _ ltac:(eassumption) ltac:(assumption) H) as (tr & Rn & K). exists tr. split; [exact Rn|].
      intros zz ZZ. destruct (K zz ZZ). split; [now apply xt_un|assumption].
    - destruct (drev _ s1 m (mmul adj JL) l) as [m1|] eqn:E1; [|discriminate].
      inversion F; subst. inversion V; subst.
      destruct (IHl _ _ _ _ _ ltac:(eassumption) ltac:(assumption) E1) as (tr1 & R1 & K1).
      destruct (IHr _ _ _ _ _ ltac:(eassumption) ltac:(assumption) H) as (tr2 & R2 & K2).
      exists (tr1 ++ tr2). split; [eapply runs_bind; eauto|].
      intros zz ZZ. apply in_app_or in ZZ as [ZZ|ZZ]; [destruct (K1 zz ZZ)|destruct (K2 zz ZZ)];
        (split; [|assumption]); [now apply xt_left|now apply xt_right].
    - rewrite (is_dyn_objs _ _ _ M) in H. destruct (is_dyn s (l_addr l)) eqn:D.
      + destruct (vt_dyn_inv _ _ _ _ l V eq_refl) as (t' & ->).
        inversion F as [l0 D0|l0 v0 T0 N C F0| |]; subst; [rewrite (is_dyn_objs _ _ _ M) in D0; congruence|].
        cbn [dynReverse pdynReverse] in *. unfold evaluator in H. rewrite C in H.
        destruct (newest_xt _ _ _ M N) as (p0 & V0 & X0). cbn [fst snd] in V0.
        destruct (IHf s1 M _ _ _ _ _ _ V0 F0 H) as (tr & Rn & K).
        exists (Acc (Evaluator (l_addr l)) false :: tr). split.
        * unfold pevaluator. cbn [bind]. constructor. unfold mem_of at 1. cbn [mcache]. rewrite C. cbn [bind snd]. exact Rn.
        * intros zz [<-|ZZ]; [cbn; split; [now constructor|reflexivity]|].
          destruct (K zz ZZ). split; [now apply X0|assumption].
      + rewrite H. exists []. split; [constructor|intros ? []].
    - inversion F; subst. inversion V; subst.
      destruct (IH _ _ _ _ _ ltac:(eassumption) ltac:(assumption) H) as (tr & Rn & K). exists tr. split; [exact Rn|].
      intros zz ZZ. destruct (K zz ZZ). split; [now apply xt_un|assumption].
    - destruct (drev _ s1 m (mmul adj JL) l) as [m1|] eqn:E1; [|discriminate].
      inversion F; subst. inversion V; subst.
      destruct (IHl _ _ _ _ _ ltac:(eassumption) ltac:(assumption) E1) as (tr1 & R1 & K1).
      destruct (IHr _ _ _ _ _ ltac:(eassumption) ltac:(assumption) H) as (tr2 & R2 & K2).
      exists (tr1 ++ tr2). split; [eapply runs_bind; eauto|].
      intros zz ZZ. apply in_app_or in ZZ as [ZZ|ZZ]; [destruct (K1 zz ZZ)|destruct (K2 zz ZZ)];
        (split; [|assumption]); [now apply xt_left|now apply xt_right].
  Qed.
End Run.
