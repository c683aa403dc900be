From Coq Require Import Reals List Arith Bool Lia.
From Verif Require Import Mat ModelMeta ModelJac ModelLeaf ModelExpr SpecLeaf SpecExpr ExprProofs
  ModelDyn SpecDyn.
Import ListNotations.

Lemma lty_eqb_refl l : lty_eqb l l = true.
Proof. now apply lty_eqb_eq. Qed.

Lemma same_mem_refl s : same_mem s s.
Proof. split; reflexivity. Qed.
Lemma same_mem_trans a b c : same_mem a b -> same_mem b c -> same_mem a c.
Proof. intros (A & B) (C & D). split; congruence. Qed.
Lemma same_mem_sym a b : same_mem a b -> same_mem b a.
Proof. intros (A & B). split; congruence. Qed.
Lemma is_dyn_mem a b x : same_mem a b -> is_dyn b x = is_dyn a x.
Proof. intros (_ & B). unfold is_dyn. now rewrite B. Qed.

(** *** outline *)
Lemma outline_mono f : forall s n e, outline f s n = Some e ->
  forall f', (f <= f')%nat -> outline f' s n = Some e.
Proof.
  induction f as [|f IH]; intros s n e H f' Hf; [discriminate|].
  destruct f' as [|f']; [lia|]. assert (L : (f <= f')%nat) by lia. clear Hf.
  cbn [outline] in *. destruct n as [i t|a|d l|o n|o n1 n2].
  - exact H.
  - destruct (objs s a) as [[t|n'|n' l|d l]|]; eauto.
  - exact H.
  - destruct (outline f s n) as [e0|] eqn:E; [|discriminate]. now rewrite (IH _ _ _ E f' L).
  - destruct (outline f s n1) as [e1|] eqn:E1; [|discriminate].
    destruct (outline f s n2) as [e2|] eqn:E2; [|discriminate].
    now rewrite (IH _ _ _ E1 f' L), (IH _ _ _ E2 f' L).
Qed.

Lemma outline_det f f' s n e e' : outline f s n = Some e -> outline f' s n = Some e' -> e = e'.
Proof.
  intros H H'. apply outline_mono with (f' := (f + f')%nat) in H; [|lia].
  apply outline_mono with (f' := (f + f')%nat) in H'; [|lia]. congruence.
Qed.

Lemma outline_mem f : forall s s' n, same_mem s s' -> outline f s' n = outline f s n.
Proof.
  induction f as [|f IH]; intros s s' n M; [reflexivity|]. cbn [outline].
  rewrite !(proj2 M). destruct n as [i t|a|d l|o n|o n1 n2].
  - now rewrite (is_dyn_mem _ _ _ M).
  - destruct (objs s a) as [[t|n'|n' l|d l]|]; auto.
  - reflexivity.
  - now rewrite (IH _ _ _ M).
  - now rewrite !(IH _ _ _ M).
Qed.

(** *** From the expression object to its outline and its expansion *)

(** [xp s stop e0 e]: [e] is the outline [e0] with proxies replaced. *)
Inductive xp (s : state) (stop : nat -> bool) : expr -> expr -> Prop :=
| xp_leaf a t : is_dyn s a = false -> xp s stop (XLeaf a t) (XLeaf a t)
| xp_stop d n l : stop d = true -> objs s d = Some (ODyn n l) ->
    xp s stop (XLeaf d (Plain l)) (XLeaf d (Plain l))
| xp_proxy d n l f e0 e : stop d = false -> objs s d = Some (ODyn n l) ->
    outline f s n = Some e0 -> xp s stop e0 e -> evaluates_as e (Plain l) ->
    xp s stop (XLeaf d (Plain l)) e
| xp_un o e0 e : xp s stop e0 e -> xp s stop (XUn o e0) (XUn o e)
| xp_bin o a0 a b0 b : xp s stop a0 a -> xp s stop b0 b ->
    xp s stop (XBin o a0 b0) (XBin o a b).

Lemma stands_xp s stop n e : stands s stop n e ->
  exists f e0, outline f s n = Some e0 /\ xp s stop e0 e.
Proof.
  induction 1 as [i t H|a t H|a n e H _ (f & e0 & IH & X)|a n l e H _ (f & e0 & IH & X)
    |a d l e H _ (f & e0 & IH & X)|d n l S H|d n l e S H _ (f & e0 & IH & X) T
    |o n e _ (f & e0 & IH & X)|o n1 n2 e1 e2 _ (f1 & e01 & IH1 & X1) _ (f2 & e02 & IH2 & X2)].
  - exists 1%nat, (XLeaf i t). cbn. rewrite H. split; [reflexivity|now constructor].
  - exists 1%nat, (XLeaf a t). cbn. rewrite H. split; [reflexivity|constructor].
    unfold is_dyn. now rewrite H.
  - exists (S f), e0. cbn. now rewrite H.
  - exists (S f), e0. cbn. now rewrite H.
  - exists (S f), e0. cbn [outline]. now rewrite H.
  - exists 1%nat, (XLeaf d (Plain l)). cbn. rewrite H, lty_eqb_refl.
    split; [reflexivity|]. eapply xp_stop; eauto.
  - exists 1%nat, (XLeaf d (Plain l)). cbn. rewrite H, lty_eqb_refl.
    split; [reflexivity|]. eapply xp_proxy; eauto.
  - exists (S f), (XUn o e0). cbn. rewrite IH. split; [reflexivity|now constructor].
  - exists (S (f1 + f2)), (XBin o e01 e02). cbn.
    rewrite (outline_mono _ _ _ _ IH1 (f1 + f2)%nat), (outline_mono _ _ _ _ IH2 (f1 + f2)%nat) by lia.
    split; [reflexivity|now constructor].
Qed.

(** *** Prepared expressions *)

(** The same for prepared expressions. *)
Inductive ppx (s : state) (stop : nat -> bool) : expr -> expr -> Prop :=
| ppx_leaf a t : is_dyn s a = false -> ppx s stop (XLeaf a t) (XLeaf a t)
| ppx_stop d n l : stop d = true -> objs s d = Some (ODyn n l) ->
    ppx s stop (XLeaf d (Plain l)) (XLeaf d (Plain l))
| ppx_proxy d n l f e0 p0 p : stop d = false -> objs s d = Some (ODyn n l) ->
    outline f s n = Some e0 -> prepare e0 = Some (p0, Plain l) -> ppx s stop p0 p ->
    ppx s stop (XLeaf d (Plain l)) p
| ppx_un o e0 e : ppx s stop e0 e -> ppx s stop (XUn o e0) (XUn o e)
| ppx_bin o a0 a b0 b : ppx s stop a0 a -> ppx s stop b0 b ->
    ppx s stop (XBin o a0 b0) (XBin o a b).

Lemma ppx_xconvert s stop t p0 p : ppx s stop p0 p -> ppx s stop (xconvert t p0) (xconvert t p).
Proof. intros H. unfold xconvert. destruct t; try exact H; now constructor. Qed.

Definition rel_prep s stop (r0 r : option (expr * ty)) : Prop :=
  match r0, r with
  | Some (p0, t0), Some (p, t) => t0 = t /\ ppx s stop p0 p
  | None, None => True
  | _, _ => False
  end.

Lemma rel_un s stop o t p0 p : ppx s stop p0 p ->
  rel_prep s stop (option_map (fun r => (XUn o p0, r)) (ty_un o t))
    (option_map (fun r => (XUn o p, r)) (ty_un o t)).
Proof.
  intros H. destruct (ty_un o t); cbn; [split; [reflexivity|now constructor]|exact I].
Qed.
Lemma rel_bin s stop o t1 t2 p0 p q0 q : ppx s stop p0 p -> ppx s stop q0 q ->
  rel_prep s stop (option_map (fun r => (XBin o p0 q0, r)) (ty_bin o t1 t2))
    (option_map (fun r => (XBin o p q, r)) (ty_bin o t1 t2)).
Proof.
  intros H H'. destruct (ty_bin o t1 t2); cbn; [split; [reflexivity|now constructor]|exact I].
Qed.

Lemma prepare_rel_un s stop o e0 e : rel_prep s stop (prepare e0) (prepare e) ->
  rel_prep s stop (prepare (XUn o e0)) (prepare (XUn o e)).
Proof.
  intros H. cbn [prepare]. unfold rel_prep in H at 1.
  destruct (prepare e0) as [[p0 t0]|], (prepare e) as [[p t]|]; try contradiction; [|exact I].
  destruct H as (<- & H).
  destruct (choose_unary _ _ t0 (convert_to t0)) as [[|t']|]; [| |exact I].
  - now apply rel_un.
  - apply rel_un. now apply ppx_xconvert.
Qed.

Lemma prepare_xp s stop e0 e : xp s stop e0 e -> rel_prep s stop (prepare e0) (prepare e).
Proof.
  induction 1 as [a t H|d n l S H|d n l f e0 e S H O X IH (p & P)|o e0 e X IH
    |o a0 a b0 b X1 IH1 X2 IH2].
  - cbn. split; [reflexivity|now constructor].
  - cbn. split; [reflexivity|eapply ppx_stop; eauto].
  - cbn [prepare]. rewrite P in *. unfold rel_prep in IH.
    destruct (prepare e0) as [[p0 t0]|] eqn:P0; [|contradiction]. destruct IH as (-> & IH).
    cbn. split; [reflexivity|]. eapply ppx_proxy; eauto.
  - now apply prepare_rel_un.
  - cbn [prepare]. unfold rel_prep in IH1 at 1. unfold rel_prep in IH2 at 1.
    destruct (prepare a0) as [[p0 t0]|], (prepare a) as [[p t]|]; try contradiction; [|exact I].
    destruct IH1 as (<- & IH1).
    destruct (prepare b0) as [[q0 u0]|], (prepare b) as [[q u]|]; try contradiction; [|exact I].
    destruct IH2 as (<- & IH2).
    destruct (choose_binary _ _ t0 u0 (convert_to t0) (convert_to u0)) as [[|t'|t'|t' u']|];
      try exact I; apply rel_bin; auto using ppx_xconvert.
Qed.

Lemma prepare_to_xp s stop dest e0 e : xp s stop e0 e ->
  rel_prep s stop (prepare_to dest e0) (prepare_to dest e).
Proof.
  intros X. pose proof (prepare_xp _ _ _ _ X) as R. unfold prepare_to.
  unfold rel_prep in R at 1.
  destruct (prepare e0) as [[p0 t0]|] eqn:P0, (prepare e) as [[p t]|] eqn:P; try contradiction; [|exact I].
  destruct R as (<- & R). destruct (ty_eqb dest t0); [split; auto|].
  destruct dest as [l|l|l]; try exact I.
  apply prepare_rel_un. rewrite P0, P. split; auto.
Qed.

(** The prepared outline, with the conversion to the output type. *)
Definition out_expr (e : expr) : option expr :=
  match prepare e with
  | Some (_, t0) => option_map fst (prepare_to (plain_output t0) e)
  | None => None
  end.

Lemma out_xp s stop e0 e : xp s stop e0 e ->
  match out_expr e0, out_expr e with
  | Some p0, Some p => ppx s stop p0 p
  | None, None => True
  | _, _ => False
  end.
Proof.
  intros X. pose proof (prepare_xp _ _ _ _ X) as R. unfold out_expr.
  unfold rel_prep in R at 1.
  destruct (prepare e0) as [[p0 t0]|] eqn:P0, (prepare e) as [[p t]|] eqn:P; try contradiction; [|exact I].
  destruct R as (<- & R). pose proof (prepare_to_xp _ _ (plain_output t0) _ _ X) as Q.
  unfold rel_prep in Q.
  destruct (prepare_to _ e0) as [[q0 u0]|], (prepare_to _ e) as [[q u]|]; try contradiction; cbn; tauto.
Qed.

Ltac dyncon := exfalso; unfold is_dyn in *;
  match goal with
  | H : objs ?s ?a = Some (ODyn _ _), D : match objs ?s ?a with _ => _ end = false |- _ =>
      rewrite H in D; discriminate D
  end.
Ltac vtsame :=
  match goal with
  | H : objs ?s ?d = Some (ODyn ?n ?l), H' : objs ?s ?d = Some (ODyn ?n' ?l') |- _ =>
      rewrite H in H'; injection H' as <- <-
  end;
  match goal with
  | H : outline _ ?s ?n = Some ?e, H' : outline _ ?s ?n = Some ?e' |- _ =>
      pose proof (outline_det _ _ _ _ _ _ H H') as <-; clear H'
  end;
  match goal with
  | H : prepare ?e = Some (_, _), H' : prepare ?e = Some (_, _) |- _ =>
      rewrite H in H'; injection H' as <- <-
  end.

(** *** Evaluation *)
Section Ev.
  Variable eps : R.
  Variable na : nat.
  Local Notation tree := (tree eps na).
  Local Notation dynEvaluate := (dynEvaluate eps na).
  Local Notation ev := (ev eps na).

  (** The value and tree an evaluator ends with, as a function of the memory alone. *)
  Inductive vt (s : state) : expr -> value -> etree -> Prop :=
  | vt_leaf a t : is_dyn s a = false -> vt s (XLeaf a t) (vals s a) (ELeaf (leaf_obj a t))
  | vt_dyn d t n l f e p u v T : objs s d = Some (ODyn n l) -> outline f s n = Some e ->
      prepare e = Some (p, u) -> vt s p v T -> vt s (XLeaf d t) v (ELeaf (leaf_obj d t))
  | vt_un o p v c val : vt s p v c -> sem_un eps o v = Some val ->
      vt s (XUn o p) val
        (EUn na (vdim val) (orzero (jac_un eps o val v) (vdim val) (vdim v)) c)
  | vt_bin o l r a b cl cr val : vt s l a cl -> vt s r b cr -> sem_bin o a b = Some val ->
      vt s (XBin o l r) val
        (EBin na (vdim val) (orzero (jac_l o val a b) (vdim val) (vdim a))
                       (orzero (jac_r o val a b) (vdim val) (vdim b)) cl cr).

  Definition newest (s : state) (d : nat) (c : value * etree) : Prop :=
    exists n l f e p u, objs s d = Some (ODyn n l) /\ outline f s n = Some e /\
      prepare e = Some (p, u) /\ vt s p (fst c) (snd c).

  Lemma vt_det s p v T : vt s p v T -> forall v' T', vt s p v' T' -> v' = v /\ T' = T.
  Proof.
    induction 1 as [a t H|d t n l f e p u v T H O P V IH|o p v c val V IH E
      |o l r a b cl cr val V1 IH1 V2 IH2 E]; intros v' T' V'; inversion V'; subst.
    - auto.
    - dyncon.
    - dyncon.
    - vtsame. destruct (IH _ _ ltac:(eassumption)) as (-> & _). auto.
    - destruct (IH _ _ ltac:(eassumption)) as (-> & ->).
      match goal with H1 : sem_un _ _ _ = Some v' |- _ => rewrite E in H1; injection H1 as <- end. auto.
    - destruct (IH1 _ _ ltac:(eassumption)) as (-> & ->). destruct (IH2 _ _ ltac:(eassumption)) as (-> & ->).
      match goal with H1 : sem_bin _ _ _ = Some v' |- _ => rewrite E in H1; injection H1 as <- end. auto.
  Qed.

  Lemma newest_det s d c c' : newest s d c -> newest s d c' -> c = c'.
  Proof.
    intros (n & l & f & e & p & u & H & O & P & V) (n' & l' & f' & e' & p' & u' & H' & O' & P' & V').
    rewrite H in H'. injection H' as <- <-. pose proof (outline_det _ _ _ _ _ _ O O') as <-.
    rewrite P in P'. injection P' as <- <-. destruct (vt_det _ _ _ _ V _ _ V').
    destruct c, c'. cbn in *. congruence.
  Qed.

  Lemma vt_mem s s' p v T : same_mem s s' -> vt s p v T -> vt s' p v T.
  Proof.
    intros M. induction 1 as [a t H|d t n l f e p u v T H O P V IH|o p v c val V IH E
      |o l r a b cl cr val V1 IH1 V2 IH2 E].
    - rewrite <- (proj1 M). constructor. now rewrite (is_dyn_mem _ _ _ M).
    - apply (vt_dyn s' d t n l f e p u v T); [now rewrite (proj2 M)|now rewrite (outline_mem _ _ _ _ M)|exact P|exact IH].
    - now constructor.
    - now constructor.
  Qed.

  Lemma newest_mem s s' d c : same_mem s s' -> newest s d c -> newest s' d c.
  Proof.
    intros M (n & l & f & e & p & u & H & O & P & V). exists n, l, f, e, p, u.
    repeat split; auto; [now rewrite (proj2 M)|now rewrite (outline_mem _ _ _ _ M)|].
    eapply vt_mem; eauto.
  Qed.

  (** All Dynamics below a tree have cached what their evaluator would now be. *)
  Inductive freshT (s : state) : etree -> Prop :=
  | fr_leaf l : is_dyn s (l_addr l) = false -> freshT s (ELeaf l)
  | fr_dyn l v T : newest s (l_addr l) (v, T) -> cache s (l_addr l) = Some (v, T) ->
      freshT s T -> freshT s (ELeaf l)
  | fr_un a n J c : freshT s c -> freshT s (EUn a n J c)
  | fr_bin a n JL JR l r : freshT s l -> freshT s r -> freshT s (EBin a n JL JR l r).

  Definition grows (s s' : state) : Prop := forall d,
    cache s' d = cache s d \/ exists c, cache s' d = Some c /\ newest s d c.

  Lemma grows_refl s : grows s s.
  Proof. intros d. now left. Qed.
  Lemma grows_trans a b c : same_mem a b -> grows a b -> grows b c -> grows a c.
  Proof.
    intros M G1 G2 d. destruct (G2 d) as [E|(x & E & N)].
    - destruct (G1 d) as [E'|(x & E' & N)]; [left; congruence|right; exists x; split; congruence].
    - right. exists x. split; [exact E|]. eapply newest_mem; [apply same_mem_sym; eauto|exact N].
  Qed.

  Lemma freshT_grows s s' T : same_mem s s' -> grows s s' -> freshT s T -> freshT s' T.
  Proof.
    intros M G. induction 1 as [l H|l v T N C _ IH|a n J c _ IH|a n JL JR l r _ IHl _ IHr].
    - constructor. now rewrite (is_dyn_mem _ _ _ M).
    - apply (fr_dyn _ _ v T); auto.
      + eapply newest_mem; eauto.
      + destruct (G (l_addr l)) as [E|(x & E & N')]; [congruence|].
        rewrite E. now rewrite (newest_det _ _ _ _ N' N).
    - now constructor.
    - now constructor.
  Qed.

  Definition ev_post (s : state) (p : expr) (v : value) (T : etree) (s' : state) : Prop :=
    vt s p v T /\ same_mem s s' /\ grows s s' /\ freshT s' T.
  Definition dyn_post (s : state) (d : nat) (v : value) (s' : state) : Prop :=
    exists T, newest s d (v, T) /\ cache s' d = Some (v, T) /\ same_mem s s' /\ grows s s' /\
      freshT s' T.

  Lemma ev_sound_step dynev :
    (forall s d v s', dynev s d = Some (v, s') -> dyn_post s d v s') ->
    forall p s v T s', ev dynev s p = Some (v, T, s') -> ev_post s p v T s'.
  Proof.
    intros HD. induction p as [a t|o p IH|o l IHl r IHr]; intros s v T s' H; cbn [ModelDyn.ev] in H.
    - destruct (is_dyn s a) eqn:D.
      + destruct (dynev s a) as [[v0 s0]|] eqn:E; [|discriminate]. injection H as <- <- <-.
        destruct (HD _ _ _ _ E) as (T & N & C & M & G & F). split; [|split; [exact M|split; [exact G|]]].
        * destruct N as (n & l & f & e & p & u & H & O & P & V). eapply vt_dyn; eauto.
        * apply (fr_dyn _ (leaf_obj a t) v0 T); cbn; auto. eapply newest_mem; eauto.
      + injection H as <- <- <-. repeat split; auto using grows_refl; now constructor.
    - destruct (ev dynev s p) as [[[v0 c] s0]|] eqn:E; [|discriminate].
      destruct (sem_un eps o v0) as [val|] eqn:S; [|discriminate]. injection H as <- <- <-.
      destruct (IH _ _ _ _ E) as (V & M & G & F). repeat split; try apply M; auto; now constructor.
    - destruct (ev dynev s l) as [[[va cl] s1]|] eqn:E1; [|discriminate].
      destruct (ev dynev s1 r) as [[[vb cr] s2]|] eqn:E2; [|discriminate].
      destruct (sem_bin o va vb) as [val|] eqn:S; [|discriminate]. injection H as <- <- <-.
      destruct (IHl _ _ _ _ E1) as (V1 & M1 & G1 & F1). destruct (IHr _ _ _ _ E2) as (V2 & M2 & G2 & F2).
      split; [constructor; auto; eapply vt_mem; [apply same_mem_sym|]; eauto|].
      split; [eapply same_mem_trans; eauto|]. split; [eapply grows_trans; eauto|].
      constructor; auto. eapply freshT_grows; eauto.
  Qed.

  Lemma dyn_sound f : forall s d v s', dynEvaluate f s d = Some (v, s') -> dyn_post s d v s'.
  Proof.
    induction f as [|f IH]; intros s d v s' H; [discriminate|]. cbn [ModelDyn.dynEvaluate] in H.
    destruct (objs s d) as [[|?|n l|?]|] eqn:D; try discriminate.
    destruct (outline f s n) as [e|] eqn:O; [|discriminate].
    destruct (prepare e) as [[p u]|] eqn:P; [|discriminate].
    destruct (ev (dynEvaluate f) s p) as [[[v0 T] s0]|] eqn:E; [|discriminate].
    injection H as <- <-. destruct (ev_sound_step _ IH _ _ _ _ _ E) as (V & M & G & F).
    assert (N : newest s d (v0, T)) by (exists n, l, f, e, p, u; auto).
    set (s1 := State (vals s0) (objs s0) (setf (cache s0) d (Some (v0, T)))).
    assert (M1 : same_mem s0 s1) by (split; reflexivity).
    assert (G1 : grows s0 s1).
    { intros x. unfold s1, setf. cbn. destruct (x =? d)%nat eqn:X; [|now left].
      apply Nat.eqb_eq in X. subst x. right. exists (v0, T). split; [reflexivity|].
      exact (newest_mem _ _ _ _ M N). }
    exists T. split; [exact N|]. split; [unfold s1, setf; cbn; now rewrite Nat.eqb_refl|].
    split; [eapply same_mem_trans; eauto|]. split; [eapply grows_trans; eauto|].
    eapply freshT_grows; eauto.
  Qed.

  Lemma ev_sound f s p v T s' : ev (dynEvaluate f) s p = Some (v, T, s') -> ev_post s p v T s'.
  Proof. apply ev_sound_step, dyn_sound. Qed.

  Lemma ev_complete s p v T : vt s p v T -> exists F, forall f s1, (F <= f)%nat -> same_mem s s1 ->
    exists s', ev (dynEvaluate f) s1 p = Some (v, T, s').
  Proof.
    induction 1 as [a t H|d t n l g e p u v T H O P V (F & IH)|o p v c val V (F & IH) E
      |o l r a b cl cr val V1 (F1 & IH1) V2 (F2 & IH2) E].
    - exists 0%nat. intros f s1 _ M. exists s1. cbn. now rewrite (is_dyn_mem _ _ _ M), H, (proj1 M).
    - exists (S (g + F)). intros f s1 L M. destruct f as [|f]; [lia|].
      destruct (IH f s1 ltac:(lia) M) as (s' & E). eexists. cbn [ModelDyn.ev].
      rewrite (is_dyn_mem _ _ _ M). unfold is_dyn. rewrite H. cbn [ModelDyn.dynEvaluate].
      rewrite (proj2 M), H, (outline_mem _ _ _ _ M), (outline_mono _ _ _ _ O f) by lia.
      rewrite P, E. reflexivity.
    - exists F. intros f s1 L M. destruct (IH f s1 L M) as (s' & E'). exists s'.
      cbn [ModelDyn.ev]. now rewrite E', E.
    - exists (F1 + F2)%nat. intros f s1 L M. destruct (IH1 f s1 ltac:(lia) M) as (s2 & E1).
      pose proof (ev_sound _ _ _ _ _ _ E1) as (_ & M1 & _ & _).
      destruct (IH2 f s2 ltac:(lia) (same_mem_trans _ _ _ M M1)) as (s3 & E2).
      exists s3. cbn [ModelDyn.ev]. now rewrite E1, E2, E.
  Qed.

  (** *** Trees of the expanded expression *)
  Inductive expands (s : state) (stop : nat -> bool) : etree -> etree -> Prop :=
  | ex_leaf l : is_dyn s (l_addr l) = false -> expands s stop (ELeaf l) (ELeaf l)
  | ex_stop l : is_dyn s (l_addr l) = true -> stop (l_addr l) = true ->
      expands s stop (ELeaf l) (ELeaf l)
  | ex_dyn l v T0 T : is_dyn s (l_addr l) = true -> stop (l_addr l) = false ->
      newest s (l_addr l) (v, T0) -> expands s stop T0 T -> expands s stop (ELeaf l) T
  | ex_un a n J c c' : expands s stop c c' -> expands s stop (EUn a n J c) (EUn a n J c')
  | ex_bin a n JL JR l l' r r' : expands s stop l l' -> expands s stop r r' ->
      expands s stop (EBin a n JL JR l r) (EBin a n JL JR l' r').

  Lemma tree_of_vt s stop m p0 p :
    (forall a, is_dyn s a = false -> m a = vals s a) ->
    (forall d c, stop d = true -> newest s d c -> m d = fst c) ->
    ppx s stop p0 p -> forall v T0, vt s p0 v T0 ->
    exists T, tree m p = Some (v, T) /\ expands s stop T0 T.
  Proof.
    intros Hm Hd. induction 1 as [a t D|d n l S O|d n l f e0 p0 p S O U P X IH|o e0 e X IH
      |o a0 a b0 b X1 IH1 X2 IH2]; intros v T0 V; inversion V; subst.
    - exists (ELeaf (leaf_obj a t)). cbn. rewrite Hm by exact D. split; [reflexivity|now constructor].
    - dyncon.
    - dyncon.
    - exists (ELeaf (leaf_obj d (Plain l))). cbn. rewrite (Hd d (v, T)); [|exact S|].
      + split; [reflexivity|]. apply ex_stop; [unfold is_dyn; cbn; now rewrite O|exact S].
      + exists n0, l0, f, e, p, u. auto.
    - dyncon.
    - vtsame. destruct (IH _ _ ltac:(eassumption)) as (T' & E & X').
      exists T'. split; [exact E|]. eapply ex_dyn; eauto.
      + unfold is_dyn. cbn. now rewrite O.
      + exists n, l, f, e0, p0, (Plain l). cbn. eauto.
    - destruct (IH _ _ ltac:(eassumption)) as (T & E & X'). eexists. cbn [ModelExpr.tree]. rewrite E.
      match goal with H1 : sem_un _ _ _ = Some v |- _ => rewrite H1 end.
      split; [reflexivity|now constructor].
    - destruct (IH1 _ _ ltac:(eassumption)) as (T1 & E1 & X1').
      destruct (IH2 _ _ ltac:(eassumption)) as (T2 & E2 & X2').
      eexists. cbn [ModelExpr.tree]. rewrite E1, E2.
      match goal with H1 : sem_bin _ _ _ = Some v |- _ => rewrite H1 end. split; [reflexivity|now constructor].
  Qed.

  Lemma vt_of_tree s stop m p0 p :
    (forall a, is_dyn s a = false -> m a = vals s a) ->
    (forall d n l, stop d = true -> objs s d = Some (ODyn n l) ->
       exists T, vt s (XLeaf d (Plain l)) (m d) T) ->
    ppx s stop p0 p -> forall v T, tree m p = Some (v, T) -> exists T0, vt s p0 v T0.
  Proof.
    intros Hm Hd.
    induction 1 as [a t D|d n l S O|d n l f e0 p0 p S O U P X IH|o e0 e X IH
      |o a0 a b0 b X1 IH1 X2 IH2]; intros v T E.
    - cbn in E. rewrite Hm in E by exact D. injection E as <- <-. eexists. now constructor.
    - cbn in E. injection E as <- _. eauto.
    - destruct (IH _ _ E) as (T0 & V). eexists. eapply vt_dyn; eauto.
    - cbn [ModelExpr.tree] in E. destruct (tree m e) as [[v0 c]|] eqn:E0; [|discriminate].
      destruct (sem_un eps o v0) as [val|] eqn:Ev; [|discriminate]. injection E as <- <-.
      destruct (IH _ _ eq_refl) as (T0 & V). eexists. econstructor; eauto.
    - cbn [ModelExpr.tree] in E. destruct (tree m a) as [[v1 c1]|] eqn:E1; [|discriminate].
      destruct (tree m b) as [[v2 c2]|] eqn:E2; [|discriminate].
      destruct (sem_bin o v1 v2) as [val|] eqn:Ev; [|discriminate]. injection E as <- <-.
      destruct (IH1 _ _ eq_refl) as (T1 & V1). destruct (IH2 _ _ eq_refl) as (T2 & V2).
      eexists. econstructor; eauto.
  Qed.

  Lemma djac_correct s t T0 T : expands s (only t) T0 T ->
    exists F, forall f s', (F <= f)%nat -> same_mem s s' -> freshT s' T0 ->
      djac (dynJacobian eps na f s' t) s' t T0 = Some (dyn t T).
  Proof.
    induction 1 as [l D|l D S|l v T0 T D S N X (G & HG)|a n J c c' X (G & HG)
      |a n JL JR l l' r r' X1 (G1 & HG1) X2 (G2 & HG2)].
    - exists 0%nat. intros f s' _ M _. cbn. now rewrite (is_dyn_mem _ _ _ M), D.
    - exists 0%nat. intros f s' _ M _. cbn. unfold only in S. now rewrite (is_dyn_mem _ _ _ M), D, S.
    - exists (1 + G)%nat. intros f s' L M F.
      inversion F as [? D'|l0 v0 T1 N' C F'| |]; subst; [rewrite (is_dyn_mem _ _ _ M) in D'; congruence|].
      pose proof (newest_det _ _ _ _ (newest_mem _ _ _ _ M N) N') as E. injection E as <- <-.
      destruct f as [|f]; [lia|].
      cbn [djac]. unfold only in S. rewrite (is_dyn_mem _ _ _ M), D, S.
      cbn [dynJacobian]. unfold evaluator. rewrite C.
      apply HG; [lia|exact M|exact F'].
    - exists G. intros f s' L M F. inversion F; subst. cbn.
      destruct (a =? t)%nat; [reflexivity|]. now rewrite (HG f s' L M).
    - exists (G1 + G2)%nat. intros f s' L M F. inversion F; subst. cbn.
      destruct (a =? t)%nat; [reflexivity|].
      rewrite (HG1 f s'), (HG2 f s') by (assumption || lia). reflexivity.
  Qed.

  Lemma drev_correct s T0 T : expands s no_stop T0 T ->
    exists F, forall f s', (F <= f)%nat -> same_mem s s' -> freshT s' T0 -> forall m adj,
      drev (dynReverse eps na f s') s' m adj T0 = dynrev m adj T.
  Proof.
    induction 1 as [l D|l D S|l v T0 T D S N X (G & HG)|a n J c c' X (G & HG)
      |a n JL JR l l' r r' X1 (G1 & HG1) X2 (G2 & HG2)].
    - exists 0%nat. intros f s' _ M _ m adj. cbn. now rewrite (is_dyn_mem _ _ _ M), D.
    - discriminate S.
    - exists (1 + G)%nat. intros f s' L M F m adj.
      inversion F as [? D'|l0 v0 T1 N' C F'| |]; subst; [rewrite (is_dyn_mem _ _ _ M) in D'; congruence|].
      pose proof (newest_det _ _ _ _ (newest_mem _ _ _ _ M N) N') as E. injection E as <- <-.
      destruct f as [|f]; [lia|].
      cbn [drev]. rewrite (is_dyn_mem _ _ _ M), D. cbn [dynReverse]. unfold evaluator. rewrite C.
      apply HG; [lia|exact M|exact F'].
    - exists G. intros f s' L M F m adj. inversion F; subst. cbn. now apply HG.
    - exists (G1 + G2)%nat. intros f s' L M F m adj. inversion F; subst. cbn.
      rewrite (HG1 f s') by (assumption || lia).
      destruct (dynrev m (mmul adj JL) l'); [|reflexivity]. apply HG2; (assumption || lia).
  Qed.

  (** *** getLeaves *)
  Lemma xleaves_xconvert dl s t p : xleaves dl s (xconvert t p) = xleaves dl s p.
  Proof. unfold xconvert. destruct t; reflexivity. Qed.

  Lemma xleaves_prepare dl s e : forall p t, prepare e = Some (p, t) ->
    xleaves dl s e = xleaves dl s p.
  Proof.
    induction e as [a t0|o e IH|o l IHl r IHr]; intros p t H; cbn [prepare] in H.
    - now injection H as <- _.
    - destruct (prepare e) as [[p0 t0]|]; [|discriminate]. cbn [xleaves].
      rewrite (IH _ _ eq_refl).
      destruct (choose_unary _ _ t0 (convert_to t0)) as [[|t']|]; [| |discriminate].
      + destruct (ty_un o t0); [|discriminate]. now injection H as <- _.
      + destruct (ty_un o t'); [|discriminate]. injection H as <- _. cbn [xleaves].
        now rewrite xleaves_xconvert.
    - destruct (prepare l) as [[pl tl]|]; [|discriminate].
      destruct (prepare r) as [[pr tr]|]; [|discriminate]. cbn [xleaves].
      rewrite (IHl _ _ eq_refl), (IHr _ _ eq_refl).
      destruct (choose_binary _ _ tl tr (convert_to tl) (convert_to tr)) as [[|t'|t'|t' u']|];
        try discriminate;
        match type of H with option_map _ ?x = _ => destruct x; [|discriminate] end;
        injection H as <- _; cbn [xleaves]; now rewrite ?xleaves_xconvert.
  Qed.

  Lemma xleaves_correct s m p0 p : ppx s no_stop p0 p -> forall v T, tree m p = Some (v, T) ->
    exists F, forall f, (F <= f)%nat -> xleaves (dynLeaves f s) s p0 = Some (getLeaves T).
  Proof.
    induction 1 as [a t D|d n l S O|d n l g e0 p0 p S O U P X IH|o e0 e X IH
      |o a0 a b0 b X1 IH1 X2 IH2]; intros v T E.
    - cbn in E. injection E as _ <-. exists 0%nat. intros f _. cbn. now rewrite D.
    - discriminate S.
    - destruct (IH _ _ E) as (F & HF). exists (1 + (g + F))%nat. intros f L. destruct f as [|f]; [lia|].
      cbn [xleaves]. unfold is_dyn. rewrite O. cbn [dynLeaves].
      rewrite O, (outline_mono _ _ _ _ U f) by lia. rewrite (xleaves_prepare _ _ _ _ _ P).
      apply HF. lia.
    - cbn [ModelExpr.tree] in E. destruct (tree m e) as [[v0 c]|] eqn:E0; [|discriminate].
      destruct (sem_un eps o v0) as [val|] eqn:Ev; [|discriminate]. injection E as <- <-.
      destruct (IH _ _ eq_refl) as (F & HF). exists F. exact HF.
    - cbn [ModelExpr.tree] in E. destruct (tree m a) as [[v1 c1]|] eqn:E1; [|discriminate].
      destruct (tree m b) as [[v2 c2]|] eqn:E2; [|discriminate].
      destruct (sem_bin o v1 v2) as [val|] eqn:Ev; [|discriminate]. injection E as <- <-.
      destruct (IH1 _ _ eq_refl) as (F1 & HF1). destruct (IH2 _ _ eq_refl) as (F2 & HF2).
      exists (F1 + F2)%nat. intros f L. cbn [xleaves getLeaves]. rewrite HF1, HF2 by lia. reflexivity.
  Qed.

  Lemma xleaves_mem dl s s' e : same_mem s s' -> xleaves dl s' e = xleaves dl s e.
  Proof.
    intros M. induction e as [a t|o e IH|o l IHl r IHr]; cbn [xleaves].
    - now rewrite (is_dyn_mem _ _ _ M).
    - exact IH.
    - now rewrite IHl, IHr.
  Qed.
  Lemma dynLeaves_mem f : forall s s' d, same_mem s s' -> dynLeaves f s' d = dynLeaves f s d.
  Proof.
    induction f as [|f IH]; intros s s' d M; [reflexivity|]. cbn [dynLeaves].
    rewrite (proj2 M). destruct (objs s d) as [[|?|n l|?]|]; try reflexivity.
    rewrite (outline_mem _ _ _ _ M). destruct (outline f s n) as [e|]; [|reflexivity].
    rewrite (xleaves_mem _ _ _ _ M). clear - IH M.
    induction e as [a t|o e IHe|o l IHl r IHr]; cbn [xleaves]; [|exact IHe|now rewrite IHl, IHr].
    destruct (is_dyn s a); [now apply IH|reflexivity].
  Qed.
  Lemma xleaves_mem2 f s s' e : same_mem s s' ->
    xleaves (dynLeaves f s') s' e = xleaves (dynLeaves f s) s e.
  Proof.
    intros M. rewrite (xleaves_mem _ _ _ _ M).
    induction e as [a t|o e IHe|o l IHl r IHr]; cbn [xleaves]; [|exact IHe|now rewrite IHl, IHr].
    destruct (is_dyn s a); [now apply dynLeaves_mem|reflexivity].
  Qed.

  (** *** Trees do not depend on what was cached *)
  Lemma expands_mem s s' stop T0 T : same_mem s s' -> expands s stop T0 T -> expands s' stop T0 T.
  Proof.
    intros M. induction 1 as [l D|l D S|l v T0 T D S N X IH|a n J c c' X IH
      |a n JL JR l l' r r' X1 IH1 X2 IH2].
    - constructor. now rewrite (is_dyn_mem _ _ _ M).
    - apply ex_stop; [now rewrite (is_dyn_mem _ _ _ M)|exact S].
    - apply (ex_dyn _ _ _ v T0 T); auto; [now rewrite (is_dyn_mem _ _ _ M)|eapply newest_mem; eauto].
    - now constructor.
    - now constructor.
  Qed.

  (** *** Sizes at the root *)
  Lemma prepare_leaf_ty e a t u : prepare e = Some (XLeaf a t, u) -> t = u.
  Proof.
    destruct e as [b t0|o e|o l r]; cbn [prepare].
    - intros H. injection H. congruence.
    - destruct (prepare e) as [[p0 t0]|]; [|discriminate].
      destruct (choose_unary _ _ t0 (convert_to t0)) as [[|t']|]; [| |discriminate];
        match goal with |- option_map _ ?x = _ -> _ => destruct x; discriminate end.
    - destruct (prepare l) as [[pl tl]|]; [|discriminate].
      destruct (prepare r) as [[pr tr]|]; [|discriminate].
      destruct (choose_binary _ _ tl tr (convert_to tl) (convert_to tr)) as [[|t'|t'|t' u']|];
        try discriminate;
        match goal with |- option_map _ ?x = _ -> _ => destruct x; discriminate end.
  Qed.

  Lemma prepare_to_leaf_ty d e a t u : prepare_to d e = Some (XLeaf a t, u) -> t = u.
  Proof.
    unfold prepare_to. destruct (prepare e) as [[p0 t0]|] eqn:P; [|discriminate].
    destruct (ty_eqb d t0).
    - intros H. injection H as -> ->. now apply prepare_leaf_ty in P.
    - destruct d; try discriminate. apply prepare_leaf_ty.
  Qed.

  Lemma vt_edim s p v T u : vt s p v T -> vty v = u ->
    (forall a t, p = XLeaf a t -> t = u) -> edim T = vdim v.
  Proof.
    intros V Hv Hp. inversion V; subst; cbn; try reflexivity.
    - unfold leaf_obj, l_dim. cbn. rewrite (Hp _ _ eq_refl). reflexivity.
    - unfold leaf_obj, l_dim. cbn. rewrite (Hp _ _ eq_refl). reflexivity.
  Qed.
  Lemma tree_edim m p v T u : tree m p = Some (v, T) -> vty v = u ->
    (forall a t, p = XLeaf a t -> t = u) -> edim T = vdim v.
  Proof.
    intros H Hv Hp. destruct p as [a t|o p|o l r]; cbn [ModelExpr.tree] in H.
    - injection H as <- <-. cbn. unfold leaf_obj, l_dim. cbn. rewrite (Hp _ _ eq_refl).
      subst u. reflexivity.
    - destruct (tree m p) as [[v0 c]|]; [|discriminate].
      destruct (sem_un eps o v0); [|discriminate]. now injection H as <- <-.
    - destruct (tree m l) as [[v1 c1]|]; [|discriminate].
      destruct (tree m r) as [[v2 c2]|]; [|discriminate].
      destruct (sem_bin o v1 v2); [|discriminate]. now injection H as <- <-.
  Qed.
End Ev.
