From Coq Require Import Reals List Arith Bool Lia.
From Verif Require Import Mat ModelMeta ModelJac ModelLeaf ModelExpr SpecExpr ModelDyn SpecDyn DynProofs
  ModelStore SpecStore.
Import ListNotations.
Local Open Scope nat_scope.

Definition closed (P : nat -> Prop) (s : state) : Prop :=
  forall a o b, P a -> objs s a = Some o -> In b (obj_addrs o) -> P b.

Lemma stands_agree (P : nat -> Prop) s s' stop : closed P s ->
  (forall a, P a -> objs s' a = objs s a) ->
  forall n e, stands s stop n e -> (forall a, In a (addrs n) -> P a) -> stands s' stop n e.
Proof.
  intros C A. induction 1 as [i t D|a t O|a n e O St IH|a n l e O St IH|a d l e O St IH|d n l S O
    |d n l e S O St IH T|o n e St IH|o n1 n2 e1 e2 St1 IH1 St2 IH2]; intros L; cbn in L.
  - apply st_own. unfold is_dyn in *. now rewrite A by auto.
  - apply st_leaf. now rewrite A by auto.
  - eapply st_expr; [rewrite A by auto; exact O|]. apply IH. intros b Hb.
    exact (C a _ b (L a (or_introl eq_refl)) O Hb).
  - eapply st_dyn; [rewrite A by auto; exact O|]. apply IH. intros b Hb.
    exact (C a _ b (L a (or_introl eq_refl)) O Hb).
  - eapply st_var; [rewrite A by auto; exact O|]. apply IH. intros b Hb.
    exact (C a _ b (L a (or_introl eq_refl)) O Hb).
  - eapply st_stop; [exact S|]. rewrite A by auto. exact O.
  - eapply st_proxy; [exact S|rewrite A by auto; exact O| |exact T]. apply IH. intros b Hb.
    exact (C d _ b (L d (or_introl eq_refl)) O Hb).
  - constructor. now apply IH.
  - constructor; [apply IH1|apply IH2]; intros b Hb; apply L, in_or_app; auto.
Qed.

Lemma stands_leaves (P : nat -> Prop) s : closed P s ->
  forall n e, stands s no_stop n e -> (forall a, In a (addrs n) -> P a) ->
  forall a, In a (leaf_addrs e) -> P a.
Proof.
  intros C. induction 1 as [i t D|a t O|a n e O St IH|a n l e O St IH|a d l e O St IH|d n l S O
    |d n l e S O St IH T|o n e St IH|o n1 n2 e1 e2 St1 IH1 St2 IH2]; intros L; cbn in L |- *.
  - intros b [<-|[]]; auto.
  - intros b [<-|[]]; auto.
  - apply IH. intros b Hb. exact (C a _ b (L a (or_introl eq_refl)) O Hb).
  - apply IH. intros b Hb. exact (C a _ b (L a (or_introl eq_refl)) O Hb).
  - apply IH. intros b Hb. exact (C a _ b (L a (or_introl eq_refl)) O Hb).
  - discriminate.
  - apply IH. intros b Hb. exact (C d _ b (L d (or_introl eq_refl)) O Hb).
  - now apply IH.
  - intros b Hb. apply in_app_or in Hb. destruct Hb as [Hb|Hb];
      [apply IH1|apply IH2]; auto; intros c Hc; apply L, in_or_app; auto.
Qed.

Lemma stands_det s : forall n e, stands s no_stop n e -> forall e', stands s no_stop n e' -> e' = e.
Proof.
  induction 1 as [i t D|a t O|a n e O St IH|a n l e O St IH|a d l e O St IH|d n l S O
    |d n l e S O St IH T|o n e St IH|o n1 n2 e1 e2 St1 IH1 St2 IH2]; intros e' H'.
  - inversion H'; reflexivity.
  - inversion H' as [|? ? O'|? ? ? O'|? ? ? ? O'|? ? ? ? O'| | | |]; subst; rewrite O in O'; congruence.
  - inversion H' as [|? ? O'|? ? ? O'|? ? ? ? O'|? ? ? ? O'| | | |]; subst; rewrite O in O'; try discriminate.
    injection O' as <-. auto.
  - inversion H' as [|? ? O'|? ? ? O'|? ? ? ? O'|? ? ? ? O'| | | |]; subst; rewrite O in O'; try discriminate.
    injection O' as <- <-. auto.
  - inversion H' as [|? ? O'|? ? ? O'|? ? ? ? O'|? ? ? ? O'| | | |]; subst; rewrite O in O'; try discriminate.
    injection O' as <- <-. auto.
  - discriminate.
  - inversion H' as [| | | | |? ? ? S'|? ? ? ? S' O'| |]; subst; [discriminate|].
    rewrite O in O'. injection O' as <-. auto.
  - inversion H'; subst. f_equal. auto.
  - inversion H'; subst. f_equal; auto.
Qed.

(** *** Copies *)
Inductive kcopy (k : nat) (m m' : env) : expr -> expr -> Prop :=
| kc_leaf a a' t : (a < k -> a' = a) -> m' a' = m a -> kcopy k m m' (XLeaf a t) (XLeaf a' t)
| kc_un o e e' : kcopy k m m' e e' -> kcopy k m m' (XUn o e) (XUn o e')
| kc_bin o e1 e1' e2 e2' : kcopy k m m' e1 e1' -> kcopy k m m' e2 e2' ->
    kcopy k m m' (XBin o e1 e2) (XBin o e1' e2').

Lemma kcopy_refl k m m' e : (forall a, In a (leaf_addrs e) -> m' a = m a) -> kcopy k m m' e e.
Proof.
  induction e as [a t|o e IH|o e1 IH1 e2 IH2]; cbn; intros H.
  - constructor; auto.
  - constructor; auto.
  - constructor; [apply IH1|apply IH2]; intros a Ha; apply H, in_or_app; auto.
Qed.
Lemma kcopy_copy k m m' e e' : kcopy k m m' e e' -> copy_of m m' e e'.
Proof. induction 1; constructor; auto. Qed.
Lemma kcopy_old k m m' e e' : kcopy k m m' e e' -> (forall a, In a (leaf_addrs e) -> a < k) -> e' = e.
Proof.
  induction 1 as [a a' t H E|o e e' _ IH|o e1 e1' e2 e2' _ IH1 _ IH2]; cbn; intros L.
  - now rewrite H by auto.
  - now rewrite IH.
  - rewrite IH1, IH2; auto; intros a Ha; apply L, in_or_app; auto.
Qed.
Lemma copy_kcopy k m0 m m' e0 e e' : copy_of m0 m e0 e -> kcopy k m m' e e' -> copy_of m0 m' e0 e'.
Proof.
  intros H. revert e'. induction H as [a a' t E|o e0 e _ IH|o a0 a b0 b _ IH1 _ IH2];
    intros e' K; inversion K; subst; constructor; auto. congruence.
Qed.

Lemma reflects_kcopy s k m m' x : (forall a e b, stands s no_stop (NRef a) e -> In b (leaf_addrs e) -> b < k) ->
  forall e e', reflects s m x e -> kcopy k m m' e e' -> reflects s m' x e'.
Proof.
  intros B e e' R. revert e'.
  induction R as [a e St|a e0 e St C|v t i E|v t i E|o x e R IH|o x y e1 e2 R1 IH1 R2 IH2|l x e R IH
    |x e R IH|l x e R IH]; intros e' K.
  - assert (e' = e) as -> by (eapply kcopy_old; eauto). now constructor.
  - econstructor; [exact St|]. eapply copy_kcopy; eauto.
  - inversion K; subst. constructor. congruence.
  - inversion K; subst. constructor. congruence.
  - inversion K; subst. constructor. auto.
  - inversion K; subst. constructor; auto.
  - constructor; auto.
  - constructor; auto.
  - constructor; auto.
Qed.

Lemma prepare_copy m m' e e' : copy_of m m' e e' -> option_map snd (prepare e') = option_map snd (prepare e).
Proof.
  assert (U : forall o t p p', option_map snd (option_map (fun r : ty => (XUn o p, r)) (ty_un o t)) =
                option_map snd (option_map (fun r : ty => (XUn o p', r)) (ty_un o t)))
    by (intros o t p p'; destruct (ty_un o t); reflexivity).
  assert (W : forall o t u p p' q q', option_map snd (option_map (fun r : ty => (XBin o p q, r)) (ty_bin o t u)) =
                option_map snd (option_map (fun r : ty => (XBin o p' q', r)) (ty_bin o t u)))
    by (intros o t u p p' q q'; destruct (ty_bin o t u); reflexivity).
  induction 1 as [a a' t E|o e e' _ IH|o e1 e1' e2 e2' _ IH1 _ IH2]; [reflexivity| |].
  - cbn [prepare]. destruct (prepare e) as [[p t]|], (prepare e') as [[p' t']|]; try discriminate; [|reflexivity].
    injection IH as ->. destruct (choose_unary _ _ t (convert_to t)) as [[|u]|]; try reflexivity; apply U.
  - cbn [prepare]. destruct (prepare e1) as [[p t]|], (prepare e1') as [[p' t']|]; try discriminate; [|reflexivity].
    injection IH1 as ->.
    destruct (prepare e2) as [[q u]|], (prepare e2') as [[q' u']|]; try discriminate; [|reflexivity].
    injection IH2 as ->.
    destruct (choose_binary _ _ t u (convert_to t) (convert_to u)) as [[|?|?|? ?]|]; try reflexivity; apply W.
Qed.

Lemma evaluates_copy m m' e e' t : copy_of m m' e e' -> evaluates_as e t -> evaluates_as e' t.
Proof.
  intros C (p & P). pose proof (prepare_copy _ _ _ _ C) as E. rewrite P in E. unfold evaluates_as.
  destruct (prepare e') as [[p' t']|]; [|discriminate]. injection E as ->. now exists p'.
Qed.

(** *** The invariant of building *)
Section Build.
  Variable s0 : state.
  Variable k0 : nat.
  Variable Q : nat -> Prop.

  Definition ok (b : bstate) (x : nat) : Prop :=
    ((x < k0 /\ Q x) \/ (k0 <= x < next b /\ ~ In x (temps b))) /\
    (forall d l, objs (st b) x <> Some (OProxy d l)).

  Fixpoint owns (n : node) : list nat :=
    match n with
    | NOwn i _ => [i]
    | NRef _ | NProxy _ _ => []
    | NUn _ n => owns n
    | NBin _ n1 n2 => owns n1 ++ owns n2
    end.
  Definition obj_owns (o : obj) : list nat :=
    match o with OExpr n | ODyn n _ => owns n | _ => [] end.

  Record inv (b : bstate) : Prop := {
    i_next : k0 <= next b;
    i_old : forall a, a < k0 -> objs (st b) a = objs s0 a /\ vals (st b) a = vals s0 a;
    i_new : forall a, next b <= a -> objs (st b) a = None;
    i_tmp : forall t, In t (temps b) -> k0 <= t < next b;
    i_obj : forall a o x, k0 <= a -> objs (st b) a = Some o -> In x (obj_addrs o) -> ok b x;
    i_own : forall a o x, k0 <= a -> objs (st b) a = Some o -> In x (obj_owns o) -> k0 <= x;
    i_heap : forall a o, k0 <= a -> ~ In a (temps b) -> objs (st b) a = Some o ->
      exists n l, o = ODyn n l;
    i_dyn : forall a n l, k0 <= a -> objs (st b) a = Some (ODyn n l) ->
      exists e, stands (st b) no_stop n e /\ evaluates_as e (Plain l)
  }.

  Record ext (b b' : bstate) : Prop := {
    e_next : next b <= next b';
    e_mem : forall a, a < next b -> objs (st b') a = objs (st b) a /\ vals (st b') a = vals (st b) a;
    e_tmp : forall t, t < next b -> In t (temps b') -> In t (temps b);
    e_tmp' : forall t, In t (temps b) -> In t (temps b')
  }.

  Lemma ext_refl b : ext b b.
  Proof. constructor; auto. Qed.
  Lemma ext_trans a b c : ext a b -> ext b c -> ext a c.
  Proof.
    intros [A1 A2 A3 A4] [B1 B2 B3 B4]. constructor.
    - lia.
    - intros x Hx. destruct (A2 x Hx) as (<- & <-). apply B2. lia.
    - intros t Ht H. apply A3; [exact Ht|]. apply B3; [lia|exact H].
    - auto.
  Qed.

  Hypothesis bounded : forall a o x, objs s0 a = Some o -> In x (obj_addrs o) -> x < k0.
  Hypothesis Qclosed : closed Q s0.

  Lemma inv_bound b : inv b -> closed (fun x => x < next b) (st b).
  Proof.
    intros I a o x Ha O Hx. destruct (le_lt_dec k0 a) as [L|L].
    - destruct (i_obj b I a o x L O Hx) as [[[H _]|[H _]] _]; [pose proof (i_next b I)|]; lia.
    - rewrite (proj1 (i_old b I a L)) in O. pose proof (bounded a o x O Hx).
      pose proof (i_next b I). lia.
  Qed.

  Lemma stands_ext b b' n e : inv b -> ext b b' -> stands (st b) no_stop n e ->
    (forall x, In x (addrs n) -> x < next b) -> stands (st b') no_stop n e.
  Proof.
    intros I X St L.
    apply (stands_agree (fun x => x < next b) (st b) (st b')); auto.
    - now apply inv_bound.
    - intros a Ha. apply X. exact Ha.
  Qed.

  Lemma ok_ext b b' x : inv b -> ext b b' -> ok b x -> ok b' x.
  Proof.
    intros I X ([[H HQ]|[H N]] & P).
    - split; [left; auto|]. intros d l. rewrite (proj1 (e_mem b b' X x ltac:(pose proof (i_next b I); lia))).
      apply P.
    - split; [right; split; [pose proof (e_next b b' X); lia|]|].
      + intros T. apply N. apply (e_tmp b b' X); [lia|exact T].
      + intros d l. rewrite (proj1 (e_mem b b' X x ltac:(lia))). apply P.
  Qed.

  Lemma ok_lt b x : inv b -> ok b x -> x < next b.
  Proof. intros I ([[H _]|[H _]] & _); [pose proof (i_next b I)|]; lia. Qed.

  (** *** Allocation *)
  Lemma new_leaf_ok v b : inv b ->
    inv (snd (new_leaf v b)) /\ ext b (snd (new_leaf v b)) /\ ok (snd (new_leaf v b)) (next b).
  Proof.
    intros I. pose proof (i_next b I) as N.
    assert (X : ext b (snd (new_leaf v b))).
    { constructor; cbn; auto. intros a Ha. split; [reflexivity|]. unfold setf.
      destruct (Nat.eqb_spec a (next b)); [lia|reflexivity]. }
    split; [|split; [exact X|]].
    - constructor; cbn [next temps st new_leaf snd objs vals].
      + lia.
      + intros a Ha. destruct (i_old b I a Ha) as (A & B). split; [exact A|]. rewrite <- B.
        apply (e_mem _ _ X). lia.
      + intros a Ha. apply (i_new b I). lia.
      + intros t Ht. pose proof (i_tmp b I t Ht). lia.
      + intros a o x L O Hx. eapply ok_ext; [exact I|exact X|]. exact (i_obj b I a o x L O Hx).
      + intros a o x L O Hx. exact (i_own b I a o x L O Hx).
      + intros a o L T O. exact (i_heap b I a o L T O).
      + intros a n l L O. destruct (i_dyn b I a n l L O) as (e & St & Ev).
        exists e. split; [|exact Ev].
        apply (stands_ext b _ n e I X St). intros x Hx. apply (ok_lt b x I).
        exact (i_obj b I a _ x L O Hx).
    - split; [right|].
      + cbn. split; [lia|]. intros T. pose proof (i_tmp b I _ T). lia.
      + intros d l. cbn. rewrite (i_new b I) by lia. discriminate.
  Qed.

  Lemma put_ext b a o k t : a = next b -> k = S (next b) -> (forall x, In x t -> In x (temps b) \/ x = next b) ->
    (forall x, In x (temps b) -> In x t) ->
    ext b (B (put a o (st b)) k t).
  Proof.
    intros -> -> T T'. constructor; cbn; auto.
    - intros a Ha. split; [|reflexivity]. unfold setf. destruct (Nat.eqb_spec a (next b)); [lia|reflexivity].
    - intros x Hx H. destruct (T x H); [assumption|lia].
  Qed.

  Lemma new_temp_ok o b : inv b -> (forall x, In x (obj_addrs o) -> ok b x) ->
    (forall x, In x (obj_owns o) -> k0 <= x) ->
    (forall n l, o = ODyn n l -> exists e, stands (st b) no_stop n e /\ evaluates_as e (Plain l)) ->
    inv (snd (new_temp o b)) /\ ext b (snd (new_temp o b)).
  Proof.
    intros I A W D. pose proof (i_next b I) as N.
    assert (X : ext b (snd (new_temp o b))) by (apply put_ext; cbn; intuition).
    split; [|exact X]. constructor.
    - cbn. lia.
    - intros a Ha. destruct (i_old b I a Ha) as (P & P'). rewrite <- P, <- P'. apply X. lia.
    - intros a. cbn. intros Ha. unfold setf. destruct (Nat.eqb_spec a (next b)); [lia|].
      apply (i_new b I). lia.
    - intros t. cbn. intros [<-|Ht]; [lia|]. pose proof (i_tmp b I t Ht). lia.
    - intros a o' x L. cbn [new_temp snd st put objs]. unfold setf.
      destruct (Nat.eqb_spec a (next b)) as [->|Na]; intros O Hx; eapply ok_ext; eauto.
      + injection O as <-. auto.
      + exact (i_obj b I a o' x L O Hx).
    - intros a o' x L. cbn [new_temp snd st put objs]. unfold setf.
      destruct (Nat.eqb_spec a (next b)) as [->|Na]; intros O Hx.
      + injection O as <-. auto.
      + exact (i_own b I a o' x L O Hx).
    - intros a o' L T. cbn [new_temp snd st put objs temps] in T |- *. unfold setf.
      destruct (Nat.eqb_spec a (next b)) as [->|Na]; intros O.
      + exfalso. apply T. now left.
      + assert (T' : ~ In a (temps b)) by (intros H; apply T; now right).
        exact (i_heap b I a o' L T' O).
    - intros a n l L. cbn [new_temp snd st put objs temps]. unfold setf.
      destruct (Nat.eqb_spec a (next b)) as [->|Na]; intros O.
      + injection O as E. destruct (D n l E) as (e & St & Ev). exists e. split; [|exact Ev].
        apply (stands_ext b _ n e I X St). intros x Hx. apply (ok_lt b x I). apply A. now rewrite E.
      + destruct (i_dyn b I a n l L O) as (e & St & Ev).
        exists e. split; [|exact Ev].
        apply (stands_ext b _ n e I X St). intros x Hx. apply (ok_lt b x I).
        exact (i_obj b I a _ x L O Hx).
  Qed.

  Lemma new_heap_ok n l e b : inv b -> (forall x, In x (addrs n) -> ok b x) ->
    (forall x, In x (owns n) -> k0 <= x) -> stands (st b) no_stop n e -> evaluates_as e (Plain l) ->
    inv (snd (new_heap (ODyn n l) b)) /\ ext b (snd (new_heap (ODyn n l) b)) /\
    ok (snd (new_heap (ODyn n l) b)) (next b).
  Proof.
    intros I A W St Ev. pose proof (i_next b I) as N.
    assert (X : ext b (snd (new_heap (ODyn n l) b))) by (apply put_ext; cbn; intuition).
    split; [|split; [exact X|]].
    - constructor.
      + cbn. lia.
      + intros a Ha. destruct (i_old b I a Ha) as (P & P'). rewrite <- P, <- P'. apply X. lia.
      + intros a. cbn. intros Ha. unfold setf. destruct (Nat.eqb_spec a (next b)); [lia|].
        apply (i_new b I). lia.
      + intros t. cbn. intros Ht. pose proof (i_tmp b I t Ht). lia.
      + intros a o' x L. cbn [new_heap snd st put objs]. unfold setf.
        destruct (Nat.eqb_spec a (next b)) as [->|Na]; intros O Hx; eapply ok_ext; eauto.
        * injection O as <-. auto.
        * exact (i_obj b I a o' x L O Hx).
      + intros a o' x L. cbn [new_heap snd st put objs]. unfold setf.
        destruct (Nat.eqb_spec a (next b)) as [->|Na]; intros O Hx.
        * injection O as <-. auto.
        * exact (i_own b I a o' x L O Hx).
      + intros a o' L T. cbn [new_heap snd st put objs temps] in T |- *. unfold setf.
        destruct (Nat.eqb_spec a (next b)) as [->|Na]; intros O.
        * injection O as <-. exists n, l. reflexivity.
        * exact (i_heap b I a o' L T O).
      + intros a n' l' L. cbn [new_heap snd st put objs temps]. unfold setf.
        destruct (Nat.eqb_spec a (next b)) as [->|Na]; intros O.
        * injection O as <- <-. exists e. split; [|exact Ev].
          apply (stands_ext b _ n e I X St). intros x Hx. apply (ok_lt b x I). auto.
        * destruct (i_dyn b I a n' l' L O) as (e' & St' & Ev').
          exists e'. split; [|exact Ev'].
          apply (stands_ext b _ n' e' I X St'). intros x Hx. apply (ok_lt b x I).
          exact (i_obj b I a _ x L O Hx).
    - split; [right|].
      + cbn. split; [lia|]. intros T. pose proof (i_tmp b I _ T). lia.
      + intros d l'. cbn. unfold setf. rewrite Nat.eqb_refl. discriminate.
  Qed.

  (** *** Copying *)
  Lemma copy_node_ok n : forall b e, inv b -> stands (st b) no_stop n e ->
    (forall x, In x (addrs n) -> x < next b) -> (forall x, In x (outer n) -> ok b x) ->
    forall n' b', copy_node n b = (n', b') ->
    inv b' /\ ext b b' /\ (forall x, In x (addrs n') -> ok b' x) /\ (forall x, In x (owns n') -> k0 <= x) /\
    exists e', stands (st b') no_stop n' e' /\
      kcopy 0 (vals (st b)) (vals (st b')) e e' /\
      ((forall x, In x (owns n) -> k0 <= x) -> kcopy k0 (vals (st b)) (vals (st b')) e e').
  Proof.
    induction n as [i t|a|d l|o n IH|o n1 IH1 n2 IH2]; intros b e I St L Ou n' b' C.
    - destruct (new_leaf_ok (vals (st b) i) b I) as (I' & X & K).
      cbn [copy_node] in C. unfold new_leaf in C, I', X, K. cbn [snd] in *. injection C as <- <-.
      split; [exact I'|]. split; [exact X|]. split; [intros x [<-|[]]; exact K|].
      split; [intros x [<-|[]]; exact (i_next b I)|].
      inversion St; subst. exists (XLeaf (next b) t). split; [|split].
      + apply st_own. unfold is_dyn. cbn. now rewrite (i_new b I) by lia.
      + constructor; [lia|]. cbn. unfold setf. now rewrite Nat.eqb_refl.
      + intros Hi. constructor; [specialize (Hi i (or_introl eq_refl)); lia|]. cbn. unfold setf.
        now rewrite Nat.eqb_refl.
    - cbn in C. injection C as <- <-. split; [exact I|]. split; [apply ext_refl|].
      split; [exact Ou|]. split; [intros x []|]. exists e.
      split; [exact St|]. split; intros; apply kcopy_refl; auto.
    - cbn in C. injection C as <- <-. split; [exact I|]. split; [apply ext_refl|].
      split; [exact Ou|]. split; [intros x []|]. exists e.
      split; [exact St|]. split; intros; apply kcopy_refl; auto.
    - cbn [copy_node] in C. destruct (copy_node n b) as [m b1] eqn:E. injection C as <- <-.
      inversion St as [| | | | | | |? ? e0 St0|]; subst.
      destruct (IH b e0 I St0 L Ou m b1 E) as (I' & X & A & W & e' & St' & K1 & K2).
      split; [exact I'|]. split; [exact X|]. split; [exact A|]. split; [exact W|].
      exists (XUn o e'). split; [now constructor|]. split; [now constructor|].
      intros Hi. constructor. now apply K2.
    - cbn [copy_node] in C. destruct (copy_node n1 b) as [m1 b1] eqn:E1.
      destruct (copy_node n2 b1) as [m2 b2] eqn:E2. injection C as <- <-.
      inversion St as [| | | | | | | |? ? ? e1 e2 St1 St2]; subst. cbn in L, Ou.
      assert (L1 : forall x, In x (addrs n1) -> x < next b) by (intros; apply L, in_or_app; auto).
      assert (L2 : forall x, In x (addrs n2) -> x < next b) by (intros; apply L, in_or_app; auto).
      destruct (IH1 b e1 I St1 L1 ltac:(intros; apply Ou, in_or_app; auto) m1 b1 E1)
        as (I1 & X1 & A1 & W1 & f1 & F1 & K1 & K1').
      destruct (IH2 b1 e2 I1 (stands_ext b b1 n2 e2 I X1 St2 L2)
                  ltac:(intros x Hx; pose proof (e_next _ _ X1); pose proof (L2 x Hx); lia)
                  ltac:(intros x Hx; eapply ok_ext; [exact I|exact X1|]; apply Ou, in_or_app; auto)
                  m2 b2 E2) as (I2 & X2 & A2 & W2 & f2 & F2 & K2 & K2').
      assert (M : forall x, x < next b1 -> vals (st b2) x = vals (st b1) x)
        by (intros x Hx; apply X2; exact Hx).
      assert (Lf1 : forall x, In x (leaf_addrs f1) -> x < next b1).
      { apply (stands_leaves (fun x => x < next b1) (st b1)) with (n := m1);
          [now apply inv_bound|exact F1|]. intros x Hx. apply (ok_lt b1 x I1). auto. }
      assert (Le2 : forall x, In x (leaf_addrs e2) -> x < next b).
      { apply (stands_leaves (fun x => x < next b) (st b)) with (n := n2);
          [now apply inv_bound|exact St2|exact L2]. }
      split; [exact I2|]. split; [eapply ext_trans; eauto|].
      split; [intros x Hx; cbn in Hx; apply in_app_or in Hx; destruct Hx;
              [eapply ok_ext; [exact I1|exact X2|auto]|auto]|].
      split; [intros x Hx; cbn in Hx; apply in_app_or in Hx; destruct Hx; auto|].
      exists (XBin o f1 f2). split; [constructor; [|exact F2]|split].
      + eapply stands_ext; [exact I1|exact X2|exact F1|]. intros x Hx. apply (ok_lt b1 x I1). auto.
      + constructor.
        * clear - K1 M Lf1. induction K1; cbn in Lf1; constructor; auto.
          -- rewrite M by auto. assumption.
          -- apply IHK1_1. intros x Hx. apply Lf1, in_or_app; auto.
          -- apply IHK1_2. intros x Hx. apply Lf1, in_or_app; auto.
        * assert (M' : forall x, x < next b -> vals (st b1) x = vals (st b) x)
            by (intros x Hx; apply X1; exact Hx).
          clear - K2 M' Le2. induction K2; cbn in Le2; constructor; auto.
          -- rewrite H0. apply M'. auto.
          -- apply IHK2_1. intros x Hx. apply Le2, in_or_app; auto.
          -- apply IHK2_2. intros x Hx. apply Le2, in_or_app; auto.
      + intros Hi. cbn in Hi.
        specialize (K1' ltac:(intros x Hx; apply Hi, in_or_app; auto)).
        specialize (K2' ltac:(intros x Hx; apply Hi, in_or_app; auto)).
        constructor.
        * clear - K1' M Lf1. induction K1'; cbn in Lf1; constructor; auto.
          -- rewrite M by auto. assumption.
          -- apply IHK1'1. intros x Hx. apply Lf1, in_or_app; auto.
          -- apply IHK1'2. intros x Hx. apply Lf1, in_or_app; auto.
        * assert (M' : forall x, x < next b -> vals (st b1) x = vals (st b) x)
            by (intros x Hx; apply X1; exact Hx).
          clear - K2' M' Le2. induction K2'; cbn in Le2; constructor; auto.
          -- rewrite H0. apply M'. auto.
          -- apply IHK2'1. intros x Hx. apply Le2, in_or_app; auto.
          -- apply IHK2'2. intros x Hx. apply Le2, in_or_app; auto.
  Qed.

  (** *** Operands *)
  Hypothesis reach_lt : forall a e b, stands s0 no_stop (NRef a) e -> In b (leaf_addrs e) -> b < k0.
  Hypothesis Qnp : forall x d l, Q x -> objs s0 x <> Some (OProxy d l).
  Hypothesis Qlt : forall x, Q x -> x < k0.

  Lemma Q_ok b x : inv b -> Q x -> ok b x.
  Proof.
    intros I H. pose proof (Qlt x H). split; [left; auto|]. intros d l.
    rewrite (proj1 (i_old b I x ltac:(assumption))). now apply Qnp.
  Qed.

  Inductive operand (b : bstate) (x : src) (a : nat) : cat -> Prop :=
  | op_name : a < k0 -> x = SName a -> (forall y, In y (kept s0 x) -> Q y) -> operand b x a LVal
  | op_temp : k0 <= a < next b -> operand b x a XVal
  | op_move : a < k0 -> x = SMove a -> (forall y, In y (kept s0 x) -> Q y) -> operand b x a XVal.

  Lemma operand_ext b b' x a c : ext b b' -> operand b x a c -> operand b' x a c.
  Proof.
    intros X O. inversion O; subst; [apply op_name|apply op_temp|apply op_move]; auto.
    pose proof (e_next _ _ X). lia.
  Qed.

  Lemma outer_addrs n x : In x (outer n) -> In x (addrs n).
  Proof.
    induction n; cbn; auto. intros H. apply in_or_app. apply in_app_or in H. intuition.
  Qed.

  Lemma reflects_ext b b' x e : inv b -> ext b b' -> (forall y, In y (leaf_addrs e) -> y < next b) ->
    reflects s0 (vals (st b)) x e -> reflects s0 (vals (st b')) x e.
  Proof.
    intros I X L R. eapply reflects_kcopy; [exact reach_lt|exact R|]. apply kcopy_refl.
    intros a Ha. apply X. auto.
  Qed.

  Lemma stands_lt b n e : inv b -> stands (st b) no_stop n e -> (forall x, In x (addrs n) -> x < next b) ->
    forall x, In x (leaf_addrs e) -> x < next b.
  Proof.
    intros I St L. apply (stands_leaves (fun x => x < next b) (st b)) with (n := n); auto.
    now apply inv_bound.
  Qed.

  Lemma member_ok b x a c e : inv b -> operand b x a c -> stands (st b) no_stop (NRef a) e ->
    reflects s0 (vals (st b)) x e -> forall n b', member a c b = Some (n, b') ->
    inv b' /\ ext b b' /\ (forall y, In y (addrs n) -> ok b' y) /\ (forall y, In y (owns n) -> k0 <= y) /\
    exists e', stands (st b') no_stop n e' /\ reflects s0 (vals (st b')) x e' /\
      copy_of (vals (st b)) (vals (st b')) e e'.
  Proof.
    intros I Op St R n b' M.
    assert (CR : copy_of (vals (st b)) (vals (st b)) e e)
      by (apply (kcopy_copy 0), kcopy_refl; reflexivity). unfold member in M.
    assert (La : a < next b) by (pose proof (i_next b I); inversion Op; subst; lia).
    destruct (objs (st b) a) as [o|] eqn:O; [|discriminate].
    assert (Ro : forall o', Some o = Some o' -> a < k0 -> objs s0 a = Some o').
    { intros o' H' L. rewrite <- H', <- O. symmetry. exact (proj1 (i_old b I a L)). }
    destruct (storage_selector (arg_selector c (class_of o))) eqn:F.
    - (* by reference *)
      injection M as <- <-.
      assert (OK : ok b a).
      { inversion Op; subst; cbn in F; [|destruct o; discriminate..].
        apply Q_ok; [exact I|]. apply H1. cbn. pose proof (Ro o eq_refl H) as E. rewrite E.
        destruct o; first [now left|discriminate]. }
      split; [exact I|]. split; [apply ext_refl|]. split; [intros y [<-|[]]; exact OK|].
      split; [intros y []|]. exists e. auto.
    - (* by value *)
      destruct o as [t|m|m l|d l].
      + (* a leaf *)
        destruct (new_leaf_ok (vals (st b) a) b I) as (I' & X & K).
        unfold new_leaf in M, I', X, K. cbn [snd] in *. injection M as <- <-.
        split; [exact I'|]. split; [exact X|]. split; [intros y [<-|[]]; exact K|].
        split; [intros y [<-|[]]; exact (i_next b I)|].
        assert (e = XLeaf a t) as ->.
        { inversion St as [|? ? O'|? ? ? O'|? ? ? ? O'|? ? ? ? O'| | | |]; subst;
            rewrite O in O'; congruence. }
        exists (XLeaf (next b) t). split; [|split].
        * apply st_own. unfold is_dyn. cbn. now rewrite (i_new b I) by lia.
        *          inversion Op; subst; cbn in F; try discriminate.
          -- eapply reflects_kcopy; [exact reach_lt|exact R|]. constructor; [lia|]. cbn. unfold setf.
             now rewrite Nat.eqb_refl.
          -- inversion R as [|? e0 ? St0 C| | | | | | |]; subst. econstructor; [exact St0|].
             inversion C; subst. constructor. cbn. unfold setf. rewrite Nat.eqb_refl. congruence.
        * constructor. cbn. unfold setf. now rewrite Nat.eqb_refl.
      + (* an operation *)
        assert (St' : stands (st b) no_stop m e).
        { inversion St as [|? ? O'|? ? ? O'|? ? ? ? O'|? ? ? ? O'| | | |]; subst;
            rewrite O in O'; try discriminate. injection O' as <-. assumption. }
        injection M as M.
        destruct (copy_node_ok m b e I St') with (n' := n) (b' := b')
          as (I' & X & A & W & e' & F' & K1 & K2); [| |exact M|].
        { intros y Hy. exact (inv_bound b I a _ y La O Hy). }
        { inversion Op; subst.
          - cbn in F. discriminate.
          - intros y Hy. apply (i_obj b I a _ y ltac:(lia) O). now apply outer_addrs.
          - intros y Hy. apply Q_ok; [exact I|]. apply H1. cbn. pose proof (Ro _ eq_refl H) as E. now rewrite E. }
        split; [exact I'|]. split; [exact X|]. split; [exact A|]. split; [exact W|].
        exists e'. split; [exact F'|]. split; [|exact (kcopy_copy _ _ _ _ _ K1)].
        inversion Op; subst.
        * cbn in F. discriminate.
        * eapply reflects_kcopy; [exact reach_lt|exact R|]. apply K2. intros y Hy.
          exact (i_own b I a _ y ltac:(lia) O Hy).
        * inversion R as [|? e0 ? St0 C| | | | | | |]; subst. econstructor; [exact St0|].
          eapply copy_kcopy; eauto.
      + assert (St' : stands (st b) no_stop m e).
        { inversion St as [|? ? O'|? ? ? O'|? ? ? ? O'|? ? ? ? O'| | | |]; subst;
            rewrite O in O'; try discriminate. injection O' as <- <-. assumption. }
        injection M as M.
        destruct (copy_node_ok m b e I St') with (n' := n) (b' := b')
          as (I' & X & A & W & e' & F' & K1 & K2); [| |exact M|].
        { intros y Hy. exact (inv_bound b I a _ y La O Hy). }
        { inversion Op; subst.
          - cbn in F. discriminate.
          - intros y Hy. apply (i_obj b I a _ y ltac:(lia) O). now apply outer_addrs.
          - intros y Hy. apply Q_ok; [exact I|]. apply H1. cbn. pose proof (Ro _ eq_refl H) as E. now rewrite E. }
        split; [exact I'|]. split; [exact X|]. split; [exact A|]. split; [exact W|].
        exists e'. split; [exact F'|]. split; [|exact (kcopy_copy _ _ _ _ _ K1)].
        inversion Op; subst.
        * cbn in F. discriminate.
        * eapply reflects_kcopy; [exact reach_lt|exact R|]. apply K2. intros y Hy.
          exact (i_own b I a _ y ltac:(lia) O Hy).
        * inversion R as [|? e0 ? St0 C| | | | | | |]; subst. econstructor; [exact St0|].
          eapply copy_kcopy; eauto.
      + injection M as <- <-.
        assert (St' : stands (st b) no_stop (NProxy d l) e).
        { inversion St as [|? ? O'|? ? ? O'|? ? ? ? O'|? ? ? ? O'| | | |]; subst;
            rewrite O in O'; try discriminate. injection O' as <- <-. assumption. }
        split; [exact I|]. split; [apply ext_refl|]. split; [|split; [intros y []|exists e; auto]].
        intros y [<-|[]]. inversion Op; subst.
        * apply Q_ok; [exact I|]. apply H1. cbn. pose proof (Ro _ eq_refl H) as E. rewrite E. now left.
        * apply (i_obj b I a _ d ltac:(lia) O). now left.
        * apply Q_ok; [exact I|]. apply H1. cbn. pose proof (Ro _ eq_refl H) as E. rewrite E. now left.
  Qed.

  (** *** Building *)
  Hypothesis all_stand : forall a o, objs s0 a = Some o ->
     (exists e, stands s0 no_stop (NRef a) e /\ forall n l, o = ODyn n l -> evaluates_as e (Plain l)) /\
     a < k0.

  Lemma stands_old b n e : inv b -> stands s0 no_stop n e -> (forall y, In y (addrs n) -> y < k0) ->
    stands (st b) no_stop n e.
  Proof.
    intros I St L. apply (stands_agree (fun x => x < k0) s0 (st b)); auto.
    - intros a o y Ha O Hy. eapply bounded; eauto.
    - intros a Ha. apply I. exact Ha.
  Qed.

  Lemma build_ok x : safe x -> well_typed s0 x -> (forall y, In y (kept s0 x) -> Q y) ->
    forall b, inv b -> forall a c b', build x b = Some (a, c, b') ->
    inv b' /\ ext b b' /\ operand b' x a c /\ a < next b' /\
    exists e, stands (st b') no_stop (NRef a) e /\ reflects s0 (vals (st b')) x e.
  Proof.
    induction x as [a0|a0|v t|v t|o x IH|o x IHx y IHy|l x IH|x IH|l x IH];
      intros Sf Wt Kp b I a c b' H; cbn [build] in H.
    - (* a name *)
      assert (La : a0 < k0)
        by (cbn in Wt; destruct (objs s0 a0) as [o|] eqn:O; [apply (all_stand a0 o O)|congruence]). pose proof (i_next b I) as N.
      destruct (objs (st b) a0) as [o|] eqn:O; [|discriminate]. injection H as <- <- <-.
      rewrite (proj1 (i_old b I a0 La)) in O. destruct (all_stand a0 o O) as ((e & St & _) & _).
      split; [exact I|]. split; [apply ext_refl|]. split; [now apply op_name|]. split; [lia|].
      exists e. split; [|now constructor]. apply stands_old; auto. intros y [<-|[]]. exact La.
    - assert (La : a0 < k0)
        by (cbn in Wt; destruct (objs s0 a0) as [o|] eqn:O; [apply (all_stand a0 o O)|congruence]). pose proof (i_next b I) as N.
      destruct (objs (st b) a0) as [o|] eqn:O; [|discriminate]. injection H as <- <- <-.
      rewrite (proj1 (i_old b I a0 La)) in O. destruct (all_stand a0 o O) as ((e & St & _) & _).
      split; [exact I|]. split; [apply ext_refl|]. split; [now apply op_move|]. split; [lia|].
      exists e. split; [apply stands_old; auto; intros y [<-|[]]; exact La|].
      econstructor; [exact St|]. apply (kcopy_copy 0). apply kcopy_refl. intros i Hi.
      apply I. eapply reach_lt; eauto.
    - (* a temporary leaf *)
      destruct (new_temp_ok (OLeaf t) b I) as (I' & X); [intros y []|intros y []|discriminate|].
      unfold new_temp in H, I', X. cbn [snd] in *. cbn [st next temps] in *. injection H as <- <- <-.
      set (b1 := B (put (next b) (Some (OLeaf t)) (st b)) (S (next b)) (next b :: temps b)) in *.
      set (b2 := B (State (setf (vals (put (next b) (Some (OLeaf t)) (st b))) (next b) v)
                      (objs (put (next b) (Some (OLeaf t)) (st b)))
                      (cache (put (next b) (Some (OLeaf t)) (st b)))) (S (next b)) (next b :: temps b)).
      assert (V : forall i, i <> next b -> vals (st b2) i = vals (st b1) i).
      { intros i Hi. cbn. unfold setf. destruct (Nat.eqb_spec i (next b)); [contradiction|reflexivity]. }
      pose proof (i_next b I) as N.
      assert (SA : forall n e, stands (st b1) no_stop n e -> stands (st b2) no_stop n e).
      { intros n e St. apply (stands_agree (fun _ => True) (st b1)); auto. intros ? ? ? ? ? ?; exact Logic.I. }
      split; [|split; [|split; [apply op_temp; cbn; lia|split; [cbn; lia|]]]].
      + constructor; try (now apply I').
        * intros i Hi. rewrite V by lia. now apply I'.
        * intros i n l L O. destruct (i_dyn b1 I' i n l L O) as (e & St & Ev).
          exists e. auto.
      + constructor; try (now apply X). intros i Hi. rewrite V by lia. now apply X.
      + exists (XLeaf (next b) t). split.
        * apply st_leaf. cbn. unfold setf. now rewrite Nat.eqb_refl.
        * constructor. cbn. unfold setf. now rewrite Nat.eqb_refl.
    - contradiction Sf.
    - (* a unary operation *)
      destruct (build x b) as [[[a1 c1] b1]|] eqn:E; [|discriminate].
      destruct (IH Sf Wt Kp b I a1 c1 b1 E) as (I1 & X1 & Op & La & e & St & R).
      destruct (member a1 c1 b1) as [[n b2]|] eqn:M; [|discriminate].
      destruct (member_ok b1 x a1 c1 e I1 Op St R n b2 M) as (I2 & X2 & A & W & e' & St' & R' & _).
      destruct (new_temp_ok (OExpr (NUn o n)) b2 I2 A W ltac:(discriminate)) as (I3 & X3).
      unfold new_temp in H, I3, X3. cbn [snd] in *. injection H as <- <- <-.
      split; [exact I3|]. split; [exact (ext_trans _ _ _ X1 (ext_trans _ _ _ X2 X3))|].
      pose proof (i_next b2 I2).
      split; [apply op_temp; cbn; lia|]. split; [cbn; lia|].
      assert (L2 : forall y, In y (addrs n) -> y < next b2) by (intros y Hy; apply ok_lt; auto).
      exists (XUn o e'). split.
      + eapply st_expr; [cbn; unfold setf; now rewrite Nat.eqb_refl|]. constructor.
        exact (stands_ext b2 _ n e' I2 X3 St' L2).
      + constructor. apply (reflects_ext b2 _ x e' I2 X3); [|exact R'].
        exact (stands_lt b2 n e' I2 St' L2).
    - (* a binary operation *)
      destruct (build x b) as [[[a1 c1] b1]|] eqn:E1; [|discriminate].
      destruct (build y b1) as [[[a2 c2] b2]|] eqn:E2; [|discriminate].
      destruct Sf as (Sf1 & Sf2). destruct Wt as (Wt1 & Wt2). cbn [kept] in Kp.
      destruct (IHx Sf1 Wt1 ltac:(intros z Hz; apply Kp, in_or_app; auto) b I a1 c1 b1 E1)
        as (I1 & X1 & Op1 & La1 & e1 & St1 & R1).
      destruct (IHy Sf2 Wt2 ltac:(intros z Hz; apply Kp, in_or_app; auto) b1 I1 a2 c2 b2 E2)
        as (I2 & X2 & Op2 & La2 & e2 & St2 & R2).
      destruct (member a1 c1 b2) as [[n1 b3]|] eqn:M1; [|discriminate].
      destruct (member a2 c2 b3) as [[n2 b4]|] eqn:M2; [|discriminate].
      assert (Le1 : forall z, In z (leaf_addrs e1) -> z < next b1).
      { apply (stands_lt b1 (NRef a1) e1 I1 St1). intros z [<-|[]]. exact La1. }
      destruct (member_ok b2 x a1 c1 e1 I2 (operand_ext _ _ _ _ _ X2 Op1)
                  (stands_ext b1 b2 (NRef a1) e1 I1 X2 St1 ltac:(intros z [<-|[]]; exact La1))
                  (reflects_ext b1 b2 x e1 I1 X2 Le1 R1) n1 b3 M1) as (I3 & X3 & A1 & W1 & e1' & St1' & R1' & _).
      assert (Le2 : forall z, In z (leaf_addrs e2) -> z < next b2).
      { apply (stands_lt b2 (NRef a2) e2 I2 St2). intros z [<-|[]]. exact La2. }
      destruct (member_ok b3 y a2 c2 e2 I3 (operand_ext _ _ _ _ _ X3 Op2)
                  (stands_ext b2 b3 (NRef a2) e2 I2 X3 St2 ltac:(intros z [<-|[]]; exact La2))
                  (reflects_ext b2 b3 y e2 I2 X3 Le2 R2) n2 b4 M2) as (I4 & X4 & A2 & W2 & e2' & St2' & R2' & _).
      destruct (new_temp_ok (OExpr (NBin o n1 n2)) b4 I4) as (I5 & X5).
      { intros z Hz. cbn in Hz. apply in_app_or in Hz. destruct Hz as [Hz|Hz]; [|auto].
        apply (ok_ext b3 b4 z I3 X4). auto. }
      { intros z Hz. cbn in Hz. apply in_app_or in Hz. destruct Hz; auto. }
      { discriminate. }
      unfold new_temp in H, I5, X5. cbn [snd] in *. injection H as <- <- <-.
      split; [exact I5|].
      split; [exact (ext_trans _ _ _ X1 (ext_trans _ _ _ X2 (ext_trans _ _ _ X3 (ext_trans _ _ _ X4 X5))))|].
      pose proof (i_next b4 I4).
      split; [apply op_temp; cbn; lia|]. split; [cbn; lia|].
      assert (L1 : forall z, In z (addrs n1) -> z < next b3) by (intros z Hz; apply ok_lt; auto).
      assert (L2 : forall z, In z (addrs n2) -> z < next b4) by (intros z Hz; apply ok_lt; auto).
      exists (XBin o e1' e2'). split.
      + eapply st_expr; [cbn; unfold setf; now rewrite Nat.eqb_refl|]. constructor.
        * exact (stands_ext b3 _ n1 e1' I3 (ext_trans _ _ _ X4 X5) St1' L1).
        * exact (stands_ext b4 _ n2 e2' I4 X5 St2' L2).
      + constructor.
        * apply (reflects_ext b3 _ x e1' I3 (ext_trans _ _ _ X4 X5)); [|exact R1'].
          exact (stands_lt b3 n1 e1' I3 St1' L1).
        * apply (reflects_ext b4 _ y e2' I4 X5); [|exact R2'].
          exact (stands_lt b4 n2 e2' I4 St2' L2).
    - (* makeDynamic *)
      destruct (build x b) as [[[a1 c1] b1]|] eqn:E; [|discriminate].
      destruct (IH Sf (proj1 Wt) Kp b I a1 c1 b1 E) as (I1 & X1 & Op & La & e & St & R).
      destruct (member a1 c1 b1) as [[n b2]|] eqn:M; [|discriminate].
      destruct (member_ok b1 x a1 c1 e I1 Op St R n b2 M) as (I2 & X2 & A & W & e' & St' & R' & _).
      destruct (new_temp_ok (ODyn n l) b2 I2 A W) as (I3 & X3).
      { intros n' l' [= <- <-]. exists e'. split; [exact St'|]. exact (proj2 Wt _ e' R'). }
      unfold new_temp in H, I3, X3. cbn [snd] in *. injection H as <- <- <-.
      split; [exact I3|]. split; [exact (ext_trans _ _ _ X1 (ext_trans _ _ _ X2 X3))|].
      pose proof (i_next b2 I2).
      split; [apply op_temp; cbn; lia|]. split; [cbn; lia|].
      assert (L2 : forall y, In y (addrs n) -> y < next b2) by (intros y Hy; apply ok_lt; auto).
      exists e'. split.
      + eapply st_dyn; [cbn; unfold setf; now rewrite Nat.eqb_refl|].
        exact (stands_ext b2 _ n e' I2 X3 St' L2).
      + constructor. apply (reflects_ext b2 _ x e' I2 X3); [|exact R'].
        exact (stands_lt b2 n e' I2 St' L2).
    - (* ref *)
      destruct Sf as (a1 & ->). cbn [build] in H.
      assert (La : a1 < k0) by (apply Qlt, Kp; now left).
      destruct (objs (st b) a1) as [o|] eqn:O; [|discriminate]. rewrite O in H.
      destruct o as [t|n|n l|d l]; try discriminate.
      pose proof O as O'. rewrite (proj1 (i_old b I a1 La)) in O'.
      destruct (all_stand a1 _ O') as ((e & St & Ev) & _). specialize (Ev n l eq_refl).
      assert (St' : stands s0 no_stop n e).
      { inversion St as [|? ? P|? ? ? P|? ? ? ? P|? ? ? ? P| | | |]; subst;
          rewrite O' in P; try discriminate. injection P as <- <-. assumption. }
      destruct (new_temp_ok (OProxy a1 l) b I) as (I1 & X1).
      { intros y [<-|[]]. apply Q_ok; [exact I|]. apply Kp. now left. }
      { intros y []. }
      { discriminate. }
      unfold new_temp in H, I1, X1. cbn [snd] in *. injection H as <- <- <-.
      split; [exact I1|]. split; [exact X1|].
      pose proof (i_next b I).
      split; [apply op_temp; cbn; lia|]. split; [cbn; lia|].
      exists e. split.
      + eapply st_var; [cbn; unfold setf; now rewrite Nat.eqb_refl|].
        eapply st_proxy; [reflexivity| | |exact Ev].
        * rewrite (proj1 (i_old _ I1 a1 La)). exact O'.
        * apply (stands_old _ n e I1 St'). intros y Hy. eapply bounded; eauto.
      + constructor. now constructor.
    - (* makeProxy *)
      destruct (build x b) as [[[a1 c1] b1]|] eqn:E; [|discriminate].
      destruct c1; try discriminate.
      destruct (IH Sf (proj1 Wt) Kp b I a1 XVal b1 E) as (I1 & X1 & Op & La & e & St & R).
      destruct (member a1 XVal b1) as [[n b2]|] eqn:M; [|discriminate].
      destruct (member_ok b1 x a1 XVal e I1 Op St R n b2 M) as (I2 & X2 & A & W & e' & St' & R' & _).
      pose proof (proj2 Wt _ e' R') as Ev.
      destruct (new_heap_ok n l e' b2 I2 A W St' Ev) as (I3 & X3 & K3).
      set (b3 := snd (new_heap (ODyn n l) b2)) in *.
      destruct (new_temp_ok (OProxy (next b2) l) b3 I3) as (I4 & X4).
      { intros y [<-|[]]. exact K3. }
      { intros y []. }
      { discriminate. }
      cbn [new_heap] in H. fold b3 in H. unfold new_temp in H, I4, X4.
      change (B (put (next b2) (Some (ODyn n l)) (st b2)) (S (next b2)) (temps b2)) with b3 in H.
      cbn [snd] in *. injection H as <- <- <-.
      split; [exact I4|].
      split; [exact (ext_trans _ _ _ X1 (ext_trans _ _ _ X2 (ext_trans _ _ _ X3 X4)))|].
      pose proof (i_next b2 I2). pose proof (i_next b3 I3).
      split; [apply op_temp; cbn; lia|]. split; [cbn; lia|].
      assert (L2 : forall y, In y (addrs n) -> y < next b2) by (intros y Hy; apply ok_lt; auto).
      exists e'. split.
      + eapply st_var; [cbn; unfold setf; now rewrite Nat.eqb_refl|].
        eapply st_proxy; [reflexivity| | |exact Ev].
        * etransitivity; [exact (proj1 (e_mem _ _ X4 (next b2) ltac:(cbn; lia)))|].
          cbn. unfold setf. now rewrite Nat.eqb_refl.
        * exact (stands_ext b2 _ n e' I2 (ext_trans _ _ _ X3 X4) St' L2).
      + constructor. apply (reflects_ext b2 _ x e' I2 (ext_trans _ _ _ X3 X4)); [|exact R'].
        exact (stands_lt b2 n e' I2 St' L2).
  Qed.

  Lemma member_some b a c e : stands (st b) no_stop (NRef a) e -> exists n b', member a c b = Some (n, b').
  Proof.
    intros St. unfold member.
    assert (objs (st b) a <> None) as N by (inversion St; subst; congruence).
    destruct (objs (st b) a) as [o|]; [|congruence].
    destruct (storage_selector (arg_selector c (class_of o))); [eauto|].
    destruct o as [t|n|n l|d l]; cbn; try (destruct (copy_node n b)); eauto.
  Qed.

  Lemma build_some x : safe x -> well_typed s0 x -> compiles x -> (forall y, In y (kept s0 x) -> Q y) ->
    forall b, inv b -> exists a c b', build x b = Some (a, c, b') /\ (c = LVal -> exists a', x = SName a').
  Proof.
    induction x as [a0|a0|v t|v t|o x IH|o x IHx y IHy|l x IH|x IH|l x IH]; intros Sf Wt Co Kp b I; cbn [build].
    1,2: cbn in Wt; destruct (objs s0 a0) as [o|] eqn:O; [|congruence];
      pose proof (proj2 (all_stand a0 o O)) as La; pose proof (proj1 (i_old b I a0 La)) as Ob;
      rewrite Ob, O; do 3 eexists; split; [reflexivity|]; intros; first [discriminate|eauto].
    1,2: do 3 eexists; split; [reflexivity|discriminate].
    - destruct (IH Sf Wt Co Kp b I) as (a & c & b1 & E & _). rewrite E.
      destruct (build_ok x Sf Wt Kp b I a c b1 E) as (I1 & X1 & Op & La & e & St & R).
      destruct (member_some b1 a c e St) as (n & b2 & M). rewrite M.
      do 3 eexists; split; [reflexivity|discriminate].
    - destruct Sf as (Sf1 & Sf2), Wt as (Wt1 & Wt2), Co as (Co1 & Co2). cbn [kept] in Kp.
      assert (K1 : forall z, In z (kept s0 x) -> Q z) by (intros; apply Kp, in_or_app; auto).
      assert (K2 : forall z, In z (kept s0 y) -> Q z) by (intros; apply Kp, in_or_app; auto).
      destruct (IHx Sf1 Wt1 Co1 K1 b I) as (a & c & b1 & E & _). rewrite E.
      destruct (build_ok x Sf1 Wt1 K1 b I a c b1 E) as (I1 & X1 & Op & La & e & St & R).
      destruct (IHy Sf2 Wt2 Co2 K2 b1 I1) as (a2 & c2 & b2 & E2 & _). rewrite E2.
      destruct (build_ok y Sf2 Wt2 K2 b1 I1 a2 c2 b2 E2) as (I2 & X2 & Op2 & La2 & e2 & St2 & R2).
      pose proof (stands_ext b1 b2 (NRef a) e I1 X2 St ltac:(intros z [<-|[]]; exact La)) as St1.
      destruct (member_some b2 a c e St1) as (n & b3 & M). rewrite M.
      assert (Le1 : forall z, In z (leaf_addrs e) -> z < next b1).
      { apply (stands_lt b1 (NRef a) e I1 St). intros z [<-|[]]. exact La. }
      destruct (member_ok b2 x a c e I2 (operand_ext _ _ _ _ _ X2 Op) St1
                  (reflects_ext b1 b2 x e I1 X2 Le1 R) n b3 M) as (I3 & X3 & _).
      pose proof (stands_ext b2 b3 (NRef a2) e2 I2 X3 St2 ltac:(intros z [<-|[]]; exact La2)) as St3.
      destruct (member_some b3 a2 c2 e2 St3) as (n2 & b4 & M2). rewrite M2.
      do 3 eexists; split; [reflexivity|discriminate].
    - destruct (IH Sf (proj1 Wt) Co Kp b I) as (a & c & b1 & E & _). rewrite E.
      destruct (build_ok x Sf (proj1 Wt) Kp b I a c b1 E) as (I1 & X1 & Op & La & e & St & R).
      destruct (member_some b1 a c e St) as (n & b2 & M). rewrite M.
      do 3 eexists; split; [reflexivity|discriminate].
    - destruct Sf as (a1 & ->), Wt as (_ & D). specialize (D a1 eq_refl). cbn [build].
      unfold is_dyn in D. destruct (objs s0 a1) as [[t|n|n l|d l]|] eqn:O; try discriminate.
      pose proof (proj2 (all_stand a1 _ O)) as La. pose proof (proj1 (i_old b I a1 La)) as Ob.
      rewrite Ob, O. cbn [objs]. rewrite Ob, O. do 3 eexists; split; [reflexivity|discriminate].
    - destruct Co as (Nn & Co).
      destruct (IH Sf (proj1 Wt) Co Kp b I) as (a & c & b1 & E & Hc). rewrite E.
      destruct (build_ok x Sf (proj1 Wt) Kp b I a c b1 E) as (I1 & X1 & Op & La & e & St & R).
      destruct c; [destruct (Hc eq_refl) as (a' & ->); now destruct (Nn a')| |inversion Op].
      destruct (member_some b1 a XVal e St) as (n & b2 & M). rewrite M.
      do 3 eexists; split; [reflexivity|discriminate].
  Qed.
End Build.
