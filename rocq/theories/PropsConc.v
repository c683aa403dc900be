(** C58: evaluating and differentiating expressions from several threads. *)
From Coq Require Import Reals Lra List Arith Bool Lia.
From Verif Require Import Mat V3 ModelMeta ModelJac ModelLeaf ModelExpr SpecLeaf SpecExpr ExprProofs
  ModelDyn SpecDyn DynProofs PropsDyn ModelConc SpecConc ConcGen ConcDyn.
Import ListNotations.

Lemma xleaves_objs s s1 f p : objs s1 = objs s -> xleaves (dynLeaves f s1) s1 p = xleaves (dynLeaves f s) s p.
Proof.
  intros M. assert (G : forall D D' e, (forall d, D d = D' d) -> xleaves D s1 e = xleaves D' s e).
  { intros D D' e HD. induction e as [b t|o e IHe|o l' IHl r' IHr]; cbn [xleaves]; [|exact IHe|now rewrite IHl, IHr].
    rewrite (is_dyn_objs _ _ _ M). destruct (is_dyn s b); [apply HD|reflexivity]. }
  apply G. induction f as [|g IH]; intros d; [reflexivity|]. cbn [dynLeaves]. rewrite M.
  destruct (objs s d) as [[|?|n l|?]|]; try reflexivity. rewrite (outline_objs _ _ _ _ M).
  destruct (outline g s n) as [e|]; [|reflexivity].
  now apply G.
Qed.

Section Threads.
  Variable eps : R.
  Variable na : nat.
  Variable s : state.

  Definition qfoot (U W : loc -> Prop) (tr : list access) : Prop :=
    (forall a, In a tr -> U (where_ a) /\ (writes a = true -> W (where_ a))) /\
    (forall x, U x -> exists a, In a tr /\ where_ a = x) /\
    (forall x, W x -> exists a, In a tr /\ where_ a = x /\ writes a = true).
  Definition q_uses (q : query) (x : loc) : Prop := touches s (q_node q) x \/ assigns q x.
  Definition q_changes (q : query) (x : loc) : Prop :=
    assigns q x \/ exists d, x = Evaluator d /\ touches s (q_node q) x.

  Lemma is_ev_ex x : is_ev x = true -> exists d, x = Evaluator d.
  Proof. destruct x; [discriminate|eauto]. Qed.

  Lemma foot_qfoot (X U W : loc -> Prop) tr tr' : foot X tr -> reads_only X tr' ->
    (forall x, U x <-> X x) -> (forall x, W x <-> exists d, x = Evaluator d /\ X x) ->
    qfoot U W (tr ++ tr').
  Proof.
    intros (B & C) K HU HW. split; [|split].
    - intros a A. apply in_app_or in A as [A|A].
      + destruct (B a A) as (B1 & B2). split; [now apply HU|]. intros H. apply HW.
        destruct (is_ev_ex _ (B2 H)) as (d & E). exists d. split; assumption.
      + destruct (K a A) as (K1 & K2). split; [now apply HU|]. congruence.
    - intros x Hx. apply HU in Hx. destruct (C x Hx) as (a & A & E & _). exists a.
      split; [apply in_or_app; now left|exact E].
    - intros x Hx. apply HW in Hx as (d & -> & Hx). destruct (C _ Hx) as (a & A & E & E'). exists a.
      split; [apply in_or_app; now left|]. split; [exact E|exact E'].
  Qed.

  Lemma ok_objs s0 s1 p : objs s1 = objs s0 -> ok s1 p -> ok s0 p.
  Proof.
    intros M. induction 1 as [a t D|d t n l f e O U K IH|o e K IH|o l r K1 IH1 K2 IH2].
    - apply ok_leaf. now rewrite <- (is_dyn_objs _ _ _ M).
    - eapply ok_dyn; [rewrite <- M; exact O|rewrite <- (outline_objs f _ _ _ M); exact U|exact IH].
    - now apply ok_un.
    - now apply ok_bin.
  Qed.

  Lemma pnode_run f p s1 v T s' : objs s1 = objs s ->
    ev eps na (dynEvaluate eps na f) s1 p = Some (v, T, s') ->
    exists tr, runs (pnode eps na s f (Some p)) (mem_of s1) tr (p, (v, T)) (mem_of s') /\
      objs s' = objs s /\ foot (xt s p) tr /\ vt eps na s' p v T /\ freshT eps na s' T /\ ok s p.
  Proof.
    intros M E. destruct (eval_run eps na s f p s1 v T s' M E) as (tr & Rn & O & F).
    destruct (ev_sound eps na f s1 p v T s' E) as (V & SM & _ & Fr).
    exists (tr ++ []). split; [|split; [exact O|split; [now rewrite app_nil_r|]]].
    - unfold pnode. eapply runs_bind; [exact Rn|constructor].
    - split; [eapply vt_mem; eauto|]. split; [exact Fr|].
      apply vt_ok in V. now apply (ok_objs s s1).
  Qed.

  (** What is touched by the prepared expression is what the object leads to. *)
  Lemma prepared_xt f s1 n p x : objs s1 = objs s -> prepared f s1 n = Some p -> ok s p ->
    prepared f s n = Some p /\ (touches s n x <-> xt s p x).
  Proof.
    intros M H K. unfold prepared in *. rewrite (outline_objs _ _ _ _ M) in H. split; [exact H|].
    destruct (outline f s n) as [e|] eqn:U; [|discriminate]. destruct (prepare e) as [[p0 t0]|]; [|discriminate].
    destruct (prepare_to (plain_output t0) e) as [[p1 t1]|] eqn:P; [|discriminate]. injection H as <-.
    rewrite <- (xt_prepare_to s _ _ _ _ x P). split.
    - intros X. eapply touches_xt; eauto. eapply ok_prepare_to; eauto.
    - intros X. eapply xt_touches; eauto.
  Qed.
  Lemma prepared_to_xt f s1 l n p x : objs s1 = objs s -> prepared_to f s1 l n = Some p -> ok s p ->
    prepared_to f s l n = Some p /\ (touches s n x <-> xt s p x).
  Proof.
    intros M H K. unfold prepared_to in *. rewrite (outline_objs _ _ _ _ M) in H. split; [exact H|].
    destruct (outline f s n) as [e|] eqn:U; [|discriminate].
    destruct (prepare_to (Plain l) e) as [[p1 t1]|] eqn:P; [|discriminate]. injection H as <-.
    rewrite <- (xt_prepare_to s _ _ _ _ x P). split.
    - intros X. eapply touches_xt; eauto. eapply ok_prepare_to; eauto.
    - intros X. eapply xt_touches; eauto.
  Qed.

  Lemma query_run s1 q x s' : objs s1 = objs s -> ask eps na s1 q = Some (x, s') ->
    exists tr, runs (pquery eps na s q) (mem_of s1) tr x (mem_of s') /\ objs s' = objs s /\
      qfoot (q_uses q) (q_changes q) tr.
  Proof.
    intros M H. destruct q as [f n|f n t dim|g f n|a l f n]; cbn [ask pquery] in *.
    - unfold node_eval in H. destruct (prepared f s1 n) as [p|] eqn:P; [|discriminate].
      destruct (ev eps na _ s1 p) as [[[v T] s2]|] eqn:E; [|discriminate]. injection H as <- <-.
      destruct (pnode_run _ _ _ _ _ _ M E) as (tr & Rn & O & F & _ & _ & K).
      destruct (prepared_xt f s1 n p (Leaf 0) M P K) as (P' & _). rewrite P'.
      exists (tr ++ []). split; [eapply runs_bind; [exact Rn|constructor]|]. split; [exact O|].
      apply (foot_qfoot (xt s p)); [exact F|intros ? []|..]; unfold q_uses, q_changes; cbn [q_node assigns];
        intros y; pose proof (proj2 (prepared_xt f s1 n p y M P K)) as Y; [tauto|].
      split; [intros [[]|(d & -> & Hy)]; exists d; tauto|intros (d & -> & Hy); right; exists d; tauto].
    - unfold node_withDynamic in H. destruct (prepared f s1 n) as [p|] eqn:P; [|discriminate].
      destruct (ev eps na _ s1 p) as [[[v T] s2]|] eqn:E; [|discriminate].
      destruct (djac _ s2 t T) as [j|] eqn:J; [|discriminate]. injection H as <- <-.
      destruct (pnode_run _ _ _ _ _ _ M E) as (tr & Rn & O & F & V & Fr & K).
      destruct (prepared_xt f s1 n p (Leaf 0) M P K) as (P' & _). rewrite P'.
      destruct (pdjac_run eps na s f t s2 O _ _ _ _ V Fr J) as (tr' & Rn' & K').
      exists (tr ++ (tr' ++ [])). split; [eapply runs_bind; [exact Rn|]; cbn [snd]; eapply runs_bind; [exact Rn'|constructor]|].
      split; [exact O|]. rewrite app_nil_r.
      apply (foot_qfoot (xt s p)); [exact F|exact K'|..]; unfold q_uses, q_changes; cbn [q_node assigns];
        intros y; pose proof (proj2 (prepared_xt f s1 n p y M P K)) as Y; [tauto|].
      split; [intros [[]|(d & -> & Hy)]; exists d; tauto|intros (d & -> & Hy); right; exists d; tauto].
    - unfold node_withReverse in H. destruct (prepared f s1 n) as [p|] eqn:P; [|discriminate].
      destruct (ev eps na _ s1 p) as [[[v T] s2]|] eqn:E; [|discriminate].
      destruct (xleaves (dynLeaves f s2) s2 p) as [ls|] eqn:L; [|discriminate].
      destruct (drev _ s2 _ _ T) as [m|] eqn:J; [|discriminate]. injection H as <- <-.
      destruct (pnode_run _ _ _ _ _ _ M E) as (tr & Rn & O & F & V & Fr & K).
      destruct (prepared_xt f s1 n p (Leaf 0) M P K) as (P' & _). rewrite P'.
      destruct (pdrev_run eps na s f s2 O _ _ _ _ _ _ V Fr J) as (tr' & Rn' & K').
      assert (L' : xleaves (dynLeaves f s) s p = Some ls).
      { rewrite <- L. symmetry. now apply xleaves_objs. }
      exists (tr ++ (tr' ++ [])). split.
      { eapply runs_bind; [exact Rn|]. cbn [snd fst]. rewrite L'. eapply runs_bind; [exact Rn'|constructor]. }
      split; [exact O|]. rewrite app_nil_r.
      apply (foot_qfoot (xt s p)); [exact F|exact K'|..]; unfold q_uses, q_changes; cbn [q_node assigns];
        intros y; pose proof (proj2 (prepared_xt f s1 n p y M P K)) as Y; [tauto|].
      split; [intros [[]|(d & -> & Hy)]; exists d; tauto|intros (d & -> & Hy); right; exists d; tauto].
    - unfold node_evalTo in H. destruct (prepared_to f s1 l n) as [p|] eqn:P; [|discriminate].
      destruct (ev eps na _ s1 p) as [[[v T] s2]|] eqn:E; [|discriminate]. injection H as <- <-.
      destruct (pnode_run _ _ _ _ _ _ M E) as (tr & Rn & O & F & _ & _ & K).
      destruct (prepared_to_xt f s1 l n p (Leaf 0) M P K) as (P' & _). rewrite P'.
      exists (tr ++ [Acc (Leaf a) true]). split.
      { eapply runs_bind; [exact Rn|]. cbn [fst snd]. constructor. unfold mem_of; cbn. constructor. }
      split; [exact O|]. destruct F as (B & C).
      assert (Y : forall y, touches s n y <-> xt s p y) by (intros y; exact (proj2 (prepared_to_xt f s1 l n p y M P K))).
      unfold q_uses, q_changes; cbn [q_node assigns]. split; [|split].
      + intros b Hb. apply in_app_or in Hb as [Hb|[<-|[]]]; [|cbn; auto].
        destruct (B b Hb) as (B1 & B2). split; [left; now apply Y|]. intros W. right.
        destruct (is_ev_ex _ (B2 W)) as (d & Ed). exists d. split; [exact Ed|now apply Y].
      + intros y [Hy|Hy].
        * apply Y in Hy. destruct (C y Hy) as (b & Hb & Eb & _). exists b. split; [apply in_or_app; now left|exact Eb].
        * exists (Acc (Leaf a) true). split; [apply in_or_app; right; now left|now symmetry].
      + intros y [Hy|(d & -> & Hy)].
        * exists (Acc (Leaf a) true). split; [apply in_or_app; right; now left|]. split; [now symmetry|reflexivity].
        * apply Y in Hy. destruct (C _ Hy) as (b & Hb & Eb & Wb). exists b.
          split; [apply in_or_app; now left|]. split; [exact Eb|exact Wb].
  Qed.

  Lemma thread_run qs : forall s1 r s', objs s1 = objs s -> alone eps na s1 qs = Some (r, s') ->
    exists tr, runs (pthread eps na s qs) (mem_of s1) tr r (mem_of s') /\
      qfoot (uses_ s qs) (changes s qs) tr.
  Proof.
    induction qs as [|q qs IH]; intros s1 r s' M H; cbn [alone pthread] in *.
    - injection H as <- <-. exists []. split; [constructor|]. split; [intros ? []|].
      split; intros x (q & [] & _).
    - destruct (ask eps na s1 q) as [[x s2]|] eqn:E; [|discriminate].
      destruct (alone eps na s2 qs) as [[r0 s3]|] eqn:E2; [|discriminate]. injection H as <- <-.
      destruct (query_run _ _ _ _ M E) as (tr & Rn & O & F1 & F2 & F3).
      destruct (IH _ _ _ O E2) as (tr' & Rn' & G1 & G2 & G3).
      exists (tr ++ (tr' ++ [])). split.
      { eapply runs_bind; [exact Rn|]. eapply runs_bind; [exact Rn'|constructor]. }
      rewrite app_nil_r. split; [|split].
      + intros a A. apply in_app_or in A as [A|A].
        * destruct (F1 a A) as (U & W). split; [exists q; split; [now left|exact U]|].
          intros B. exists q. split; [now left|]. exact (W B).
        * destruct (G1 a A) as ((q' & Q & U) & W). split; [exists q'; split; [now right|exact U]|].
          intros B. destruct (W B) as (q2 & Q2 & W2). exists q2. split; [now right|exact W2].
      + intros y (q' & [<-|Q] & U).
        * destruct (F2 y U) as (a & A & Ea). exists a. split; [apply in_or_app; now left|exact Ea].
        * destruct (G2 y) as (a & A & Ea); [exists q'; auto|]. exists a. split; [apply in_or_app; now right|exact Ea].
      + intros y (q' & [<-|Q] & U).
        * destruct (F3 y U) as (a & A & Ea). exists a. split; [apply in_or_app; now left|exact Ea].
        * destruct (G3 y) as (a & A & Ea); [exists q'; auto|]. exists a. split; [apply in_or_app; now right|exact Ea].
  Qed.

  (** The solo runs of all threads. *)
  Lemma solos ths rs : Forall2 (fun qs r => alone eps na s qs = Some r) ths rs ->
    exists ws, inv ws (start eps na s ths) /\
      Forall2 (fun qs w => qfoot (uses_ s qs) (changes s qs) (tr_ w) /\
                 at_ (mem_of s) (pthread eps na s qs) w (tr_ w)) ths ws /\
      Forall2 (fun r w => res_ w = fst r /\ end_ w = mem_of (snd r)) rs ws.
  Proof.
    intros H.
    assert (G : exists ws, Forall2 (fun qs w => qfoot (uses_ s qs) (changes s qs) (tr_ w) /\
                 at_ (mem_of s) (pthread eps na s qs) w (tr_ w)) ths ws /\
      Forall2 (fun r w => res_ w = fst r /\ end_ w = mem_of (snd r)) rs ws).
    { induction H as [|qs [r s'] ths rs E _ (ws & F1 & F2)]; [exists []; split; constructor|].
      destruct (thread_run qs s r s' eq_refl E) as (tr & Rn & F).
      exists (Solo tr r (mem_of s') :: ws). split; constructor; auto. cbn [tr_]. split; [exact F|].
      split; [now exists []|]. exists (mem_of s). split; [exact Rn|]. intros a _. destruct (where_ a); reflexivity. }
    destruct G as (ws & F1 & F2). exists ws. split; [|split; assumption].
    split.
    { unfold start; cbn; rewrite map_length. clear F2 H. induction F1; cbn; congruence. }
    intros i w p W P. cbn [start shared threads] in *. exists (tr_ w). clear F2 H rs. revert i W P.
    induction F1 as [|qs w' ths ws (_ & A) _ IH]; intros [|i] W P; cbn in *; try discriminate; [|eauto].
    injection W as <-. injection P as <-. exact A.
  Qed.

  Lemma forall2_nth {A B} (P : A -> B -> Prop) l l' i y : Forall2 P l l' -> nth_error l' i = Some y ->
    exists x, nth_error l i = Some x /\ P x y.
  Proof.
    intros F. revert i. induction F; intros [|i] E; cbn in *; try discriminate; [|eauto].
    injection E as <-. eauto.
  Qed.
  Lemma forall2_nth' {A B} (P : A -> B -> Prop) l l' i x : Forall2 P l l' -> nth_error l i = Some x ->
    exists y, nth_error l' i = Some y /\ P x y.
  Proof.
    intros F. revert i. induction F; intros [|i] E; cbn in *; try discriminate; [|eauto].
    injection E as <-. eauto.
  Qed.

  (** Threads none of which changes what another uses: under every schedule there is no data
      race, no thread fails, each thread that ends has the answers it would have got alone,
      and has assigned the values it would have assigned; and each thread ends once it has
      been given enough steps, whatever the others do. *)
  Theorem c58_independent_threads ths rs :
    Forall2 (fun qs r => alone eps na s qs = Some r) ths rs -> independent s ths ->
    (forall sched, let c := execute sched (start eps na s ths) in
       ~ racy c /\
       forall i qs r p, nth_error ths i = Some qs -> nth_error rs i = Some r -> nth_error (threads c) i = Some p ->
         p <> Fail /\
         forall x, p = Ret x -> x = fst r /\
           forall a, changes s qs (Leaf a) -> mvals (shared c) a = vals (snd r) a) /\
    (forall i r, nth_error rs i = Some r -> exists k, forall sched, (k <= count_occ Nat.eq_dec sched i)%nat ->
       nth_error (threads (execute sched (start eps na s ths))) i = Some (Ret (fst r))).
  Proof.
    intros H I. destruct (solos _ _ H) as (ws & I0 & F1 & F2).
    assert (PA : pairwise_apart ws).
    { intros i j w w' NE W W' a b A B (E & C).
      destruct (forall2_nth _ _ _ _ _ F1 W) as (qs & Q & (F & _) & _).
      destruct (forall2_nth _ _ _ _ _ F1 W') as (qs' & Q' & (F' & _) & _).
      destruct (F a A) as (U & Wr). destruct (F' b B) as (U' & Wr'). destruct C as [C|C].
      - apply (I i j qs qs' (where_ a) NE Q Q' (Wr C)). now rewrite E.
      - assert (NE' : j <> i) by congruence. apply (I j i qs' qs (where_ b) NE' Q' Q (Wr' C)). now rewrite <- E. }
    split.
    - intros sched c. pose proof (inv_execute ws sched _ PA I0) as J. fold c in J.
      split; [eapply inv_not_racy; eauto|]. intros i qs r p Q Rr P.
      destruct (forall2_nth' _ _ _ _ _ F2 Rr) as (w & W & E1 & E2).
      destruct (proj2 J _ _ _ W P) as (rest & A). split.
      + intros ->. destruct rest as [|a rest].
        * destruct (at_done _ _ _ A) as (E & _). discriminate E.
        * destruct (at_step _ _ _ _ _ A) as (E & _). discriminate E.
      + intros x ->. destruct rest as [|a rest].
        * destruct (at_done _ _ _ A) as (E & G). injection E as ->. split; [exact E1|].
          intros a Ha. destruct (forall2_nth _ _ _ _ _ F1 W) as (qs' & Q' & (_ & _ & F3) & _).
          assert (qs' = qs) as -> by congruence. destruct (F3 _ Ha) as (b & Hb & Eb & _).
          specialize (G b Hb). rewrite Eb, E2 in G. exact G.
        * destruct (at_step _ _ _ _ _ A) as (E & _). discriminate E.
    - intros i r Rr. destruct (forall2_nth' _ _ _ _ _ F2 Rr) as (w & W & E1 & E2). exists (length (tr_ w)).
      intros sched K. destruct (forall2_nth _ _ _ _ _ F1 W) as (qs & Q & _ & A).
      destruct (inv_progress ws i w sched PA W _ I0 (pthread eps na s qs) (tr_ w)) as (p & P & B).
      + cbn. now apply map_nth_error.
      + exact A.
      + exact K.
      + destruct (at_done _ _ _ B) as (-> & _). rewrite P, E1. reflexivity.
  Qed.

  (** The condition cannot be weakened: if a thread changes something another uses, the two
      race under some schedule. *)
  Theorem c58_dependent_threads_race ths rs i j qs qs' x :
    Forall2 (fun qs r => alone eps na s qs = Some r) ths rs ->
    i <> j -> nth_error ths i = Some qs -> nth_error ths j = Some qs' ->
    changes s qs x -> uses_ s qs' x ->
    exists sched, racy (execute sched (start eps na s ths)).
  Proof.
    intros H NE Q Q' C U. destruct (solos _ _ H) as (ws & _ & F1 & _).
    destruct (forall2_nth' _ _ _ _ _ F1 Q) as (w & W & (_ & _ & F3) & A).
    destruct (forall2_nth' _ _ _ _ _ F1 Q') as (w' & W' & (_ & G2 & _) & B).
    destruct (F3 _ C) as (a & Ha & Ea & Wa). destruct (G2 _ U) as (b & Hb & Eb).
    eapply (race i j w w'); [exact NE|..].
    - cbn. apply map_nth_error. exact Q.
    - cbn. apply map_nth_error. exact Q'.
    - exact A.
    - exact B.
    - exists a, b. split; [exact Ha|]. split; [exact Hb|]. split; [congruence|now left].
  Qed.

  (** Expressions without proxies: any number of threads may evaluate and differentiate
      them, the same objects too, as long as no leaf is assigned. *)
  Theorem c58_static_expressions ths rs :
    Forall2 (fun qs r => alone eps na s qs = Some r) ths rs ->
    (forall qs q, In qs ths -> In q qs -> (forall x, ~ assigns q x) /\ forall d, ~ touches s (q_node q) (Evaluator d)) ->
    forall sched i r p, nth_error rs i = Some r ->
      nth_error (threads (execute sched (start eps na s ths))) i = Some p ->
      ~ racy (execute sched (start eps na s ths)) /\ p <> Fail /\ forall x, p = Ret x -> x = fst r.
  Proof.
    intros H K sched i r p Rr P.
    assert (I : independent s ths).
    { intros a b qs qs' x _ Q _ (q & Hq & [C|(d & -> & C)]) _;
        destruct (K qs q (nth_error_In _ _ Q) Hq) as (K1 & K2); [exact (K1 x C)|exact (K2 d C)]. }
    destruct (forall2_nth _ _ _ _ _ H Rr) as (qs & Q & _).
    destruct (c58_independent_threads ths rs H I) as (T & _). destruct (T sched) as (NR & T').
    destruct (T' i qs r p Q Rr P) as (NF & T''). split; [exact NR|]. split; [exact NF|].
    intros x E. now destruct (T'' x E).
  Qed.

  (** Only evaluating is not enough to be safe: two threads that evaluate one expression,
      const throughout, race if it reaches a Dynamic through a proxy. *)
  Theorem c58_shared_dynamic_races_refuted f n d v s' :
    node_eval eps na f s n = Some (v, s') -> touches s n (Evaluator d) ->
    exists sched, racy (execute sched (start eps na s [[QEval f n]; [QEval f n]])).
  Proof.
    intros E T.
    assert (A : alone eps na s [QEval f n] = Some ([AValue v], s')) by (cbn; rewrite E; reflexivity).
    eapply (c58_dependent_threads_race _ [([AValue v], s'); ([AValue v], s')] 0 1 _ _ (Evaluator d)).
    - repeat constructor; exact A.
    - discriminate.
    - reflexivity.
    - reflexivity.
    - exists (QEval f n). split; [now left|]. right. exists d. split; [reflexivity|exact T].
    - exists (QEval f n). split; [now left|]. left. exact T.
  Qed.
End Threads.

(** Assigning an expression object to a leaf of type [l] gives it the value, at the current
    leaf values, of the expression the object currently stands for, converted to [l] by
    evaluateTo<l>; and changes nothing else but evaluators. *)
Theorem c58_assignment_is_current eps na s n e l a : stands s no_stop n e ->
  exists F, forall f, (F <= f)%nat ->
    match evaluateTo eps (Plain l) (vals s) e with
    | Some v => exists s', ask eps na s (QAssign a l f n) = Some (AAssigned, s') /\
        vals s' = setf (vals s) a v /\ objs s' = objs s
    | None => ask eps na s (QAssign a l f n) = None
    end.
Proof.
  intros St. destruct (stands_xp _ _ _ _ St) as (f0 & e0 & O & X).
  pose proof (prepare_to_xp _ _ (Plain l) _ _ X) as Q. unfold rel_prep in Q. unfold evaluateTo.
  assert (HP : forall f, (f0 <= f)%nat -> prepared_to f s l n = option_map fst (prepare_to (Plain l) e0)).
  { intros f L. unfold prepared_to. now rewrite (outline_mono _ _ _ _ O f L). }
  destruct (env_for_none eps na s) as (Hm & Hd & He).
  destruct (prepare_to (Plain l) e0) as [[p0 u0]|], (prepare_to (Plain l) e) as [[p u]|]; try contradiction.
  2: { exists f0. intros f L. cbn. unfold node_evalTo. rewrite HP by lia. reflexivity. }
  destruct Q as (_ & Rp). rewrite <- (tree_value eps na). destruct (tree eps na (vals s) p) as [[v T]|] eqn:E; cbn [option_map fst].
  - destruct (vt_of_tree eps na s no_stop (vals s) p0 p Hm He Rp v T E) as (T0 & V).
    destruct (ev_complete eps na _ _ _ _ V) as (F & HF).
    exists (f0 + F)%nat. intros f L. cbn [ask]. unfold node_evalTo. rewrite HP by lia. cbn [option_map fst].
    destruct (HF f s ltac:(lia) (same_mem_refl s)) as (s' & E'). rewrite E'. cbn.
    destruct (ev_sound eps na _ _ _ _ _ _ E') as (_ & (M1 & M2) & _).
    eexists. split; [reflexivity|]. cbn. split; congruence.
  - exists f0. intros f L. cbn [ask]. unfold node_evalTo. rewrite HP by lia. cbn [option_map fst].
    destruct (ev eps na (dynEvaluate eps na f) s p0) as [[[v T0] s']|] eqn:E'; [|reflexivity].
    destruct (ev_sound eps na _ _ _ _ _ _ E') as (V & _).
    destruct (tree_of_vt eps na s no_stop (vals s) p0 p Hm Hd Rp v T0 V) as (T' & E1 & _). congruence.
Qed.

(** *** Concrete cases *)

(** Leaves 1, 2, 3 (Translations); d20 = makeDynamic(t1 + t2), d21 = makeDynamic(t1 + t1). *)
Definition cx : state := State (fun a => VTrans (mkV (INR a) 1%R 0%R))
  (fun a => match a with
            | 1 | 2 | 3 => Some (OLeaf (Plain LTrans))
            | 20 => Some (ODyn (NBin OSum (NRef 1) (NRef 2)) LTrans)
            | 21 => Some (ODyn (NBin OSum (NRef 1) (NRef 1)) LTrans)
            | _ => None
            end%nat)
  (fun _ => None).
Definition cx_ths : list (list query) :=
  [[QEval 9 (NProxy 20 LTrans); QReverse (fun _ _ => 7%R) 9 (NProxy 20 LTrans)];
   [QAssign 3 LTrans 9 (NProxy 21 LTrans)];
   [QForward 9 (NBin OSum (NRef 1) (NRef 2)) 2 3; QEval 9 (NUn OSquaredNorm (NRef 1))]].

Lemma cx_touches20 x : touches cx (NProxy 20 LTrans) x -> x = Evaluator 20 \/ x = Leaf 1 \/ x = Leaf 2.
Proof.
  assert (L : forall a x, (a = 1 \/ a = 2)%nat -> touches cx (NRef a) x -> x = Leaf a).
  { intros a y A H. destruct A; subst; inversion H; subst; auto; discriminate. }
  intros H. inversion H as [| | | | | |d n l l' y O X| | |]; subst; [auto|]. cbn in O. injection O as <- _.
  inversion X; subst; match goal with K : touches cx (NRef _) x |- _ => apply L in K; auto end.
Qed.
Lemma cx_touches21 x : touches cx (NProxy 21 LTrans) x -> x = Evaluator 21 \/ x = Leaf 1.
Proof.
  assert (L : forall x, touches cx (NRef 1) x -> x = Leaf 1).
  { intros y H. inversion H; subst; auto; discriminate. }
  intros H. inversion H as [| | | | | |d n l l' y O X| | |]; subst; [auto|]. cbn in O. injection O as <- _.
  inversion X; subst; match goal with K : touches cx (NRef _) x |- _ => apply L in K; auto end.
Qed.
Lemma cx_touches3 x n : n = NBin OSum (NRef 1) (NRef 2) \/ n = NUn OSquaredNorm (NRef 1) ->
  touches cx n x -> x = Leaf 1 \/ x = Leaf 2.
Proof.
  assert (L : forall a x, (a = 1 \/ a = 2)%nat -> touches cx (NRef a) x -> x = Leaf a).
  { intros a y A H. destruct A; subst; inversion H; subst; auto; discriminate. }
  intros [-> | ->] H; inversion H; subst;
    match goal with K : touches cx (NRef _) x |- _ => apply L in K; auto end.
Qed.

Lemma cx_independent : independent cx cx_ths.
Proof.
  set (U := fun i x => match i with
                       | 0 => x = Evaluator 20 \/ x = Leaf 1 \/ x = Leaf 2
                       | 1 => x = Leaf 3 \/ x = Evaluator 21 \/ x = Leaf 1
                       | _ => x = Leaf 1 \/ x = Leaf 2
                       end%nat).
  set (W := fun i x => match i with
                       | 0 => x = Evaluator 20
                       | 1 => x = Leaf 3 \/ x = Evaluator 21
                       | _ => False
                       end%nat).
  assert (HU : forall i qs x, nth_error cx_ths i = Some qs -> uses_ cx qs x -> U i x).
  { intros [|[|[|i]]] qs x Q (q & Hq & K); cbn in Q; try (injection Q as <-).
    - destruct Hq as [<-|[<-|[]]]; destruct K as [K|[]]; now apply cx_touches20.
    - destruct Hq as [<-|[]]; destruct K as [K|K]; [right; now apply cx_touches21|now left].
    - destruct Hq as [<-|[<-|[]]]; destruct K as [K|[]]; (eapply cx_touches3; [|exact K]); auto.
    - destruct i; discriminate. }
  assert (HW : forall i qs x, nth_error cx_ths i = Some qs -> changes cx qs x -> W i x).
  { intros [|[|[|i]]] qs x Q (q & Hq & K); cbn in Q; try (injection Q as <-).
    - destruct Hq as [<-|[<-|[]]]; destruct K as [[]|(d & -> & K)];
        destruct (cx_touches20 _ K) as [E|[E|E]]; try discriminate E; exact E.
    - destruct Hq as [<-|[]]; destruct K as [K|(d & -> & K)]; [now left|].
      destruct (cx_touches21 _ K) as [E|E]; [now right|discriminate E].
    - destruct Hq as [<-|[<-|[]]]; destruct K as [[]|(d & -> & K)]; apply cx_touches3 in K; auto;
        destruct K; discriminate.
    - destruct i; discriminate. }
  intros i j qs qs' x NE Q Q' C V. apply (HW _ _ _ Q) in C. apply (HU _ _ _ Q') in V.
  destruct i as [|[|[|i]]]; [| | |destruct i; discriminate];
    (destruct j as [|[|[|j]]]; [| | |destruct j; discriminate]); try congruence; cbn in C, V;
    intuition congruence.
Qed.

(** Three threads that share the leaves 1 and 2, one of them assigning leaf 3. *)
Example c58_example : exists rs,
  Forall2 (fun qs r => alone (1/4)%R 100 cx qs = Some r) cx_ths rs /\ independent cx cx_ths /\
  exists r s', nth_error rs 1 = Some ([AAssigned], s') /\ vals s' 3 = r /\ r = VTrans (mkV 2%R 2%R 0%R).
Proof.
  destruct (alone (1/4)%R 100 cx (nth 0 cx_ths [])) as [r0|] eqn:E0.
  2: { exfalso. revert E0. cbv -[Rplus Rmult Ropp Rminus Rdiv Rinv IZR sqrt]. discriminate. }
  destruct (alone (1/4)%R 100 cx (nth 1 cx_ths [])) as [r1|] eqn:E1.
  2: { exfalso. revert E1. cbv -[Rplus Rmult Ropp Rminus Rdiv Rinv IZR sqrt]. discriminate. }
  destruct (alone (1/4)%R 100 cx (nth 2 cx_ths [])) as [r2|] eqn:E2.
  2: { exfalso. revert E2. cbv -[Rplus Rmult Ropp Rminus Rdiv Rinv IZR sqrt]. discriminate. }
  exists [r0; r1; r2]. split; [repeat constructor; assumption|]. split; [exact cx_independent|].
  revert E1. cbv -[Rplus Rmult Ropp Rminus Rdiv Rinv IZR sqrt]. intros E. injection E as <-.
  do 2 eexists. split; [reflexivity|]. split; [reflexivity|]. do 2 f_equal; cbn; lra.
Qed.

(** A rotation from d20 of [dx] assigned to a quaternion. *)
Example c58_assignment_example : stands dx no_stop (NProxy 20 LMat) dx_rq /\
  evaluateTo (1/4)%R (Plain LQuat) (vals dx) dx_rq <> None.
Proof.
  split.
  - eapply st_proxy; [reflexivity|reflexivity| |eexists; vm_compute; reflexivity].
    constructor; constructor; reflexivity.
  - unfold evaluateTo. cbn. discriminate.
Qed.

(** Any number of threads on one static expression. *)
Example c58_static_example k : exists rs,
  Forall2 (fun qs r => alone (1/4)%R 100 cx qs = Some r) (repeat (nth 2 cx_ths []) k) rs /\
  forall qs q, In qs (repeat (nth 2 cx_ths []) k) -> In q qs ->
    (forall x, ~ assigns q x) /\ forall d, ~ touches cx (q_node q) (Evaluator d).
Proof.
  destruct (alone (1/4)%R 100 cx (nth 2 cx_ths [])) as [r2|] eqn:E2.
  2: { exfalso. revert E2. cbv -[Rplus Rmult Ropp Rminus Rdiv Rinv IZR sqrt]. discriminate. }
  exists (repeat r2 k). split; [induction k; cbn [repeat]; constructor; auto|].
  intros qs q H Q. apply repeat_spec in H as ->. cbn in Q.
  destruct Q as [<-|[<-|[]]]; (split; [intros x []|]); intros d K; apply cx_touches3 in K; auto; destruct K; discriminate.
Qed.

(** Two threads that only evaluate one Dynamic through proxies, each of which would succeed
    alone: they are about to race at once, and under the schedule below the first thread
    reads the evaluator that the second has just destroyed. *)
Theorem c58_shared_dynamic_refuted : exists s n,
  (exists v s', node_eval (1/4)%R 100 9 s n = Some (v, s')) /\
  (let ths := [[QEval 9 n]; [QEval 9 n]] in
   racy (execute [] (start (1/4)%R 100 s ths)) /\
   exists sched, nth_error (threads (execute sched (start (1/4)%R 100 s ths))) 0 = Some Fail).
Proof.
  exists cx, (NProxy 20 LTrans). split; [|split].
  - destruct (node_eval (1/4)%R 100 9 cx (NProxy 20 LTrans)) as [[v s']|] eqn:E; [eauto|].
    exfalso. revert E. cbv -[Rplus Rmult Ropp Rminus Rdiv Rinv IZR sqrt]. discriminate.
  - exists 0%nat, 1%nat. do 2 eexists. exists (Acc (Evaluator 20) true), (Acc (Evaluator 20) true).
    split; [discriminate|]. split; [reflexivity|]. split; [reflexivity|]. split; [reflexivity|].
    split; [reflexivity|]. split; [reflexivity|now left].
  - exists [0; 0; 0; 0; 1; 0]%nat. reflexivity.
Qed.
Print Assumptions c58_independent_threads.
Print Assumptions c58_dependent_threads_race.
Print Assumptions c58_static_expressions.
Print Assumptions c58_shared_dynamic_races_refuted.
Print Assumptions c58_shared_dynamic_refuted.
Print Assumptions c58_assignment_is_current.
