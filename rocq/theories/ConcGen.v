(** Threads without conflicting accesses do not disturb one another; threads with
    conflicting accesses can race. *)
From Coq Require Import Reals List Arith Bool Lia.
From Verif Require Import Mat ModelMeta ModelJac ModelLeaf ModelExpr ModelDyn ModelConc SpecConc.
Import ListNotations.

Definition loc_eq_dec (x y : loc) : {x = y} + {x <> y}.
Proof. decide equality; apply Nat.eq_dec. Defined.

(** [runs p m tr r m']: alone, [p] makes the accesses [tr] and ends with [r] and [m']. *)
Inductive runs {A} : prog A -> mem -> list access -> A -> mem -> Prop :=
| r_ret r m : runs (Ret r) m [] r m
| r_read a k m tr r m' : runs (k (mvals m a)) m tr r m' ->
    runs (Read a k) m (Acc (Leaf a) false :: tr) r m'
| r_fetch d k m tr r m' : runs (k (mcache m d)) m tr r m' ->
    runs (Fetch d k) m (Acc (Evaluator d) false :: tr) r m'
| r_store d c p m tr r m' : runs p (Mem (mvals m) (setf (mcache m) d c)) tr r m' ->
    runs (Store d c p) m (Acc (Evaluator d) true :: tr) r m'
| r_assign a v p m tr r m' : runs p (Mem (setf (mvals m) a v) (mcache m)) tr r m' ->
    runs (Assign a v p) m (Acc (Leaf a) true :: tr) r m'.

Lemma runs_bind {A B} (p : prog A) (k : A -> prog B) m tr x m' : runs p m tr x m' ->
  forall tr' y m'', runs (k x) m' tr' y m'' -> runs (bind p k) m (tr ++ tr') y m''.
Proof. induction 1; intros tr' y m'' K; cbn; [exact K|..]; constructor; auto. Qed.

(** The same contents at a place. *)
Definition agree (m m' : mem) (x : loc) : Prop :=
  match x with
  | Leaf a => mvals m a = mvals m' a
  | Evaluator d => mcache m d = mcache m' d
  end.

Lemma runs_done {A} (p : prog A) m r m' : runs p m [] r m' -> p = Ret r /\ m' = m.
Proof. inversion 1; auto. Qed.

(** One step in a memory that agrees where the step looks. *)
Lemma runs_step {A} (p : prog A) m a tr r e m2 : runs p m (a :: tr) r e -> agree m2 m (where_ a) ->
  next p = Some a /\ exists m', runs (fst (pstep p m2)) m' tr r e /\
    (forall x, agree m2 m x -> agree (snd (pstep p m2)) m' x) /\
    (forall x, x <> where_ a \/ writes a = false -> agree (snd (pstep p m2)) m2 x).
Proof.
  intros H G. inversion H; subst; cbn in G; cbn; (split; [reflexivity|]).
  - exists m. rewrite G. split; [assumption|]. split; [auto|]. intros [y|y] _; reflexivity.
  - exists m. rewrite G. split; [assumption|]. split; [auto|]. intros [y|y] _; reflexivity.
  - eexists. split; [eassumption|]. split.
    + intros [y|y] E; cbn in *; [exact E|]. unfold setf. destruct (y =? d)%nat; [reflexivity|exact E].
    + intros [y|y] E; cbn; [reflexivity|]. unfold setf. destruct (Nat.eqb_spec y d) as [->|]; [|reflexivity].
      destruct E as [E|E]; [now contradiction E|discriminate E].
  - eexists. split; [eassumption|]. split.
    + intros [y|y] E; cbn in *; [|exact E]. unfold setf. destruct (y =? a0)%nat; [reflexivity|exact E].
    + intros [y|y] E; cbn; [|reflexivity]. unfold setf. destruct (Nat.eqb_spec y a0) as [->|]; [|reflexivity].
      destruct E as [E|E]; [now contradiction E|discriminate E].
Qed.

Lemma replace_same {A} i (x : A) l : (i < length l)%nat -> nth_error (replace i x l) i = Some x.
Proof. revert i. induction l; intros [|i] H; cbn in *; try lia; auto. apply IHl. lia. Qed.
Lemma replace_other {A} i j (x : A) l : i <> j -> nth_error (replace i x l) j = nth_error l j.
Proof. revert i j. induction l; intros [|i] [|j] H; cbn; auto; try congruence. Qed.
Lemma replace_length {A} i (x : A) l : length (replace i x l) = length l.
Proof. revert i. induction l; intros [|i]; cbn; auto. Qed.

Lemma step_same i c p : nth_error (threads c) i = Some p ->
  nth_error (threads (step i c)) i = Some (fst (pstep p (shared c))) /\
  shared (step i c) = snd (pstep p (shared c)).
Proof.
  intros H. unfold step. rewrite H. destruct (pstep p (shared c)) as [p' m'].
  split; [|reflexivity]. cbn. apply replace_same. apply nth_error_Some. congruence.
Qed.
Lemma step_other i j c : i <> j -> nth_error (threads (step i c)) j = nth_error (threads c) j.
Proof.
  intros H. unfold step. destruct (nth_error (threads c) i); [|reflexivity].
  destruct (pstep p (shared c)). cbn. now apply replace_other.
Qed.
Lemma execute_app s1 s2 c : execute (s1 ++ s2) c = execute s2 (execute s1 c).
Proof. revert c. induction s1; intros c; cbn; auto. Qed.

(** What a thread does alone: its accesses, its result and the memory it leaves. *)
Record solo := Solo { tr_ : list access; res_ : list answer; end_ : mem }.

(** The state of a thread [p] with the solo run [w] in the shared memory [m], with the
    accesses [rest] still to come. *)
Definition at_ (m : mem) (p : prog (list answer)) (w : solo) (rest : list access) : Prop :=
  (exists done, tr_ w = done ++ rest) /\
  exists m', runs p m' rest (res_ w) (end_ w) /\
    forall a, In a (tr_ w) -> agree m m' (where_ a).

Definition apart (w w' : solo) : Prop :=
  forall a b, In a (tr_ w) -> In b (tr_ w') -> ~ conflict a b.

Definition inv (ws : list solo) (c : config) : Prop :=
  length ws = length (threads c) /\
  forall i w p, nth_error ws i = Some w -> nth_error (threads c) i = Some p ->
    exists rest, at_ (shared c) p w rest.

Lemma in_rest {A} (done rest l : list A) a : l = done ++ a :: rest -> In a l.
Proof. intros ->. apply in_or_app. right. now left. Qed.

Lemma at_step m p w a rest : at_ m p w (a :: rest) ->
  next p = Some a /\ at_ (snd (pstep p m)) (fst (pstep p m)) w rest /\
  forall x, x <> where_ a \/ writes a = false -> agree (snd (pstep p m)) m x.
Proof.
  intros ((done & D) & m' & Rn & G).
  destruct (runs_step _ _ _ _ _ _ m Rn (G a (in_rest _ _ _ _ D))) as (N & m2 & R2 & K & F).
  split; [exact N|]. split; [|exact F]. split.
  - exists (done ++ [a]). now rewrite <- app_assoc.
  - exists m2. split; [exact R2|]. intros b B. apply K. now apply G.
Qed.

Lemma at_done m p w : at_ m p w [] -> p = Ret (res_ w) /\
  forall a, In a (tr_ w) -> agree m (end_ w) (where_ a).
Proof.
  intros (_ & m' & Rn & G). destruct (runs_done _ _ _ _ Rn) as (E & ->). split; [exact E|exact G].
Qed.

(** A step of another thread. *)
Lemma at_frame m m' p w rest b :
  at_ m p w rest -> (forall x, x <> where_ b \/ writes b = false -> agree m' m x) ->
  (forall a, In a (tr_ w) -> ~ conflict a b) -> at_ m' p w rest.
Proof.
  intros (D & m0 & Rn & G) F C. split; [exact D|]. exists m0. split; [exact Rn|].
  intros a A. specialize (G a A).
  assert (H : agree m' m (where_ a)).
  { apply F. destruct (loc_eq_dec (where_ a) (where_ b)) as [E|E]; [|now left]. right.
    destruct (writes b) eqn:W; [|reflexivity]. exfalso. apply (C a A). split; [exact E|]. now right. }
  destruct (where_ a); cbn in *; congruence.
Qed.

Lemma conflict_sym a b : conflict a b -> conflict b a.
Proof. intros (E & W). split; [now symmetry|tauto]. Qed.

Definition pairwise_apart (ws : list solo) : Prop := forall i j w w', i <> j ->
  nth_error ws i = Some w -> nth_error ws j = Some w' -> apart w w'.

Lemma step_threads_length i c : length (threads (step i c)) = length (threads c).
Proof.
  unfold step. destruct (nth_error (threads c) i); [|reflexivity].
  destruct (pstep p (shared c)). cbn. apply replace_length.
Qed.

Lemma step_done i c p : nth_error (threads c) i = Some p -> next p = None ->
  forall j, nth_error (threads (step i c)) j = nth_error (threads c) j /\ shared (step i c) = shared c.
Proof.
  intros H N j. destruct (step_same _ _ _ H) as (T & Sh).
  assert (E : pstep p (shared c) = (p, shared c)) by (destruct p; try discriminate N; reflexivity).
  rewrite E in *. cbn in T, Sh. split; [|exact Sh]. destruct (Nat.eq_dec i j) as [<-|NE]; [congruence|now apply step_other].
Qed.

Lemma inv_step ws i c : pairwise_apart ws -> inv ws c -> inv ws (step i c).
Proof.
  intros PA (L & I). split; [now rewrite step_threads_length|].
  intros j w p W P.
  destruct (nth_error (threads c) i) as [pi|] eqn:Pi.
  2: { unfold step in P |- *. rewrite Pi in *. eauto. }
  assert (Wi : exists wi, nth_error ws i = Some wi).
  { destruct (nth_error ws i) eqn:E; [eauto|]. exfalso. apply nth_error_None in E.
    assert (i < length (threads c))%nat by (apply nth_error_Some; congruence). lia. }
  destruct Wi as (wi & Wi). destruct (I _ _ _ Wi Pi) as (rest & A). destruct (step_same _ _ _ Pi) as (T & Sh).
  destruct rest as [|a rest].
  - destruct (at_done _ _ _ A) as (-> & _). destruct (step_done _ _ _ Pi eq_refl j) as (E & E').
    rewrite E in P. rewrite E'. eauto.
  - destruct (at_step _ _ _ _ _ A) as (N & A' & F). destruct (Nat.eq_dec i j) as [<-|NE].
    + rewrite T in P. injection P as <-. rewrite W in Wi. injection Wi as <-. rewrite Sh. eauto.
    + rewrite step_other in P by exact NE. destruct (I _ _ _ W P) as (rest' & B). exists rest'.
      rewrite Sh. eapply at_frame; [exact B|exact F|]. intros b Hb C.
      apply (PA i j _ _ NE Wi W a b); [|exact Hb|now apply conflict_sym].
      destruct A as ((done & D) & _). eapply in_rest; eauto.
Qed.

Lemma inv_execute ws sched : forall c, pairwise_apart ws -> inv ws c -> inv ws (execute sched c).
Proof. induction sched; intros c PA I; cbn; [exact I|]. apply IHsched; [exact PA|]. now apply inv_step. Qed.

Lemma inv_not_racy ws c : pairwise_apart ws -> inv ws c -> ~ racy c.
Proof.
  intros PA (L & I) (i & j & p & q & a & b & NE & P & Q & Na & Nb & C).
  assert (W : forall k x, nth_error (threads c) k = Some x -> exists w, nth_error ws k = Some w).
  { intros k x H. destruct (nth_error ws k) eqn:E; [eauto|]. exfalso. apply nth_error_None in E.
    assert (k < length (threads c))%nat by (apply nth_error_Some; congruence). lia. }
  destruct (W _ _ P) as (w & Wi). destruct (W _ _ Q) as (w' & Wj).
  destruct (I _ _ _ Wi P) as (r1 & A1). destruct (I _ _ _ Wj Q) as (r2 & A2).
  assert (In1 : In a (tr_ w)).
  { destruct r1 as [|x r1].
    - destruct (at_done _ _ _ A1) as (-> & _). discriminate Na.
    - destruct (at_step _ _ _ _ _ A1) as (N & _). assert (x = a) as -> by congruence.
      destruct A1 as ((d & D) & _). eapply in_rest; eauto. }
  assert (In2 : In b (tr_ w')).
  { destruct r2 as [|x r2].
    - destruct (at_done _ _ _ A2) as (-> & _). discriminate Nb.
    - destruct (at_step _ _ _ _ _ A2) as (N & _). assert (x = b) as -> by congruence.
      destruct A2 as ((d & D) & _). eapply in_rest; eauto. }
  exact (PA _ _ _ _ NE Wi Wj _ _ In1 In2 C).
Qed.

(** Progress: each step of a thread that is not done brings it nearer to its end. *)
Lemma inv_progress ws i w sched : pairwise_apart ws -> nth_error ws i = Some w -> forall c, inv ws c ->
  forall p rest, nth_error (threads c) i = Some p -> at_ (shared c) p w rest ->
  (length rest <= count_occ Nat.eq_dec sched i)%nat ->
  exists p', nth_error (threads (execute sched c)) i = Some p' /\ at_ (shared (execute sched c)) p' w [].
Proof.
  intros PA W. induction sched as [|j sched IH]; intros c I p rest P A K; cbn in K |- *.
  - destruct rest; [eauto|cbn in K; lia].
  - pose proof (inv_step ws j c PA I) as I'. destruct (Nat.eq_dec j i) as [->|NE].
    + destruct (step_same _ _ _ P) as (T & Sh). destruct rest as [|a rest].
      * destruct (at_done _ _ _ A) as (Ep & _). destruct (step_done i c p P) with (j := i) as (E & E'); [now rewrite Ep|].
        apply (IH (step i c) I' p []); [congruence|rewrite E'; exact A|cbn; lia].
      * destruct (at_step _ _ _ _ _ A) as (_ & A' & _).
        apply (IH (step i c) I' _ rest T); [rewrite Sh; exact A'|cbn in K; lia].
    + assert (P' : nth_error (threads (step j c)) i = Some p) by (rewrite step_other; auto).
      destruct (nth_error (threads c) j) as [pj|] eqn:Pj.
      2: { assert (E : step j c = c) by (unfold step; now rewrite Pj). rewrite E in *. eapply IH; eauto. }
      destruct I as (L & I).
      assert (Wj : exists wj, nth_error ws j = Some wj).
      { destruct (nth_error ws j) eqn:E; [eauto|]. exfalso. apply nth_error_None in E.
        assert (j < length (threads c))%nat by (apply nth_error_Some; congruence). lia. }
      destruct Wj as (wj & Wj). destruct (I _ _ _ Wj Pj) as (rj & Aj). destruct (step_same _ _ _ Pj) as (T & Sh).
      apply (IH (step j c) I' p rest P'); [|exact K]. rewrite Sh. destruct rj as [|a rj].
      * destruct (at_done _ _ _ Aj) as (-> & _). exact A.
      * destruct (at_step _ _ _ _ _ Aj) as (_ & _ & F). eapply at_frame; [exact A|exact F|].
        intros b Hb C. apply (PA j i _ _ NE Wj W a b); [|exact Hb|now apply conflict_sym].
        destruct Aj as ((d & D) & _). eapply in_rest; eauto.
Qed.

(** *** Conflicting accesses *)
Definition conflictb (a b : access) : bool :=
  (if loc_eq_dec (where_ a) (where_ b) then true else false) && (writes a || writes b).
Lemma conflictb_iff a b : conflictb a b = true <-> conflict a b.
Proof.
  unfold conflictb, conflict. destruct (loc_eq_dec _ _) as [E|E]; cbn; [rewrite orb_true_iff; tauto|].
  split; [discriminate|tauto].
Qed.

Lemma split_first {A} (f : A -> bool) l : existsb f l = true ->
  exists pre a post, l = pre ++ a :: post /\ f a = true /\ forall b, In b pre -> f b = false.
Proof.
  induction l as [|x l IH]; cbn; [discriminate|]. destruct (f x) eqn:E.
  - intros _. exists [], x, l. split; [reflexivity|]. split; [exact E|intros b []].
  - intros H. destruct (IH H) as (pre & a & post & -> & Fa & N). exists (x :: pre), a, post.
    split; [reflexivity|]. split; [exact Fa|]. intros b [<-|B]; auto.
Qed.

(** Running one thread through a prefix of its accesses that conflict with nothing another
    thread does. *)
Lemma run_prefix i w pre : forall c p rest, nth_error (threads c) i = Some p ->
  at_ (shared c) p w (pre ++ rest) ->
  let c' := execute (repeat i (length pre)) c in
  exists p', nth_error (threads c') i = Some p' /\ at_ (shared c') p' w rest /\
    (forall j, j <> i -> nth_error (threads c') j = nth_error (threads c) j) /\
    (forall w' p0 r0, (forall a b, In a (tr_ w') -> In b pre -> ~ conflict a b) ->
       at_ (shared c) p0 w' r0 -> at_ (shared c') p0 w' r0).
Proof.
  induction pre as [|a pre IH]; intros c p rest P A; cbn [length repeat execute app] in *.
  - exists p. split; [exact P|]. split; [exact A|]. split; auto.
  - destruct (at_step _ _ _ _ _ A) as (_ & A' & F). destruct (step_same _ _ _ P) as (T & Sh).
    destruct (IH (step i c) _ rest T) as (p' & P' & A2 & O & K); [rewrite Sh; exact A'|].
    exists p'. split; [exact P'|]. split; [exact A2|]. split.
    + intros j J. rewrite O by exact J. apply step_other. congruence.
    + intros w' p0 r0 C B. apply K; [intros x y X Y; apply C; [exact X|now right]|].
      rewrite Sh. eapply at_frame; [exact B|exact F|]. intros x X. apply C; [exact X|now left].
Qed.

Lemma race i j w w' c p q : i <> j -> nth_error (threads c) i = Some p -> nth_error (threads c) j = Some q ->
  at_ (shared c) p w (tr_ w) -> at_ (shared c) q w' (tr_ w') ->
  (exists a b, In a (tr_ w) /\ In b (tr_ w') /\ conflict a b) -> exists sched, racy (execute sched c).
Proof.
  intros NE P Q A B (a0 & b0 & Ia & Ib & C).
  destruct (split_first (fun a => existsb (conflictb a) (tr_ w')) (tr_ w)) as (pre & a & post & E & Fa & N).
  { apply existsb_exists. exists a0. split; [exact Ia|]. apply existsb_exists. exists b0.
    split; [exact Ib|]. now apply conflictb_iff. }
  rewrite E in A. destruct (run_prefix i w pre c p (a :: post) P A) as (p1 & P1 & A1 & O1 & K1).
  assert (B1 : at_ (shared (execute (repeat i (length pre)) c)) q w' (tr_ w')).
  { apply K1; [|exact B]. intros x y X Y Cx. specialize (N y Y).
    assert (existsb (conflictb y) (tr_ w') = true); [|congruence]. apply existsb_exists. exists x.
    split; [exact X|]. apply conflictb_iff. now apply conflict_sym. }
  destruct (split_first (conflictb a) (tr_ w') Fa) as (pre2 & b & post2 & E2 & Fb & N2).
  assert (Q1 : nth_error (threads (execute (repeat i (length pre)) c)) j = Some q)
    by (rewrite O1; auto).
  rewrite E2 in B1. set (c1 := execute (repeat i (length pre)) c) in *.
  destruct (run_prefix j w' pre2 c1 q (b :: post2) Q1 B1) as (q2 & Q2 & B2 & O2 & K2).
  exists (repeat i (length pre) ++ repeat j (length pre2)). rewrite execute_app. fold c1.
  assert (P2 : nth_error (threads (execute (repeat j (length pre2)) c1)) i = Some p1) by (rewrite O2; auto).
  exists i, j, p1, q2, a, b. split; [exact NE|]. split; [exact P2|]. split; [exact Q2|].
  split; [exact (proj1 (at_step _ _ _ _ _ A1))|]. split; [exact (proj1 (at_step _ _ _ _ _ B2))|].
  now apply conflictb_iff.
Qed.
