(** C48: leaves over memory they do not own. *)

From Coq Require Import Reals Lra Lia List Bool Arith FunctionalExtensionality.
From Verif Require Import Mat ModelMeta ModelJac V3 ModelLeaf SpecLeaf LeafProofs ModelExpr SpecExpr ExprProofs PropsExpr
  Calc SpecDeriv DerivProofs DerivTree PropsDeriv SpecTotal PropsTotal PropsVec ModelMember ModelView SpecView.
Import ListNotations.
Local Open Scope R_scope.
Local Open Scope mat_scope.

(** ** Addresses *)

Lemma shape_pos l r c : shape l = Some (r, c) -> (0 < r)%nat /\ (0 < c)%nat.
Proof. destruct l; intros [= <- <-]; lia. Qed.

Lemma cell_at w r c i j : shape (v_leaf w) = Some (r, c) -> (i < r)%nat ->
  cell w (j * r + i) = (v_base w + j * v_stride w + i)%nat.
Proof.
  intros H Hi. unfold cell. rewrite H.
  replace (j * r + i)%nat with (i + j * r)%nat by lia.
  rewrite Nat.div_add, Nat.mod_add, Nat.div_small, Nat.mod_small by lia. lia.
Qed.

Lemma index_split w r c k : shape (v_leaf w) = Some (r, c) -> (k < stored_size (v_leaf w))%nat ->
  exists i j, (i < r)%nat /\ (j < c)%nat /\ k = (j * r + i)%nat.
Proof.
  intros H Hk. unfold stored_size in Hk. rewrite H in Hk. destruct (shape_pos _ _ _ H) as (R0 & C0).
  exists (k mod r)%nat, (k / r)%nat. split; [apply Nat.mod_upper_bound; lia|]. split.
  - apply Nat.div_lt_upper_bound; lia.
  - rewrite (Nat.div_mod k r) at 1; lia.
Qed.

Lemma cell_occupies w k : wf_view w -> (k < stored_size (v_leaf w))%nat -> occupies w (cell w k).
Proof.
  intros (r & c & H & _) Hk. destruct (index_split w r c k H Hk) as (i & j & Hi & Hj & ->).
  exists r, c, i, j. split; [exact H|]. split; [exact Hi|]. split; [exact Hj|]. now apply (cell_at w r c).
Qed.

Lemma cell_inj w k k' : wf_view w -> (k < stored_size (v_leaf w))%nat -> (k' < stored_size (v_leaf w))%nat ->
  cell w k = cell w k' -> k = k'.
Proof.
  intros (r & c & H & St) Hk Hk'.
  destruct (index_split w r c k H Hk) as (i & j & Hi & Hj & ->).
  destruct (index_split w r c k' H Hk') as (i' & j' & Hi' & Hj' & ->).
  rewrite !(cell_at w r c) by assumption. intros E.
  destruct St as [->|St]; [assert (j = 0 /\ j' = 0)%nat as (-> & ->) by lia; lia|].
  assert (j = j') as ->; [|lia].
  destruct (Nat.lt_trichotomy j j') as [L|[L|L]]; [exfalso|exact L|exfalso]; nia.
Qed.

(** ** Copying *)

Lemma poke_same s a x : poke s a x a = x.
Proof. unfold poke. now rewrite Nat.eqb_refl. Qed.
Lemma poke_other s a x b : b <> a -> poke s a x b = s b.
Proof. intros N. unfold poke. now rewrite (proj2 (Nat.eqb_neq _ _) N). Qed.

Lemma copy_in_other w c s a n : (forall k, (k < n)%nat -> cell w k <> a) -> copy_in w c n s a = s a.
Proof.
  induction n as [|n IH]; intros H; [reflexivity|]. cbn [copy_in].
  rewrite poke_other by (intros E; apply (H n); auto). apply IH. intros k Hk. apply H. lia.
Qed.

Lemma copy_in_cell w c s n : wf_view w -> (n <= stored_size (v_leaf w))%nat ->
  forall k, (k < n)%nat -> copy_in w c n s (cell w k) = c k.
Proof.
  intros W. induction n as [|n IH]; intros Hn k Hk; [lia|]. cbn [copy_in].
  destruct (Nat.eq_dec k n) as [->|N]; [apply poke_same|].
  rewrite poke_other; [apply IH; lia|]. intros E. apply N. apply (cell_inj w); [exact W|lia|lia|exact E].
Qed.

(** ** Coefficients *)

Lemma decode_ext l f g : (forall k, (k < stored_size l)%nat -> f k = g k) -> decode l f = decode l g.
Proof. intros H. destruct l; cbn in H |- *; try reflexivity; now rewrite !H by lia. Qed.

Lemma decode_coefs v l : vty v = Plain l -> shape l <> None -> decode l (coefs v) = Some v.
Proof.
  intros T N. destruct v as [s|[x y z]|[x y z]|[x y z]|[x y z] [x' y' z']|[q1 q2 q3 q4]|[a b c d e f g h i]
    |? ?|[a b c d e f g h i] [x y z] [x' y' z'] ?|? ?|?|?]; cbn in T; try discriminate T; injection T as <-;
    try (now destruct N); reflexivity.
Qed.

Lemma decode_type l f v : decode l f = Some v -> vty v = Plain l.
Proof. destruct l; cbn; intros [= <-]; reflexivity. Qed.

Lemma decode_some l f : shape l <> None -> exists v, decode l f = Some v.
Proof. intros N. destruct l; cbn; try (now destruct N); eauto. Qed.

(** Entry (i, j) of the value read is the number at base + j * stride + i. *)
Theorem c48_reads_layout : forall s w, wf_view w -> exists v, read s w = Some v /\
  vty v = Plain (v_leaf w) /\
  forall r c i j, shape (v_leaf w) = Some (r, c) -> (i < r)%nat -> (j < c)%nat ->
    entry v i j = s (v_base w + j * v_stride w + i)%nat.
Proof.
  intros s w (r & c & H & _).
  destruct (decode_some (v_leaf w) (fun k => s (cell w k))) as (v & E); [congruence|].
  exists v. split; [exact E|]. split; [exact (decode_type _ _ _ E)|].
  intros r' c' i j H' Hi Hj. rewrite <- (cell_at w r' c' i j H' Hi).
  unfold read in E. generalize dependent (cell w). intros ce E.
  destruct (v_leaf w); cbn in H', E; try discriminate H'; injection H' as <- <-; injection E as <-;
    repeat (destruct i as [|i]; [|try lia]); try lia;
    repeat (destruct j as [|j]; [|try lia]); try lia; reflexivity.
Qed.
Print Assumptions c48_reads_layout.

(** ** Assignment *)

Lemma sees_env_of own views s m : sees own views s m -> m = env_of own views s.
Proof.
  intros H. apply functional_extensionality. intros a. specialize (H a). unfold env_of.
  destruct (views a) as [w|]; [now rewrite H|exact H].
Qed.

(** w = e: the view takes the value the expression had before, whatever memory its leaves
    share with w; nothing outside the view changes. *)
Theorem c48_assigns_through_view : forall eps own views s w e m d, 0 <= eps -> wf_view w ->
  sees own views s m -> good eps m e (kind_of (v_leaf w)) -> means eps m e = Some d ->
  exists s' v, assign_view eps own views s w e = Some s' /\
    read s' w = Some v /\ den v = d /\ vty v = Plain (v_leaf w) /\ valid v /\
    forall a, ~ occupies w a -> s' a = s a.
Proof.
  intros eps own views s w e m d He W Sm G M. rewrite (sees_env_of own views s m Sm) in G, M.
  destruct (c45_evaluateTo_same_value eps _ e (kind_of (v_leaf w)) (v_leaf w) He G eq_refl) as (S1 & S2).
  unfold means in M. rewrite M in S1.
  destruct (evaluateTo eps (Plain (v_leaf w)) (env_of own views s) e) as [v|] eqn:E; [|discriminate S1].
  injection S1 as S1. destruct (S2 v eq_refl) as (T & V).
  assert (Hsh : shape (v_leaf w) <> None) by (destruct W as (r & c & H & _); congruence).
  exists (copy_in w (coefs v) (stored_size (v_leaf w)) s), v. split.
  - unfold assign_view. rewrite E. destruct (shape (v_leaf w)); [reflexivity|now destruct Hsh].
  - split; [|split; [exact S1|split; [exact T|split; [exact V|]]]].
    + unfold read. rewrite <- (decode_coefs v _ T Hsh). apply decode_ext. intros k Hk.
      now apply copy_in_cell.
    + intros a Ha. apply copy_in_other. intros k Hk Ek. apply Ha. rewrite <- Ek. now apply cell_occupies.
Qed.
Print Assumptions c48_assigns_through_view.

Lemma read_ext s s' w : wf_view w -> (forall a, occupies w a -> s' a = s a) -> read s' w = read s w.
Proof. intros W H. apply decode_ext. intros k Hk. apply H. now apply cell_occupies. Qed.

Lemma leaf_of_xleaves p a : In a (leaf_addrs p) <-> exists t, In (a, t) (xleaves p).
Proof.
  induction p as [b t|o p IH|o l IHl r IHr]; cbn.
  - split; [intros [->|[]]; eauto|]. intros (t' & [E|[]]). injection E as -> _. auto.
  - exact IH.
  - rewrite in_app_iff, IHl, IHr. split.
    + intros [(t & H)|(t & H)]; exists t; apply in_app_iff; auto.
    + intros (t & H). apply in_app_iff in H as [H|H]; eauto.
Qed.

Lemma env_of_unaffected own views s s' w a : (forall b, ~ occupies w b -> s' b = s b) ->
  (forall w', views a = Some w' -> wf_view w' /\ disjoint w w') ->
  env_of own views s' a = env_of own views s a.
Proof.
  intros H D. unfold env_of. destruct (views a) as [w'|]; [|reflexivity].
  destruct (D w' eq_refl) as (W & Dj). rewrite (read_ext s s' w' W); [reflexivity|].
  intros b Hb. apply H. intros Ho. now apply (Dj b).
Qed.

Lemma eval_p_leaves eps m m' p : (forall a, In a (leaf_addrs p) -> m a = m' a) ->
  eval_p eps m p = eval_p eps m' p.
Proof.
  induction p as [a t|o p IH|o l IHl r IHr]; cbn; intros H.
  - now rewrite H by auto.
  - now rewrite IH.
  - rewrite IHl, IHr; auto; intros; apply H; apply in_app_iff; auto.
Qed.

(** Expressions over other memory are not affected by writing through a view. *)
Theorem c48_disjoint_unaffected : forall eps own views s s' w e m m',
  sees own views s m -> sees own views s' m' ->
  (forall a, ~ occupies w a -> s' a = s a) ->
  (forall a w', In a (leaf_addrs e) -> views a = Some w' -> wf_view w' /\ disjoint w w') ->
  eval eps m' e = eval eps m e.
Proof.
  intros eps own views s s' w e m m' Sm Sm' H D.
  rewrite (sees_env_of own views s m Sm), (sees_env_of own views s' m' Sm'). unfold eval, evaluateTo.
  destruct (prepare e) as [[p t]|] eqn:P; [|reflexivity].
  destruct (prepare_to (plain_output t) e) as [[p' t']|] eqn:P'; [|reflexivity].
  apply eval_p_leaves. intros a Ha. apply (env_of_unaffected own views s s' w a H).
  intros w'. apply D. apply leaf_of_xleaves. rewrite <- (prepare_to_leaves _ _ _ _ P').
  now apply leaf_of_xleaves.
Qed.
Print Assumptions c48_disjoint_unaffected.

(** ** Derivatives *)

(** Several leaves [S] of an expression look at the same memory [w].  When that memory
    moves, the value moves with the sum of the Jacobians with respect to each of them:
    each Jacobian is only that leaf's contribution. *)
Theorem c48_shared_memory_derivative : forall eps na own views s w e k x S J, 0 <= eps < 1 ->
  wf_view w -> good eps (env_of own views s) e k -> means eps (env_of own views s) e = Some x -> NoDup S ->
  (forall a, In a S -> In a (leaf_addrs e) /\ views a = Some w /\
     smooth eps (fun b => den (env_of own views s b)) a e /\
     expr_jacobian eps na (env_of own views s) e (leaf_obj a (Plain (v_leaf w))) = Some (Ok (J a))) ->
  (forall a w', In a (leaf_addrs e) -> ~ In a S -> views a = Some w' -> wf_view w' /\ disjoint w w') ->
  forall (sigma : R -> mem) (v : R -> value) d, sigma 0 = s ->
  (forall h a, ~ occupies w a -> sigma h a = s a) ->
  (forall h, read (sigma h) w = Some (v h)) -> moves (fun h => den (v h)) d ->
  moves_opt (fun h => deval eps (fun b => den (env_of own views (sigma h) b)) e)
    (fun i => sum_over S (fun a => mvec (J a) d i)).
Proof.
  intros eps na own views s w e k x S J He W G Hx ND HS HD sigma v d S0 Ho Hr Mv.
  assert (E0 : forall a, In a S -> env_of own views s a = v 0).
  { intros a Ha. destruct (HS a Ha) as (_ & Va & _). unfold env_of. now rewrite Va, <- S0, Hr. }
  assert (Tv : vty (v 0) = Plain (v_leaf w)) by (apply (decode_type _ _ _ (Hr 0))).
  pose proof (c46_joint_motion eps na (env_of own views s) e k x S J He G Hx ND) as U.
  assert (U' : forall c dd, (forall a, In a S -> c a 0 = den (env_of own views s a) /\ moves (c a) (dd a)) ->
    moves_opt (fun t => deval eps (dmoved (fun b => den (env_of own views s b)) S c t) e)
      (fun i => sum_over S (fun a => mvec (J a) (dd a) i))).
  { apply U. intros a Ha. destruct (HS a Ha) as (A & B & C & D). split; [exact A|].
    rewrite (E0 a Ha), Tv. split; [eauto|]. split; [exact C|exact D]. }
  specialize (U' (fun _ h => den (v h)) (fun _ => d)).
  destruct U' as (y & Ny & My).
  { intros a Ha. split; [now rewrite (E0 a Ha)|exact Mv]. }
  exists y. split; [|exact My].
  apply (near_impl _ _) with (2 := Ny). intros h Eh. rewrite <- Eh.
  apply deval_ext; [clear; induction e; cbn; auto|]. intros b Hb. unfold dmoved.
  destruct (List.in_dec Nat.eq_dec b S) as [I|N].
  - destruct (HS b I) as (_ & Vb & _). unfold env_of. now rewrite Vb, Hr.
  - f_equal. apply (env_of_unaffected own views s (sigma h) w b (Ho h)). intros w' E. now apply (HD b).
Qed.
Print Assumptions c48_shared_memory_derivative.

(** ** Parts of a transform or twist *)

Lemma block_write w b (f : nat -> nat) c s : wf_view w -> wf_view b ->
  (forall k, (k < stored_size (v_leaf b))%nat ->
     cell b k = cell w (f k) /\ (f k < stored_size (v_leaf w))%nat) ->
  let s' := copy_in b c (stored_size (v_leaf b)) s in
  (forall k, (k < stored_size (v_leaf b))%nat -> s' (cell w (f k)) = c k) /\
  (forall k, (k < stored_size (v_leaf w))%nat ->
     (forall i, (i < stored_size (v_leaf b))%nat -> f i <> k) -> s' (cell w k) = s (cell w k)).
Proof.
  intros Ww Wb F s'. split.
  - intros k Hk. destruct (F k Hk) as (<- & _). now apply copy_in_cell.
  - intros k Hk N. apply copy_in_other. intros i Hi E. destruct (F i Hi) as (Ei & Hf).
    rewrite Ei in E. apply (N i Hi). apply (cell_inj w); auto.
Qed.

(** The blocks of a 4x4 matrix or of a twist are views whose value is the part, and writing
    through them assigns the part. *)
Theorem c48_blocks_are_parts : forall s w v p b, wf_view w -> read s w = Some v ->
  (p = PRotation /\ rotation_block w = Some b) \/ (p = PTranslation /\ translation_block w = Some b) ->
  wf_view b /\ (forall a, occupies b a -> occupies w a) /\
  read s b = get_part p v /\
  forall x, vty x = Plain (v_leaf b) ->
    read (copy_in b (coefs x) (stored_size (v_leaf b)) s) w = set_part p v x.
Proof.
  intros s w v p b (r & c & H & St) Hv Hb.
  assert (Wb : wf_view b /\ (forall a, occupies b a -> occupies w a)).
  { unfold rotation_block, translation_block in Hb.
    destruct (v_leaf w) eqn:L; destruct Hb as [(-> & E)|(-> & E)]; try discriminate E; injection E as <-;
      cbn in H; injection H as <- <-; cbn [v_leaf v_base v_stride].
    - split; [exists 3%nat, 1%nat; split; [reflexivity|auto]|].
      intros a (r & c & i & j & E & Hi & Hj & ->). cbn in E. injection E as <- <-.
      exists 6%nat, 1%nat, i, j. rewrite L. cbn [v_base v_stride]. repeat split; lia.
    - split; [exists 3%nat, 1%nat; split; [reflexivity|auto]|].
      intros a (r & c & i & j & E & Hi & Hj & ->). cbn in E. injection E as <- <-.
      exists 6%nat, 1%nat, (3 + i)%nat, j. rewrite L. cbn [v_base v_stride]. repeat split; lia.
    - split; [exists 3%nat, 3%nat; split; [reflexivity|cbn; right; lia]|].
      intros a (r & c & i & j & E & Hi & Hj & ->). cbn in E. injection E as <- <-.
      exists 4%nat, 4%nat, i, j. rewrite L. cbn [v_base v_stride]. repeat split; lia.
    - split; [exists 3%nat, 1%nat; split; [reflexivity|auto]|].
      intros a (r & c & i & j & E & Hi & Hj & ->). cbn in E. injection E as <- <-.
      exists 4%nat, 4%nat, i, 3%nat. rewrite L. cbn [v_base v_stride]. repeat split; try lia. }
  destruct Wb as (Wb & Sub). split; [exact Wb|]. split; [exact Sub|].
  assert (Ww : wf_view w) by (exists r, c; auto).
  unfold read in *.
  destruct w as [base st l]. unfold rotation_block, translation_block in Hb. cbn [v_leaf v_base v_stride] in *.
  set (w := View base st l) in *.
  destruct l; destruct Hb as [(-> & E)|(-> & E)]; try discriminate E; injection E as Eb;
    cbn in H; injection H as <- <-; injection Hv as <-.
  - assert (F : forall k, (k < stored_size (v_leaf b))%nat -> cell b k = cell w k /\ (k < stored_size (v_leaf w))%nat).
    { subst b. unfold w. intros k Hk. cbn in Hk. split; [|cbn; lia].
      do 3 (destruct k as [|k]; [cbn; lia|]). lia. }
    split.
    + subst b. cbn [v_leaf decode get_part]. now rewrite (proj1 (F 0%nat ltac:(cbn; lia))),
        (proj1 (F 1%nat ltac:(cbn; lia))), (proj1 (F 2%nat ltac:(cbn; lia))).
    + intros x Tx. destruct (block_write w b (fun k => k) (coefs x) s Ww Wb F) as (A & B). cbv zeta in A, B.
      set (s' := copy_in b (coefs x) (stored_size (v_leaf b)) s) in *. clearbody s'.
      subst b. cbn [v_leaf stored_size shape] in *. destruct x; try discriminate Tx. cbn [decode set_part].
      rewrite (A 0%nat), (A 1%nat), (A 2%nat) by (cbn; lia).
      rewrite (B 3%nat), (B 4%nat), (B 5%nat) by (cbn; lia). now destruct v.
  - assert (F : forall k, (k < stored_size (v_leaf b))%nat -> cell b k = cell w (3 + k) /\ (3 + k < stored_size (v_leaf w))%nat).
    { subst b. unfold w. intros k Hk. cbn in Hk. split; [|cbn; lia].
      do 3 (destruct k as [|k]; [cbn; lia|]). lia. }
    split.
    + subst b. cbn [v_leaf decode get_part]. now rewrite (proj1 (F 0%nat ltac:(cbn; lia))),
        (proj1 (F 1%nat ltac:(cbn; lia))), (proj1 (F 2%nat ltac:(cbn; lia))).
    + intros x Tx. destruct (block_write w b (fun k => 3 + k)%nat (coefs x) s Ww Wb F) as (A & B). cbv zeta in A, B.
      set (s' := copy_in b (coefs x) (stored_size (v_leaf b)) s) in *. clearbody s'.
      subst b. cbn [v_leaf stored_size shape] in *. destruct x; try discriminate Tx. cbn [decode set_part].
      pose proof (A 0%nat ltac:(cbn; lia)) as A0. pose proof (A 1%nat ltac:(cbn; lia)) as A1.
      pose proof (A 2%nat ltac:(cbn; lia)) as A2. cbn [Nat.add] in A0, A1, A2. rewrite A0, A1, A2.
      rewrite (B 0%nat), (B 1%nat), (B 2%nat) by (cbn; lia). now destruct v.
  - assert (F : forall k, (k < stored_size (v_leaf b))%nat ->
      cell b k = cell w (k / 3 * 4 + k mod 3) /\ (k / 3 * 4 + k mod 3 < stored_size (v_leaf w))%nat).
    { subst b. unfold w. intros k Hk. cbn in Hk.
      do 9 (destruct k as [|k]; [split; [reflexivity|cbn; lia]|]). lia. }
    split.
    + subst b. cbn [v_leaf decode get_part].
      rewrite (proj1 (F 0%nat ltac:(cbn; lia))), (proj1 (F 1%nat ltac:(cbn; lia))), (proj1 (F 2%nat ltac:(cbn; lia))),
        (proj1 (F 3%nat ltac:(cbn; lia))), (proj1 (F 4%nat ltac:(cbn; lia))), (proj1 (F 5%nat ltac:(cbn; lia))),
        (proj1 (F 6%nat ltac:(cbn; lia))), (proj1 (F 7%nat ltac:(cbn; lia))), (proj1 (F 8%nat ltac:(cbn; lia))).
      reflexivity.
    + intros x Tx. destruct (block_write w b (fun k => k / 3 * 4 + k mod 3)%nat (coefs x) s Ww Wb F) as (A & B).
      cbv zeta in A, B.
      set (s' := copy_in b (coefs x) (stored_size (v_leaf b)) s) in *. clearbody s'.
      subst b. cbn [v_leaf stored_size shape] in *. destruct x; try discriminate Tx. cbn [decode set_part].
      assert (Bk : forall k, In k [3; 7; 11; 12; 13; 14; 15]%nat -> s' (cell w k) = s (cell w k)).
      { intros k Hk. apply B.
        - cbn in Hk. cbn. lia.
        - intros i Hi. do 9 (destruct i as [|i]; [cbn in Hk |- *; lia|]). cbn in Hi. lia. }
      pose proof (A 0%nat ltac:(cbn; lia)) as A0. pose proof (A 1%nat ltac:(cbn; lia)) as A1.
      pose proof (A 2%nat ltac:(cbn; lia)) as A2. pose proof (A 3%nat ltac:(cbn; lia)) as A3.
      pose proof (A 4%nat ltac:(cbn; lia)) as A4. pose proof (A 5%nat ltac:(cbn; lia)) as A5.
      pose proof (A 6%nat ltac:(cbn; lia)) as A6. pose proof (A 7%nat ltac:(cbn; lia)) as A7.
      pose proof (A 8%nat ltac:(cbn; lia)) as A8.
      cbn [Nat.div Nat.modulo Nat.divmod fst snd Nat.mul Nat.add Nat.sub] in A0, A1, A2, A3, A4, A5, A6, A7, A8.
      rewrite A0, A1, A2, A3, A4, A5, A6, A7, A8.
      rewrite !Bk by (cbn; tauto). now destruct m.
  - assert (F : forall k, (k < stored_size (v_leaf b))%nat -> cell b k = cell w (12 + k) /\ (12 + k < stored_size (v_leaf w))%nat).
    { subst b. unfold w. intros k Hk. cbn in Hk. split; [|cbn; lia].
      do 3 (destruct k as [|k]; [cbn; lia|]). lia. }
    split.
    + subst b. cbn [v_leaf decode get_part]. now rewrite (proj1 (F 0%nat ltac:(cbn; lia))),
        (proj1 (F 1%nat ltac:(cbn; lia))), (proj1 (F 2%nat ltac:(cbn; lia))).
    + intros x Tx. destruct (block_write w b (fun k => 12 + k)%nat (coefs x) s Ww Wb F) as (A & B). cbv zeta in A, B.
      set (s' := copy_in b (coefs x) (stored_size (v_leaf b)) s) in *. clearbody s'.
      subst b. cbn [v_leaf stored_size shape] in *. destruct x; try discriminate Tx. cbn [decode set_part].
      pose proof (A 0%nat ltac:(cbn; lia)) as A0. pose proof (A 1%nat ltac:(cbn; lia)) as A1.
      pose proof (A 2%nat ltac:(cbn; lia)) as A2. cbn [Nat.add] in A0, A1, A2. rewrite A0, A1, A2.
      assert (Bk : forall k, In k [0; 1; 2; 3; 4; 5; 6; 7; 8; 9; 10; 11; 15]%nat -> s' (cell w k) = s (cell w k)).
      { intros k Hk. apply B; [cbn in Hk; cbn; lia|]. intros i Hi. cbn in Hi, Hk. lia. }
      rewrite !Bk by (cbn; tauto). now destruct v.
Qed.
Print Assumptions c48_blocks_are_parts.

(** ** Copying one view into another of the same type *)

Lemma copy_across_other w src s a n : (forall k, (k < n)%nat -> cell w k <> a) -> copy_across w src n s a = s a.
Proof.
  induction n as [|n IH]; intros H; [reflexivity|]. cbn [copy_across]. cbv zeta.
  rewrite poke_other by (intros E; apply (H n); auto). apply IH. intros k Hk. apply H. lia.
Qed.

Lemma copy_across_cell w src s n : wf_view w -> (n <= stored_size (v_leaf w))%nat ->
  (forall k i, (k < n)%nat -> (i < k)%nat -> cell w i <> cell src k) ->
  forall k, (k < n)%nat -> copy_across w src n s (cell w k) = s (cell src k).
Proof.
  intros W. induction n as [|n IH]; intros Hn D k Hk; [lia|]. cbn [copy_across]. cbv zeta.
  destruct (Nat.eq_dec k n) as [->|N].
  - rewrite poke_same. apply copy_across_other. intros i Hi. apply D; lia.
  - rewrite poke_other.
    + apply IH; [lia| |lia]. intros k' i Hk' Hi. apply D; lia.
    + intros E. apply N. apply (cell_inj w); [exact W|lia|lia|exact E].
Qed.

(** Between views of disjoint memory, or of the same memory, [w = src] makes [w] read as
    [src] read before and changes nothing outside [w]. *)
Theorem c48_copy_assign : forall s w src v, wf_view w -> wf_view src -> v_leaf w = v_leaf src ->
  disjoint w src \/ w = src -> read s src = Some v ->
  read (copy_assign s w src) w = Some v /\ (forall a, ~ occupies w a -> copy_assign s w src a = s a).
Proof.
  intros s w src v W Ws L D Hv. split.
  - rewrite <- Hv. unfold read, copy_assign. rewrite <- L. apply decode_ext. intros k Hk.
    apply copy_across_cell; auto. intros k' i Hk' Hi E. destruct D as [D| <-].
    + apply (D (cell w i)). split; [apply cell_occupies; auto; lia|]. rewrite E. apply cell_occupies; auto.
      now rewrite <- L.
    + apply cell_inj in E; auto; lia.
  - intros a Ha. apply copy_across_other. intros k Hk E. apply Ha. rewrite <- E. now apply cell_occupies.
Qed.
Print Assumptions c48_copy_assign.

(** Overlapping but different memory: a translation mapped at address 0 copied into one
    mapped at address 1 repeats the first coordinate instead of copying (0, 1, 2). *)
Theorem c48_overlapping_copy_refuted : exists s w src v, wf_view w /\ wf_view src /\
  v_leaf w = v_leaf src /\ read s src = Some v /\ read (copy_assign s w src) w <> Some v.
Proof.
  exists (fun a => INR a), (View 1 3 LTrans), (View 0 3 LTrans), (VTrans (mkV 0 1 2)).
  split; [exists 3%nat, 1%nat; split; [reflexivity|auto]|].
  split; [exists 3%nat, 1%nat; split; [reflexivity|auto]|].
  split; [reflexivity|]. split; [reflexivity|]. cbn.
  intros E. injection E as E. lra.
Qed.
Print Assumptions c48_overlapping_copy_refuted.

(** ** The raw array of a factor variable *)

(** data() and size() describe exactly the variable's coordinates: the array is
    contiguous, every value of the type is some content of it, and two contents give the
    same value only if they are equal entry by entry. *)
Theorem c48_variable_data : forall l b w, variable_data l b = Some w ->
  wf_view w /\ v_leaf w = l /\
  (forall a, occupies w a <-> (b <= a < b + stored_size l)%nat) /\
  (forall v, vty v = Plain l -> exists s, read s w = Some v) /\
  (forall s s', read s w = read s' w <-> forall k, (k < stored_size l)%nat -> s (b + k)%nat = s' (b + k)%nat).
Proof.
  intros l b w H.
  assert (W : wf_view w /\ v_leaf w = l /\ shape l <> None /\
              forall k, (k < stored_size l)%nat -> cell w k = (b + k)%nat).
  { destruct l; cbn in H; try discriminate H; injection H as <-;
      (split; [eexists _, _; split; [reflexivity|cbn; lia]|]); (split; [reflexivity|]); (split; [discriminate|]);
      intros k Hk; cbn in Hk; do 16 (destruct k as [|k]; [cbn; lia|]); lia. }
  destruct W as (W & L & Sh & C). split; [exact W|]. split; [exact L|]. split; [|split].
  - intros a. split.
    + intros (r & c & i & j & E & Hi & Hj & ->). rewrite <- (cell_at w r c i j E Hi). rewrite L in E.
      assert (j * r + i < stored_size l)%nat.
      { unfold stored_size. rewrite E. nia. }
      rewrite C by assumption. lia.
    + intros Ha. replace a with (b + (a - b))%nat by lia. rewrite <- C by lia.
      apply cell_occupies; [exact W|rewrite L; lia].
  - intros v Tv. exists (fun a => coefs v (a - b)). unfold read. rewrite L.
    rewrite <- (decode_coefs v l Tv Sh). apply decode_ext. intros k Hk. rewrite C by assumption.
    f_equal. lia.
  - intros s s'. unfold read. rewrite L. split.
    + intros E k Hk. rewrite <- C by assumption. clear C W L. generalize dependent (cell w).
      intros ce E. destruct l; cbn in H, E, Hk; try discriminate H; injection E; intros;
        do 16 (destruct k as [|k]; [first [assumption|exfalso; lia]|]); lia.
    + intros E. apply decode_ext. intros k Hk. rewrite C by assumption. now apply E.
Qed.
Print Assumptions c48_variable_data.

(** ** Non-vacuity *)

(** A 4x4 transform in memory whose columns are five cells apart, with its two blocks, and
    a translation elsewhere. *)
Definition ex_rt := View 0 5 LMatRT.
Definition ex_tr := View 20 3 LTrans.

Example c48_views_wf : wf_view ex_rt /\ wf_view ex_tr /\ disjoint ex_rt ex_tr.
Proof.
  split; [exists 4%nat, 4%nat; split; [reflexivity|cbn; lia]|].
  split; [exists 3%nat, 1%nat; split; [reflexivity|auto]|].
  intros a ((r & c & i & j & E & Hi & Hj & ->) & (r' & c' & i' & j' & E' & Hi' & Hj' & E2)).
  cbn in E, E', E2. injection E as <- <-. injection E' as <- <-. lia.
Qed.

Example c48_blocks_example : rotation_block ex_rt = Some (View 0 5 LMat) /\
  translation_block ex_rt = Some (View 15 5 LTrans) /\
  read (fun a => INR a) (View 15 5 LTrans) = Some (VTrans (mkV (INR 15) (INR 16) (INR 17))).
Proof. repeat split. Qed.

Example c48_variable_example : variable_data LMat 7 = Some (View 7 3 LMat).
Proof. reflexivity. Qed.


(** Two leaves, 30 and 31, over the same translation in memory: p = R * p + p.  The
    assignment reads the old memory throughout, and the derivative of R * p + p with
    respect to that memory is the sum of two Jacobians. *)
Definition ex_views (a : nat) : option view :=
  match a with 30 | 31 => Some ex_tr | _ => None end%nat.
Definition ex_sum : expr :=
  XBin OSum (XBin ORotate (XLeaf 1 (Plain LMat)) (XLeaf 30 (Plain LTrans))) (XLeaf 31 (Plain LTrans)).
Lemma ex_sum_good s : good (1/4) (env_of ex_m ex_views s) ex_sum KTrans.
Proof.
  split; [reflexivity|]. split; [|cbn; tauto]. cbn. repeat split; auto; apply ex_rot.
Qed.
Lemma ex_sum_smooth m a : smooth (1/4) m a ex_sum.
Proof. cbn. repeat split; intros _ _; discriminate. Qed.

Example c48_assign_example : forall s, exists s', assign_view (1/4) ex_m ex_views s ex_tr ex_sum = Some s' /\
  read s' ex_tr = Some (VTrans (mkV (s 20%nat - s 21%nat) (s 20%nat + s 21%nat) (2 * s 22%nat))) /\
  forall a, ~ occupies ex_tr a -> s' a = s a.
Proof.
  intros s.
  destruct (c48_assigns_through_view (1/4) ex_m ex_views s ex_tr ex_sum (env_of ex_m ex_views s)
    (DTrans (mkV (s 20%nat - s 21%nat) (s 20%nat + s 21%nat) (2 * s 22%nat)))) as (s' & v & A & B & D & T & _ & U).
  - lra.
  - apply c48_views_wf.
  - intros a. unfold env_of. do 32 (destruct a as [|a]; [reflexivity|]). reflexivity.
  - apply ex_sum_good.
  - rewrite (good_means (1/4) _ _ _ ltac:(lra) (ex_sum_good s)). cbn. do 2 apply f_equal. v3unf. f_equal; ring.
  - exists s'. split; [exact A|]. split; [|exact U]. rewrite B. destruct v; try discriminate T. cbn in D. congruence.
Qed.

Example c48_derivative_example : forall s, exists J, forall (sigma : R -> mem) v d, sigma 0 = s ->
  (forall h a, ~ occupies ex_tr a -> sigma h a = s a) ->
  (forall h, read (sigma h) ex_tr = Some (v h)) -> moves (fun h => den (v h)) d ->
  moves_opt (fun h => deval (1/4) (fun b => den (env_of ex_m ex_views (sigma h) b)) ex_sum)
    (fun i => mvec (J 30%nat) d i + (mvec (J 31%nat) d i + 0)).
Proof.
  intros s. set (m := env_of ex_m ex_views s).
  assert (He : 0 <= 1/4 < 1) by lra.
  pose proof (ex_sum_good s) as G.
  assert (exists x, means (1/4) m ex_sum = Some x) as (x & Hx).
  { unfold m. rewrite (good_means (1/4) _ _ _ (proj1 He) G). cbn. eexists; reflexivity. }
  exists (fun a => match expr_jacobian (1/4) 100 m ex_sum (leaf_obj a (Plain LTrans)) with
                   | Some (Ok j) => j | _ => mid 0 end).
  intros sigma v d S0 Ho Hr Mv.
  apply (c48_shared_memory_derivative (1/4) 100 ex_m ex_views s ex_tr ex_sum KTrans x [30; 31]%nat
    (fun a => match expr_jacobian (1/4) 100 m ex_sum (leaf_obj a (Plain LTrans)) with
                   | Some (Ok j) => j | _ => mid 0 end) He) with (v := v); auto.
  - apply c48_views_wf.
  - repeat constructor; cbn; intuition congruence.
  - intros a Ha.
    assert (Hi : In a (leaf_addrs ex_sum)) by (cbn in *; tauto).
    assert (Ea : vty (m a) = Plain LTrans) by (destruct Ha as [<-|[<-|[]]]; reflexivity).
    split; [exact Hi|]. split; [destruct Ha as [<-|[<-|[]]]; reflexivity|]. split; [apply ex_sum_smooth|].
    destruct (c01_jacobian_is_derivative (1/4) 100 m ex_sum KTrans a LTrans x He G Hx Hi Ea
      (ex_sum_smooth _ a)) as (_ & j & Ej & _).
    fold m. cbn [v_leaf ex_tr]. now rewrite Ej.
  - intros a w' Ha N. cbn in Ha, N. destruct Ha as [<-|[<-|[<-|[]]]]; try tauto. discriminate.
Qed.
