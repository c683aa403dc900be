(** Theorems about block matrices (C31), MatrixMap (C33) and the conversion
    search (C11). *)

From Coq Require Import Reals List Arith Bool Lia Lra.
From Verif Require Import Mat ModelMeta SpecMeta MetaProofs.
Import ListNotations.
Local Open Scope mat_scope.

(** *** C31 *)

Lemma c31_in_range_aux ls rs M i j :
  (i < length ls)%nat -> (j < length rs)%nat ->
  blockWrt ls rs M i j
  = Some (mblock M (start_of ls i) (start_of rs j) (nth i ls 0%nat) (nth j rs 0%nat)).
Proof.
  intros Hi Hj. unfold blockWrt. rewrite !block_range_spec.
  rewrite (nth_error_nth' ls 0%nat Hi), (nth_error_nth' rs 0%nat Hj). reflexivity.
Qed.

(** A block exists exactly for indices in range, and has the sizes of its
    components. *)
Theorem c31_block_shape : forall ls rs M i j,
  match blockWrt ls rs M i j with
  | Some B => (i < length ls)%nat /\ (j < length rs)%nat /\
              mrows B = nth i ls 0%nat /\ mcols B = nth j rs 0%nat
  | None => (length ls <= i)%nat \/ (length rs <= j)%nat
  end.
Proof.
  intros ls rs M i j.
  destruct (Nat.lt_ge_cases i (length ls)) as [Hi|Hi].
  - destruct (Nat.lt_ge_cases j (length rs)) as [Hj|Hj].
    + rewrite c31_in_range_aux by auto. simpl. auto.
    + unfold blockWrt. rewrite !block_range_spec.
      rewrite (proj2 (nth_error_None rs j) Hj). destruct (nth_error ls i); auto.
  - unfold blockWrt. rewrite !block_range_spec.
    rewrite (proj2 (nth_error_None ls i) Hi). auto.
Qed.
Print Assumptions c31_block_shape.

(** Writing a block changes that block to the written matrix and leaves every
    other block as it was. *)
Theorem c31_write_read : forall ls rs M i j i' j' B,
  mrows M = list_sum ls -> mcols M = list_sum rs ->
  (i < length ls)%nat -> (j < length rs)%nat ->
  (i' < length ls)%nat -> (j' < length rs)%nat ->
  has_shape (nth i ls 0%nat) (nth j rs 0%nat) B ->
  exists M' B' C',
    set_blockWrt ls rs M i j B = Some M' /\
    mrows M' = mrows M /\ mcols M' = mcols M /\
    blockWrt ls rs M' i j = Some B' /\ B' == B /\
    ((i', j') <> (i, j) ->
       exists C, blockWrt ls rs M i' j' = Some C /\
                 blockWrt ls rs M' i' j' = Some C' /\ C' == C).
Proof.
  intros ls rs M i j i' j' B Hr Hc Hi Hj Hi' Hj' HB.
  unfold set_blockWrt. rewrite !block_range_spec.
  pose proof (nth_error_nth' ls 0%nat Hi) as Ei.
  pose proof (nth_error_nth' rs 0%nat Hj) as Ej.
  pose proof (nth_error_nth' ls 0%nat Hi') as Ei'.
  pose proof (nth_error_nth' rs 0%nat Hj') as Ej'.
  rewrite Ei, Ej. do 3 eexists. split; [reflexivity|]. split; [reflexivity|].
  split; [reflexivity|]. split; [apply c31_in_range_aux; auto|]. split.
  - apply mblock_mset_same; auto.
    + rewrite Hr. apply start_of_end. exact Ei.
    + rewrite Hc. apply start_of_end. exact Ej.
  - intros Hne. eexists. split; [apply c31_in_range_aux; auto|].
    split; [apply c31_in_range_aux; auto|].
    apply mblock_mset_other. intros x Hx' Hx y Hy' Hy.
    destruct (Nat.eq_dec i' i) as [->|Hni].
    + destruct (Nat.eq_dec j' j) as [->|Hnj]; [congruence|].
      eapply (blocks_disjoint rs j' j); eauto.
    + eapply (blocks_disjoint ls i' i); eauto.
Qed.
Print Assumptions c31_write_read.

(** The blocks cover the matrix: matrices with the same blocks are equal. *)
Theorem c31_cover : forall ls rs M N,
  has_shape (list_sum ls) (list_sum rs) M -> has_shape (list_sum ls) (list_sum rs) N ->
  (forall i j A B, blockWrt ls rs M i j = Some A -> blockWrt ls rs N i j = Some B -> A == B) ->
  M == N.
Proof.
  intros ls rs M N (HMr & HMc) (HNr & HNc) H.
  split; [congruence|]. split; [congruence|]. intros x y Hx Hy.
  rewrite HMr in Hx. rewrite HMc in Hy.
  destruct (blocks_cover ls x Hx) as (i & si & Ei & Hxi).
  destruct (blocks_cover rs y Hy) as (j & sj & Ej & Hyj).
  assert (Hi : (i < length ls)%nat) by (apply nth_error_Some; congruence).
  assert (Hj : (j < length rs)%nat) by (apply nth_error_Some; congruence).
  specialize (H i j _ _ (c31_in_range_aux ls rs M i j Hi Hj) (c31_in_range_aux ls rs N i j Hi Hj)).
  destruct H as (_ & _ & H). simpl in H.
  rewrite (nth_error_nth ls i 0%nat Ei), (nth_error_nth rs j 0%nat Ej) in H.
  specialize (H (x - start_of ls i)%nat (y - start_of rs j)%nat ltac:(lia) ltac:(lia)).
  replace (start_of ls i + (x - start_of ls i))%nat with x in H by lia.
  replace (start_of rs j + (y - start_of rs j))%nat with y in H by lia.
  rewrite !mnth_in in H by lia. exact H.
Qed.
Print Assumptions c31_cover.

(** Bands: the rows of component i are, side by side, the blocks (i, j). *)
Theorem c31_bands : forall ls rs M i j,
  mcols M = list_sum rs -> mrows M = list_sum ls ->
  (i < length ls)%nat -> (j < length rs)%nat ->
  exists Rw Cl B B1 B2,
    rowsWrt ls M i = Some Rw /\ colsWrt rs M j = Some Cl /\ blockWrt ls rs M i j = Some B /\
    mrows Rw = nth i ls 0%nat /\ mcols Rw = mcols M /\
    mrows Cl = mrows M /\ mcols Cl = nth j rs 0%nat /\
    colsWrt rs Rw j = Some B1 /\ B1 == B /\ rowsWrt ls Cl i = Some B2 /\ B2 == B.
Proof.
  intros ls rs M i j Hc Hr Hi Hj. unfold rowsWrt, colsWrt. rewrite !block_range_spec.
  pose proof (nth_error_nth' ls 0%nat Hi) as Ei.
  pose proof (nth_error_nth' rs 0%nat Hj) as Ej.
  pose proof (start_of_end _ _ _ Ei). pose proof (start_of_end _ _ _ Ej).
  rewrite Ei, Ej. do 5 eexists. repeat (split; [reflexivity|]).
  split; [apply c31_in_range_aux; auto|]. repeat (split; [reflexivity|]). split.
  - repeat split. intros a b Ha Hb. simpl in *. rewrite mnth_mblock.
    replace (a <? nth i ls 0)%nat with true by (symmetry; apply Nat.ltb_lt; lia).
    replace (start_of rs j + b <? mcols M)%nat with true
      by (symmetry; apply Nat.ltb_lt; lia).
    reflexivity.
  - split; [reflexivity|]. repeat split. intros a b Ha Hb. simpl in *. rewrite mnth_mblock.
    replace (start_of ls i + a <? mrows M)%nat with true
      by (symmetry; apply Nat.ltb_lt; lia).
    replace (b <? nth j rs 0)%nat with true by (symmetry; apply Nat.ltb_lt; lia).
    reflexivity.
Qed.
Print Assumptions c31_bands.

(** A non-trivial case: three row blocks, two column blocks. *)
Example c31_example : forall M,
  has_shape 6 4 M ->
  exists B, blockWrt [1; 2; 3]%nat [3; 1]%nat M 2 1 = Some B /\ has_shape 3 1 B /\
            mget B 2 0 = mget M 5 3.
Proof.
  intros M (Hr & Hc). eexists. split; [reflexivity|]. split; [split; reflexivity|].
  simpl. rewrite mnth_in by lia. reflexivity.
Qed.

(** *** C33 *)

Lemma requested_width_first items k : requested_width items k = first_width items k.
Proof. induction items as [|(k' & w) tl IH]; simpl; auto. Qed.

Lemma c33_step m s o s' :
  mm_wf m -> same_view m s -> aop s o = Some s' ->
  exists m', mmop m o = Some m' /\ mm_wf m' /\ same_view m' s'.
Proof.
  intros Hwf Hv Ho.
  assert (Hset : forall k A B B2, s k = Some A -> mrows B = mrows A -> mcols B = mcols A ->
            B == B2 ->
            exists m', mm_set m k B = Some m' /\ mm_wf m' /\ same_view m' (astore_update s k B2)).
  { intros k A B B2 HA Hr Hc HB. pose proof (Hv k) as Hvk. rewrite HA in Hvk.
    destruct (mm_at m k) as [A0|] eqn:E; [|contradiction].
    destruct (mm_set_spec m k A0 B Hwf E) as (m' & Hm' & Hwf' & _ & _ & Hs & Ho' & Hn).
    - rewrite Hvk. auto.
    - rewrite Hvk. auto.
    - exists m'. split; auto. split; auto. intros k'. unfold astore_update.
      destruct (k' =? k)%nat eqn:Ek.
      + apply Nat.eqb_eq in Ek. subst. destruct Hs as (A' & -> & Heq). rewrite Heq. exact HB.
      + apply Nat.eqb_neq in Ek. pose proof (Hv k') as Hv'.
        destruct (mm_at m k') as [C|] eqn:E'.
        * destruct (Ho' k' C Ek E') as (C' & -> & Heq).
          destruct (s k'); [|contradiction]. rewrite Heq. exact Hv'.
        * rewrite (Hn k' E'). exact Hv'. }
  destruct o as [|k B|k B]; simpl in Ho.
  - injection Ho as <-. exists (mm_setZero m). split; auto. split.
    + destruct Hwf as (H1 & H2 & H3). repeat split; simpl; auto.
    + intros k. rewrite mm_setZero_at. specialize (Hv k). unfold mm_at in Hv.
      destruct (mm_lookup (mm_index m) k) as [(c & w)|], (s k) as [A|]; auto.
      destruct Hv as (Hr & Hc & _). simpl in Hr, Hc.
      rewrite mblock_mzero, Hr, Hc. reflexivity.
  - destruct (s k) as [A|] eqn:E; [|discriminate].
    destruct ((mrows B =? mrows A)%nat && (mcols B =? mcols A)%nat) eqn:Es; [|discriminate].
    apply andb_true_iff in Es. rewrite !Nat.eqb_eq in Es. injection Ho as <-.
    apply (Hset k A B B); tauto || reflexivity.
  - destruct (s k) as [A|] eqn:E; [|discriminate].
    destruct ((mrows B =? mrows A)%nat && (mcols B =? mcols A)%nat) eqn:Es; [|discriminate].
    apply andb_true_iff in Es. rewrite !Nat.eqb_eq in Es. injection Ho as <-.
    simpl. unfold mm_add. pose proof (Hv k) as Hvk. rewrite E in Hvk.
    destruct (mm_at m k) as [A0|] eqn:E0; [|contradiction].
    rewrite (mm_sub_at m k A0 E0). simpl.
    apply (Hset k A); auto.
    + simpl. rewrite Hvk. reflexivity.
    + simpl. rewrite Hvk. reflexivity.
    + rewrite Hvk. reflexivity.
Qed.

(** Whatever the constructor's list (duplicates included), the uninitialised
    contents and the history of legal operations, the map behaves like a
    collection of independent matrices, one of the requested width per key. *)
Theorem c33_matrixmap : forall garbage items rows,
  exists s0 : astore,
    same_view (mm_make garbage items rows) s0 /\
    (forall k, match requested_width items k with
               | Some w => exists A, s0 k = Some A /\ has_shape rows w A
               | None => s0 k = None
               end) /\
    forall ops s, aops s0 ops = Some s ->
      exists m, mmops (mm_make garbage items rows) ops = Some m /\ same_view m s.
Proof.
  intros g items rows. exists (mm_at (mm_make g items rows)). split; [|split].
  - intros k. destruct (mm_at (mm_make g items rows) k); auto. reflexivity.
  - intros k. rewrite requested_width_first. apply mm_make_at.
  - assert (G : forall ops m s s', mm_wf m -> same_view m s -> aops s ops = Some s' ->
              exists m', mmops m ops = Some m' /\ same_view m' s').
    { induction ops as [|o ops IH]; intros m s s' Hwf Hv H; simpl in *.
      - injection H as <-. eauto.
      - destruct (aop s o) as [s1|] eqn:E; [|discriminate].
        destruct (c33_step m s o s1 Hwf Hv E) as (m1 & -> & Hwf1 & Hv1). eauto. }
    intros ops s H. eapply G; eauto.
    + apply mm_make_wf.
    + intros k. destruct (mm_at (mm_make g items rows) k); auto. reflexivity.
Qed.
Print Assumptions c33_matrixmap.

(** count() tells whether a key was requested. *)
Theorem c33_count : forall garbage items rows k,
  mm_count (mm_make garbage items rows) k = 1%nat <-> In k (map fst items).
Proof.
  intros g items rows k.
  pose proof (mm_make_at g items rows k) as H. unfold mm_at, mm_count in *.
  assert (Hf : first_width items k = None <-> ~ In k (map fst items)).
  { clear. induction items as [|(k' & w') tl IH]; simpl; [tauto|].
    destruct (k' =? k)%nat eqn:E.
    - apply Nat.eqb_eq in E. split; [discriminate|]. intros H. exfalso; auto.
    - apply Nat.eqb_neq in E. rewrite IH. tauto. }
  destruct (in_dec Nat.eq_dec k (map fst items)) as [Hin|Hin].
  - destruct (first_width items k) as [w|] eqn:E; [|tauto].
    destruct H as (A & H & _).
    destruct (mm_lookup (mm_index (mm_make g items rows)) k) as [(c & w')|]; [tauto|discriminate].
  - apply Hf in Hin. rewrite Hin in H.
    destruct (mm_lookup (mm_index (mm_make g items rows)) k) as [(c & w')|]; [discriminate|].
    split; [discriminate|]. intros H'. tauto.
Qed.
Print Assumptions c33_count.

(** Non-trivial history: a duplicated key, two keys, set and add. *)
Example c33_example : exists s,
  aops (mm_at (mm_make (fun _ _ => 7%R) [(5, 2); (5, 2); (9, 1)]%nat 3))
    [OpSetZero; OpAdd 5%nat (Mat 3 2 (fun _ _ => 1%R));
     OpSet 9%nat (Mat 3 1 (fun _ _ => 2%R));
     OpAdd 5%nat (Mat 3 2 (fun _ _ => 1%R))] = Some s /\
  (exists A, s 5%nat = Some A /\ mget A 0 0 = 2%R) /\
  (exists B, s 9%nat = Some B /\ mget B 0 0 = 2%R).
Proof.
  eexists. split; [reflexivity|]. split; eexists; (split; [reflexivity|]).
  - cbn. lra.
  - cbn. lra.
Qed.

(** A key that was never requested: operator[] yields an empty block, and adding
    anything to it trips the size assertion instead of corrupting another block. *)
Theorem c33_missing_key : forall garbage items rows k B,
  ~ In k (map fst items) -> (0 < mcols B)%nat ->
  mm_at (mm_make garbage items rows) k = None /\
  mcols (snd (mm_sub (mm_make garbage items rows) k)) = 0%nat /\
  mm_set (mm_make garbage items rows) k B = None.
Proof.
  intros g items rows k B Hk HB.
  assert (Hn : mm_lookup (mm_index (mm_make g items rows)) k = None).
  { destruct (mm_lookup (mm_index (mm_make g items rows)) k) eqn:E; auto.
    exfalso. apply Hk. apply (c33_count g items rows). unfold mm_count. rewrite E. reflexivity. }
  unfold mm_at, mm_set, mm_sub. rewrite Hn. split; auto. split; auto.
  cbn [mm_index mm_storage mblock mrows mcols]. rewrite mm_lookup_app, Hn, Nat.eqb_refl.
  replace (mcols B =? 0)%nat with false by (symmetry; apply Nat.eqb_neq; lia).
  rewrite andb_false_r. reflexivity.
Qed.
Print Assumptions c33_missing_key.

(** *** C11 *)

(** Sound: the chosen conversions work.  Minimal: no workable choice has a better
    rank, and the chosen types are the first workable ones of their lists. *)
Theorem c11_sound_minimal : forall (T : Type) can direct (lhs rhs : T) lto rto c,
  choose_binary can direct lhs rhs lto rto = Some c ->
  workable can direct lhs rhs lto rto c /\
  (forall c', workable can direct lhs rhs lto rto c' -> (rank c <= rank c')%nat) /\
  match c with
  | BDirect => True
  | BConvertRight r => exists pre post, rto = (pre ++ r :: post)%list /\
      forall r', In r' pre -> ~ workable can direct lhs rhs lto rto (BConvertRight r')
  | BConvertLeft l => exists pre post, lto = (pre ++ l :: post)%list /\
      forall l', In l' pre -> ~ workable can direct lhs rhs lto rto (BConvertLeft l')
  | BConvertBoth l r => exists pre post, cartesian lto rto = (pre ++ (l, r) :: post)%list /\
      forall p, In p pre -> ~ workable can direct lhs rhs lto rto (BConvertBoth (fst p) (snd p))
  end.
Proof.
  intros T can direct lhs rhs lto rto c. unfold choose_binary.
  destruct (direct lhs rhs) eqn:Ed.
  { intros H. injection H as <-. split; [exact Ed|]. split; [simpl; lia|exact I]. }
  assert (HnD : ~ workable can direct lhs rhs lto rto BDirect) by (simpl; congruence).
  destruct (first_true _ rto) as [r|] eqn:Er.
  { intros H. injection H as <-.
    destruct (first_true_some _ _ _ Er) as (pre & post & Hl & Ht & Hpre).
    apply andb_true_iff in Ht. split; [|split].
    - simpl. rewrite Hl. split; [apply in_elt|]. exact Ht.
    - intros c' Hc'. destruct c'; simpl; try lia. contradiction.
    - exists pre, post. split; auto. intros r' Hr' (_ & H1 & H2).
      specialize (Hpre r' Hr'). rewrite H1, H2 in Hpre. discriminate. }
  assert (HnR : forall r, ~ workable can direct lhs rhs lto rto (BConvertRight r)).
  { intros r (H0 & H1 & H2). rewrite first_true_none in Er. specialize (Er r H0).
    rewrite H1, H2 in Er. discriminate. }
  destruct (first_true _ lto) as [l|] eqn:El.
  { intros H. injection H as <-.
    destruct (first_true_some _ _ _ El) as (pre & post & Hl & Ht & Hpre).
    apply andb_true_iff in Ht. split; [|split].
    - simpl. rewrite Hl. split; [apply in_elt|]. exact Ht.
    - intros c' Hc'. destruct c'; simpl; try lia; exfalso; [auto|eapply HnR; eauto].
    - exists pre, post. split; auto. intros r' Hr' (_ & H1 & H2).
      specialize (Hpre r' Hr'). rewrite H1, H2 in Hpre. discriminate. }
  assert (HnL : forall l, ~ workable can direct lhs rhs lto rto (BConvertLeft l)).
  { intros r (H0 & H1 & H2). rewrite first_true_none in El. specialize (El r H0).
    rewrite H1, H2 in El. discriminate. }
  destruct (first_true _ (cartesian lto rto)) as [(l & r)|] eqn:Eb; [|discriminate].
  intros H. injection H as <-. simpl in *.
  destruct (first_true_some _ _ _ Eb) as (pre & post & Hl & Ht & Hpre).
  rewrite !andb_true_iff in Ht. simpl in Ht. split; [|split].
  - assert (Hin : In (l, r) (cartesian lto rto)) by (rewrite Hl; apply in_elt).
    apply in_cartesian in Hin. tauto.
  - intros c' Hc'. destruct c'; simpl; try lia; exfalso;
      [auto|eapply HnR; eauto|eapply HnL; eauto].
  - exists pre, post. split; auto. intros (l', r') Hp (_ & _ & H1 & H2 & H3).
    specialize (Hpre _ Hp). simpl in *. rewrite H1, H2, H3 in Hpre. discriminate.
Qed.
Print Assumptions c11_sound_minimal.

(** Complete: rejected only if no choice works. *)
Theorem c11_complete : forall (T : Type) can direct (lhs rhs : T) lto rto,
  choose_binary can direct lhs rhs lto rto = None <->
  forall c, ~ workable can direct lhs rhs lto rto c.
Proof.
  intros T can direct lhs rhs lto rto. unfold choose_binary. split.
  - destruct (direct lhs rhs) eqn:Ed; [discriminate|].
    destruct (first_true _ rto) eqn:Er; [discriminate|].
    destruct (first_true _ lto) eqn:El; [discriminate|].
    destruct (first_true _ (cartesian lto rto)) eqn:Eb; [discriminate|].
    rewrite first_true_none in Er. rewrite first_true_none in El.
    rewrite first_true_none in Eb. intros _ [|r|l|l r]; simpl.
    + congruence.
    + intros (H0 & H1 & H2). specialize (Er r H0). rewrite H1, H2 in Er. discriminate.
    + intros (H0 & H1 & H2). specialize (El l H0). rewrite H1, H2 in El. discriminate.
    + intros (H0 & H0' & H1 & H2 & H3).
      specialize (Eb (l, r) (proj2 (in_cartesian _ _ _ _) (conj H0 H0'))).
      simpl in Eb. rewrite H1, H2, H3 in Eb. discriminate.
  - intros H. destruct (direct lhs rhs) eqn:Ed.
    { exfalso. apply (H BDirect). exact Ed. }
    destruct (first_true _ rto) as [r|] eqn:Er.
    { exfalso. apply first_true_some in Er. destruct Er as (pre & post & -> & Ht & _).
      apply andb_true_iff in Ht. apply (H (BConvertRight r)). split; [apply in_elt|]. tauto. }
    destruct (first_true _ lto) as [l|] eqn:El.
    { exfalso. apply first_true_some in El. destruct El as (pre & post & -> & Ht & _).
      apply andb_true_iff in Ht. apply (H (BConvertLeft l)). split; [apply in_elt|]. tauto. }
    destruct (first_true _ (cartesian lto rto)) as [(l & r)|] eqn:Eb; auto.
    exfalso. apply first_true_some in Eb. destruct Eb as (pre & post & Hl & Ht & _).
    assert (Hin : In (l, r) (cartesian lto rto)) by (rewrite Hl; apply in_elt).
    apply in_cartesian in Hin. rewrite !andb_true_iff in Ht. simpl in Ht.
    apply (H (BConvertBoth l r)). simpl. tauto.
Qed.
Print Assumptions c11_complete.

(** Unary operations: direct if possible, else the first workable conversion, else
    rejected. *)
Theorem c11_unary : forall (T : Type) (can : T -> T -> bool) direct rhs (to : list T),
  match choose_unary can direct rhs to with
  | Some UDirect => direct rhs = true
  | Some (UConvert t) => direct rhs = false /\
      exists pre post, to = (pre ++ t :: post)%list /\ can rhs t = true /\ direct t = true /\
        forall t', In t' pre -> ~ (can rhs t' = true /\ direct t' = true)
  | None => direct rhs = false /\ forall t, In t to -> ~ (can rhs t = true /\ direct t = true)
  end.
Proof.
  intros T can direct rhs to. unfold choose_unary.
  destruct (direct rhs) eqn:Ed; auto.
  destruct (first_true _ to) as [t|] eqn:E.
  - split; auto. destruct (first_true_some _ _ _ E) as (pre & post & -> & Ht & Hpre).
    apply andb_true_iff in Ht. exists pre, post. split; auto. split; [tauto|]. split; [tauto|].
    intros t' Ht' (H1 & H2). specialize (Hpre t' Ht'). rewrite H1, H2 in Hpre. discriminate.
  - split; auto. rewrite first_true_none in E. intros t Ht (H1 & H2).
    specialize (E t Ht). rewrite H1, H2 in E. discriminate.
Qed.
Print Assumptions c11_unary.

(** Types 0 (matrix), 1 (quaternion), 2 (angle-axis); only same-type products are
    implemented; an angle-axis right operand and a quaternion left operand need
    both conversions only if no single one works. *)
Example c11_example :
  choose_binary (fun _ _ => true) Nat.eqb 1%nat 2%nat [0%nat] [0%nat; 1%nat]
  = Some (BConvertRight 1%nat) /\
  choose_binary (fun _ _ => true) (fun l r => (l =? 0) && (r =? 0))%nat 1%nat 2%nat
    [0%nat] [1%nat; 0%nat] = Some (BConvertBoth 0%nat 0%nat).
Proof. split; reflexivity. Qed.
