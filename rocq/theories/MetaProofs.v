(** Proofs about ModelMeta.v. *)

From Coq Require Import Reals List Arith Bool Lia Lra Permutation.
From Verif Require Import Mat ModelMeta.
Import ListNotations.
Local Open Scope mat_scope.

(** ** Unique concatenation *)

Section Unique.
  Context {A : Type} (eqb : A -> A -> bool).
  Hypothesis eqb_spec : forall x y, eqb x y = true <-> x = y.

  Lemma find_from_none l x i : find_from eqb l x i = None <-> ~ In x l.
  Proof.
    revert i; induction l as [|h tl IH]; intros i; simpl.
    - split; auto.
    - destruct (eqb h x) eqn:E.
      + apply eqb_spec in E. subst. split; [discriminate|]. intros H; exfalso; auto.
      + rewrite IH. split; intros H; [intros [Hx|Hx]; subst|]; auto.
        rewrite (proj2 (eqb_spec x x) eq_refl) in E. discriminate.
  Qed.

  Lemma find_from_some l x i n :
    find_from eqb l x i = Some n ->
    exists k, n = (i + k)%nat /\ nth_error l k = Some x /\
              forall k', (k' < k)%nat -> nth_error l k' <> Some x.
  Proof.
    revert i; induction l as [|h tl IH]; intros i H; simpl in H; [discriminate|].
    destruct (eqb h x) eqn:E.
    - inversion H; subst. exists 0%nat. apply eqb_spec in E. subst h.
      repeat split; auto; lia.
    - destruct (IH _ H) as (k & -> & Hk & Hlt). exists (S k). repeat split; auto; [lia|].
      intros [|k'] Hk'; simpl.
      + intros Heq. inversion Heq; subst.
        rewrite (proj2 (eqb_spec x x) eq_refl) in E. discriminate.
      + apply Hlt. lia.
  Qed.

  Lemma concat_if_unique_some a b c :
    concat_if_unique eqb a b = Some c -> c = (a ++ b)%list /\
      (NoDup a -> NoDup (a ++ b)).
  Proof.
    revert a; induction b as [|b0 bs IH]; intros a H; simpl in H.
    - inversion H; subst. rewrite app_nil_r. auto.
    - destruct (find_idx eqb a b0) eqn:E; [discriminate|].
      apply IH in H. destruct H as (-> & Hnd). rewrite <- app_assoc. split; auto.
      intros Ha. apply find_from_none in E.
      replace (a ++ b0 :: bs)%list with ((a ++ [b0]) ++ bs)%list
        by (rewrite <- app_assoc; reflexivity).
      apply Hnd.
      assert (Hp : NoDup (b0 :: a)) by (constructor; auto).
      apply Permutation_NoDup with (l := b0 :: a); auto.
      apply Permutation_cons_append.
  Qed.

  Lemma concat_if_unique_complete a b :
    NoDup (a ++ b) -> concat_if_unique eqb a b = Some (a ++ b)%list.
  Proof.
    revert a; induction b as [|b0 bs IH]; intros a H; simpl.
    - rewrite app_nil_r. reflexivity.
    - replace (find_idx eqb a b0) with (@None nat).
      + replace (a ++ b0 :: bs)%list with ((a ++ [b0]) ++ bs)%list in *
          by (rewrite <- app_assoc; reflexivity).
        apply IH. exact H.
      + symmetry. apply find_from_none. intros Hin.
        apply NoDup_remove_2 in H. apply H. apply in_or_app. auto.
  Qed.
End Unique.

(** ** Prefix sums and blocks *)

(** Start of component [i]: sum of the sizes before it. *)
Definition start_of (sizes : list nat) (i : nat) : nat := list_sum (firstn i sizes).

Lemma sum_sequence_list_sum s : sum_sequence s = list_sum s.
Proof. induction s; simpl; auto. Qed.

Lemma cumulative_impl_spec sizes : forall out prev n,
  cumulative_impl out (n :: sizes) prev
  = (out ++ map (fun i => prev + n + start_of sizes i) (seq 0 (length sizes)))%list.
Proof.
  induction sizes as [|m sizes IH]; intros out prev n.
  - simpl. rewrite app_nil_r. reflexivity.
  - change (cumulative_impl out (n :: m :: sizes) prev)
      with (cumulative_impl (out ++ [prev + n])%list (m :: sizes) (prev + n)).
    rewrite IH, <- app_assoc. f_equal.
    cbn [length seq map app]. f_equal; [unfold start_of; simpl; lia|].
    rewrite <- seq_shift, map_map. apply map_ext. intros i.
    unfold start_of. simpl. lia.
Qed.

Lemma accumulate_spec sizes :
  accumulate_index_sequence sizes = map (start_of sizes) (seq 0 (length sizes)).
Proof.
  unfold accumulate_index_sequence. rewrite cumulative_impl_spec. reflexivity.
Qed.

Lemma integer_sequence_element_nth i s :
  integer_sequence_element i s = nth_error s i.
Proof. revert s; induction i; destruct s; simpl; auto. Qed.

Lemma nth_error_seq_map {B} (f : nat -> B) n i :
  (i < n)%nat -> nth_error (map f (seq 0 n)) i = Some (f i).
Proof.
  intros H. apply map_nth_error.
  rewrite (nth_error_nth' _ 0%nat) by (rewrite seq_length; auto).
  rewrite seq_nth by auto. reflexivity.
Qed.

Lemma block_range_spec sizes i :
  block_range sizes i =
  match nth_error sizes i with
  | Some sz => Some (start_of sizes i, sz)
  | None => None
  end.
Proof.
  unfold block_range. rewrite !integer_sequence_element_nth, accumulate_spec.
  destruct (nth_error sizes i) as [sz|] eqn:E.
  - assert (i < length sizes)%nat by (apply nth_error_Some; congruence).
    rewrite nth_error_seq_map by auto. reflexivity.
  - destruct (nth_error (map _ _) i); reflexivity.
Qed.

Lemma start_of_S sizes i sz :
  nth_error sizes i = Some sz -> start_of sizes (S i) = (start_of sizes i + sz)%nat.
Proof.
  revert i; induction sizes as [|h tl IH]; intros [|i] H; simpl in H; try discriminate.
  - inversion H; subst. unfold start_of. simpl. lia.
  - specialize (IH _ H). unfold start_of in *. simpl in *. lia.
Qed.

Lemma start_of_mono sizes i j : (i <= j)%nat -> (start_of sizes i <= start_of sizes j)%nat.
Proof.
  revert i j; induction sizes as [|h tl IH]; intros [|i] [|j] H; unfold start_of in *;
    simpl in *; try lia.
  specialize (IH i j ltac:(lia)). lia.
Qed.

Lemma start_of_le sizes i : (start_of sizes i <= list_sum sizes)%nat.
Proof.
  unfold start_of. rewrite <- (firstn_skipn i sizes) at 2. rewrite list_sum_app. lia.
Qed.

Lemma start_of_end sizes i sz :
  nth_error sizes i = Some sz -> (start_of sizes i + sz <= list_sum sizes)%nat.
Proof.
  intros H. rewrite <- (start_of_S _ _ _ H). apply start_of_le.
Qed.

(** Two different components do not overlap. *)
Lemma blocks_disjoint sizes i j si sj x :
  nth_error sizes i = Some si -> nth_error sizes j = Some sj -> i <> j ->
  (start_of sizes i <= x < start_of sizes i + si)%nat ->
  (start_of sizes j <= x < start_of sizes j + sj)%nat -> False.
Proof.
  intros Hi Hj Hne Hxi Hxj.
  destruct (Nat.lt_ge_cases i j) as [Hlt|Hge].
  - pose proof (start_of_mono sizes (S i) j ltac:(lia)) as H.
    rewrite (start_of_S _ _ _ Hi) in H. lia.
  - pose proof (start_of_mono sizes (S j) i ltac:(lia)) as H.
    rewrite (start_of_S _ _ _ Hj) in H. lia.
Qed.

(** Every index below the total belongs to some component. *)
Lemma blocks_cover sizes x :
  (x < list_sum sizes)%nat ->
  exists i sz, nth_error sizes i = Some sz /\
    (start_of sizes i <= x < start_of sizes i + sz)%nat.
Proof.
  revert x; induction sizes as [|h tl IH]; intros x H; simpl in H; [lia|].
  destruct (Nat.lt_ge_cases x h) as [Hlt|Hge].
  - exists 0%nat, h. simpl. unfold start_of. simpl. split; auto; lia.
  - destruct (IH (x - h)%nat ltac:(lia)) as (i & sz & Hn & Hr).
    exists (S i), sz. split; auto. unfold start_of in *. simpl. lia.
Qed.

(** ** Block reads and writes *)

Lemma mnth_mblock M i j r c a b :
  mnth (mblock M i j r c) a b =
  if ((a <? r) && (b <? c))%nat then mnth M (i + a) (j + b) else 0%R.
Proof. reflexivity. Qed.

Lemma mset_block_rows M i j r c B : mrows (mset_block M i j r c B) = mrows M.
Proof. reflexivity. Qed.
Lemma mset_block_cols M i j r c B : mcols (mset_block M i j r c B) = mcols M.
Proof. reflexivity. Qed.

Lemma mnth_mset_in M i j r c B a b :
  (i <= a < i + r)%nat -> (j <= b < j + c)%nat ->
  (i + r <= mrows M)%nat -> (j + c <= mcols M)%nat ->
  mnth (mset_block M i j r c B) a b = mnth B (a - i) (b - j).
Proof.
  intros Ha Hb Hr Hc. rewrite mnth_in by (simpl; lia). simpl.
  replace (i <=? a)%nat with true by (symmetry; apply Nat.leb_le; lia).
  replace (a <? i + r)%nat with true by (symmetry; apply Nat.ltb_lt; lia).
  replace (j <=? b)%nat with true by (symmetry; apply Nat.leb_le; lia).
  replace (b <? j + c)%nat with true by (symmetry; apply Nat.ltb_lt; lia).
  reflexivity.
Qed.

Lemma mnth_mset_out M i j r c B a b :
  ~ ((i <= a < i + r)%nat /\ (j <= b < j + c)%nat) ->
  mnth (mset_block M i j r c B) a b = mnth M a b.
Proof.
  intros H. unfold mnth at 1. cbn [mrows mcols mget mset_block].
  destruct (i <=? a)%nat eqn:E1, (a <? i + r)%nat eqn:E2, (j <=? b)%nat eqn:E3,
    (b <? j + c)%nat eqn:E4; cbn [andb];
  try (exfalso; apply H;
       apply Nat.leb_le in E1, E3; apply Nat.ltb_lt in E2, E4; lia);
  unfold mnth; destruct (_ && _)%bool; reflexivity.
Qed.

Lemma mblock_mset_same M i j r c B :
  (i + r <= mrows M)%nat -> (j + c <= mcols M)%nat -> has_shape r c B ->
  mblock (mset_block M i j r c B) i j r c == B.
Proof.
  intros Hr Hc (HBr & HBc). repeat split; simpl; auto.
  intros a b Ha Hb. rewrite mnth_mset_in by lia.
  rewrite mnth_in by lia. f_equal; lia.
Qed.

Lemma mblock_mset_other M i j r c B i' j' r' c' :
  (forall x, (i' <= x < i' + r')%nat -> (i <= x < i + r)%nat ->
   forall y, (j' <= y < j' + c')%nat -> (j <= y < j + c)%nat -> False) ->
  mblock (mset_block M i j r c B) i' j' r' c' == mblock M i' j' r' c'.
Proof.
  intros H. repeat split. intros a b Ha Hb. simpl in *.
  apply mnth_mset_out. intros (H1 & H2). apply (H (i' + a)%nat ltac:(lia) H1 (j' + b)%nat); lia.
Qed.

(** ** Conversion search *)

Section Search.
  Context {X : Type} (test : X -> bool).

  Lemma first_true_some l x :
    first_true test l = Some x ->
    exists pre post, l = (pre ++ x :: post)%list /\ test x = true /\
                     forall y, In y pre -> test y = false.
  Proof.
    induction l as [|h tl IH]; simpl; [discriminate|].
    destruct (test h) eqn:E; intros H.
    - inversion H; subst. exists [], tl. repeat split; auto. intros y [].
    - destruct (IH H) as (pre & post & -> & Ht & Hpre).
      exists (h :: pre), post. repeat split; auto.
      intros y [->|Hy]; auto.
  Qed.

  Lemma first_true_none l :
    first_true test l = None <-> forall y, In y l -> test y = false.
  Proof.
    induction l as [|h tl IH]; simpl.
    - split; auto. intros _ y [].
    - destruct (test h) eqn:E.
      + split; [discriminate|]. intros H. rewrite H in E by auto. discriminate.
      + rewrite IH. split; intros H y.
        * intros [->|Hy]; auto.
        * intros Hy; auto.
  Qed.
End Search.

Lemma in_cartesian {T} (ls rs : list T) l r :
  In (l, r) (cartesian ls rs) <-> In l ls /\ In r rs.
Proof.
  unfold cartesian. rewrite in_concat. split.
  - intros (x & Hx & Hin). apply in_map_iff in Hx. destruct Hx as (l' & <- & Hl').
    apply in_map_iff in Hin. destruct Hin as (r' & Heq & Hr'). inversion Heq; subst. auto.
  - intros (Hl & Hr). exists (map (fun r => (l, r)) rs). split.
    + apply in_map_iff. eauto.
    + apply in_map_iff. eauto.
Qed.

(** ** MatrixMap *)

(** Invariant: keys are unique, blocks lie in the storage and do not overlap. *)
Definition mm_wf (m : MatrixMap) : Prop :=
  NoDup (map fst (mm_index m)) /\
  (forall k c w, In (k, (c, w)) (mm_index m) -> (c + w <= mcols (mm_storage m))%nat) /\
  (forall k c w k' c' w' x,
      In (k, (c, w)) (mm_index m) -> In (k', (c', w')) (mm_index m) -> k <> k' ->
      (c <= x < c + w)%nat -> (c' <= x < c' + w')%nat -> False).

Lemma mm_lookup_in ix k v : mm_lookup ix k = Some v -> In (k, v) ix.
Proof.
  induction ix as [|(k' & v') tl IH]; simpl; [discriminate|].
  destruct (k' =? k)%nat eqn:E; intros H.
  - apply Nat.eqb_eq in E. inversion H; subst. auto.
  - auto.
Qed.

Lemma mm_lookup_none ix k : mm_lookup ix k = None <-> ~ In k (map fst ix).
Proof.
  induction ix as [|(k' & v') tl IH]; simpl; [tauto|].
  destruct (k' =? k)%nat eqn:E.
  - apply Nat.eqb_eq in E. split; [discriminate|]. intros H. exfalso; auto.
  - apply Nat.eqb_neq in E. rewrite IH. split; intros H; auto.
    intros [H'|H']; auto.
Qed.

Lemma mm_lookup_app ix k v k' :
  mm_lookup (ix ++ [(k, v)])%list k' =
  match mm_lookup ix k' with
  | Some x => Some x
  | None => if (k =? k')%nat then Some v else None
  end.
Proof.
  induction ix as [|(k0 & v0) tl IH]; simpl; auto.
  destruct (k0 =? k')%nat; auto.
Qed.

Lemma mm_emplace_nodup ix k v :
  NoDup (map fst ix) -> NoDup (map fst (mm_emplace ix k v)).
Proof.
  intros H. unfold mm_emplace. destruct (mm_lookup ix k) eqn:E; auto.
  apply mm_lookup_none in E. rewrite map_app. simpl.
  apply Permutation_NoDup with (l := k :: map fst ix).
  - apply Permutation_cons_append.
  - constructor; auto.
Qed.

Lemma mm_emplace_in ix k v k' v' :
  In (k', v') (mm_emplace ix k v) -> In (k', v') ix \/ (k' = k /\ v' = v).
Proof.
  unfold mm_emplace. destruct (mm_lookup ix k); auto.
  rewrite in_app_iff. intros [H|[H|[]]]; auto. inversion H; auto.
Qed.

Definition ix_ok (ix : list (nat * (nat * nat))) (col : nat) : Prop :=
  NoDup (map fst ix) /\
  (forall k c w, In (k, (c, w)) ix -> (c + w <= col)%nat) /\
  (forall k c w k' c' w' x,
      In (k, (c, w)) ix -> In (k', (c', w')) ix -> k <> k' ->
      (c <= x < c + w)%nat -> (c' <= x < c' + w')%nat -> False).

Lemma mm_build_ok items : forall ix col ix' col',
  ix_ok ix col -> mm_build items ix col = (ix', col') -> ix_ok ix' col'.
Proof.
  induction items as [|(k & w) tl IH]; intros ix col ix' col' Hok Hb; simpl in Hb.
  - inversion Hb; subst. exact Hok.
  - eapply IH; [|exact Hb]. destruct Hok as (Hnd & Hin & Hdis). repeat split.
    + apply mm_emplace_nodup; auto.
    + intros k0 c0 w0 H. apply mm_emplace_in in H. destruct H as [H|(-> & H)].
      * specialize (Hin _ _ _ H). lia.
      * inversion H; subst. lia.
    + intros k0 c0 w0 k1 c1 w1 x H0 H1 Hne Hx0 Hx1.
      apply mm_emplace_in in H0, H1.
      destruct H0 as [H0|(-> & H0)], H1 as [H1|(-> & H1)].
      * eapply Hdis; eauto.
      * inversion H1; subst. specialize (Hin _ _ _ H0). lia.
      * inversion H0; subst. specialize (Hin _ _ _ H1). lia.
      * congruence.
Qed.

Lemma mm_make_wf g items rows : mm_wf (mm_make g items rows).
Proof.
  unfold mm_make. destruct (mm_build items [] 0) as (ix & col) eqn:E.
  apply mm_build_ok in E; [exact E|].
  repeat split; simpl; [constructor| |]; intros; contradiction.
Qed.

(** The first item with a given key determines its width. *)
Fixpoint first_width (items : list (nat * nat)) (k : nat) : option nat :=
  match items with
  | [] => None
  | (k', w) :: tl => if (k' =? k)%nat then Some w else first_width tl k
  end.

Lemma mm_build_lookup items : forall ix col ix' col' k,
  mm_build items ix col = (ix', col') ->
  match mm_lookup ix k with
  | Some v => mm_lookup ix' k = Some v
  | None => option_map snd (mm_lookup ix' k) = first_width items k
  end.
Proof.
  induction items as [|(k0 & w0) tl IH]; intros ix col ix' col' k Hb; simpl in Hb.
  - inversion Hb; subst. destruct (mm_lookup ix' k) eqn:E; simpl; auto.
  - specialize (IH _ _ _ _ k Hb). unfold mm_emplace in IH. simpl.
    destruct (mm_lookup ix k0) as [v0|] eqn:E0.
    + destruct (mm_lookup ix k) as [v|] eqn:E; auto.
      destruct (k0 =? k)%nat eqn:Ek; auto.
      apply Nat.eqb_eq in Ek. subst. congruence.
    + rewrite mm_lookup_app in IH.
      destruct (mm_lookup ix k) as [v|] eqn:E; auto.
      destruct (k0 =? k)%nat eqn:Ek; auto.
      rewrite IH. reflexivity.
Qed.

Lemma mm_make_at g items rows k :
  match first_width items k with
  | Some w => exists A, mm_at (mm_make g items rows) k = Some A /\ has_shape rows w A
  | None => mm_at (mm_make g items rows) k = None
  end.
Proof.
  unfold mm_make, mm_at. destruct (mm_build items [] 0) as (ix & col) eqn:E.
  pose proof (mm_build_lookup _ _ _ _ _ k E) as H. cbn [mm_lookup] in H.
  rewrite <- H. cbn [mm_index mm_storage].
  destruct (mm_lookup ix k) as [(c & w)|]; simpl; auto.
  eexists. split; [reflexivity|]. split; reflexivity.
Qed.

Lemma mm_setZero_at m k :
  mm_at (mm_setZero m) k =
  match mm_lookup (mm_index m) k with
  | Some (c, w) => Some (mblock (mzero (mrows (mm_storage m)) (mcols (mm_storage m)))
                           0 c (mrows (mm_storage m)) w)
  | None => None
  end.
Proof. reflexivity. Qed.

Lemma mblock_mzero r c i j r' c' : mblock (mzero r c) i j r' c' == mzero r' c'.
Proof.
  repeat split. intros. simpl. apply mnth_mzero.
Qed.

(** Writing under a key that is present changes exactly that block. *)
Lemma mm_set_spec m k A B :
  mm_wf m -> mm_at m k = Some A -> mrows B = mrows A -> mcols B = mcols A ->
  exists m', mm_set m k B = Some m' /\ mm_wf m' /\
    mm_index m' = mm_index m /\
    mrows (mm_storage m') = mrows (mm_storage m) /\
    (exists A', mm_at m' k = Some A' /\ A' == B) /\
    (forall k' C, k' <> k -> mm_at m k' = Some C ->
       exists C', mm_at m' k' = Some C' /\ C' == C) /\
    (forall k', mm_at m k' = None -> mm_at m' k' = None).
Proof.
  intros Hwf Hat Hr Hc. unfold mm_at, mm_set, mm_sub in *.
  destruct (mm_lookup (mm_index m) k) as [(c & w)|] eqn:E; [|discriminate].
  injection Hat as <-. cbn [mrows mcols mblock] in *. rewrite E.
  rewrite Hr, Hc, !Nat.eqb_refl. cbn [andb].
  eexists. split; [reflexivity|]. cbn [mm_storage mm_index mset_block mrows mcols].
  destruct Hwf as (Hnd & Hin & Hdis).
  pose proof (mm_lookup_in _ _ _ E) as HinE.
  split; [repeat split; auto|]. split; auto. split; auto. split; [|split].
  - rewrite E. eexists. split; [reflexivity|].
    apply mblock_mset_same; simpl; auto.
    + eapply Hin; eauto.
    + split; auto.
  - intros k' C Hne HC. destruct (mm_lookup (mm_index m) k') as [(c' & w')|] eqn:E';
      [|discriminate].
    injection HC as <-. eexists. split; [reflexivity|].
    apply mblock_mset_other. intros x _ _ y Hy Hy'.
    eapply (Hdis k c w k' c' w'); eauto using mm_lookup_in.
  - intros k' H'. destruct (mm_lookup (mm_index m) k') as [(c' & w')|]; auto. discriminate.
Qed.

Lemma mm_sub_at m k A : mm_at m k = Some A -> mm_sub m k = (m, A).
Proof.
  unfold mm_at, mm_sub. destruct (mm_lookup (mm_index m) k) as [(c & w)|]; [|discriminate].
  intros H. inversion H. reflexivity.
Qed.
