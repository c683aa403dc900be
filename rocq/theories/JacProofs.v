(** Proofs about ModelJac.v: every evaluator computes the derivative of SpecJac.v. *)

From Coq Require Import Reals List Arith Bool Lia Lra Permutation Morphisms.
From Verif Require Import Mat ModelMeta MetaProofs ModelJac SpecJac.
Import ListNotations.
Local Open Scope mat_scope.

Lemma ltype_eqb_eq a b : ltype_eqb a b = true <-> a = b.
Proof.
  unfold ltype_eqb. rewrite andb_true_iff, !Nat.eqb_eq.
  destruct a, b; simpl. split; [intros (-> & ->); auto|intros H; inversion H; auto].
Qed.

Lemma ltype_eqb_neq a b : ltype_eqb a b = false <-> a <> b.
Proof.
  rewrite <- (ltype_eqb_eq a b). destruct (ltype_eqb a b); split; congruence.
Qed.

Lemma is_same_eq l t : is_same l t = true <-> l = t.
Proof.
  unfold is_same. rewrite andb_true_iff, ltype_eqb_eq, Nat.eqb_eq.
  destruct l, t; simpl. split; [intros (-> & ->); auto|intros H; inversion H; auto].
Qed.

Lemma contains_in t e :
  contains_same_type t e = true <-> In t (map l_type (leaves e)).
Proof.
  induction e as [l|a n J c IH|a n JL JR l IHl r IHr]; simpl.
  - rewrite ltype_eqb_eq. split; auto. intros [H|[]]; auto.
  - exact IH.
  - rewrite orb_true_iff, IHl, IHr, map_app, in_app_iff. tauto.
Qed.

Lemma contains_false t e :
  contains_same_type t e = false <-> ~ In t (map l_type (leaves e)).
Proof.
  rewrite <- contains_in. destruct (contains_same_type t e); split; congruence.
Qed.

(** ** Occurrences *)

Lemma occurrences_leaves e : map fst (occurrences e) = leaves e.
Proof.
  induction e as [l|a n J c IH|a n JL JR l IHl r IHr]; simpl; auto.
  - rewrite map_map. simpl. rewrite <- IH. apply map_ext. auto.
  - rewrite map_app, !map_map. simpl. rewrite <- IHl, <- IHr. reflexivity.
Qed.

Lemma occurrences_shape e : wf_tree e ->
  forall p, In p (occurrences e) -> has_shape (edim e) (l_dim (fst p)) (snd p).
Proof.
  induction e as [l|a n J c IH|a n JL JR l IHl r IHr]; simpl; intros Hwf p Hp.
  - destruct Hp as [<-|[]]. split; reflexivity.
  - destruct Hwf as (_ & (Hr & Hc) & Hwf). apply in_map_iff in Hp.
    destruct Hp as (q & <- & Hq). destruct (IH Hwf q Hq) as (Hr' & Hc').
    split; simpl; auto.
  - destruct Hwf as (_ & (Hlr & Hlc) & (Hrr & Hrc) & Hwl & Hwr).
    apply in_app_iff in Hp. destruct Hp as [Hp|Hp]; apply in_map_iff in Hp;
      destruct Hp as (q & <- & Hq).
    + destruct (IHl Hwl q Hq). split; simpl; auto.
    + destruct (IHr Hwr q Hq). split; simpl; auto.
Qed.

(** The derivative restricted to the occurrences selected by [sel]. *)
Definition sel_jacobian (sel : leaf -> bool) (c : nat) (e : etree) : mat :=
  msum (edim e) c (map snd (filter (fun p => sel (fst p)) (occurrences e))).

Definition sel_dim (sel : leaf -> bool) (c : nat) (e : etree) : Prop :=
  forall l, In l (leaves e) -> sel l = true -> l_dim l = c.

Lemma filter_map_fst {B} (sel : leaf -> bool) (f : mat -> B) (l : list (leaf * mat)) :
  filter (fun p => sel (fst p)) (map (fun p => (fst p, f (snd p))) l)
  = map (fun p => (fst p, f (snd p))) (filter (fun p => sel (fst p)) l).
Proof.
  induction l as [|x l IH]; simpl; auto.
  destruct (sel (fst x)); simpl; rewrite IH; reflexivity.
Qed.

Lemma sel_shapes sel c e : wf_tree e -> sel_dim sel c e ->
  forall A, In A (map snd (filter (fun p => sel (fst p)) (occurrences e))) ->
  has_shape (edim e) c A.
Proof.
  intros Hwf Hd A HA. apply in_map_iff in HA. destruct HA as (p & <- & Hp).
  apply filter_In in Hp. destruct Hp as (Hp & Hs).
  pose proof (occurrences_shape e Hwf p Hp) as H.
  rewrite (Hd (fst p)) in H; auto.
  rewrite <- occurrences_leaves. apply in_map. exact Hp.
Qed.

Lemma sel_jacobian_shape sel c e : wf_tree e -> sel_dim sel c e ->
  has_shape (edim e) c (sel_jacobian sel c e).
Proof. intros Hwf Hd. apply msum_shape. apply sel_shapes; auto. Qed.

Lemma sel_jacobian_none sel c e :
  (forall l, In l (leaves e) -> sel l = false) ->
  sel_jacobian sel c e = mzero (edim e) c.
Proof.
  intros H. unfold sel_jacobian.
  replace (filter _ _) with (@nil (leaf * mat)); [reflexivity|].
  symmetry. rewrite <- occurrences_leaves in H.
  induction (occurrences e) as [|p l IH]; simpl; auto.
  rewrite H by (simpl; auto). apply IH. intros; apply H; simpl; auto.
Qed.

Lemma sel_jacobian_un sel c a n J e :
  wf_tree (EUn a n J e) -> sel_dim sel c e ->
  sel_jacobian sel c (EUn a n J e) == J ** sel_jacobian sel c e.
Proof.
  intros (_ & (Hr & Hc) & Hwf) Hd. unfold sel_jacobian. cbn [occurrences edim].
  rewrite (filter_map_fst sel (fun A => J ** A)).
  rewrite mmul_msum by (apply sel_shapes; auto).
  rewrite !map_map, Hr. reflexivity.
Qed.

Lemma sel_jacobian_bin sel c a n JL JR l r :
  wf_tree (EBin a n JL JR l r) -> sel_dim sel c l -> sel_dim sel c r ->
  sel_jacobian sel c (EBin a n JL JR l r)
  == (JL ** sel_jacobian sel c l) [+] (JR ** sel_jacobian sel c r).
Proof.
  intros Hwf Hdl Hdr. pose proof Hwf as (_ & (Hlr & Hlc) & (Hrr & Hrc) & Hwl & Hwr).
  unfold sel_jacobian. cbn [occurrences edim].
  rewrite filter_app, map_app, msum_app.
  2:{ rewrite <- map_app, <- filter_app.
      apply (sel_shapes sel c (EBin a n JL JR l r)); auto.
      intros x Hx. simpl in Hx. apply in_app_iff in Hx. destruct Hx; auto. }
  rewrite (filter_map_fst sel (fun A => JL ** A)), (filter_map_fst sel (fun A => JR ** A)).
  rewrite !mmul_msum by (apply sel_shapes; auto).
  rewrite !map_map, Hlr, Hrr. reflexivity.
Qed.

Definition obj_sel (t : leaf) (l : leaf) : bool := if leaf_eq_dec l t then true else false.

Lemma obj_sel_dim t e : sel_dim (obj_sel t) (l_dim t) e.
Proof.
  intros l _ H. unfold obj_sel in H. destruct (leaf_eq_dec l t); [subst; auto|discriminate].
Qed.

Lemma true_jacobian_sel t e : true_jacobian t e = sel_jacobian (obj_sel t) (l_dim t) e.
Proof. reflexivity. Qed.

Lemma true_jacobian_shape t e : wf_tree e -> has_shape (edim e) (l_dim t) (true_jacobian t e).
Proof. intros. rewrite true_jacobian_sel. apply sel_jacobian_shape; auto using obj_sel_dim. Qed.

Lemma true_jacobian_leaf_same t : true_jacobian t (ELeaf t) == mid (l_dim t).
Proof.
  unfold true_jacobian. simpl. destruct (leaf_eq_dec t t); [|congruence].
  simpl. apply madd_mzero_r.
Qed.

Lemma true_jacobian_absent t e :
  ~ In t (leaves e) -> true_jacobian t e = mzero (edim e) (l_dim t).
Proof.
  intros H. rewrite true_jacobian_sel. apply sel_jacobian_none.
  intros l Hl. unfold obj_sel. destruct (leaf_eq_dec l t); auto. subst. contradiction.
Qed.

(** ** Forward evaluator *)

Lemma fwd_correct t e : wf_tree e ->
  match fwd t e with
  | Ok (Some j) => j == true_jacobian t e
  | Ok None => ~ In t (leaves e)
  | NoCompile => contains_same_type (l_type t) e = false
  end.
Proof.
  induction e as [l|a n J c IH|a n JL JR l IHl r IHr]; intros Hwf.
  - simpl. destruct (ltype_eqb (l_type l) (l_type t)) eqn:E.
    + destruct (is_same l t) eqn:Es.
      * apply is_same_eq in Es. subst. symmetry. apply true_jacobian_leaf_same.
      * intros [H|[]]. subst. rewrite (proj2 (is_same_eq t t) eq_refl) in Es. discriminate.
    + intros [H|[]]. subst. apply ltype_eqb_neq in E. congruence.
  - simpl. pose proof Hwf as (_ & _ & Hwc). specialize (IH Hwc).
    destruct (fwd t c) as [[j|]|]; auto.
    rewrite IH, !true_jacobian_sel, sel_jacobian_un; auto using obj_sel_dim. reflexivity.
  - pose proof Hwf as (_ & (Hlr & Hlc) & (Hrr & Hrc) & Hwl & Hwr).
    specialize (IHl Hwl). specialize (IHr Hwr).
    assert (Hsum : true_jacobian t (EBin a n JL JR l r)
                   == (JL ** true_jacobian t l) [+] (JR ** true_jacobian t r)).
    { rewrite !true_jacobian_sel. apply sel_jacobian_bin; auto using obj_sel_dim. }
    assert (HL : forall x, ~ In t (leaves x) -> wf_tree x -> forall M,
               mrows M = n -> mcols M = edim x ->
               M ** true_jacobian t x == mzero n (l_dim t)).
    { intros x Hx Hwx M HM HM'. rewrite (true_jacobian_absent t x Hx).
      rewrite mmul_mzero_r, HM. reflexivity. }
    assert (Habs : forall x, contains_same_type (l_type t) x = false -> ~ In t (leaves x)).
    { intros x Hx Hin. apply contains_false in Hx. apply Hx. apply in_map. exact Hin. }
    assert (Hleft : ~ In t (leaves r) ->
              true_jacobian t (EBin a n JL JR l r) == JL ** true_jacobian t l).
    { intros H. rewrite Hsum, (HL r H Hwr JR Hrr Hrc). apply madd_mzero_r. }
    assert (Hright : ~ In t (leaves l) ->
              true_jacobian t (EBin a n JL JR l r) == JR ** true_jacobian t r).
    { intros H. rewrite Hsum, (HL l H Hwl JL Hlr Hlc).
      apply madd_mzero_l; simpl; auto. symmetry. apply true_jacobian_shape; auto. }
    assert (Hnone : ~ In t (leaves l) -> ~ In t (leaves r) ->
              ~ In t (leaves (EBin a n JL JR l r))).
    { simpl. rewrite in_app_iff. tauto. }
    simpl fwd. simpl contains_same_type.
    destruct (contains_same_type (l_type t) l) eqn:El;
    destruct (contains_same_type (l_type t) r) eqn:Er; auto.
    + destruct (fwd t l) as [[jl|]|]; [| |discriminate];
      destruct (fwd t r) as [[jr|]|]; try discriminate; auto.
      * rewrite IHl, IHr. symmetry. exact Hsum.
      * rewrite IHl. symmetry. auto.
      * rewrite IHr. symmetry. auto.
    + destruct (fwd t l) as [[jl|]|]; [| |discriminate]; auto.
      rewrite IHl. symmetry. auto.
    + destruct (fwd t r) as [[jr|]|]; [| |discriminate]; auto.
      rewrite IHr. symmetry. auto.
Qed.

Lemma evaluateJacobian_correct t e j :
  wf_tree e -> evaluateJacobian t e = Ok j -> j == true_jacobian t e.
Proof.
  intros Hwf. unfold evaluateJacobian. pose proof (fwd_correct t e Hwf) as H.
  destruct (fwd t e) as [[j'|]|]; intros Heq; inversion Heq; subst; auto.
  rewrite true_jacobian_absent by auto. reflexivity.
Qed.

Lemma evaluateJacobian_compiles t e :
  wf_tree e -> contains_same_type (l_type t) e = true ->
  exists j, evaluateJacobian t e = Ok j.
Proof.
  intros Hwf Hc. unfold evaluateJacobian. pose proof (fwd_correct t e Hwf) as H.
  destruct (fwd t e) as [[j'|]|]; eauto. congruence.
Qed.

(** ** Typed evaluator *)

Definition type_sel (t : ltype) (l : leaf) : bool := ltype_eqb (l_type l) t.

Lemma type_sel_dim t e : sel_dim (type_sel t) (ty_dim t) e.
Proof.
  intros l _ H. apply ltype_eqb_eq in H. unfold l_dim. congruence.
Qed.

Lemma type_sel_absent t e : contains_same_type t e = false ->
  forall l, In l (leaves e) -> type_sel t l = false.
Proof.
  intros H l Hl. unfold type_sel. apply ltype_eqb_neq. intros <-.
  apply contains_false in H. apply H. apply in_map. exact Hl.
Qed.

Lemma typed_correct t e : wf_tree e -> contains_same_type t e = true ->
  exists j, typed t e = Ok j /\ j == sel_jacobian (type_sel t) (ty_dim t) e.
Proof.
  induction e as [l|a n J c IH|a n JL JR l IHl r IHr]; intros Hwf Hc.
  - simpl in *. rewrite Hc. eexists. split; [reflexivity|].
    unfold sel_jacobian. simpl. unfold type_sel. rewrite Hc. simpl.
    rewrite madd_mzero_r. reflexivity.
  - simpl in Hc. simpl typed. rewrite Hc.
    destruct (IH (proj2 (proj2 Hwf)) Hc) as (j & -> & Hj).
    eexists. split; [reflexivity|]. rewrite Hj, sel_jacobian_un; auto using type_sel_dim.
    reflexivity.
  - pose proof Hwf as (_ & (Hlr & Hlc) & (Hrr & Hrc) & Hwl & Hwr).
    specialize (IHl Hwl). specialize (IHr Hwr).
    assert (Hsum := sel_jacobian_bin (type_sel t) (ty_dim t) a n JL JR l r Hwf
                      (type_sel_dim t l) (type_sel_dim t r)).
    simpl typed. simpl in Hc.
    destruct (contains_same_type t l) eqn:El, (contains_same_type t r) eqn:Er;
      simpl in Hc; try discriminate.
    + destruct (IHl eq_refl) as (jl & -> & Hjl). destruct (IHr eq_refl) as (jr & -> & Hjr).
      eexists. split; [reflexivity|]. rewrite Hjl, Hjr. symmetry. exact Hsum.
    + destruct (IHl eq_refl) as (jl & -> & Hjl). eexists. split; [reflexivity|].
      rewrite Hsum, (sel_jacobian_none _ _ r) by (apply type_sel_absent; auto).
      rewrite mmul_mzero_r, madd_mzero_r, Hjl. reflexivity.
    + destruct (IHr eq_refl) as (jr & -> & Hjr). eexists. split; [reflexivity|].
      rewrite Hsum, (sel_jacobian_none _ _ l) by (apply type_sel_absent; auto).
      rewrite mmul_mzero_r, Hlr, madd_mzero_l, Hjr; [reflexivity| |]; simpl; auto.
      symmetry. apply sel_jacobian_shape; auto using type_sel_dim.
Qed.

(** ** Unique leaves *)

Lemma unique_leaves_some e L :
  unique_leaves e = Some L -> L = map l_type (leaves e) /\ NoDup L.
Proof.
  revert L; induction e as [l|a n J c IH|a n JL JR l IHl r IHr]; intros L; simpl.
  - intros H. inversion H. split; auto. constructor; [intros []|constructor].
  - auto.
  - destruct (unique_leaves l) as [A|]; [|discriminate].
    destruct (unique_leaves r) as [B|]; [|discriminate].
    destruct (IHl A eq_refl) as (-> & HA). destruct (IHr B eq_refl) as (-> & HB).
    intros H. apply (concat_if_unique_some ltype_eqb ltype_eqb_eq) in H.
    destruct H as (-> & H). rewrite map_app. split; auto.
Qed.

Lemma unique_leaves_complete e :
  unique_types e -> unique_leaves e = Some (map l_type (leaves e)).
Proof.
  unfold unique_types.
  induction e as [l|a n J c IH|a n JL JR l IHl r IHr]; simpl; auto.
  rewrite map_app. intros H.
  assert (Hl : NoDup (map l_type (leaves l))).
  { clear -H. induction (map l_type (leaves l)) as [|x xs IH]; [constructor|].
    simpl in H. inversion H; subst. constructor; auto.
    intros Hx. apply H2. apply in_or_app. auto. }
  assert (Hr : NoDup (map l_type (leaves r))).
  { clear -H. induction (map l_type (leaves l)) as [|x xs IH]; auto.
    simpl in H. inversion H; subst. auto. }
  rewrite IHl, IHr by auto.
  apply (concat_if_unique_complete ltype_eqb ltype_eqb_eq). exact H.
Qed.

Lemma unique_iff e : (exists L, unique_leaves e = Some L) <-> unique_types e.
Proof.
  split.
  - intros (L & H). apply unique_leaves_some in H. destruct H as (-> & H). exact H.
  - intros H. eexists. apply unique_leaves_complete. exact H.
Qed.

Lemma nodup_type_inj e t l :
  unique_types e -> In t (leaves e) -> In l (leaves e) -> l_type l = l_type t -> l = t.
Proof.
  unfold unique_types. intros Hnd Ht Hl Heq.
  induction (leaves e) as [|x xs IH]; [contradiction|].
  simpl in Hnd. inversion Hnd as [|? ? Hn Hnd' ]; subst.
  destruct Ht as [->|Ht], Hl as [->|Hl]; auto.
  - exfalso. apply Hn. rewrite <- Heq. apply in_map. exact Hl.
  - exfalso. apply Hn. rewrite Heq. apply in_map. exact Ht.
Qed.

Lemma sel_ext s1 s2 c e : (forall l, In l (leaves e) -> s1 l = s2 l) ->
  sel_jacobian s1 c e = sel_jacobian s2 c e.
Proof.
  intros H. unfold sel_jacobian. f_equal. f_equal.
  rewrite <- occurrences_leaves in H.
  induction (occurrences e) as [|p ps IH]; simpl; auto.
  rewrite H by (simpl; auto). rewrite IH; auto. intros; apply H; simpl; auto.
Qed.

Lemma typed_unique_correct t e :
  wf_tree e -> unique_types e -> In t (leaves e) ->
  exists j, typed (l_type t) e = Ok j /\ j == true_jacobian t e.
Proof.
  intros Hwf Hu Hin.
  assert (Hc : contains_same_type (l_type t) e = true)
    by (apply contains_in; apply in_map; exact Hin).
  destruct (typed_correct _ _ Hwf Hc) as (j & Hj & Heq). exists j. split; auto.
  rewrite Heq. rewrite true_jacobian_sel. unfold l_dim at 1.
  rewrite (sel_ext (type_sel (l_type t)) (obj_sel t)); [reflexivity|].
  intros l Hl. unfold type_sel, obj_sel. destruct (leaf_eq_dec l t) as [->|Hne].
  - apply ltype_eqb_eq. reflexivity.
  - apply ltype_eqb_neq. intros H. apply Hne. eapply nodup_type_inj; eauto.
Qed.

Lemma jacobian_correct t e :
  wf_tree e -> In t (leaves e) ->
  exists j, jacobian t e = Ok j /\ j == true_jacobian t e.
Proof.
  intros Hwf Hin.
  assert (Hc : contains_same_type (l_type t) e = true)
    by (apply contains_in; apply in_map; exact Hin).
  unfold jacobian. destruct (unique_leaves e) as [L|] eqn:E.
  - unfold evaluateTypedJacobian. rewrite Hc.
    apply typed_unique_correct; auto. apply unique_iff. eauto.
  - destruct (evaluateJacobian_compiles t e Hwf Hc) as (j & Hj). exists j. split; auto.
    eapply evaluateJacobian_correct; eauto.
Qed.

Lemma jacobian_sound t e j :
  wf_tree e ->
  (In (l_type t) (map l_type (leaves e)) -> In t (leaves e)) \/ ~ unique_types e ->
  jacobian t e = Ok j -> j == true_jacobian t e.
Proof.
  intros Hwf Hd Hj. unfold jacobian in Hj.
  destruct (unique_leaves e) as [L|] eqn:E.
  - assert (Hu : unique_types e) by (apply unique_iff; eauto).
    destruct Hd as [Hd|Hd]; [|contradiction].
    unfold evaluateTypedJacobian in Hj.
    destruct (contains_same_type (l_type t) e) eqn:Hc.
    + apply contains_in in Hc. specialize (Hd Hc).
      destruct (typed_unique_correct t e Hwf Hu Hd) as (j' & Hj' & Heq).
      rewrite Hj in Hj'. inversion Hj'; subst. exact Heq.
    + inversion Hj; subst. rewrite true_jacobian_absent; [reflexivity|].
      intros Hin. apply contains_false in Hc. apply Hc. apply in_map. exact Hin.
  - eapply evaluateJacobian_correct; eauto.
Qed.

Lemma evalWithJacobian_correct t e :
  wf_tree e -> In t (leaves e) ->
  exists j, evalWithJacobian t e = Ok j /\ j == true_jacobian t e.
Proof.
  intros Hwf Hin.
  assert (Hc : contains_same_type (l_type t) e = true)
    by (apply contains_in; apply in_map; exact Hin).
  unfold evalWithJacobian. destruct (unique_leaves e) as [L|] eqn:E.
  - apply typed_unique_correct; auto. apply unique_iff. eauto.
  - destruct (evaluateJacobian_compiles t e Hwf Hc) as (j & Hj). exists j. split; auto.
    eapply evaluateJacobian_correct; eauto.
Qed.

(** ** Dynamic forward *)

Lemma nonempty_shape r c A : has_shape r c A -> nonempty A = ((0 <? r) && (0 <? c))%nat.
Proof.
  intros (<- & <-). unfold nonempty, msize.
  destruct (mrows A) as [|r], (mcols A) as [|c]; simpl; rewrite ?Nat.mul_0_r; reflexivity.
Qed.

Lemma wf_edim_pos e : wf_tree e -> (0 < edim e)%nat.
Proof. destruct e; simpl; intuition. Qed.

Lemma dyn_correct t e :
  wf_tree e -> addr_unambiguous t e -> (0 < l_dim t)%nat ->
  (In t (leaves e) /\ nonempty (dyn (l_addr t) e) = true
     /\ dyn (l_addr t) e == true_jacobian t e)
  \/ (~ In t (leaves e) /\ dyn (l_addr t) e = mempty).
Proof.
  intros Hwf Hu Ht. induction e as [l|a n J c IH|a n JL JR l IHl r IHr].
  - simpl. destruct (l_addr l =? l_addr t)%nat eqn:E.
    + apply Nat.eqb_eq in E. destruct Hu as (_ & Hu).
      assert (l = t) by (apply Hu; simpl; auto). subst l. left. split; auto. split.
      * rewrite (nonempty_shape (l_dim t) (l_dim t)) by (split; reflexivity).
        apply Nat.ltb_lt in Ht. rewrite Ht. reflexivity.
      * symmetry. apply true_jacobian_leaf_same.
    + right. split; auto. intros [H|[]]. subst. rewrite Nat.eqb_refl in E. discriminate.
  - pose proof Hwf as (Hn & (Hr & Hc) & Hwc). destruct Hu as (Hnode & Hlf). simpl in *.
    replace (a =? l_addr t)%nat with false by (symmetry; apply Nat.eqb_neq; tauto).
    destruct IH as [(Hin & Hne & Heq)|(Hin & Heq)]; auto.
    { split; auto. }
    + left. rewrite Hne. split; auto.
      assert (Heq' : J ** dyn (l_addr t) c == true_jacobian t (EUn a n J c)).
      { rewrite Heq, !true_jacobian_sel, sel_jacobian_un; auto using obj_sel_dim.
        reflexivity. }
      split; auto.
      rewrite (nonempty_shape n (l_dim t)).
      * apply Nat.ltb_lt in Hn, Ht. rewrite Hn, Ht. reflexivity.
      * split; simpl; auto. rewrite Heq. apply true_jacobian_shape; auto.
    + right. rewrite Heq. split; auto.
  - pose proof Hwf as (Hn & (Hlr & Hlc) & (Hrr & Hrc) & Hwl & Hwr).
    destruct Hu as (Hnode & Hlf). simpl in Hnode, Hlf.
    assert (Hul : addr_unambiguous t l).
    { split; [intros H; apply Hnode; right; apply in_or_app; auto|].
      intros x Hx. apply Hlf. apply in_or_app; auto. }
    assert (Hur : addr_unambiguous t r).
    { split; [intros H; apply Hnode; right; apply in_or_app; auto|].
      intros x Hx. apply Hlf. apply in_or_app; auto. }
    specialize (IHl Hwl Hul). specialize (IHr Hwr Hur).
    assert (Hsum : true_jacobian t (EBin a n JL JR l r)
                   == (JL ** true_jacobian t l) [+] (JR ** true_jacobian t r)).
    { rewrite !true_jacobian_sel. apply sel_jacobian_bin; auto using obj_sel_dim. }
    assert (Hsh : forall A, A == true_jacobian t (EBin a n JL JR l r) -> nonempty A = true).
    { intros A HA. rewrite (nonempty_shape n (l_dim t)).
      - apply Nat.ltb_lt in Hn, Ht. rewrite Hn, Ht. reflexivity.
      - destruct (true_jacobian_shape t (EBin a n JL JR l r) Hwf) as (H1 & H2).
        split; rewrite HA; auto. }
    simpl dyn. simpl leaves.
    replace (a =? l_addr t)%nat with false by (symmetry; apply Nat.eqb_neq; tauto).
    destruct IHl as [(Hinl & Hnl & Hel)|(Hinl & Hel)];
    destruct IHr as [(Hinr & Hnr & Her)|(Hinr & Her)].
    + rewrite Hnl, Hnr. cbn [andb]. left. split; [apply in_or_app; auto|].
      assert (H : (JL ** dyn (l_addr t) l) [+] (JR ** dyn (l_addr t) r)
                  == true_jacobian t (EBin a n JL JR l r)).
      { rewrite Hel, Her. symmetry. exact Hsum. }
      split; auto.
    + rewrite Hnl, Her. cbn [nonempty andb]. left. split; [apply in_or_app; auto|].
      assert (H : JL ** dyn (l_addr t) l == true_jacobian t (EBin a n JL JR l r)).
      { rewrite Hel, Hsum, (true_jacobian_absent t r Hinr), mmul_mzero_r, madd_mzero_r.
        reflexivity. }
      split; auto.
    + rewrite Hel, Hnr. cbn [nonempty andb]. left. split; [apply in_or_app; auto|].
      assert (H : JR ** dyn (l_addr t) r == true_jacobian t (EBin a n JL JR l r)).
      { rewrite Her, Hsum, (true_jacobian_absent t l Hinl), mmul_mzero_r, Hlr.
        symmetry. apply madd_mzero_l; simpl; auto.
        symmetry. apply true_jacobian_shape; auto. }
      split; auto.
    + rewrite Hel, Her. cbn [nonempty andb]. right. split; auto.
      rewrite in_app_iff. tauto.
Qed.

Lemma evaluateDynamicJacobian_correct t e :
  wf_tree e -> addr_unambiguous t e -> (0 < l_dim t)%nat ->
  evaluateDynamicJacobian t e == true_jacobian t e.
Proof.
  intros Hwf Hu Ht. unfold evaluateDynamicJacobian.
  destruct (dyn_correct t e Hwf Hu Ht) as [(Hin & Hne & Heq)|(Hin & Heq)].
  - rewrite Hne. exact Heq.
  - rewrite Heq. simpl. rewrite true_jacobian_absent by auto. reflexivity.
Qed.

(** ** Static reverse *)

Definition mats_eq (l1 l2 : list mat) : Prop := Forall2 meq l1 l2.

Lemma mats_eq_trans a b c : mats_eq a b -> mats_eq b c -> mats_eq a c.
Proof.
  intros H. revert c. induction H; intros c' H'; inversion H'; subst; constructor; auto.
  - etransitivity; eauto.
  - apply IHForall2; auto.
Qed.

Lemma mats_eq_map {B} (f g : B -> mat) l :
  (forall x, f x == g x) -> mats_eq (map f l) (map g l).
Proof. intros H. induction l; simpl; constructor; auto. Qed.

Lemma rev_correct e : forall adj, wf_tree e -> mcols adj = edim e ->
  mats_eq (rev adj e) (map (fun p => adj ** snd p) (occurrences e)).
Proof.
  induction e as [l|a n J c IH|a n JL JR l IHl r IHr]; intros adj Hwf Hadj.
  - simpl. constructor; [|constructor]. symmetry. apply mmul_mid_r. auto.
  - pose proof Hwf as (_ & (Hr & Hc) & Hwc). simpl. rewrite map_map. simpl.
    eapply mats_eq_trans; [apply (IH (adj ** J) Hwc Hc)|].
    apply mats_eq_map. intros x. apply mmul_assoc.
  - pose proof Hwf as (_ & (Hlr & Hlc) & (Hrr & Hrc) & Hwl & Hwr). simpl.
    rewrite map_app, !map_map. simpl. apply Forall2_app.
    + eapply mats_eq_trans; [apply (IHl (adj ** JL) Hwl Hlc)|].
      apply mats_eq_map. intros x. apply mmul_assoc.
    + eapply mats_eq_trans; [apply (IHr (adj ** JR) Hwr Hrc)|].
      apply mats_eq_map. intros x. apply mmul_assoc.
Qed.

Lemma map_occ_ext (e : etree) : forall f g : leaf * mat -> mat,
  (forall p, In p (occurrences e) -> f p == g p) ->
  mats_eq (map f (occurrences e)) (map g (occurrences e)).
Proof.
  intros f g H. induction (occurrences e) as [|x l IH]; simpl; constructor.
  - apply H. simpl. auto.
  - apply IH. intros. apply H. simpl. auto.
Qed.

(** With unique types each object occurs once, so an occurrence is a Jacobian. *)
Lemma occurrence_is_jacobian e :
  wf_tree e -> unique_types e ->
  forall p, In p (occurrences e) -> snd p == true_jacobian (fst p) e.
Proof.
  intros Hwf Hu p Hp. unfold true_jacobian.
  assert (Hnd : NoDup (map fst (occurrences e))).
  { rewrite occurrences_leaves. unfold unique_types in Hu.
    eapply NoDup_map_inv. exact Hu. }
  assert (Hf : filter (fun q => if leaf_eq_dec (fst q) (fst p) then true else false)
                 (occurrences e) = [p]).
  { clear Hwf Hu. induction (occurrences e) as [|q qs IH]; [contradiction|].
    simpl in *. inversion Hnd as [|? ? Hn Hnd']; subst.
    destruct Hp as [->|Hp].
    - destruct (leaf_eq_dec (fst p) (fst p)); [|congruence]. f_equal.
      assert (Hall : forall q, In q qs -> fst q <> fst p).
      { intros q Hq Heq. apply Hn. rewrite <- Heq. apply in_map. exact Hq. }
      clear - Hall. induction qs as [|q qs IH]; simpl; auto.
      destruct (leaf_eq_dec (fst q) (fst p)) as [H|H].
      + exfalso. apply (Hall q); simpl; auto.
      + apply IH. intros. apply Hall. simpl. auto.
    - destruct (leaf_eq_dec (fst q) (fst p)) as [H|H].
      + exfalso. apply Hn. rewrite H. apply in_map. exact Hp.
      + apply IH; auto. }
  rewrite Hf. simpl. rewrite madd_mzero_r. reflexivity.
Qed.

Lemma reverse_correct e :
  wf_tree e -> unique_types e ->
  exists js, evaluateWithReverseJacobians e = Some js /\
    mats_eq js (map (fun t => true_jacobian t e) (leaves e)).
Proof.
  intros Hwf Hu. unfold evaluateWithReverseJacobians.
  rewrite (unique_leaves_complete e Hu). eexists. split; [reflexivity|].
  eapply mats_eq_trans; [apply rev_correct; auto|].
  rewrite <- occurrences_leaves, map_map.
  apply map_occ_ext. intros p Hp.
  rewrite mmul_mid_l.
  - apply occurrence_is_jacobian; auto.
  - symmetry. apply (occurrences_shape e Hwf p Hp).
Qed.

(** ** Dynamic reverse *)

Lemma sort_keys_perm l : Permutation (sort_keys l) l.
Proof.
  induction l as [|x l IH]; simpl; auto.
  assert (Hins : forall x l, Permutation (insert_key x l) (x :: l)).
  { clear. intros x l. induction l as [|y l IH]; simpl; auto.
    destruct (fst x <=? fst y)%nat; auto.
    rewrite IH. apply perm_swap. }
  rewrite Hins. constructor. exact IH.
Qed.

Lemma getLeaves_leaves e : getLeaves e = map (fun l => (l_addr l, l_dim l)) (leaves e).
Proof.
  induction e as [l|a n J c IH|a n JL JR l IHl r IHr]; simpl; auto.
  rewrite map_app, IHl, IHr. reflexivity.
Qed.

Lemma first_width_in items k w :
  first_width items k = Some w -> In (k, w) items.
Proof.
  induction items as [|(k' & w') tl IH]; simpl; [discriminate|].
  destruct (k' =? k)%nat eqn:E; intros H.
  - apply Nat.eqb_eq in E. inversion H; subst. auto.
  - auto.
Qed.

Lemma first_width_none items k :
  first_width items k = None <-> ~ In k (map fst items).
Proof.
  induction items as [|(k' & w') tl IH]; simpl; [tauto|].
  destruct (k' =? k)%nat eqn:E.
  - apply Nat.eqb_eq in E. split; [discriminate|]. intros H. exfalso; auto.
  - apply Nat.eqb_neq in E. rewrite IH. tauto.
Qed.

(** Sum of the contributions for address [k] below [adj]. *)
Definition addr_sel (k : nat) (l : leaf) : bool := (l_addr l =? k)%nat.

Lemma dynrev_correct e : forall m adj,
  wf_tree e -> mm_wf m -> mrows adj = mrows (mm_storage m) -> mcols adj = edim e ->
  (forall l, In l (leaves e) ->
     exists A, mm_at m (l_addr l) = Some A /\ has_shape (mrows adj) (l_dim l) A) ->
  exists m', dynrev m adj e = Some m' /\ mm_wf m' /\
    mrows (mm_storage m') = mrows (mm_storage m) /\
    (forall k A, mm_at m k = Some A ->
       exists A', mm_at m' k = Some A' /\ mrows A' = mrows A /\ mcols A' = mcols A /\
         A' == fold_left madd
           (map (fun p => adj ** snd p)
              (filter (fun p => addr_sel k (fst p)) (occurrences e))) A) /\
    (forall k, mm_at m k = None -> mm_at m' k = None).
Proof.
  induction e as [l|a n J c IH|a n JL JR l IHl r IHr]; intros m adj Hwf Hm Hr Hc Hk.
  - simpl. destruct (Hk l (or_introl eq_refl)) as (A & HA & HAr & HAc).
    unfold mm_add. rewrite (mm_sub_at _ _ _ HA). simpl.
    destruct (mm_set_spec m (l_addr l) A (A [+] adj) Hm HA eq_refl eq_refl)
      as (m' & -> & Hwf' & Hix & Hrow & Hsame & Hother & Hnone).
    exists m'. repeat split; try apply Hwf'; auto.
    intros k B HB. unfold addr_sel at 1.
    destruct (Nat.eq_dec k (l_addr l)) as [->|Hne].
    + rewrite Nat.eqb_refl. simpl. rewrite HB in HA. injection HA as ->.
      destruct Hsame as (A' & HA' & Heq). exists A'. split; auto.
      split; [rewrite Heq; reflexivity|]. split; [rewrite Heq; reflexivity|].
      rewrite Heq. rewrite mmul_mid_r by auto. reflexivity.
    + replace (l_addr l =? k)%nat with false by (symmetry; apply Nat.eqb_neq; auto).
      simpl. destruct (Hother k B Hne HB) as (C & HC & Heq). exists C.
      split; auto. split; [rewrite Heq; reflexivity|]. split; [rewrite Heq; reflexivity|].
      exact Heq.
  - pose proof Hwf as (_ & (HJr & HJc) & Hwc). simpl in Hc, Hk |- *.
    destruct (IH m (adj ** J) Hwc Hm Hr HJc Hk) as (m' & Hm' & Hwf' & Hrow & Hat & Hno).
    exists m'. split; auto. split; auto. split; auto. split; auto.
    intros k A HA. destruct (Hat k A HA) as (A' & HA' & H1 & H2 & Heq).
    exists A'. split; auto. split; auto. split; auto. rewrite Heq.
    rewrite (filter_map_fst (addr_sel k) (fun X => J ** X)), map_map. simpl.
    clear - HA. revert A HA.
    generalize (filter (fun p => addr_sel k (fst p)) (occurrences c)).
    intros ps A _. revert A.
    assert (G : forall ps A B, A == B ->
      fold_left madd (map (fun p => adj ** J ** snd p) ps) A ==
      fold_left madd (map (fun p : leaf * mat => adj ** (J ** snd p)) ps) B).
    { clear. induction ps as [|p ps IH]; intros A B H; simpl; auto.
      apply IH. rewrite H, mmul_assoc. reflexivity. }
    intros A. apply G. reflexivity.
  - pose proof Hwf as (_ & (Hlr & Hlc) & (Hrr & Hrc) & Hwl & Hwr). simpl in Hc, Hk |- *.
    destruct (IHl m (adj ** JL) Hwl Hm Hr Hlc) as (m1 & Hm1 & Hwf1 & Hrow1 & Hat1 & Hno1).
    { intros x Hx. apply Hk. apply in_or_app. auto. }
    rewrite Hm1.
    destruct (IHr m1 (adj ** JR) Hwr Hwf1) as (m2 & Hm2 & Hwf2 & Hrow2 & Hat2 & Hno2).
    { simpl. congruence. }
    { exact Hrc. }
    { intros x Hx. destruct (Hk x ltac:(apply in_or_app; auto)) as (A & HA & Hs & Hs').
      destruct (Hat1 _ _ HA) as (A' & HA' & H1 & H2 & _). exists A'. split; auto.
      simpl. split; congruence. }
    exists m2. split; auto. split; auto. split; [congruence|]. split; auto.
    intros k A HA. destruct (Hat1 k A HA) as (A1 & HA1 & Hr1 & Hc1 & Heq1).
    destruct (Hat2 k A1 HA1) as (A2 & HA2 & Hr2 & Hc2 & Heq2).
    exists A2. split; auto. split; [congruence|]. split; [congruence|].
    rewrite Heq2, filter_app, map_app, fold_left_app.
    rewrite (filter_map_fst (addr_sel k) (fun X => JL ** X)),
            (filter_map_fst (addr_sel k) (fun X => JR ** X)), !map_map. simpl.
    assert (G : forall J ps A B, A == B ->
      fold_left madd (map (fun p => adj ** J ** snd p) ps) A ==
      fold_left madd (map (fun p : leaf * mat => adj ** (J ** snd p)) ps) B).
    { clear. intros J. induction ps as [|p ps IH]; intros A B H; simpl; auto.
      apply IH. rewrite H, mmul_assoc. reflexivity. }
    apply G. rewrite Heq1. apply G. reflexivity.
Qed.

Lemma fold_left_madd_msum r c : forall l A,
  has_shape r c A -> (forall B, In B l -> has_shape r c B) ->
  fold_left madd l A == A [+] msum r c l.
Proof.
  induction l as [|B l IH]; intros A (Hr & Hc) H; simpl.
  - symmetry. apply madd_mzero_r.
  - destruct (H B (or_introl eq_refl)) as (HBr & HBc).
    destruct (msum_shape r c l) as (Hsr & Hsc); [intros; apply H; simpl; auto|].
    rewrite IH.
    + apply madd_assoc; congruence.
    + split; simpl; auto.
    + intros. apply H. simpl. auto.
Qed.

Lemma dynreverse_correct g e :
  wf_tree e -> addrs_unambiguous e ->
  exists m, evaluateDynamicReverseJacobians g e = Some m /\
    (forall t, In t (leaves e) ->
       exists j, mm_at m (l_addr t) = Some j /\ j == true_jacobian t e) /\
    (forall k, ~ In k (map l_addr (leaves e)) -> mm_at m k = None).
Proof.
  intros Hwf Hu. unfold evaluateDynamicReverseJacobians.
  set (m0 := mm_make g (getLeavesMap e) (edim e)).
  assert (Hwf0 : mm_wf (mm_setZero m0)).
  { pose proof (mm_make_wf g (getLeavesMap e) (edim e)) as (H1 & H2 & H3). fold m0 in H1, H2, H3.
    repeat split; simpl; auto. }
  assert (Hrow0 : mrows (mm_storage m0) = edim e).
  { unfold m0, mm_make. destruct (mm_build _ _ _); reflexivity. }
  assert (Hin_keys : forall k, In k (map fst (getLeavesMap e)) <-> In k (map l_addr (leaves e))).
  { intros k. unfold getLeavesMap.
    assert (HP : Permutation (map fst (sort_keys (getLeaves e))) (map l_addr (leaves e))).
    { rewrite (Permutation_map fst (sort_keys_perm (getLeaves e))).
      rewrite getLeaves_leaves, map_map. reflexivity. }
    split; apply Permutation_in; auto. symmetry. exact HP. }
  assert (Hat0 : forall t, In t (leaves e) -> exists A,
     mm_at (mm_setZero m0) (l_addr t) = Some A /\ A == mzero (edim e) (l_dim t)).
  { intros t Ht. pose proof (mm_make_at g (getLeavesMap e) (edim e) (l_addr t)) as H.
    fold m0 in H. destruct (first_width (getLeavesMap e) (l_addr t)) as [w|] eqn:E.
    - apply first_width_in in E.
      assert (w = l_dim t).
      { unfold getLeavesMap in E.
        apply (Permutation_in _ (sort_keys_perm (getLeaves e))) in E.
        rewrite getLeaves_leaves in E. apply in_map_iff in E.
        destruct E as (l & Heq & Hl). injection Heq as H1 H2.
        rewrite (Hu l t Hl Ht H1) in H2. auto. }
      subst w. destruct H as (A & HA & HAr & HAc).
      rewrite mm_setZero_at. unfold mm_at in HA.
      destruct (mm_lookup (mm_index m0) (l_addr t)) as [(c & w)|]; [|discriminate].
      eexists. split; [reflexivity|]. injection HA as <-. simpl in HAr, HAc.
      rewrite mblock_mzero, HAr, HAc. reflexivity.
    - apply first_width_none in E. exfalso. apply E. apply Hin_keys. apply in_map. exact Ht. }
  destruct (dynrev_correct e (mm_setZero m0) (mid (edim e)) Hwf Hwf0)
    as (m & Hm & Hwfm & Hrow & Hat & Hno).
  - simpl. auto.
  - reflexivity.
  - intros l Hl. destruct (Hat0 l Hl) as (A & HA & Heq). exists A. split; auto.
    split; rewrite Heq; reflexivity.
  - exists m. split; auto. split.
    + intros t Ht. destruct (Hat0 t Ht) as (A & HA & Heq).
      destruct (Hat _ _ HA) as (j & Hj & _ & _ & Hje). exists j. split; auto.
      rewrite Hje.
      rewrite (fold_left_madd_msum (edim e) (l_dim t)).
      * rewrite Heq. rewrite madd_mzero_l.
        -- unfold true_jacobian.
           assert (Hf : filter (fun p => addr_sel (l_addr t) (fst p)) (occurrences e)
             = filter (fun p => if leaf_eq_dec (fst p) t then true else false)
                 (occurrences e)).
           { assert (Hall : forall p, In p (occurrences e) -> In (fst p) (leaves e)).
             { intros p Hp. rewrite <- occurrences_leaves. apply in_map. exact Hp. }
             clear - Hall Hu Ht.
             induction (occurrences e) as [|p ps IH]; simpl; auto.
             rewrite IH by (intros; apply Hall; simpl; auto).
             unfold addr_sel. destruct (leaf_eq_dec (fst p) t) as [->|Hne].
             - rewrite Nat.eqb_refl. reflexivity.
             - replace (l_addr (fst p) =? l_addr t)%nat with false; auto.
               symmetry. apply Nat.eqb_neq. intros H. apply Hne.
               apply Hu; auto. apply Hall. simpl. auto. }
           rewrite Hf.
           assert (G : forall ps, (forall p, In p ps -> mrows (snd p) = edim e) ->
             msum (edim e) (l_dim t) (map (fun p : leaf * mat => mid (edim e) ** snd p) ps)
             == msum (edim e) (l_dim t) (map snd ps)).
           { clear. induction ps as [|p ps IH]; intros H; [reflexivity|].
             cbn [map]. change (msum (edim e) (l_dim t) ((mid (edim e) ** snd p) ::
                 map (fun p0 : leaf * mat => mid (edim e) ** snd p0) ps))
               with ((mid (edim e) ** snd p) [+] msum (edim e) (l_dim t)
                  (map (fun p0 : leaf * mat => mid (edim e) ** snd p0) ps)).
             rewrite mmul_mid_l by (symmetry; apply H; simpl; auto).
             rewrite IH by (intros; apply H; simpl; auto). reflexivity. }
           apply G. intros p Hp. apply filter_In in Hp. destruct Hp as (Hp & _).
           apply (occurrences_shape e Hwf p Hp).
        -- symmetry.
           match goal with |- mrows (msum _ _ ?l) = _ =>
             destruct (msum_shape (edim e) (l_dim t) l) as (Hs1 & Hs2) end; auto.
           intros B HB. apply in_map_iff in HB. destruct HB as (p & <- & Hp).
           apply filter_In in Hp. destruct Hp as (Hp & Hps).
           destruct (occurrences_shape e Hwf p Hp) as (S1 & S2). split; simpl; auto.
           apply Nat.eqb_eq in Hps. rewrite (Hu (fst p) t) in S2; auto.
           rewrite <- occurrences_leaves. apply in_map. auto.
        -- symmetry.
           match goal with |- mcols (msum _ _ ?l) = _ =>
             destruct (msum_shape (edim e) (l_dim t) l) as (Hs1 & Hs2) end; auto.
           intros B HB. apply in_map_iff in HB. destruct HB as (p & <- & Hp).
           apply filter_In in Hp. destruct Hp as (Hp & Hps).
           destruct (occurrences_shape e Hwf p Hp) as (S1 & S2). split; simpl; auto.
           apply Nat.eqb_eq in Hps. rewrite (Hu (fst p) t) in S2; auto.
           rewrite <- occurrences_leaves. apply in_map. auto.
      * split; rewrite Heq; reflexivity.
      * intros B HB. apply in_map_iff in HB. destruct HB as (p & <- & Hp).
        apply filter_In in Hp. destruct Hp as (Hp & Hps).
        destruct (occurrences_shape e Hwf p Hp) as (S1 & S2). split; simpl; auto.
        apply Nat.eqb_eq in Hps. rewrite (Hu (fst p) t) in S2; auto.
        rewrite <- occurrences_leaves. apply in_map. auto.
    + intros k Hk. apply Hno. rewrite mm_setZero_at.
      pose proof (mm_make_at g (getLeavesMap e) (edim e) k) as H. fold m0 in H.
      destruct (first_width (getLeavesMap e) k) as [w|] eqn:E.
      * exfalso. apply first_width_in in E. apply Hk. apply Hin_keys.
        change k with (fst (k, w)). apply in_map. exact E.
      * unfold mm_at in H. destruct (mm_lookup (mm_index m0) k) as [(c & w)|]; auto.
        discriminate.
Qed.
