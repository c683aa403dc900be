(** Proofs about the n-ary Jacobian evaluators of ModelJac.v. *)

From Coq Require Import Reals List Arith Bool Lia Lra.
From Verif Require Import Mat ModelMeta MetaProofs ModelJac SpecJac JacProofs.
Import ListNotations.
Local Open Scope mat_scope.

Lemma vstack_nth c l : forall i B a b,
  nth_error l i = Some B -> (a < mrows B)%nat -> (b < c)%nat ->
  mnth (vstack c l) (start_of (map mrows l) i + a) b = mnth B a b.
Proof.
  induction l as [|A l IH]; intros i B a b Hi Ha Hb; [destruct i; discriminate|].
  destruct i as [|i]; simpl in Hi.
  - injection Hi as ->. change (start_of _ 0 + a)%nat with a.
    rewrite mnth_in by (simpl; lia). simpl.
    apply Nat.ltb_lt in Ha. rewrite Ha. reflexivity.
  - assert (Hs : (start_of (map mrows l) i + mrows B <= list_sum (map mrows l))%nat).
    { apply start_of_end. apply map_nth_error. exact Hi. }
    rewrite <- (IH i B a b Hi Ha Hb).
    replace (start_of (map mrows (A :: l)) (S i) + a)%nat
      with (mrows A + (start_of (map mrows l) i + a))%nat
      by (unfold start_of; simpl; lia).
    rewrite mnth_in by (simpl; rewrite ?vstack_rows; lia). simpl.
    replace (_ <? mrows A)%nat with false by (symmetry; apply Nat.ltb_ge; lia).
    f_equal. lia.
Qed.

Lemma vstack_char c l A :
  has_shape (list_sum (map mrows l)) c A ->
  (forall i B, nth_error l i = Some B -> forall a b, (a < mrows B)%nat -> (b < c)%nat ->
     mnth A (start_of (map mrows l) i + a) b = mnth B a b) ->
  A == vstack c l.
Proof.
  intros (Hr & Hc) H. repeat split.
  - rewrite vstack_rows. exact Hr.
  - rewrite vstack_cols. exact Hc.
  - intros x b Hx Hb. rewrite Hr in Hx. rewrite Hc in Hb.
    destruct (blocks_cover _ _ Hx) as (i & sz & Hi & Hrange).
    rewrite nth_error_map in Hi. destruct (nth_error l i) as [B|] eqn:E; [|discriminate].
    simpl in Hi. injection Hi as <-.
    replace x with (start_of (map mrows l) i + (x - start_of (map mrows l) i))%nat by lia.
    set (a := (x - start_of (map mrows l) i)%nat) in *.
    rewrite <- !mnth_in.
    + rewrite (H i B E a b) by lia. symmetry. apply vstack_nth; auto. lia.
    + rewrite vstack_rows. lia.
    + rewrite vstack_cols. lia.
    + lia.
    + lia.
Qed.

Lemma nary_dim_sum cs : nary_dim cs = list_sum (map edim cs).
Proof. apply sum_sequence_list_sum. Qed.

Lemma map_mrows_true_jacobian t cs :
  Forall wf_tree cs -> map mrows (map (true_jacobian t) cs) = map edim cs.
Proof.
  intros H. rewrite map_map. apply map_ext_in. intros e He.
  apply true_jacobian_shape. rewrite Forall_forall in H. auto.
Qed.

(** ** Dynamic *)

Lemma nonempty_mempty : nonempty mempty = false.
Proof. reflexivity. Qed.

Section Dyn.
  Variable g : nat -> nat -> R.
  Variable t : leaf.
  Hypothesis Ht : (0 < l_dim t)%nat.

  (** Rows of the children in [pre] are correct in [jac]. *)
  Definition rows_ok (pre : list etree) (jac : mat) : Prop :=
    forall i c, nth_error pre i = Some c -> forall a b,
      (a < edim c)%nat -> (b < l_dim t)%nat ->
      mnth jac (start_of (map edim pre) i + a) b = mnth (true_jacobian t c) a b.

  Lemma start_of_app l1 l2 i :
    (i <= length l1)%nat -> start_of (l1 ++ l2)%list i = start_of l1 i.
  Proof.
    intros H. unfold start_of. rewrite firstn_app.
    replace (i - length l1)%nat with 0%nat by lia. simpl. rewrite app_nil_r. reflexivity.
  Qed.

  Lemma start_of_length l1 l2 : start_of (l1 ++ l2)%list (length l1) = list_sum l1.
  Proof. rewrite start_of_app by lia. unfold start_of. rewrite firstn_all. reflexivity. Qed.

  Lemma rows_ok_snoc pre c jac jac' :
    rows_ok pre jac ->
    (forall x b, (x < list_sum (map edim pre))%nat -> (b < l_dim t)%nat ->
       mnth jac' x b = mnth jac x b) ->
    (forall a b, (a < edim c)%nat -> (b < l_dim t)%nat ->
       mnth jac' (list_sum (map edim pre) + a) b = mnth (true_jacobian t c) a b) ->
    rows_ok (pre ++ [c]) jac'.
  Proof.
    intros Hok Hold Hnew i d Hi a b Ha Hb.
    destruct (Nat.lt_ge_cases i (length pre)) as [Hlt|Hge].
    - rewrite nth_error_app1 in Hi by auto.
      rewrite map_app, start_of_app by (rewrite map_length; lia).
      rewrite Hold.
      + apply Hok; auto.
      + assert (H : (start_of (map edim pre) i + edim d <= list_sum (map edim pre))%nat)
          by (apply start_of_end; apply map_nth_error; auto). lia.
      + auto.
    - rewrite nth_error_app2 in Hi by auto.
      destruct (i - length pre)%nat as [|k] eqn:E; simpl in Hi.
      + injection Hi as <-. assert (i = length pre) by lia. subst i.
        rewrite map_app. rewrite <- (map_length edim pre), start_of_length. auto.
      + destruct k; discriminate.
  Qed.

  Lemma dyn_combine_correct dim : forall post pre jac,
    (list_sum (map edim pre) + list_sum (map edim post) = dim)%nat ->
    Forall wf_tree post -> Forall (addr_unambiguous t) post ->
    ((forall c, In c pre -> ~ In t (leaves c)) /\ jac = mempty
     \/ has_shape dim (l_dim t) jac /\ rows_ok pre jac /\ nonempty jac = true) ->
    let res := dyn_combine g (l_addr t) dim post (list_sum (map edim pre)) jac in
    (forall c, In c (pre ++ post) -> ~ In t (leaves c)) /\ res = mempty
    \/ has_shape dim (l_dim t) res /\ rows_ok (pre ++ post) res /\ nonempty res = true.
  Proof.
    induction post as [|c post IH]; intros pre jac Hdim Hwf Hu Hinv; simpl.
    - rewrite app_nil_r. exact Hinv.
    - inversion Hwf as [|? ? Hwc Hwp]; subst. inversion Hu as [|? ? Huc Hup]; subst.
      replace (list_sum (map edim pre) + edim c)%nat
        with (list_sum (map edim (pre ++ [c])))
        by (rewrite map_app, list_sum_app; simpl; lia).
      replace (pre ++ c :: post)%list with ((pre ++ [c]) ++ post)%list
        by (rewrite <- app_assoc; reflexivity).
      set (dim := (list_sum (map edim pre) + list_sum (map edim (c :: post)))%nat).
      assert (Hdc : (list_sum (map edim pre) + edim c <= dim)%nat)
        by (unfold dim; simpl; lia).
      assert (Hpos : (0 < edim c)%nat) by (apply wf_edim_pos; auto).
      assert (Hne : forall A, has_shape dim (l_dim t) A -> nonempty A = true).
      { intros A HA. rewrite (nonempty_shape _ _ _ HA).
        apply andb_true_intro. split; apply Nat.ltb_lt; lia. }
      apply IH; auto.
      { unfold dim. rewrite map_app, list_sum_app. simpl. lia. }
      destruct (dyn_correct t c Hwc Huc Ht) as [(Hin & Hnec & Heq)|(Hin & Heq)].
      + rewrite Hnec. right.
        assert (Hcc : mcols (dyn (l_addr t) c) = l_dim t)
          by (rewrite Heq; apply true_jacobian_shape; auto).
        destruct Hinv as [(Habs & ->)|(Hsh & Hok & Hnej)].
        * rewrite nonempty_mempty.
          rewrite Hcc.
          match goal with |- has_shape _ _ ?M /\ _ => set (J := M) end.
          assert (HJ : has_shape dim (l_dim t) J) by (split; reflexivity).
          split; auto. split; auto.
          apply (rows_ok_snoc pre c (mzero dim (l_dim t))).
          -- intros i d Hi a b Ha Hb. rewrite mnth_mzero.
             rewrite true_jacobian_absent.
             ++ rewrite mnth_mzero. reflexivity.
             ++ apply Habs. eapply nth_error_In; eauto.
          -- intros x b Hx Hb. unfold J.
             rewrite mnth_mset_out by lia.
             rewrite mnth_mset_in by (simpl; lia).
             rewrite !mnth_mzero. reflexivity.
          -- intros a b Ha Hb. unfold J. cbn [mset_block mcols].
             rewrite mnth_mset_in by (simpl; lia).
             rewrite Heq. f_equal; lia.
        * rewrite Hnej. destruct Hsh as (Hjr & Hjc).
          match goal with |- has_shape _ _ ?M /\ _ => set (J := M) end.
          assert (HJ : has_shape dim (l_dim t) J) by (split; simpl; auto).
          split; auto. split; auto.
          apply (rows_ok_snoc pre c jac); auto.
          -- intros x b Hx Hb. unfold J. apply mnth_mset_out. lia.
          -- intros a b Ha Hb. unfold J. rewrite mnth_mset_in by lia.
             rewrite Heq. f_equal; lia.
      + rewrite Heq. rewrite nonempty_mempty.
        destruct Hinv as [(Habs & ->)|(Hsh & Hok & Hnej)].
        * left. rewrite nonempty_mempty.
          split; auto. intros d Hd. apply in_app_iff in Hd.
          destruct Hd as [Hd|[<-|[]]]; auto.
        * right. rewrite Hnej. destruct Hsh as (Hjr & Hjc).
          match goal with |- has_shape _ _ ?M /\ _ => set (J := M) end.
          assert (HJ : has_shape dim (l_dim t) J) by (split; simpl; auto).
          split; auto. split; auto.
          apply (rows_ok_snoc pre c jac); auto.
          -- intros x b Hx Hb. unfold J. apply mnth_mset_out. lia.
          -- intros a b Ha Hb. unfold J. rewrite mnth_mset_in by lia.
             rewrite (true_jacobian_absent t c Hin), !mnth_mzero. reflexivity.
  Qed.

  Lemma nary_dyn_correct cs :
    Forall wf_tree cs -> Forall (addr_unambiguous t) cs ->
    nary_dyn g t cs == true_nary_jacobian t cs.
  Proof.
    intros Hwf Hu. unfold nary_dyn.
    pose proof (dyn_combine_correct (nary_dim cs) cs [] mempty) as H.
    cbn [map list_sum fold_right app] in H.
    specialize (H ltac:(rewrite nary_dim_sum; reflexivity) Hwf Hu).
    cbv zeta in H.
    change (list_sum (map edim [])) with 0%nat in H.
    set (res := dyn_combine g (l_addr t) (nary_dim cs) cs 0 mempty) in *.
    destruct H as [(Habs & Hres)|(Hsh & Hok & Hne)].
    - left. split; [intros c []|reflexivity].
    - rewrite Hres. rewrite nonempty_mempty.
      apply vstack_char.
      + rewrite map_mrows_true_jacobian, <- nary_dim_sum by auto. split; reflexivity.
      + intros i B Hi a b Ha Hb. rewrite mnth_mzero.
        rewrite nth_error_map in Hi. destruct (nth_error cs i) as [c|] eqn:E; [|discriminate].
        injection Hi as <-. rewrite true_jacobian_absent.
        * rewrite mnth_mzero. reflexivity.
        * apply Habs. eapply nth_error_In; eauto.
    - rewrite Hne. apply vstack_char.
      + rewrite map_mrows_true_jacobian, <- nary_dim_sum by auto. exact Hsh.
      + intros i B Hi a b Ha Hb.
        rewrite map_mrows_true_jacobian by auto.
        rewrite nth_error_map in Hi. destruct (nth_error cs i) as [c|] eqn:E; [|discriminate].
        injection Hi as <-. apply (Hok i c E); auto.
        destruct (true_jacobian_shape t c) as (Hr & _); [|congruence].
        rewrite Forall_forall in Hwf. apply Hwf. eapply nth_error_In; eauto.
  Qed.

  (** ** Static, when the children that contain the target type come first *)

  Lemma combine_correct all : forall sel pre jac,
    (exists post, all = (pre ++ sel ++ post)%list) ->
    Forall wf_tree sel ->
    Forall (fun c => contains_same_type (l_type t) c = true) sel ->
    has_shape (list_sum (map edim all)) (l_dim t) jac ->
    rows_ok pre jac ->
    (forall x b, (list_sum (map edim pre) <= x)%nat -> mnth jac x b = 0%R) ->
    exists res, combineChildJacobians t (map edim all) (length pre) sel jac = Ok res /\
      has_shape (list_sum (map edim all)) (l_dim t) res /\
      rows_ok (pre ++ sel) res /\
      (forall x b, (list_sum (map edim (pre ++ sel)) <= x)%nat -> mnth res x b = 0%R).
  Proof.
    induction sel as [|c sel IH]; intros pre jac Hall Hwf Hc Hsh Hok Hz; simpl.
    - exists jac. rewrite app_nil_r. auto.
    - destruct Hall as (post & ->).
      inversion Hwf as [|? ? Hwc Hwp]; subst. inversion Hc as [|? ? Hcc Hcp]; subst.
      set (all := (pre ++ (c :: sel) ++ post)%list) in *.
      assert (Hrange : block_range (map edim all) (length pre)
                       = Some (list_sum (map edim pre), edim c)).
      { rewrite block_range_spec. unfold all. rewrite !map_app.
        rewrite nth_error_app2 by (rewrite map_length; lia).
        rewrite map_length, Nat.sub_diag. simpl. f_equal. f_equal.
        rewrite <- (map_length edim pre). apply start_of_length. }
      assert (Htot : (list_sum (map edim pre) + edim c <= list_sum (map edim all))%nat).
      { unfold all. rewrite !map_app, !list_sum_app. simpl. lia. }
      pose proof (fwd_correct t c Hwc) as Hf.
      assert (Hj : forall oj, fwd t c = Ok oj ->
        (match oj with Some j => j | None => mzero (edim c) (l_dim t) end)
        == true_jacobian t c).
      { intros oj Hoj. rewrite Hoj in Hf. destruct oj as [j|]; auto.
        rewrite true_jacobian_absent by auto. reflexivity. }
      destruct (fwd t c) as [oj|]; [|congruence].
      specialize (Hj oj eq_refl).
      set (B := match oj with Some j => j | None => mzero (edim c) (l_dim t) end) in *.
      destruct (true_jacobian_shape t c Hwc) as (Htr & Htc).
      unfold set_rowsWrt. rewrite Hrange.
      rewrite (mrows_proper _ _ Hj), (mcols_proper _ _ Hj), Htr, Htc, (proj2 Hsh),
        !Nat.eqb_refl. cbn [andb].
      set (jac' := mset_block jac (list_sum (map edim pre)) 0 (edim c) (l_dim t) B).
      assert (Hnew : exists jn, (match oj with Some _ => jac' | None => jac end) = jn /\
                has_shape (list_sum (map edim all)) (l_dim t) jn /\
                rows_ok (pre ++ [c]) jn /\
                (forall x b, (list_sum (map edim (pre ++ [c])) <= x)%nat -> mnth jn x b = 0%R)).
      { eexists. split; [reflexivity|]. destruct Hsh as (Hsr & Hsc).
        destruct oj as [j|].
        - split; [split; simpl; auto|]. split.
          + apply (rows_ok_snoc pre c jac); auto.
            * intros x b Hx Hb. unfold jac'. apply mnth_mset_out. lia.
            * intros a b Ha Hb. unfold jac'. rewrite mnth_mset_in by lia.
              rewrite Hj. f_equal; lia.
          + intros x b Hx. rewrite map_app, list_sum_app in Hx. simpl in Hx.
            unfold jac'. rewrite mnth_mset_out by lia. apply Hz. lia.
        - split; [split; auto|]. split.
          + apply (rows_ok_snoc pre c jac); auto.
            intros a b Ha Hb. rewrite Hz by lia.
            rewrite true_jacobian_absent by auto. rewrite mnth_mzero. reflexivity.
          + intros x b Hx. apply Hz. rewrite map_app, list_sum_app in Hx. lia. }
      destruct Hnew as (jn & -> & Hns & Hnok & Hnz).
      destruct (IH (pre ++ [c])%list jn) as (res & Hres & H1 & H2 & H3); auto.
      { exists post. unfold all. rewrite <- app_assoc. reflexivity. }
      exists res. rewrite app_length in Hres. simpl in Hres.
      rewrite Nat.add_1_r in Hres. rewrite <- app_assoc in H2, H3. auto.
  Qed.

  Lemma filter_all_true {A} (p : A -> bool) l : Forall (fun x => p x = true) l -> filter p l = l.
  Proof. induction 1; simpl; auto. rewrite H. f_equal. auto. Qed.

  Lemma filter_all_false {A} (p : A -> bool) l : Forall (fun x => p x = false) l -> filter p l = [].
  Proof. induction 1; simpl; auto. rewrite H. auto. Qed.

  Lemma nary_fwd_prefix_correct sel post :
    Forall wf_tree (sel ++ post) ->
    Forall (fun c => contains_same_type (l_type t) c = true) sel ->
    Forall (fun c => contains_same_type (l_type t) c = false) post ->
    exists res, nary_fwd t (sel ++ post) = Ok res /\
                res == true_nary_jacobian t (sel ++ post).
  Proof.
    intros Hwf Hs Hp. unfold nary_fwd.
    rewrite filter_app, (filter_all_true _ sel), (filter_all_false _ post), app_nil_r by auto.
    assert (Habs : forall c, In c post -> ~ In t (leaves c)).
    { intros c Hc Hin. rewrite Forall_forall in Hp. apply Hp, contains_false in Hc.
      apply Hc. apply in_map. exact Hin. }
    destruct (combine_correct (sel ++ post) sel [] (mzero (nary_dim (sel ++ post)) (l_dim t)))
      as (res & Hres & Hsh & Hok & Hz); auto.
    { exists post. reflexivity. }
    { apply Forall_app in Hwf. tauto. }
    { rewrite <- nary_dim_sum. split; reflexivity. }
    { intros i c Hi. destruct i; discriminate. }
    { intros. apply mnth_mzero. }
    exists res. split.
    - unfold nary_sizes. simpl in Hres. destruct sel as [|c sel]; auto.
    - apply vstack_char.
      + rewrite map_mrows_true_jacobian by auto. exact Hsh.
      + intros i B Hi a b Ha Hb. rewrite map_mrows_true_jacobian by auto.
        rewrite nth_error_map in Hi. destruct (nth_error (sel ++ post) i) as [c|] eqn:E;
          [|discriminate].
        injection Hi as <-.
        assert (Hwc : wf_tree c).
        { rewrite Forall_forall in Hwf. apply Hwf. eapply nth_error_In; eauto. }
        destruct (true_jacobian_shape t c Hwc) as (Hr & _).
        destruct (Nat.lt_ge_cases i (length sel)) as [Hlt|Hge].
        * rewrite nth_error_app1 in E by auto.
          rewrite map_app, start_of_app by (rewrite map_length; lia).
          apply (Hok i c E); auto. congruence.
        * rewrite Hz.
          -- rewrite true_jacobian_absent; [rewrite mnth_mzero; reflexivity|].
             apply Habs. rewrite nth_error_app2 in E by auto. eapply nth_error_In; eauto.
          -- cbn [app]. pose proof (start_of_mono (map edim (sel ++ post)) (length sel) i Hge) as H.
             rewrite map_app in H at 1. rewrite <- (map_length edim sel), start_of_length in H. lia.
  Qed.
End Dyn.
