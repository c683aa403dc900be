(** C23, C24, C25: coordinate frames. *)

From Coq Require Import Reals Lra Lia List Bool Arith Cantor.
From Verif Require Import Mat V3 ModelMeta ModelJac SpecJac JacProofs ModelLeaf SpecLeaf
  LeafProofs ModelExpr SpecExpr ExprProofs PropsExpr SpecDeriv DerivProofs DerivUn DerivTree
  PropsDeriv ModelFrames SpecFrames FramesProofs.
Import ListNotations.
Local Open Scope R_scope.
Local Open Scope mat_scope.

Local Arguments F2 (_ _)%nat_scope.
Local Arguments F3 (_ _ _)%nat_scope.
Local Arguments FLeaf _%nat_scope _ _.
Local Arguments rot_between _ (_ _)%nat_scope.
Local Arguments displacement _ (_ _ _)%nat_scope.

(** ** C25: frames do not influence values or derivatives *)

(** eval() of a framed expression returns a value exactly when the expression passes the
    frame checks and the same expression without frames (and without frame_cast) returns
    that value; the result carries the announced frames. *)
Theorem c25_value_independent_of_frames : forall eps m e v f,
  feval eps m e = Some (v, f) <-> frames_of e = Some f /\ eval eps m (erase e) = Some v.
Proof. exact feval_erase. Qed.
Print Assumptions c25_value_independent_of_frames.

(** frame_cast replaces the frames and nothing else. *)
Theorem c25_frame_cast_only_annotation : forall eps m e f v f',
  feval eps m (FCast f e) = Some (v, f') <->
  f' = f /\ (exists k, ekind (erase e) = Some k /\ frames_fit k f = true) /\
  exists f0, feval eps m e = Some (v, f0).
Proof.
  intros eps m e f v f'. rewrite feval_erase. cbn [erase]. split.
  - intros (F & E). cbn [frames_of erase] in F.
    destruct (ekind (erase e)) as [k|] eqn:Ek; [|discriminate].
    destruct (frames_of e) as [f0|] eqn:F0; [|discriminate].
    destruct (frames_fit k f) eqn:Fit; [|discriminate]. injection F as <-.
    split; [reflexivity|]. split; [eauto|]. exists f0. apply feval_erase. auto.
  - intros (-> & (k & Ek & Fit) & f0 & H). apply feval_erase in H as (F0 & E).
    split; [|exact E]. cbn [frames_of erase]. now rewrite Ek, F0, Fit.
Qed.
Print Assumptions c25_frame_cast_only_annotation.

(** Constructing or assigning a framed variable stores the value that the unframed
    expression would store in an unframed variable. *)
Theorem c25_construct_independent_of_frames : forall eps l f m e v k,
  ekind (erase e) = Some k -> kind_of l = k ->
  (fconstruct eps l f m e = Some v <->
   frames_of e = Some f /\ evaluateTo eps (Plain l) m (erase e) = Some v).
Proof.
  intros eps l f m e v k Ek Kl. unfold fconstruct, evaluateTo.
  destruct (frames_of e) as [f0|] eqn:F; [|split; [discriminate|intros (H & _); discriminate]].
  destruct (fprepare_to_spec e f0 k l F Ek Kl) as (q & Q1 & Q2 & Q3 & Q4 & Q5).
  rewrite Q1, Q2, feval_p_erase by exact Q3.
  destruct (frames_eqb f f0) eqn:E.
  - apply frames_eqb_eq in E. subst f0. tauto.
  - split; [discriminate|]. intros ([= ->] & _).
    rewrite (proj2 (frames_eqb_eq f f) eq_refl) in E. discriminate.
Qed.
Print Assumptions c25_construct_independent_of_frames.

Lemma fleaves_addrs e a : In a (leaf_addrs (erase e)) <-> exists t f, In (a, t, f) (fleaves e).
Proof.
  induction e as [b t f|o e IH|o l IHl r IHr|x e IH|f e IH|l IHl r IHr|l IHl r IHr];
    cbn [erase leaf_addrs fleaves XBoxPlus XBoxMinus]; auto.
  - split; [intros [<-|[]]; exists t, f; now left|].
    intros (t' & f' & [H|[]]); left; congruence.
  - rewrite in_app_iff, IHl, IHr. setoid_rewrite in_app_iff. firstorder.
  - unfold XBoxPlus. cbn [leaf_addrs].
    rewrite in_app_iff, IHl, IHr. setoid_rewrite in_app_iff. firstorder.
  - unfold XBoxMinus. cbn [leaf_addrs].
    rewrite in_app_iff, IHl, IHr. setoid_rewrite in_app_iff. firstorder.
Qed.

Lemma fleaves_env m e a t f : env_ok m (erase e) -> In (a, t, f) (fleaves e) ->
  vty (m a) = t.
Proof.
  revert a t f.
  induction e as [b t f|o e IH|o l IHl r IHr|x e IH|f e IH|l IHl r IHr|l IHl r IHr];
    cbn [erase env_ok fleaves]; intros a t' f' En Hin; eauto.
  - destruct Hin as [H|[]]. injection H as <- <- <-. apply En.
  - apply in_app_iff in Hin as [H|H]; destruct En; eauto.
  - apply in_app_iff in Hin as [H|H]; destruct En; eauto.
  - apply in_app_iff in Hin as [H|H]; destruct En; eauto.
Qed.

Lemma one_type_unique m e x : env_ok m (erase e) -> one_type_per_object e -> In x (fleaves e) ->
  forall y, In y (fleaves e) -> fst y = fst x -> y = x.
Proof.
  intros En One Hx y Hy E. destruct x as [[a t] f], y as [[b u] g]. cbn in E.
  injection E as -> ->. destruct (One a t f t g Hx Hy) as (_ & ->). reflexivity.
Qed.

(** jacobian(x) of a framed expression is the matrix that jacobian(x) of the unframed
    expression returns, whenever that is a derivative (C01). *)
Theorem c25_jacobian_independent_of_frames : forall eps na m e k fe a l f x, 0 <= eps < 1 ->
  frames_of e = Some fe -> one_type_per_object e ->
  good eps m (erase e) k -> means eps m (erase e) = Some x ->
  In (a, Plain l, f) (fleaves e) -> smooth eps (fun b => den (m b)) a (erase e) ->
  exists J J', fexpr_jacobian eps na m e (fleaf_obj a (Plain l) f) = Some (Ok J') /\
    expr_jacobian eps na m (erase e) (leaf_obj a (Plain l)) = Some (Ok J) /\ J' == J.
Proof.
  intros eps na m e k fe a l f x He F One G Hx Ha Hs.
  assert (Hl : vty (m a) = Plain l) by exact (fleaves_env m e _ _ _ (proj1 (proj2 G)) Ha).
  assert (Ha' : In a (leaf_addrs (erase e))) by (apply fleaves_addrs; eauto).
  destruct (fprepare_spec e fe k F (proj1 G)) as (p & t & P1 & P2 & P3 & P4 & P5 & P6 & P7 & P8).
  destruct (core_prepare eps na m (erase e) k a l x He G Hx Ha' Hl Hs _ _ P2)
    as (v & T & H1 & H2 & H3 & H4 & H5 & H6 & H7).
  pose proof (ftree_erase eps na m p P3) as X. rewrite H1, P8 in X.
  destruct X as (_ & T' & E' & R).
  { intros [[b u] g] Hb. exact (fleaves_env m e _ _ _ (proj1 (proj2 G)) Hb). }
  { intros w. apply tsize_pos. }
  pose proof (frel_wf _ _ _ R H2) as W'.
  assert (In' : In (fobj (a, Plain l, f)) (leaves T')).
  { rewrite (proj1 (frel_leaves _ _ _ R)). now apply in_map. }
  destruct (jacobian_correct _ T' W' In') as (J' & Q1 & Q2).
  destruct (jacobian_correct _ T H2 H6) as (J & Q3 & Q4).
  exists J, J'. unfold fexpr_jacobian, expr_jacobian. rewrite P1, E', P2, H1.
  change (fleaf_obj a (Plain l) f) with (fobj (a, Plain l, f)). rewrite Q1, Q3.
  split; [reflexivity|]. split; [reflexivity|]. rewrite Q2, Q4.
  apply (frel_true_jacobian T' T (fleaves e) (a, Plain l, f)); auto.
  exact (one_type_unique m e _ (proj1 (proj2 G)) One Ha).
Qed.
Print Assumptions c25_jacobian_independent_of_frames.

(** evalWithJacobians() of a framed expression, accepted when the framed leaf types are
    pairwise different (which may hold although the bare types are not): the value and
    one matrix per leaf, equal to the unframed jacobian(x) of that leaf. *)
Theorem c25_reverse_independent_of_frames : forall eps na m e k fe x, 0 <= eps < 1 ->
  frames_of e = Some fe -> one_type_per_object e ->
  good eps m (erase e) k -> means eps m (erase e) = Some x ->
  NoDup (map (fun y => (snd (fst y), snd y)) (fleaves e)) ->
  (exists a l f, In (a, Plain l, f) (fleaves e) /\
     smooth eps (fun b => den (m b)) a (erase e)) ->
  exists v js, fexpr_evalWithJacobians eps na m e = Some (v, Some js) /\ den v = x /\
    length js = length (fleaves e) /\
    forall i a l f, nth_error (fleaves e) i = Some (a, Plain l, f) ->
      smooth eps (fun b => den (m b)) a (erase e) ->
      exists J' J, nth_error js i = Some J' /\
        expr_jacobian eps na m (erase e) (leaf_obj a (Plain l)) = Some (Ok J) /\ J' == J.
Proof.
  intros eps na m e k fe x He F One G Hx Nd (a0 & l0 & f0 & Ha0 & Hs0).
  pose proof (proj1 (proj2 G)) as En.
  assert (Hl0 : vty (m a0) = Plain l0) by exact (fleaves_env m e _ _ _ En Ha0).
  assert (Ha0' : In a0 (leaf_addrs (erase e))) by (apply fleaves_addrs; eauto).
  destruct (fprepare_spec e fe k F (proj1 G)) as (p & t & P1 & P2 & P3 & P4 & P5 & P6 & P7 & P8).
  destruct (fprepare_to_spec e fe k (ty_leaf t) F (proj1 G) P7) as (q & Q1 & Q2 & Q3 & Q4 & Q5).
  change (Plain (ty_leaf t)) with (plain_output t) in Q1, Q2.
  destruct (core_prepare_to eps na m (erase e) k a0 l0 x _ t _ _ He G Hx Ha0' Hl0 Hs0 P2 Q2)
    as (v & T & H1 & H2 & H3 & H4 & H5 & H6 & H7).
  assert (Dv : den v = x).
  { pose proof (prepare_to_sound eps (proj1 He) m (erase e) _ _ _ k Q2 (proj1 G)) as X.
    destruct X as (_ & X1 & _); [apply G|apply G|].
    rewrite <- (tree_value eps na m (erase q)), H1, (core_x _ _ _ _ _ He G Hx) in X1.
    cbn in X1. congruence. }
  pose proof (ftree_erase eps na m q Q3) as X. rewrite H1, Q5 in X.
  destruct X as (_ & T' & E' & R).
  { intros [[b u] g] Hb. exact (fleaves_env m e _ _ _ En Hb). }
  { intros w. apply tsize_pos. }
  pose proof (frel_wf _ _ _ R H2) as W'. pose proof (frel_leaves _ _ _ R) as (L' & L).
  assert (U : unique_types T').
  { unfold unique_types. rewrite L', map_map. clear - Nd. revert Nd.
    induction (fleaves e) as [|y w IH]; cbn [map]; intros Nd; [constructor|].
    inversion Nd as [|? ? N1 N2]; subst. constructor; [|auto].
    intros H. apply N1. apply in_map_iff in H as (z & E & Hz). apply in_map_iff. exists z.
    split; [|exact Hz]. destruct y as [[b u] g], z as [[b' u'] g']. cbn [fst snd].
    assert (Y : (0%nat, u', g') = (0%nat, u, g)).
    { apply fobj_inj. unfold fobj, fleaf_obj in *. cbn [fst snd l_type] in *. now rewrite E. }
    congruence. }
  destruct (reverse_correct T' W' U) as (js & Ejs & Heq).
  exists v, js. unfold fexpr_evalWithJacobians. rewrite P1, Q1, E', Ejs.
  split; [reflexivity|]. split; [exact Dv|].
  assert (Len : length js = length (fleaves e)).
  { rewrite <- (map_length fobj (fleaves e)), <- L'.
    rewrite <- (map_length (fun t => true_jacobian t T') (leaves T')).
    clear - Heq. induction Heq; cbn; auto. }
  split; [exact Len|]. intros i a l f Hi Hs.
  pose proof (nth_error_In _ _ Hi) as Ha.
  assert (Hl : vty (m a) = Plain l) by exact (fleaves_env m e _ _ _ En Ha).
  assert (Ha' : In a (leaf_addrs (erase e))) by (apply fleaves_addrs; eauto).
  destruct (c01_jacobian_is_derivative eps na m (erase e) k a l x He G Hx Ha' Hl Hs)
    as (_ & J & EJ & SJ & DJ).
  destruct (core_prepare_to eps na m (erase e) k a l x _ t _ _ He G Hx Ha' Hl Hs P2 Q2)
    as (v' & T2 & K1 & K2 & K3 & K4 & K5 & K6 & K7).
  rewrite H1 in K1. injection K1 as <- <-.
  assert (Sh : has_shape (tsize k) (tsize (kind_of l)) (true_jacobian (leaf_obj a (Plain l)) T)).
  { pose proof (true_jacobian_shape (leaf_obj a (Plain l)) T H2) as X. rewrite H3 in X.
    unfold vdim in X. rewrite H4 in X. exact X. }
  assert (EQ : true_jacobian (leaf_obj a (Plain l)) T == J)
    by exact (c01_derivative_unique eps m (erase e) k a l x _ _ He G Hx Ha' Hl Sh SJ K7 DJ).
  assert (N : exists J', nth_error js i = Some J' /\ J' == true_jacobian (fobj (a, Plain l, f)) T').
  { rewrite L', map_map in Heq. clear - Heq Hi. revert i Hi.
    remember (map _ (fleaves e)) as M eqn:EM. revert EM. generalize (fleaves e).
    induction Heq as [|x y xs ys Hxy H IH]; intros w EM i Hi.
    - destruct w; [|discriminate]. destruct i; discriminate.
    - destruct w as [|z w]; [discriminate|]. injection EM as -> ->. destruct i as [|i].
      + injection Hi as ->. exists x. auto.
      + exact (IH w eq_refl i Hi). }
  destruct N as (J' & NJ & QJ). exists J', J. split; [exact NJ|]. split; [exact EJ|].
  rewrite QJ, <- EQ. apply (frel_true_jacobian T' T (fleaves e) (a, Plain l, f)); auto.
  exact (one_type_unique m e _ En One Ha).
Qed.
Print Assumptions c25_reverse_independent_of_frames.

(** ** C24: mismatched frames are rejected *)

(** Rotation of a quarter turn about z. *)
Definition rotz90 : M3 := mkM 0 (-1) 0 1 0 0 0 0 1.
Lemma rotz90_rot : is_rot rotz90.
Proof. exact ex_rot. Qed.

(** Everything at the identity except one frame. *)
Definition only (b : frame) (p : pose) : placement := fun f => if (f =? b)%nat then p else mkPose i3 v0.
Lemma only_ok b p : is_rot (axes p) -> placement_ok (only b p).
Proof. intros H f. unfold only. destruct (f =? b)%nat; [exact H|]. cbn. apply is_rot_i. Qed.

Lemma rot_cancel a x y : is_rot a -> mul3 (tr3 a) x = mul3 (tr3 a) y -> x = y.
Proof.
  intros H E. rewrite <- (mul3_i_l x), <- (mul3_i_l y), <- (rot_mul_tr a H), !mul3_assoc.
  now rewrite E.
Qed.
Lemma rot_cancel_r a x y : is_rot a -> mul3 x a = mul3 y a -> x = y.
Proof.
  intros H E. rewrite <- (mul3_i_r x), <- (mul3_i_r y), <- (rot_mul_tr a H), <- !mul3_assoc.
  now rewrite E.
Qed.
Lemma app_cancel a x y : is_rot a -> app3 (tr3 a) x = app3 (tr3 a) y -> x = y.
Proof.
  intros H E. rewrite <- (app3_i x), <- (app3_i y), <- (rot_mul_tr a H), !app3_mul.
  now rewrite E.
Qed.

Lemma rot_chain pl a b c : placement_ok pl ->
  mul3 (rot_between pl a b) (rot_between pl b c) = rot_between pl a c.
Proof.
  intros H. unfold rot_between.
  rewrite mul3_assoc, <- (mul3_assoc (axes (pl b))), (rot_mul_tr _ (H b)), mul3_i_l. reflexivity.
Qed.
Lemma disp_add pl a b c d :
  vadd (displacement pl a b c) (displacement pl a c d) = displacement pl a b d.
Proof.
  unfold displacement.
  destruct (origin (pl b)), (origin (pl c)), (origin (pl d)), (axes (pl a)). v3unf. f_equal; ring.
Qed.
Lemma rot_disp pl a b c d : placement_ok pl ->
  app3 (rot_between pl a b) (displacement pl b c d) = displacement pl a c d.
Proof.
  intros H. unfold rot_between, displacement.
  rewrite <- app3_mul, mul3_assoc, (rot_mul_tr _ (H b)), mul3_i_r. reflexivity.
Qed.
Lemma disp_same pl a b : displacement pl a b b = v0.
Proof.
  unfold displacement. destruct (origin (pl b)), (axes (pl a)). v3unf. f_equal; ring.
Qed.

(** The product of a rotation (or rigid transform) <A,B> with one <C,D> is accepted
    exactly when, wherever the frames are, it is the rotation (transform) <A,D>. *)
Theorem c24_compose_exact : forall l r A B C D k,
  frames_of l = Some (F2 A B) -> frames_of r = Some (F2 C D) ->
  ekind (erase l) = Some k -> ekind (erase r) = Some k -> group_kind k = true ->
  (frames_of (FBin OCompose l r) <> None <->
   forall pl x y z, placement_ok pl -> dkind x = k -> dkind y = k ->
     announces pl (F2 A B) x -> announces pl (F2 C D) y -> dcompose x y = Some z ->
     announces pl (F2 A D) z).
Proof.
  intros l r A B C D k Fl Fr El Er Hk.
  assert (X : frames_of (FBin OCompose l r) = if (B =? C)%nat then Some (F2 A D) else None).
  { cbn [frames_of erase ekind]. rewrite El, Er, Fl, Fr. destruct k; try discriminate; cbn;
      destruct (B =? C)%nat; reflexivity. }
  rewrite X. split.
  - destruct (Nat.eqb_spec B C) as [E|E]; [|now intros []]. subst C. intros _ pl x y z P Kx Ky Ax Ay Z.
    destruct k; try discriminate; destruct x; try discriminate; destruct y; try discriminate;
      cbn in Ax, Ay, Z; injection Z as <-; cbn.
    + subst. now apply rot_chain.
    + destruct Ax as (-> & ->), Ay as (-> & ->). split; [now apply rot_chain|].
      rewrite rot_disp by exact P.
      replace (vadd (displacement pl A B D) (displacement pl A A B))
        with (vadd (displacement pl A A B) (displacement pl A B D)); [apply disp_add|].
      generalize (displacement pl A A B), (displacement pl A B D). intros [? ? ?] [? ? ?]. v3unf.
      f_equal; ring.
  - intros H. destruct (Nat.eqb_spec B C) as [E|E]; [discriminate|]. exfalso.
    set (pl := only B (mkPose rotz90 v0)).
    assert (P : placement_ok pl) by (apply only_ok; exact rotz90_rot).
    assert (M : mul3 (rot_between pl A B) (rot_between pl C D) = rot_between pl A D).
    { destruct k; try discriminate.
      - exact (H pl (DRot (rot_between pl A B)) (DRot (rot_between pl C D)) _ P eq_refl eq_refl
                 eq_refl eq_refl eq_refl).
      - exact (proj1 (H pl (DRT (rot_between pl A B) (displacement pl A A B))
                 (DRT (rot_between pl C D) (displacement pl C C D)) _ P eq_refl eq_refl
                 (conj eq_refl eq_refl) (conj eq_refl eq_refl) eq_refl)). }
    unfold rot_between in M. rewrite mul3_assoc in M. apply rot_cancel in M; [|apply P].
    rewrite <- mul3_assoc in M. rewrite <- (mul3_i_l (axes (pl D))) in M at 2.
    apply rot_cancel_r in M; [|apply P].
    unfold pl, only in M. rewrite Nat.eqb_refl in M.
    destruct (Nat.eqb_spec C B) as [E'|E']; [congruence|]. cbn [axes] in M.
    apply (f_equal m00) in M. cbn in M. lra.
Qed.
Print Assumptions c24_compose_exact.

(** A rotation <A,B> applied to a vector <C,D,E> (a vector that is not between a frame
    and itself) is accepted exactly when the result is the vector <A,D,E>, wherever the
    frames are. *)
Theorem c24_rotate_exact : forall l r A B C D E, D <> E ->
  frames_of l = Some (F2 A B) -> frames_of r = Some (F3 C D E) ->
  ekind (erase l) = Some KRot -> ekind (erase r) = Some KTrans ->
  (frames_of (FBin ORotate l r) <> None <->
   forall pl x v, placement_ok pl ->
     announces pl (F2 A B) (DRot x) -> announces pl (F3 C D E) (DTrans v) ->
     announces pl (F3 A D E) (DTrans (app3 x v))).
Proof.
  intros l r A B C D E Hde Fl Fr El Er.
  assert (X : frames_of (FBin ORotate l r) = if (B =? C)%nat then Some (F3 A D E) else None).
  { cbn [frames_of erase ekind]. rewrite El, Er, Fl, Fr. cbn. destruct (B =? C)%nat; reflexivity. }
  rewrite X. split.
  - destruct (Nat.eqb_spec B C) as [K|K]; [|now intros []]. subst C. intros _ pl x v P -> ->.
    now apply rot_disp.
  - intros H. destruct (Nat.eqb_spec B C) as [K|K]; [discriminate|]. exfalso.
    set (pl := fun f => mkPose (axes (only B (mkPose rotz90 v0) f))
                          (origin (only E (mkPose i3 (mkV 1 0 0)) f)) : pose).
    assert (P : placement_ok pl) by (intros f; apply only_ok; exact rotz90_rot).
    pose proof (H pl _ _ P eq_refl eq_refl) as M. cbn [announces] in M.
    unfold rot_between, displacement in M. rewrite app3_mul in M.
    apply app_cancel in M; [|apply P].
    unfold pl, only in M. cbn [axes origin] in M.
    rewrite !Nat.eqb_refl in M.
    destruct (Nat.eqb_spec C B) as [Q|Q]; [congruence|].
    destruct (Nat.eqb_spec D E) as [Q'|Q']; [congruence|].
    cbn [axes origin] in M. apply (f_equal vx) in M. cbn in M. lra.
Qed.
Print Assumptions c24_rotate_exact.

(** A rigid transform <A,B> applied to a vector <C,C,E> from the origin of the frame it
    is expressed in: accepted exactly when the result is the vector <A,A,E>. *)
Theorem c24_transform_exact : forall l r A B C E, C <> E ->
  frames_of l = Some (F2 A B) -> frames_of r = Some (F3 C C E) ->
  ekind (erase l) = Some KRT -> ekind (erase r) = Some KTrans ->
  (frames_of (FBin OTransform l r) <> None <->
   forall pl x t v, placement_ok pl ->
     announces pl (F2 A B) (DRT x t) -> announces pl (F3 C C E) (DTrans v) ->
     announces pl (F3 A A E) (DTrans (vadd (app3 x v) t))).
Proof.
  intros l r A B C E Hce Fl Fr El Er.
  assert (X : frames_of (FBin OTransform l r) = if (B =? C)%nat then Some (F3 A A E) else None).
  { cbn [frames_of erase ekind]. rewrite El, Er, Fl, Fr. cbn. destruct (B =? C)%nat; reflexivity. }
  rewrite X. split.
  - destruct (Nat.eqb_spec B C) as [K|K]; [|now intros []]. subst C.
    intros _ pl x t v P (-> & ->) ->. cbn [announces]. rewrite rot_disp by exact P.
    rewrite <- (disp_add pl A A B E).
    generalize (displacement pl A A B), (displacement pl A B E). intros [? ? ?] [? ? ?]. v3unf.
    f_equal; ring.
  - intros H. destruct (Nat.eqb_spec B C) as [K|K]; [discriminate|]. exfalso.
    set (pl := only C (mkPose i3 (mkV 1 0 0))).
    assert (P : placement_ok pl) by (apply only_ok; cbn; apply is_rot_i).
    pose proof (H pl _ _ _ P (conj eq_refl eq_refl) eq_refl) as M. cbn [announces] in M.
    unfold pl, only, rot_between, displacement in M.
    rewrite Nat.eqb_refl in M.
    destruct (Nat.eqb_spec B C) as [Q|Q]; [congruence|].
    destruct (Nat.eqb_spec E C) as [Q'|Q']; [congruence|].
    destruct (Nat.eqb_spec A C) as [Q2|Q2];
    cbn [axes origin] in M; apply (f_equal vx) in M; cbn in M; lra.
Qed.
Print Assumptions c24_transform_exact.

(** The worlds used to separate frames. *)
Lemma turned_ok D F : placement_ok (fun f => mkPose (axes (only D (mkPose rotz90 v0) f))
  (origin (only F (mkPose i3 (mkV 1 0 0)) f))).
Proof. intros f. apply only_ok. exact rotz90_rot. Qed.
Lemma moved_ok C : placement_ok (only C (mkPose i3 (mkV 1 0 0))).
Proof. apply only_ok. cbn. apply is_rot_i. Qed.

(** The sum of the vectors <A,B,C> and <D,E,F> (neither between a frame and itself) is
    accepted exactly when, wherever the frames are, it is the vector <A,B,F> or the
    vector <A,E,C>. *)
Theorem c24_sum_exact : forall l r A B C D E F, B <> C -> E <> F ->
  frames_of l = Some (F3 A B C) -> frames_of r = Some (F3 D E F) ->
  ekind (erase l) = Some KTrans -> ekind (erase r) = Some KTrans ->
  (frames_of (FBin OSum l r) <> None <->
   exists G, (G = F3 A B F \/ G = F3 A E C) /\
   forall pl v w, placement_ok pl ->
     announces pl (F3 A B C) (DTrans v) -> announces pl (F3 D E F) (DTrans w) ->
     announces pl G (DTrans (vadd v w))).
Proof.
  intros l r A B C D E F Hbc Hef Fl Fr El Er.
  assert (X : frames_of (FBin OSum l r) =
     if ((A =? D) && ((B =? F) || (C =? E)))%nat
     then if (C =? E)%nat then Some (F3 A B F) else Some (F3 D E C) else None).
  { cbn [frames_of erase ekind]. rewrite El, Er, Fl, Fr. reflexivity. }
  rewrite X. split.
  - destruct (Nat.eqb_spec A D) as [<-|K]; [|now intros []].
    destruct (Nat.eqb_spec C E) as [<-|K].
    + intros _. exists (F3 A B F). split; [auto|]. intros pl v w P -> ->. cbn [announces].
      apply disp_add.
    + destruct (Nat.eqb_spec B F) as [<-|K']; [|now intros []].
      intros _. exists (F3 A E C). split; [auto|]. intros pl v w P -> ->. cbn [announces].
      rewrite <- (disp_add pl A E B C).
      generalize (displacement pl A B C), (displacement pl A E B). intros [? ? ?] [? ? ?].
      v3unf. f_equal; ring.
  - intros (G & HG & H).
    assert (HAD : A = D).
    { destruct (Nat.eq_dec A D) as [K|K]; [exact K|exfalso].
      pose proof (H _ _ _ (turned_ok D F) eq_refl eq_refl) as M.
      destruct HG as [-> | ->]; cbn [announces] in M; unfold displacement, only in M;
        cbn [axes origin] in M; rewrite !Nat.eqb_refl in M;
        destruct (Nat.eqb_spec A D); try congruence; destruct (Nat.eqb_spec E F); try congruence;
        destruct (Nat.eqb_spec B F), (Nat.eqb_spec C F);
        cbn [axes origin] in M; apply (f_equal vy) in M; cbn in M; lra. }
    subst D. rewrite Nat.eqb_refl. cbn [andb].
    destruct (Nat.eqb_spec C E) as [K|K]; [destruct (B =? F)%nat; discriminate|].
    destruct (Nat.eqb_spec B F) as [K'|K']; [discriminate|]. exfalso.
    destruct HG as [-> | ->].
    + pose proof (H _ _ _ (moved_ok C) eq_refl eq_refl) as M.
      cbn [announces] in M; unfold displacement, only in M. rewrite !Nat.eqb_refl in M.
      destruct (Nat.eqb_spec E C); try congruence; destruct (Nat.eqb_spec B C); try congruence.
      destruct (Nat.eqb_spec A C), (Nat.eqb_spec F C);
        cbn [axes origin] in M; apply (f_equal vx) in M; cbn in M; lra.
    + pose proof (H _ _ _ (moved_ok F) eq_refl eq_refl) as M.
      cbn [announces] in M; unfold displacement, only in M. rewrite !Nat.eqb_refl in M.
      destruct (Nat.eqb_spec E F); try congruence; destruct (Nat.eqb_spec B F); try congruence.
      destruct (Nat.eqb_spec A F), (Nat.eqb_spec C F);
        cbn [axes origin] in M; apply (f_equal vx) in M; cbn in M; lra.
Qed.
Print Assumptions c24_sum_exact.

(** Likewise for the difference: <A,B,E> or <A,F,C>. *)
Theorem c24_difference_exact : forall l r A B C D E F, B <> C -> E <> F ->
  frames_of l = Some (F3 A B C) -> frames_of r = Some (F3 D E F) ->
  ekind (erase l) = Some KTrans -> ekind (erase r) = Some KTrans ->
  (frames_of (FBin OSubtract l r) <> None <->
   exists G, (G = F3 A B E \/ G = F3 A F C) /\
   forall pl v w, placement_ok pl ->
     announces pl (F3 A B C) (DTrans v) -> announces pl (F3 D E F) (DTrans w) ->
     announces pl G (DTrans (vsub v w))).
Proof.
  intros l r A B C D E F Hbc Hef Fl Fr El Er.
  assert (X : frames_of (FBin OSubtract l r) =
     if ((A =? D) && ((C =? F) || (B =? E)))%nat
     then if (C =? F)%nat then Some (F3 A B E) else Some (F3 A F C) else None).
  { cbn [frames_of erase ekind]. rewrite El, Er, Fl, Fr. reflexivity. }
  rewrite X. split.
  - destruct (Nat.eqb_spec A D) as [<-|K]; [|now intros []].
    destruct (Nat.eqb_spec C F) as [<-|K].
    + intros _. exists (F3 A B E). split; [auto|]. intros pl v w P -> ->. cbn [announces].
      rewrite <- (disp_add pl A B E C).
      generalize (displacement pl A B E), (displacement pl A E C). intros [? ? ?] [? ? ?].
      v3unf. f_equal; ring.
    + destruct (Nat.eqb_spec B E) as [<-|K']; [|now intros []].
      intros _. exists (F3 A F C). split; [auto|]. intros pl v w P -> ->. cbn [announces].
      rewrite <- (disp_add pl A B F C).
      generalize (displacement pl A B F), (displacement pl A F C). intros [? ? ?] [? ? ?].
      v3unf. f_equal; ring.
  - intros (G & HG & H).
    assert (HAD : A = D).
    { destruct (Nat.eq_dec A D) as [K|K]; [exact K|exfalso].
      pose proof (H _ _ _ (turned_ok D F) eq_refl eq_refl) as M.
      destruct HG as [-> | ->]; cbn [announces] in M; unfold displacement, only in M;
        cbn [axes origin] in M; rewrite !Nat.eqb_refl in M;
        destruct (Nat.eqb_spec A D); try congruence; destruct (Nat.eqb_spec E F); try congruence;
        destruct (Nat.eqb_spec B F), (Nat.eqb_spec C F);
        cbn [axes origin] in M; apply (f_equal vy) in M; cbn in M; lra. }
    subst D. rewrite Nat.eqb_refl. cbn [andb].
    destruct (Nat.eqb_spec C F) as [K|K]; [destruct (B =? E)%nat; discriminate|].
    destruct (Nat.eqb_spec B E) as [K'|K']; [discriminate|]. exfalso.
    destruct HG as [-> | ->].
    + pose proof (H _ _ _ (moved_ok C) eq_refl eq_refl) as M.
      cbn [announces] in M; unfold displacement, only in M. rewrite !Nat.eqb_refl in M.
      destruct (Nat.eqb_spec F C); try congruence; destruct (Nat.eqb_spec B C); try congruence.
      destruct (Nat.eqb_spec A C), (Nat.eqb_spec E C);
        cbn [axes origin] in M; apply (f_equal vx) in M; cbn in M; lra.
    + pose proof (H _ _ _ (moved_ok E) eq_refl eq_refl) as M.
      cbn [announces] in M; unfold displacement, only in M. rewrite !Nat.eqb_refl in M.
      destruct (Nat.eqb_spec F E); try congruence; destruct (Nat.eqb_spec B E); try congruence.
      destruct (Nat.eqb_spec A E), (Nat.eqb_spec C E);
        cbn [axes origin] in M; apply (f_equal vx) in M; cbn in M; lra.
Qed.
Print Assumptions c24_difference_exact.

(** Box-plus and box-minus accept only operands whose frames line up, sums and differences
    of any vectors require a common left frame and a shared end, products of any
    expressions a shared inner frame. *)
Theorem c24_required_frames : forall l r a b,
  frames_of l = Some a -> frames_of r = Some b ->
  (frames_of (FBoxPlus l r) <> None -> a = F2 (LeftFrameOf b) (RightFrameOf b) /\
     MiddleFrameOf b = LeftFrameOf b) /\
  (frames_of (FBoxMinus l r) <> None -> a = b) /\
  (frames_of (FBin OSum l r) <> None -> LeftFrameOf a = LeftFrameOf b /\
     (RightFrameOf a = MiddleFrameOf b \/ MiddleFrameOf a = RightFrameOf b)) /\
  (frames_of (FBin OSubtract l r) <> None -> LeftFrameOf a = LeftFrameOf b /\
     (RightFrameOf a = RightFrameOf b \/ MiddleFrameOf a = MiddleFrameOf b)) /\
  (forall o, o = OCompose \/ o = ORotate \/ o = OTransform ->
     frames_of (FBin o l r) <> None -> RightFrameOf a = LeftFrameOf b).
Proof.
  intros l r a b Fl Fr.
  destruct (frames_of_kind l a Fl) as (kl & El). destruct (frames_of_kind r b Fr) as (kr & Er).
  pose proof (frames_of_fit l a kl Fl El) as Tl. pose proof (frames_of_fit r b kr Fr Er) as Tr.
  split; [|split; [|split; [|split]]].
  - cbn [frames_of erase]. unfold XBoxPlus. cbn [ekind]. rewrite El, Er, Fl, Fr.
    destruct (kind_un OExpMap kr) as [k3|]; [|now intros []].
    destruct (kind_bin OComposeFlipped kl k3) as [k4|] eqn:E4; [|now intros []].
    destruct (_ && _) eqn:C; [|now intros []]. intros _.
    apply andb_prop in C as (C & C3). apply andb_prop in C as (C1 & C2).
    apply Nat.eqb_eq in C1, C2, C3.
    destruct a as [x y|x y z]; [|cbn in E4; destruct kl; try discriminate; destruct k3; discriminate].
    cbn in *. split; congruence.
  - cbn [frames_of erase]. unfold XBoxMinus. cbn [ekind]. rewrite El, Er, Fl, Fr.
    destruct (kind_un OInverse kr) as [k3|] eqn:E3; [|now intros []].
    destruct (kind_bin OCompose kl k3) as [k4|] eqn:E4; [|now intros []].
    destruct (kind_un OLogMap k4); [|now intros []].
    destruct (_ && _) eqn:C; [|now intros []]. intros _.
    apply andb_prop in C as (C1 & C2). apply Nat.eqb_eq in C1, C2.
    destruct kl; try discriminate E4; destruct kr; try discriminate E3; cbn in E3; injection E3 as <-;
      try discriminate E4; destruct a; try discriminate Tl; destruct b; try discriminate Tr;
      cbn in C1, C2; congruence.
  - cbn [frames_of erase ekind]. rewrite El, Er, Fl, Fr.
    destruct (kind_bin OSum kl kr); [|now intros []]. cbn [frames_bin].
    destruct (_ && _) eqn:C; [|now intros []]. intros _.
    apply andb_prop in C as (C1 & C2). apply Nat.eqb_eq in C1. apply orb_prop in C2.
    rewrite !Nat.eqb_eq in C2. tauto.
  - cbn [frames_of erase ekind]. rewrite El, Er, Fl, Fr.
    destruct (kind_bin OSubtract kl kr); [|now intros []]. cbn [frames_bin].
    destruct (_ && _) eqn:C; [|now intros []]. intros _.
    apply andb_prop in C as (C1 & C2). apply Nat.eqb_eq in C1. apply orb_prop in C2.
    rewrite !Nat.eqb_eq in C2. tauto.
  - intros o Ho. cbn [frames_of erase ekind]. rewrite El, Er, Fl, Fr.
    destruct (kind_bin o kl kr); [|now intros []].
    destruct Ho as [-> | [-> | ->]]; cbn [frames_bin];
      destruct (Nat.eqb_spec (RightFrameOf a) (LeftFrameOf b)); auto; now intros [].
Qed.
Print Assumptions c24_required_frames.

(** A rejected part makes the whole expression rejected. *)
Fixpoint fsub (s e : fexpr) : Prop :=
  s = e \/
  match e with
  | FLeaf _ _ _ => False
  | FUn _ e | FLog _ e | FCast _ e => fsub s e
  | FBin _ l r | FBoxPlus l r | FBoxMinus l r => fsub s l \/ fsub s r
  end.

Theorem c24_rejected_anywhere : forall eps m s e, fsub s e -> frames_of s = None ->
  feval eps m e = None /\ forall l f, fconstruct eps l f m e = None.
Proof.
  intros eps m s e S N.
  assert (F : frames_of e = None).
  { revert S. induction e; cbn [fsub]; intros [->|S]; try exact N; try contradiction;
      cbn [frames_of]; destruct (ekind _); try reflexivity.
    - now rewrite (IHe S).
    - destruct S as [S|S]; [now rewrite (IHe1 S)|rewrite (IHe2 S)]. destruct (frames_of e1); reflexivity.
    - now rewrite (IHe S).
    - now rewrite (IHe S).
    - destruct S as [S|S]; [now rewrite (IHe1 S)|rewrite (IHe2 S)]. destruct (frames_of e1); reflexivity.
    - destruct S as [S|S]; [now rewrite (IHe1 S)|rewrite (IHe2 S)]. destruct (frames_of e1); reflexivity. }
  unfold feval, fconstruct. rewrite F. auto.
Qed.
Print Assumptions c24_rejected_anywhere.

(** A framed variable accepts only expressions with its own frames. *)
Theorem c24_variable_frames : forall eps l f m e f', frames_of e = Some f' -> f <> f' ->
  fconstruct eps l f m e = None.
Proof.
  intros eps l f m e f' F N. unfold fconstruct. rewrite F.
  destruct (frames_eqb f f') eqn:E; [|reflexivity]. now apply frames_eqb_eq in E.
Qed.
Print Assumptions c24_variable_frames.

(** An expression whose leaves carry no frames is never rejected for frames. *)
Theorem c24_unframed_never_rejected : forall eps e k, no_frames e -> no_casts e ->
  ekind (erase e) = Some k ->
  (forall a t f, In (a, t, f) (fleaves e) -> frames_fit (ty_kind t) f = true) ->
  frames_of e = Some (unframed k) /\
  forall m v, eval eps m (erase e) = Some v -> feval eps m e = Some (v, unframed k).
Proof.
  intros eps e k Hn Hc Ek Hf.
  assert (F : frames_of e = Some (unframed k)).
  { revert k Ek Hn Hc Hf.
    induction e as [a t f|o e IH|o l IHl r IHr|x e IH|f e IH|l IHl r IHr|l IHl r IHr];
      cbn [no_casts fleaves]; intros k Ek Hn Hc Hf; try contradiction; cbn [frames_of]; rewrite Ek.
    - cbn [erase ekind] in Ek. destruct (wf_ty t); [|discriminate]. injection Ek as <-.
      pose proof (Hf a t f (or_introl eq_refl)) as Fit.
      rewrite Fit. destruct (Hn a t f (or_introl eq_refl)) as (N1 & N2 & N3).
      f_equal. unfold unframed. destruct f; cbn in *; subst;
        destruct (has_three_decorators (ty_kind t)); try discriminate; reflexivity.
    - cbn [erase ekind] in Ek. destruct (ekind (erase e)) as [k'|]; [|discriminate].
      rewrite (IH k' eq_refl Hn Hc Hf).
      destruct o, k'; try discriminate Ek; cbn in Ek; try (injection Ek as <-; reflexivity).
      all: match type of Ek with (if ?c then _ else _) = _ => destruct c; [|discriminate Ek] end;
        injection Ek as <-; reflexivity.
    - cbn [erase ekind] in Ek. destruct (ekind (erase l)) as [k1|]; [|discriminate].
      destruct (ekind (erase r)) as [k2|]; [|discriminate].
      assert (Hl : frames_of l = Some (unframed k1)).
      { apply IHl; [reflexivity| |apply Hc|].
        - intros a t f H. apply (Hn a t f), in_app_iff. auto.
        - intros a t f H. apply (Hf a t f), in_app_iff. auto. }
      assert (Hr : frames_of r = Some (unframed k2)).
      { apply IHr; [reflexivity| |apply Hc|].
        - intros a t f H. apply (Hn a t f), in_app_iff. auto.
        - intros a t f H. apply (Hf a t f), in_app_iff. auto. }
      rewrite Hl, Hr.
      destruct o, k1, k2; try discriminate Ek; cbn in Ek; injection Ek as <-; reflexivity.
    - cbn [erase] in Ek. unfold XBoxPlus in Ek. cbn [ekind] in Ek.
      destruct (ekind (erase l)) as [k1|]; [|discriminate].
      destruct (ekind (erase r)) as [k2|]; [|discriminate].
      assert (Hl : frames_of l = Some (unframed k1)).
      { apply IHl; [reflexivity| |apply Hc|].
        - intros a t f H. apply (Hn a t f), in_app_iff. auto.
        - intros a t f H. apply (Hf a t f), in_app_iff. auto. }
      assert (Hr : frames_of r = Some (unframed k2)).
      { apply IHr; [reflexivity| |apply Hc|].
        - intros a t f H. apply (Hn a t f), in_app_iff. auto.
        - intros a t f H. apply (Hf a t f), in_app_iff. auto. }
      rewrite Hl, Hr. destruct k1, k2; try discriminate Ek; cbn in Ek; injection Ek as <-; reflexivity.
    - cbn [erase] in Ek. unfold XBoxMinus in Ek. cbn [ekind] in Ek.
      destruct (ekind (erase l)) as [k1|]; [|discriminate].
      destruct (ekind (erase r)) as [k2|]; [|discriminate].
      assert (Hl : frames_of l = Some (unframed k1)).
      { apply IHl; [reflexivity| |apply Hc|].
        - intros a t f H. apply (Hn a t f), in_app_iff. auto.
        - intros a t f H. apply (Hf a t f), in_app_iff. auto. }
      assert (Hr : frames_of r = Some (unframed k2)).
      { apply IHr; [reflexivity| |apply Hc|].
        - intros a t f H. apply (Hn a t f), in_app_iff. auto.
        - intros a t f H. apply (Hf a t f), in_app_iff. auto. }
      rewrite Hl, Hr. destruct k1, k2; try discriminate Ek; cbn in Ek; injection Ek as <-; reflexivity. }
  split; [exact F|]. intros m v E. apply feval_erase. auto.
Qed.
Print Assumptions c24_unframed_never_rejected.

(** ** C23: the announced frames describe the value *)

Lemma vnorm_opp v : vnorm (vopp v) = vnorm v.
Proof. unfold vnorm. f_equal. destruct v; v3unf; ring. Qed.
Lemma rodrigues_opp s c v : rodrigues s c (vopp v) = tr3 (rodrigues s c v).
Proof. destruct v; unfold rodrigues; v3unf; f_equal; ring. Qed.
Lemma so3_exp_opp v : so3_exp (vopp v) = tr3 (so3_exp v).
Proof.
  unfold so3_exp. rewrite vnorm_opp. destruct (Req_EM_T (vnorm v) 0); [reflexivity|].
  apply rodrigues_opp.
Qed.
Lemma so3_V_opp v : so3_V (vopp v) = mul3 (tr3 (so3_exp v)) (so3_V v).
Proof.
  unfold so3_V, so3_exp. rewrite vnorm_opp. destruct (Req_EM_T (vnorm v) 0) as [E|E].
  - rewrite tr3_i, mul3_i_l. reflexivity.
  - rewrite <- !rodrigues_opp.
    replace (rodrigues ((1 - cos (vnorm v)) / (vnorm v * vnorm v))
      ((1 - sin (vnorm v) / vnorm v) / (vnorm v * vnorm v)) v)
      with (rodrigues (- ((1 - cos (vnorm v)) / (vnorm v * vnorm v)))
      ((1 - sin (vnorm v) / vnorm v) / (vnorm v * vnorm v)) (vopp v))
      by (destruct v; unfold rodrigues; v3unf; f_equal; ring).
    rewrite rodrigues_mul.
    replace (vnorm2 (vopp v)) with (vnorm v * vnorm v)
      by (rewrite vnorm_sq; destruct v; v3unf; ring).
    set (n := vnorm v) in *. pose proof (sin_cos_1 n) as S.
    f_equal; field_simplify_eq; try exact E; try (now split); nra.
Qed.

Definition told (pl : placement) (f : frames) (d : dval) : Prop :=
  is_unframed f \/ (fully_framed f /\ announces pl f d).

Lemma told_chain pl a b x y : told pl a x -> told pl b y -> RightFrameOf a = LeftFrameOf b ->
  (is_unframed a /\ is_unframed b) \/
  (fully_framed a /\ fully_framed b /\ announces pl a x /\ announces pl b y).
Proof.
  intros [A|(A & A')] [B|(B & B')] E; unfold is_unframed, fully_framed in *; rewrite E in *; try tauto.
Qed.
Lemma told_left pl a b x y : told pl a x -> told pl b y -> LeftFrameOf a = LeftFrameOf b ->
  (is_unframed a /\ is_unframed b) \/
  (fully_framed a /\ fully_framed b /\ announces pl a x /\ announces pl b y).
Proof.
  intros [A|(A & A')] [B|(B & B')] E; unfold is_unframed, fully_framed in *; rewrite E in *; tauto.
Qed.

Lemma disp_opp pl a b c : vopp (displacement pl a b c) = displacement pl a c b.
Proof.
  unfold displacement. destruct (origin (pl b)), (origin (pl c)), (axes (pl a)).
  v3unf. f_equal; ring.
Qed.
Lemma rot_self pl a : placement_ok pl -> rot_between pl a a = i3.
Proof. intros P. unfold rot_between. apply rot_tr_mul, P. Qed.
Lemma rot_between_tr pl a b : tr3 (rot_between pl a b) = rot_between pl b a.
Proof. unfold rot_between. now rewrite tr3_mul, tr3_tr. Qed.

Lemma log_told eps pl a b m v : 0 <= eps -> placement_ok pl -> is_rot m ->
  log_exact eps (DRot m) -> log_mat eps m = Some v -> m = rot_between pl a b ->
  announces pl (F3 a a b) (DRel v).
Proof.
  intros He P Hm (HE & Hpi) HL Hr. cbn [announces]. rewrite rot_self, mul3_i_r by exact P.
  destruct HE as [->|HE].
  - rewrite log_i in HL by exact He. injection HL as <-. now rewrite so3_exp_0.
  - destruct (exp_log_general eps m Hm He Hpi HE) as (w & E1 & _ & E2). congruence.
Qed.
Lemma rt_log_told eps pl a b m t w u : 0 <= eps -> placement_ok pl -> is_rot m ->
  log_exact eps (DRT m t) -> rt_log eps m t = Some (w, u) -> m = rot_between pl a b ->
  t = displacement pl a a b -> announces pl (F3 a a b) (DTwist w u).
Proof.
  intros He P Hm (HE & Hpi) HL Hr Ht. cbn [announces]. rewrite rot_self, mul3_i_r by exact P.
  rewrite disp_same, app3_0, vadd_0_l. destruct HE as [->|HE].
  - pose proof (rt_log_exp_0 eps t He) as X. rewrite so3_exp_0, so3_V_0, app3_i in X.
    rewrite X in HL. injection HL as <- <-. now rewrite so3_exp_0, so3_V_0, app3_i.
  - destruct (rt_exp_log eps m t He Hm Hpi HE) as (w' & u' & E1 & _ & E2 & E3).
    rewrite HL in E1. injection E1 as <- <-. split; congruence.
Qed.

Lemma good_un_inv eps m o e k : good eps m (XUn o e) k ->
  exists k', good eps m e k' /\ kind_un o k' = Some k.
Proof.
  intros (A & B & C). cbn [ekind] in A. destruct (ekind e) as [k'|] eqn:E; [|discriminate].
  exists k'. split; [|exact A]. split; [exact E|]. split; [exact B|apply C].
Qed.
Lemma good_bin_inv eps m o l r k : good eps m (XBin o l r) k ->
  exists k1 k2, good eps m l k1 /\ good eps m r k2 /\ kind_bin o k1 k2 = Some k.
Proof.
  intros (A & B & C). cbn [ekind] in A. destruct (ekind l) as [k1|] eqn:E1; [|discriminate].
  destruct (ekind r) as [k2|] eqn:E2; [|discriminate].
  exists k1, k2. split; [|split; [|exact A]].
  - split; [exact E1|]. split; [apply B|apply C].
  - split; [exact E2|]. split; [apply B|apply C].
Qed.

Lemma unframed_is k : is_unframed (unframed k).
Proof. unfold unframed. destruct (has_three_decorators k); repeat split. Qed.

Lemma fit2 k f : frames_fit k f = true -> has_three_decorators k = false -> exists a b, f = F2 a b.
Proof. destruct f; cbn; [eauto|]. congruence. Qed.
Lemma fit3 k f : frames_fit k f = true -> has_three_decorators k = true -> exists a b c, f = F3 a b c.
Proof. destruct f; cbn; [|eauto]. intros A B. rewrite B in A. discriminate. Qed.

Ltac uf := unfold is_unframed, fully_framed in *; cbn [LeftFrameOf MiddleFrameOf RightFrameOf] in *.

Lemma told_un eps pl o k k' f f' d d' : 0 <= eps -> placement_ok pl ->
  frames_fit k f = true -> dkind d = k -> dvalid d -> kind_un o k = Some k' ->
  frames_un o k' f = Some f' -> dsem_un eps o d = Some d' -> o <> OExpMap ->
  (o = OLogMap -> log_exact eps d) -> told pl f d -> told pl f' d'.
Proof.
  intros He P Fit Kd Vd Kk Ff Fd NE LE T.
  destruct o; try contradiction.
  - (* inverse *)
    destruct d; cbn in Kd; subst k; try discriminate Kk; cbn in Kk; injection Kk as <-;
      destruct f as [a b|]; try discriminate Fit; cbn in Ff; injection Ff as <-;
      cbn in Fd; injection Fd as <-; destruct T as [T|(T1 & T2)]; [left; uf; tauto| |left; uf; tauto|];
      right; (split; [uf; tauto|]); cbn in T2 |- *.
    + subst m. apply rot_between_tr.
    + destruct T2 as (-> & ->). rewrite rot_between_tr, rot_disp by exact P. split; [reflexivity|].
      apply disp_opp.
  - (* log *)
    destruct d; cbn in Kd; subst k; try discriminate Kk; cbn in Kk; injection Kk as <-;
      destruct f as [a b|]; try discriminate Fit; cbn in Ff; injection Ff as <-; cbn [dsem_un] in Fd.
    + destruct (log_mat eps m) as [v|] eqn:L; [|discriminate]. cbn in Fd. injection Fd as <-.
      destruct T as [T|(T1 & T2)]; [left; uf; tauto|right]. split; [uf; tauto|].
      apply (log_told eps pl a b m v He P); auto.
    + destruct (rt_log eps m t) as [[w u]|] eqn:L; [|discriminate]. cbn in Fd. injection Fd as <-.
      destruct T as [T|(T1 & T2)]; [left; uf; tauto|right]. split; [uf; tauto|].
      destruct T2 as (T2 & T3). apply (rt_log_told eps pl a b m t w u He P); auto.
  - (* minus *)
    destruct d; cbn in Kd; subst k; try discriminate Kk; cbn in Kk; injection Kk as <-;
      destruct f as [|a b c]; try discriminate Fit; cbn in Ff; injection Ff as <-;
      cbn in Fd; injection Fd as <-; destruct T as [T|(T1 & T2)]; try (left; uf; tauto);
      right; (split; [uf; tauto|]); cbn [announces] in T2 |- *; try exact I.
    + change (vopp v = displacement pl a c b). rewrite T2. apply disp_opp.
    + change (mul3 (so3_exp (vopp v)) (rot_between pl a c) = rot_between pl a b).
      rewrite so3_exp_opp, <- T2, <- mul3_assoc, rot_tr_mul, mul3_i_l by apply so3_exp_is_rot.
      reflexivity.
    + change (mul3 (so3_exp (vopp w)) (rot_between pl a c) = rot_between pl a b /\
        vadd (app3 (so3_exp (vopp w)) (displacement pl a a c)) (app3 (so3_V (vopp w)) (vopp u))
        = displacement pl a a b).
      destruct T2 as (T2 & T3).
      rewrite so3_exp_opp, <- T2, <- mul3_assoc, rot_tr_mul, mul3_i_l by apply so3_exp_is_rot.
      split; [reflexivity|]. rewrite <- T3, so3_V_opp, app3_mul, <- app3_add_r.
      rewrite app3_opp_r.
      rewrite vadd_assoc.
      replace (vadd (app3 (so3_V w) u) (vopp (app3 (so3_V w) u))) with v0.
      2:{ generalize (app3 (so3_V w) u). intros [? ? ?]. v3unf. f_equal; ring. }
      rewrite vadd_0_r, <- app3_mul, rot_tr_mul, app3_i by apply so3_exp_is_rot. reflexivity.
  - cbn in Ff. injection Ff as <-. left. apply unframed_is.
  - cbn in Ff. injection Ff as <-. left. apply unframed_is.
  - cbn in Ff. injection Ff as <-. left. apply unframed_is.
  - cbn in Ff. injection Ff as <-. left. apply unframed_is.
  - (* rotation() *)
    destruct d; cbn in Kd; subst k; try discriminate Kk; cbn in Kk; injection Kk as <-;
      destruct f as [a b|]; try discriminate Fit; cbn in Ff; injection Ff as <-;
      cbn in Fd; injection Fd as <-; destruct T as [T|(T1 & T2)]; [left; uf; tauto|right].
    split; [uf; tauto|]. apply T2.
  - (* translation() *)
    destruct d; cbn in Kd; subst k; try discriminate Kk; cbn in Kk; injection Kk as <-;
      destruct f as [a b|]; try discriminate Fit; cbn in Ff; injection Ff as <-;
      cbn in Fd; injection Fd as <-; destruct T as [T|(T1 & T2)]; [left; uf; tauto|right].
    split; [uf; tauto|]. apply T2.
  - (* convert *)
    cbn in Ff. injection Ff as <-. cbn [dsem_un] in Fd. destruct (kind_eqb _ _); [|discriminate].
    injection Fd as <-. exact T.
Qed.

Lemma disp_sub_r pl a b c d :
  vsub (displacement pl a b c) (displacement pl a d c) = displacement pl a b d.
Proof.
  unfold displacement. destruct (origin (pl b)), (origin (pl c)), (origin (pl d)), (axes (pl a)).
  v3unf. f_equal; ring.
Qed.
Lemma disp_sub_m pl a b c d :
  vsub (displacement pl a b c) (displacement pl a b d) = displacement pl a d c.
Proof.
  unfold displacement. destruct (origin (pl b)), (origin (pl c)), (origin (pl d)), (axes (pl a)).
  v3unf. f_equal; ring.
Qed.

Lemma told_bin pl o k1 k2 k a b f x y d : placement_ok pl ->
  frames_fit k1 a = true -> frames_fit k2 b = true -> dkind x = k1 -> dkind y = k2 ->
  kind_bin o k1 k2 = Some k -> frames_bin o k a b = Some f -> dsem_bin o x y = Some d ->
  match o with
  | OScale | OScaleR | OScaleDiv => False
  | OTransform => MiddleFrameOf b = LeftFrameOf b
  | OSum | OSubtract => k1 <> KRel /\ k1 <> KTwist
  | _ => True
  end -> told pl a x -> told pl b y -> told pl f d.
Proof.
  intros P Ta Tb Kx Ky Kk Ff Fd S Hx Hy.
  unfold dsem_bin in Fd. rewrite Kx, Ky, Kk in Fd.
  destruct o; try contradiction.
  - (* compose *)
    cbn [frames_bin] in Ff. destruct (Nat.eqb_spec (RightFrameOf a) (LeftFrameOf b)) as [E|E]; [|discriminate].
    destruct (told_chain pl a b x y Hx Hy E) as [(U1 & U2)|(U1 & U2 & A1 & A2)].
    + left. destruct k; cbn in Ff; try discriminate; injection Ff as <-; uf; tauto.
    + right. destruct x; try contradiction; destruct a as [a1 a2|]; try contradiction;
        try (cbn in Fd; discriminate Fd);
        destruct y; try (cbn in Fd; discriminate Fd); destruct b as [b1 b2|]; try contradiction;
        cbn in Fd; injection Fd as <-; cbn in Kx, Ky; subst k1 k2; cbn in Kk; injection Kk as <-;
        cbn in Ff; injection Ff as <-; cbn in E; subst b1; (split; [uf; tauto|]); cbn in A1, A2 |- *.
      * subst. now apply rot_chain.
      * destruct A1 as (-> & ->), A2 as (-> & ->). split; [now apply rot_chain|].
        rewrite rot_disp, vadd_comm by exact P. apply disp_add.
  - (* flipped *)
    cbn [frames_bin] in Ff. destruct (Nat.eqb_spec (RightFrameOf b) (LeftFrameOf a)) as [E|E]; [|discriminate].
    destruct (told_chain pl b a y x Hy Hx E) as [(U1 & U2)|(U1 & U2 & A1 & A2)].
    + left. destruct k; cbn in Ff; try discriminate; injection Ff as <-; uf; tauto.
    + right. destruct x; try contradiction; destruct a as [a1 a2|]; try contradiction;
        destruct y; try (cbn in Fd; discriminate Fd); destruct b as [b1 b2|]; try contradiction;
        cbn in Fd; injection Fd as <-; cbn in Kx, Ky; subst k1 k2; cbn in Kk; injection Kk as <-;
        cbn in Ff; injection Ff as <-; cbn in E; subst a1; (split; [uf; tauto|]); cbn in A1, A2 |- *.
      * subst. now apply rot_chain.
      * destruct A1 as (-> & ->), A2 as (-> & ->). split; [now apply rot_chain|].
        rewrite rot_disp, vadd_comm by exact P. apply disp_add.
  - (* rotate *)
    cbn [frames_bin] in Ff. destruct (Nat.eqb_spec (RightFrameOf a) (LeftFrameOf b)) as [E|E]; [|discriminate].
    destruct x; try discriminate Fd; destruct y; try discriminate Fd. injection Fd as <-.
    cbn in Kx, Ky; subst k1 k2; cbn in Kk; injection Kk as <-; cbn in Ff; injection Ff as <-.
    destruct a as [a1 a2|]; try discriminate Ta. destruct b as [|b1 b2 b3]; try discriminate Tb.
    cbn in E. subst b1.
    destruct (told_chain pl _ _ _ _ Hx Hy eq_refl) as [(U1 & U2)|(U1 & U2 & A1 & A2)].
    + left. uf; tauto.
    + right. split; [uf; tauto|]. cbn in A1, A2 |- *. subst. now apply rot_disp.
  - (* transform *)
    cbn [frames_bin] in Ff. destruct (Nat.eqb_spec (RightFrameOf a) (LeftFrameOf b)) as [E|E]; [|discriminate].
    destruct x; try discriminate Fd; destruct y; try discriminate Fd. injection Fd as <-.
    cbn in Kx, Ky; subst k1 k2; cbn in Kk; injection Kk as <-; cbn in Ff; injection Ff as <-.
    destruct a as [a1 a2|]; try discriminate Ta. destruct b as [|b1 b2 b3]; try discriminate Tb.
    cbn in E, S. subst b1 b2.
    destruct (told_chain pl _ _ _ _ Hx Hy eq_refl) as [(U1 & U2)|(U1 & U2 & A1 & A2)].
    + left. uf; tauto.
    + right. split; [uf; tauto|]. cbn in A1, A2 |- *. destruct A1 as (-> & ->). subst v.
      rewrite rot_disp, vadd_comm by exact P. apply disp_add.
  - (* sum *)
    cbn [frames_bin] in Ff.
    destruct (Nat.eqb_spec (LeftFrameOf a) (LeftFrameOf b)) as [E|E]; [|discriminate].
    destruct (told_left pl a b x y Hx Hy E) as [(U1 & U2)|(U1 & U2 & A1 & A2)].
    { left. destruct (_ && _); [|discriminate].
      destruct (_ =? _)%nat; unfold wrap3 in Ff; destruct (has_three_decorators k);
        try (injection Ff as <-; uf; tauto);
        destruct (_ =? _)%nat; try discriminate; injection Ff as <-; uf; tauto. }
    right. cbn [andb] in Ff.
    destruct x as [x|x|x|x|x x'|x|x x'], y as [y|y|y|y|y y'|y|y y']; cbn in Kx, Ky; subst k1 k2;
      cbn in Kk; try discriminate Kk; try (exfalso; now apply (proj1 S));
      try (exfalso; now apply (proj2 S)); injection Kk as <-; cbn in Fd; injection Fd as <-;
      destruct a as [a1 a2|a1 a2 a3]; try discriminate Ta;
      destruct b as [b1 b2|b1 b2 b3]; try discriminate Tb;
      cbn [LeftFrameOf MiddleFrameOf RightFrameOf] in E, Ff; subst b1;
      cbn [announces] in A1, A2; subst;
      cbn [has_three_decorators wrap3] in Ff.
    + split; [destruct (_ || _); [destruct (_ =? _)%nat; injection Ff as <-; uf; tauto|discriminate]|].
      destruct (_ || _); [destruct (_ =? _)%nat; injection Ff as <-; exact I|discriminate].
    + (* translation + translation *)
      destruct (Nat.eqb_spec a3 b2) as [Q|Q].
      * subst b2. destruct (_ || _); [|discriminate]. injection Ff as <-. split; [uf; tauto|].
        exact (disp_add pl a1 a2 a3 b3).
      * destruct (Nat.eqb_spec a2 b3) as [Q'|Q']; [|discriminate]. subst b3. cbn [orb] in Ff.
        injection Ff as <-. split; [uf; tauto|].
        change (vadd (displacement pl a1 a2 a3) (displacement pl a1 b2 a2) = displacement pl a1 b2 a3).
        rewrite vadd_comm. apply disp_add.
    + (* translation + point *)
      destruct (Nat.eqb_spec a3 a1) as [Q|Q].
      * subst a3. destruct (_ || _); [|discriminate]. unfold wrap3 in Ff. cbn in Ff.
        destruct (Nat.eqb_spec a1 a2) as [Q'|Q']; [|discriminate]. subst a2. injection Ff as <-.
        split; [uf; tauto|]. exact (disp_add pl a1 a1 a1 b2).
      * destruct (Nat.eqb_spec a2 b2) as [Q'|Q']; [|discriminate]. subst b2. cbn [orb] in Ff.
        unfold wrap3 in Ff. cbn in Ff. rewrite Nat.eqb_refl in Ff. injection Ff as <-.
        split; [uf; tauto|].
        change (vadd (displacement pl a1 a2 a3) (displacement pl a1 a1 a2) = displacement pl a1 a1 a3).
        rewrite vadd_comm. apply disp_add.
    + (* point + translation *)
      destruct (Nat.eqb_spec a2 b2) as [Q|Q].
      * subst b2. destruct (_ || _); [|discriminate]. unfold wrap3 in Ff. cbn in Ff.
        rewrite Nat.eqb_refl in Ff. injection Ff as <-.
        split; [uf; tauto|]. exact (disp_add pl a1 a1 a2 b3).
      * destruct (Nat.eqb_spec a1 b3) as [Q'|Q']; [|discriminate]. subst b3. cbn [orb] in Ff.
        unfold wrap3 in Ff. cbn in Ff.
        destruct (Nat.eqb_spec a1 b2) as [Q2|Q2]; [|discriminate]. subst b2. injection Ff as <-.
        split; [uf; tauto|].
        change (vadd (displacement pl a1 a1 a2) (displacement pl a1 a1 a1) = displacement pl a1 a1 a2).
        rewrite vadd_comm. apply disp_add.
  - (* subtract *)
    cbn [frames_bin] in Ff.
    destruct (Nat.eqb_spec (LeftFrameOf a) (LeftFrameOf b)) as [E|E]; [|discriminate].
    destruct (told_left pl a b x y Hx Hy E) as [(U1 & U2)|(U1 & U2 & A1 & A2)].
    { left. destruct (_ && _); [|discriminate].
      destruct (_ =? _)%nat; unfold wrap3 in Ff; destruct (has_three_decorators k);
        try (injection Ff as <-; uf; tauto);
        destruct (_ =? _)%nat; try discriminate; injection Ff as <-; uf; tauto. }
    right. cbn [andb] in Ff.
    destruct x as [x|x|x|x|x x'|x|x x'], y as [y|y|y|y|y y'|y|y y']; cbn in Kx, Ky; subst k1 k2;
      cbn in Kk; try discriminate Kk; try (exfalso; now apply (proj1 S));
      try (exfalso; now apply (proj2 S)); injection Kk as <-; cbn in Fd; injection Fd as <-;
      destruct a as [a1 a2|a1 a2 a3]; try discriminate Ta;
      destruct b as [b1 b2|b1 b2 b3]; try discriminate Tb;
      cbn [LeftFrameOf MiddleFrameOf RightFrameOf] in E, Ff; subst b1;
      cbn [announces] in A1, A2; subst;
      cbn [has_three_decorators wrap3] in Ff.
    + split; [destruct (_ || _); [destruct (_ =? _)%nat; injection Ff as <-; uf; tauto|discriminate]|].
      destruct (_ || _); [destruct (_ =? _)%nat; injection Ff as <-; exact I|discriminate].
    + destruct (Nat.eqb_spec a3 b3) as [Q|Q].
      * subst b3. cbn [orb] in Ff. injection Ff as <-. split; [uf; tauto|].
        exact (disp_sub_r pl a1 a2 a3 b2).
      * destruct (Nat.eqb_spec a2 b2) as [Q'|Q']; [|discriminate]. subst b2. cbn [orb] in Ff.
        injection Ff as <-. split; [uf; tauto|]. exact (disp_sub_m pl a1 a2 a3 b3).
    + (* point - translation *)
      destruct (Nat.eqb_spec a2 b3) as [Q|Q].
      * subst b3. cbn [orb] in Ff. unfold wrap3 in Ff. cbn in Ff. rewrite Nat.eqb_refl in Ff.
        injection Ff as <-. split; [uf; tauto|]. exact (disp_sub_r pl a1 a1 a2 b2).
      * destruct (Nat.eqb_spec a1 b2) as [Q'|Q']; [|discriminate]. subst b2. cbn [orb] in Ff.
        unfold wrap3 in Ff. cbn in Ff.
        destruct (Nat.eqb_spec a1 b3) as [Q2|Q2]; [|discriminate]. subst b3. injection Ff as <-.
        split; [uf; tauto|]. exact (disp_sub_m pl a1 a1 a2 a1).
    + (* point - point *)
      destruct (Nat.eqb_spec a2 b2) as [Q|Q].
      * subst b2. cbn [orb] in Ff. injection Ff as <-. split; [uf; tauto|].
        exact (disp_sub_r pl a1 a1 a2 a1).
      * rewrite Nat.eqb_refl in Ff. cbn [orb] in Ff. injection Ff as <-. split; [uf; tauto|].
        exact (disp_sub_m pl a1 a1 a2 b2).
  - cbn in Ff. injection Ff as <-. left. apply unframed_is.
  - cbn in Ff. injection Ff as <-. left. apply unframed_is.
  - cbn in Ff. injection Ff as <-. left. apply unframed_is.
Qed.

Lemma told_expr eps pl m e : 0 <= eps -> placement_ok pl -> forall f k d,
  frames_of e = Some f -> good eps m (erase e) k -> frame_strict e ->
  logs_exact eps (fun a => den (m a)) (erase e) -> leaves_announced pl m e ->
  deval eps (fun a => den (m a)) (erase e) = Some d -> told pl f d.
Proof.
  intros He P.
  induction e as [a t g|o e IH|o l IHl r IHr| | | | ]; cbn [frame_strict]; try contradiction;
    intros f k d F G S L A D.
  - cbn [frames_of] in F. rewrite (proj1 G) in F. destruct (frames_fit k g); [|discriminate].
    injection F as <-. cbn in D. injection D as <-. exact A.
  - cbn [erase] in G, L, D. destruct (good_un_inv eps m o _ k G) as (k' & G' & Kk).
    cbn [frames_of erase] in F. rewrite (proj1 G) in F.
    destruct (frames_of e) as [g|] eqn:Fe; [|discriminate].
    cbn [deval] in D. destruct (deval eps _ (erase e)) as [d'|] eqn:De; [|discriminate].
    destruct (good_deval eps m _ k' d' He G' De) as (Kd & Vd).
    destruct L as (L1 & L2).
    apply (told_un eps pl o k' k g f d' d); auto.
    + exact (frames_of_fit e g k' Fe (proj1 G')).
    + apply S.
    + intros ->. apply L2. exact De.
    + apply (IH g k' d'); auto. apply S.
  - cbn [erase] in G, L, D. destruct (good_bin_inv eps m o _ _ k G) as (k1 & k2 & G1 & G2 & Kk).
    cbn [frames_of erase] in F. rewrite (proj1 G) in F.
    destruct (frames_of l) as [a|] eqn:Fl; [|discriminate].
    destruct (frames_of r) as [b|] eqn:Fr; [|discriminate].
    cbn [deval] in D. destruct (deval eps _ (erase l)) as [x|] eqn:Dx; [|discriminate].
    destruct (deval eps _ (erase r)) as [y|] eqn:Dy; [|discriminate].
    destruct (good_deval eps m _ k1 x He G1 Dx) as (Kx & _).
    destruct (good_deval eps m _ k2 y He G2 Dy) as (Ky & _).
    destruct L as (L1 & L2), A as (A1 & A2), S as (S0 & S1 & S2).
    apply (told_bin pl o k1 k2 k a b f x y d); auto.
    + exact (frames_of_fit l a k1 Fl (proj1 G1)).
    + exact (frames_of_fit r b k2 Fr (proj1 G2)).
    + destruct o; auto.
      * apply (S0 k1), G1.
      * apply (S0 k1), G1.
    + apply (IHl a k1 x); auto.
    + apply (IHr b k2 y); auto.
Qed.

(** If every framed leaf holds what its frames announce, the value of the expression is
    what its result frames announce, for any placement of the frames.  Missing for the
    full property: the operations and frame combinations excluded by [frame_strict], for
    which the claim is false (below); logarithms at or beyond an angle of pi and inside
    the small-angle branch ([logs_exact]). *)
Theorem c23_frames_sound_partial : forall eps pl m e k v f, 0 <= eps -> placement_ok pl ->
  good eps m (erase e) k -> frame_strict e ->
  logs_exact eps (fun a => den (m a)) (erase e) -> leaves_announced pl m e ->
  feval eps m e = Some (v, f) -> claims pl f (den v).
Proof.
  intros eps pl m e k v f He P G S L A E. apply feval_erase in E as (F & E).
  pose proof (good_means eps m (erase e) k He G) as M. unfold means in M. rewrite E in M. cbn in M.
  destruct (told_expr eps pl m e He P f k (den v) F G S L A) as [U|(_ & U)];
    [now rewrite <- M|now left|now right].
Qed.
Print Assumptions c23_frames_sound_partial.

Lemma feval_den eps m e k f d : 0 <= eps -> good eps m (erase e) k -> frames_of e = Some f ->
  deval eps (fun a => den (m a)) (erase e) = Some d ->
  exists v, feval eps m e = Some (v, f) /\ den v = d.
Proof.
  intros He G F D. pose proof (good_means eps m (erase e) k He G) as M. rewrite D in M.
  unfold means in M. destruct (eval eps m (erase e)) as [v|] eqn:E; [|discriminate].
  injection M as M. exists v. split; [|exact M]. apply feval_erase. auto.
Qed.

(** A world with frame 1 at the identity and frame 2 turned by the given rotation. *)
Definition turn2 (m : M3) : placement := only 2%nat (mkPose m v0).
Lemma turn2_rot m : rot_between (turn2 m) 1 1 = i3 /\ rot_between (turn2 m) 1 2 = m.
Proof. unfold rot_between, turn2, only. cbn. rewrite tr3_i, !mul3_i_l. auto. Qed.

(** The value announced by the frames of a satisfying case: rotation <1,2> and rotation
    <2,1> of a quarter turn, applied to a vector <1,1,3>. *)
Definition c23_pl : placement := fun f =>
  match f with 2%nat => mkPose rotz90 v0 | 3%nat => mkPose i3 (mkV 1 2 3) | _ => mkPose i3 v0 end.
Definition c23_m : env := fun a =>
  match a with
  | 1%nat => VMat rotz90
  | 2%nat => VMat (tr3 rotz90)
  | _ => VTrans (mkV 1 2 3)
  end.
Definition c23_e : fexpr :=
  FBin ORotate
    (FBin OCompose (FLeaf 1 (Plain LMat) (F2 1 2)) (FLeaf 2 (Plain LMat) (F2 2 1)))
    (FLeaf 3 (Plain LTrans) (F3 1 1 3)).

Example c23_example : forall eps, 0 <= eps ->
  placement_ok c23_pl /\ good eps c23_m (erase c23_e) KTrans /\ frame_strict c23_e /\
  logs_exact eps (fun a => den (c23_m a)) (erase c23_e) /\ leaves_announced c23_pl c23_m c23_e /\
  (exists v, feval eps c23_m c23_e = Some (v, F3 1 1 3) /\
     den v = DTrans (displacement c23_pl 1 1 3)).
Proof.
  intros eps He.
  assert (P : placement_ok c23_pl).
  { intros [|[|[|[|f]]]]; cbn; try apply is_rot_i; exact rotz90_rot. }
  assert (G : good eps c23_m (erase c23_e) KTrans).
  { split; [reflexivity|]. split; [|cbn; tauto].
    cbn [erase c23_e env_ok c23_m vty valid]. repeat split; try apply rotz90_rot.
    - apply is_rot_tr, rotz90_rot.
    - apply is_rot_tr, rotz90_rot. }
  assert (A : leaves_announced c23_pl c23_m c23_e).
  { cbn [leaves_announced c23_e]. repeat split.
    - right. split; [repeat split; cbn; discriminate|]. cbn [announces den c23_m].
      unfold rot_between. cbn. unfold rotz90. v3unf. f_equal; ring.
    - right. split; [repeat split; cbn; discriminate|]. cbn [announces den c23_m].
      unfold rot_between. cbn. unfold rotz90. v3unf. f_equal; ring.
    - right. split; [repeat split; cbn; discriminate|]. cbn [announces den c23_m].
      unfold displacement. cbn. v3unf. f_equal; ring. }
  assert (F : frames_of c23_e = Some (F3 1 1 3)) by reflexivity.
  repeat (split; [first [assumption|cbn; tauto]|]).
  destruct (deval eps (fun a => den (c23_m a)) (erase c23_e)) as [d|] eqn:D; [|discriminate D].
  destruct (feval_den eps c23_m c23_e KTrans _ d He G F D) as (v & E & Dv).
  exists v. split; [exact E|].
  destruct (told_expr eps c23_pl c23_m c23_e He P (F3 1 1 3) KTrans d F G)
    as [(U & _)|(_ & U)]; auto; [cbn; tauto|cbn; tauto|discriminate U|].
  rewrite Dv. cbn in D. injection D as <-. cbn [announces] in U. now f_equal.
Qed.

(** The compiler does not check where the vector moved by a rigid transform starts: the
    transform <1,2> applied to the vector <2,3,4> is announced as <1,1,4>. *)
Theorem c23_transform_refuted : forall eps, 0 <= eps -> exists pl m e k v f,
  placement_ok pl /\ good eps m (erase e) k /\ leaves_announced pl m e /\
  e = FBin OTransform (FLeaf 1 (Plain LMatRT) (F2 1 2)) (FLeaf 2 (Plain LTrans) (F3 2 3 4)) /\
  feval eps m e = Some (v, f) /\ ~ claims pl f (den v).
Proof.
  intros eps He.
  set (pl := only 3%nat (mkPose i3 (mkV 1 0 0))).
  set (m := fun a : nat => match a with 1%nat => VMatRT i3 v0 v0 1 | _ => VTrans (mkV (-1) 0 0) end).
  set (e := FBin OTransform (FLeaf 1 (Plain LMatRT) (F2 1 2)) (FLeaf 2 (Plain LTrans) (F3 2 3 4))).
  assert (G : good eps m (erase e) KTrans).
  { split; [reflexivity|]. split; [|cbn; tauto]. cbn [erase e env_ok m vty valid].
    repeat split; apply is_rot_i. }
  destruct (feval_den eps m e KTrans (F3 1 1 4) (DTrans (vadd (app3 i3 (mkV (-1) 0 0)) v0)) He G
              eq_refl eq_refl) as (v & E & D).
  exists pl, m, e, KTrans, v, (F3 1 1 4). split; [apply moved_ok|]. split; [exact G|].
  split; [|split; [reflexivity|split; [exact E|]]].
  - cbn [leaves_announced e]. split; right; (split; [repeat split; cbn; discriminate|]);
      cbn [announces den m]; unfold rot_between, displacement, pl, only; cbn.
    + split; v3unf; f_equal; ring.
    + v3unf. f_equal; ring.
  - rewrite D. intros [(U & _)|U]; [discriminate|]. cbn [announces] in U.
    unfold displacement, pl, only in U. cbn in U. apply (f_equal vx) in U. cbn in U. lra.
Qed.
Print Assumptions c23_transform_refuted.

(** Scaling keeps the frames: twice the vector <1,1,2> is announced as <1,1,2>. *)
Theorem c23_scale_refuted : forall eps, 0 <= eps -> exists pl m e k v f,
  placement_ok pl /\ good eps m (erase e) k /\ leaves_announced pl m e /\
  e = FBin OScale (FLeaf 1 (Plain LScalar) (F3 0 0 0)) (FLeaf 2 (Plain LTrans) (F3 1 1 2)) /\
  feval eps m e = Some (v, f) /\ ~ claims pl f (den v).
Proof.
  intros eps He.
  set (pl := only 2%nat (mkPose i3 (mkV 1 0 0))).
  set (m := fun a : nat => match a with 1%nat => VScalar 2 | _ => VTrans (mkV 1 0 0) end).
  set (e := FBin OScale (FLeaf 1 (Plain LScalar) (F3 0 0 0)) (FLeaf 2 (Plain LTrans) (F3 1 1 2))).
  assert (G : good eps m (erase e) KTrans).
  { split; [reflexivity|]. split; [|cbn; tauto]. cbn [erase e env_ok m vty valid]. repeat split. }
  destruct (feval_den eps m e KTrans (F3 1 1 2) (DTrans (mkV (2 * 1) (2 * 0) (2 * 0))) He G
              eq_refl eq_refl) as (v & E & D).
  exists pl, m, e, KTrans, v, (F3 1 1 2). split; [apply moved_ok|]. split; [exact G|].
  split; [|split; [reflexivity|split; [exact E|]]].
  - cbn [leaves_announced e]. split; [left; repeat split|].
    right. split; [repeat split; cbn; discriminate|].
    cbn [announces den m]. unfold displacement, pl, only. cbn. v3unf. f_equal; ring.
  - rewrite D. intros [(U & _)|U]; [discriminate|]. cbn [announces] in U.
    unfold displacement, pl, only in U. cbn in U. apply (f_equal vx) in U. cbn in U. lra.
Qed.
Print Assumptions c23_scale_refuted.

Lemma exp_2x_neq : so3_exp (mkV 2 0 0) <> i3.
Proof.
  intros E. pose proof (rot_angle_exp (mkV 2 0 0)) as A.
  assert (N : vnorm (mkV 2 0 0) = 2).
  { unfold vnorm. replace (vnorm2 (mkV 2 0 0)) with (2 * 2) by (v3unf; ring).
    apply sqrt_square. lra. }
  rewrite N, E in A. pose proof PI2_3_2. assert (A' : rot_angle i3 = 2) by (apply A; lra).
  unfold rot_angle in A'. replace ((trace3 i3 - 1) / 2) with 1 in A' by (v3unf; field).
  rewrite acos_1 in A'. lra.
Qed.

(** exp(): the rotation obtained from the relative rotation <1,1,2> is announced as
    <1,1>, the identity. *)
Theorem c23_exp_refuted : forall eps, 0 <= eps < 1 -> exists pl m e k v f,
  placement_ok pl /\ good eps m (erase e) k /\ leaves_announced pl m e /\
  e = FUn OExpMap (FLeaf 1 (Plain LRel) (F3 1 1 2)) /\
  feval eps m e = Some (v, f) /\ ~ claims pl f (den v).
Proof.
  intros eps (He & He1).
  set (x := mkV 2 0 0). set (pl := turn2 (so3_exp x)). set (m := fun _ : nat => VRel x).
  set (e := FUn OExpMap (FLeaf 1 (Plain LRel) (F3 1 1 2))).
  assert (G : good eps m (erase e) KRot).
  { split; [reflexivity|]. split; [cbn; auto|]. cbn [erase e exps_exact deval m den].
    split; [exact I|]. intros d [= <-]. right. unfold x. v3unf. lra. }
  destruct (feval_den eps m e KRot (F2 1 1) (DRot (so3_exp x)) He G eq_refl eq_refl)
    as (v & E & D).
  exists pl, m, e, KRot, v, (F2 1 1). split; [apply only_ok; cbn; apply so3_exp_is_rot|].
  split; [exact G|]. destruct (turn2_rot (so3_exp x)) as (T1 & T2).
  split; [|split; [reflexivity|split; [exact E|]]].
  - right. split; [repeat split; cbn; discriminate|]. cbn [announces den m]. fold pl in T1, T2.
    rewrite T1, T2. apply mul3_i_r.
  - rewrite D. intros [(U & _)|U]; [discriminate|]. cbn [announces] in U. fold pl in T1.
    rewrite T1 in U. now apply exp_2x_neq.
Qed.
Print Assumptions c23_exp_refuted.

(** Box-plus: a rotation <1,2> moved by the relative rotation <1,1,2> is announced as
    <1,2>; box-minus: the difference of two rotations <1,2> is announced as <1,1,2>. *)
Theorem c23_box_refuted : forall eps, 0 <= eps < 1 ->
  (exists pl m k v f, let e := FBoxPlus (FLeaf 1 (Plain LMat) (F2 1 2)) (FLeaf 2 (Plain LRel) (F3 1 1 2)) in
     placement_ok pl /\ good eps m (erase e) k /\ leaves_announced pl m e /\
     feval eps m e = Some (v, f) /\ ~ claims pl f (den v)) /\
  (exists pl m k v f, let e := FBoxMinus (FLeaf 1 (Plain LMat) (F2 1 2)) (FLeaf 2 (Plain LMat) (F2 1 2)) in
     placement_ok pl /\ good eps m (erase e) k /\ leaves_announced pl m e /\
     feval eps m e = Some (v, f) /\ ~ claims pl f (den v)).
Proof.
  intros eps (He & He1). set (x := mkV 2 0 0). set (pl := turn2 (so3_exp x)).
  destruct (turn2_rot (so3_exp x)) as (T1 & T2). fold pl in T1, T2.
  assert (P : placement_ok pl) by (apply only_ok; cbn; apply so3_exp_is_rot).
  split.
  - set (m := fun a : nat => match a with 1%nat => VMat (so3_exp x) | _ => VRel x end).
    set (e := FBoxPlus (FLeaf 1 (Plain LMat) (F2 1 2)) (FLeaf 2 (Plain LRel) (F3 1 1 2))).
    assert (G : good eps m (erase e) KRot).
    { split; [reflexivity|]. split.
      - split; [split; [reflexivity|apply so3_exp_is_rot]|split; [reflexivity|exact I]].
      - split; [exact I|]. split; [exact I|]. intros d [= <-]. right. unfold x. v3unf. lra. }
    destruct (feval_den eps m e KRot (F2 1 2) (DRot (mul3 (so3_exp x) (so3_exp x))) He G eq_refl
                eq_refl) as (v & E & D).
    exists pl, m, KRot, v, (F2 1 2). split; [exact P|]. split; [exact G|].
    split; [|split; [exact E|]].
    + split; right; (split; [repeat split; cbn; discriminate|]); cbn [announces den m].
      * now rewrite T2.
      * rewrite T1, T2. apply mul3_i_r.
    + rewrite D. intros [(U & _)|U]; [discriminate|]. cbn [announces] in U. rewrite T2 in U.
      apply exp_2x_neq. fold x.
      apply (rot_cancel_r (so3_exp x)); [apply so3_exp_is_rot|]. now rewrite mul3_i_l.
  - set (m := fun _ : nat => VMat (so3_exp x)).
    set (e := FBoxMinus (FLeaf 1 (Plain LMat) (F2 1 2)) (FLeaf 2 (Plain LMat) (F2 1 2))).
    assert (G : good eps m (erase e) KRel).
    { split; [reflexivity|]. split; [|cbn; tauto].
      split; (split; [reflexivity|apply so3_exp_is_rot]). }
    assert (X : deval eps (fun a => den (m a)) (erase e) = Some (DRel v0)).
    { cbn [erase e XBoxMinus deval m den dsem_un dsem_bin dkind kind_bin dcompose].
      rewrite rot_mul_tr by apply so3_exp_is_rot. rewrite log_i by exact He. reflexivity. }
    destruct (feval_den eps m e KRel (F3 1 1 2) (DRel v0) He G eq_refl X) as (v & E & D).
    exists pl, m, KRel, v, (F3 1 1 2). split; [exact P|]. split; [exact G|].
    split; [|split; [exact E|]].
    + split; right; (split; [repeat split; cbn; discriminate|]); cbn [announces den m]; now rewrite T2.
    + rewrite D. intros [(U & _)|U]; [discriminate|]. cbn [announces] in U.
      rewrite T1, T2, so3_exp_0, mul3_i_l in U. now apply exp_2x_neq.
Qed.
Print Assumptions c23_box_refuted.

(** Sums of relative rotations: rotating 1 to 2 and then 2 to 3 (both seen from 1) is
    announced as rotating 1 to 3 by the sum of the two vectors. *)
Theorem c23_sum_rotations_refuted : forall eps, 0 <= eps -> exists pl m e k v f,
  placement_ok pl /\ good eps m (erase e) k /\ leaves_announced pl m e /\
  e = FBin OSum (FLeaf 1 (Plain LRel) (F3 1 1 2)) (FLeaf 2 (Plain LRel) (F3 1 2 3)) /\
  feval eps m e = Some (v, f) /\ ~ claims pl f (den v).
Proof.
  intros eps He. set (x := mkV PI 0 0). set (y := mkV 0 PI 0).
  assert (HP : PI <> 0) by (pose proof PI_RGT_0; lra).
  set (mx := mkM 1 0 0 0 (-1) 0 0 0 (-1)). set (my := mkM (-1) 0 0 0 1 0 0 0 (-1)).
  assert (Npi : sqrt (PI * PI) = PI) by (apply sqrt_square; pose proof PI_RGT_0; lra).
  assert (Ex : so3_exp x = mx).
  { assert (N : vnorm x = PI).
    { unfold vnorm. replace (vnorm2 x) with (PI * PI) by (unfold x; v3unf; ring). exact Npi. }
    unfold so3_exp. rewrite N. destruct (Req_EM_T PI 0); [contradiction|].
    rewrite sin_PI, cos_PI. unfold rodrigues, x, mx. v3unf. f_equal; field; exact HP. }
  assert (Ey : so3_exp y = my).
  { assert (N : vnorm y = PI).
    { unfold vnorm. replace (vnorm2 y) with (PI * PI) by (unfold y; v3unf; ring). exact Npi. }
    unfold so3_exp. rewrite N. destruct (Req_EM_T PI 0); [contradiction|].
    rewrite sin_PI, cos_PI. unfold rodrigues, y, my. v3unf. f_equal; field; exact HP. }
  set (pl := fun f : nat => match f with 2%nat => mkPose mx v0 | 3%nat => mkPose (mul3 my mx) v0
                            | _ => mkPose i3 v0 end).
  assert (P : placement_ok pl).
  { intros [|[|[|[|f]]]]; cbn; try apply is_rot_i.
    - rewrite <- Ex. apply so3_exp_is_rot.
    - rewrite <- Ex, <- Ey. apply is_rot_mul; apply so3_exp_is_rot. }
  set (m := fun a : nat => match a with 1%nat => VRel x | _ => VRel y end).
  set (e := FBin OSum (FLeaf 1 (Plain LRel) (F3 1 1 2)) (FLeaf 2 (Plain LRel) (F3 1 2 3))).
  assert (G : good eps m (erase e) KRel).
  { split; [reflexivity|]. split; [|cbn; tauto]. cbn [erase e env_ok m vty valid]. repeat split. }
  destruct (feval_den eps m e KRel (F3 1 1 3) (DRel (mkV (PI + 0) (0 + PI) (0 + 0))) He G
              eq_refl eq_refl) as (v & E & D).
  exists pl, m, e, KRel, v, (F3 1 1 3). split; [exact P|]. split; [exact G|].
  split; [|split; [reflexivity|split; [exact E|]]].
  - cbn [leaves_announced e]. split; right; (split; [repeat split; cbn; discriminate|]);
      cbn [announces den m]; [rewrite Ex|rewrite Ey]; unfold rot_between, pl; cbn [axes];
      rewrite tr3_i, !mul3_i_l; [apply mul3_i_r|reflexivity].
  - rewrite D. intros [(U & _)|U]; [discriminate|]. cbn [announces] in U.
    set (z := mkV (PI + 0) (0 + PI) (0 + 0)) in U.
    assert (Z : app3 (so3_exp z) z = z).
    { unfold so3_exp. destruct (Req_EM_T (vnorm z) 0); [apply app3_i|].
      generalize (sin (vnorm z) / vnorm z), ((1 - cos (vnorm z)) / (vnorm z * vnorm z)).
      intros s c. unfold rodrigues. clear. destruct z as [z1 z2 z3]. v3unf. f_equal; ring. }
    unfold rot_between, pl in U. cbn [axes] in U. rewrite tr3_i, !mul3_i_l, mul3_i_r in U.
    rewrite U in Z. apply (f_equal vx) in Z. unfold mx, my, z in Z. v3unfh Z. cbn in Z.
    pose proof PI_RGT_0. lra.
Qed.
Print Assumptions c23_sum_rotations_refuted.

(** Cases for C24 and C25: the product above with the second rotation's frames changed
    is rejected; a frame_cast repairs it, and its reverse Jacobians are accepted although
    both rotations have the same bare type. *)
Definition c25_e : fexpr :=
  FBin ORotate
    (FBin OCompose (FLeaf 1 (Plain LMat) (F2 1 2))
       (FCast (F2 2 1) (FLeaf 2 (Plain LMat) (F2 3 1))))
    (FLeaf 3 (Plain LTrans) (F3 1 1 3)).

Example c24_example :
  frames_of (FBin OCompose (FLeaf 1 (Plain LMat) (F2 1 2)) (FLeaf 2 (Plain LMat) (F2 3 1))) = None /\
  frames_of (FBin OSum (FLeaf 1 (Plain LTrans) (F3 1 2 3)) (FLeaf 2 (Plain LTrans) (F3 1 4 2)))
    = Some (F3 1 4 3) /\
  frames_of (FBin OSum (FLeaf 1 (Plain LTrans) (F3 1 2 3)) (FLeaf 2 (Plain LTrans) (F3 1 4 5))) = None /\
  frames_of (FBin OSubtract (FLeaf 1 (Plain LTrans) (F3 1 2 3)) (FLeaf 2 (Plain LTrans) (F3 1 4 3)))
    = Some (F3 1 2 4) /\
  frames_of (FBoxPlus (FLeaf 1 (Plain LMat) (F2 1 2)) (FLeaf 2 (Plain LRel) (F3 1 1 3))) = None.
Proof. repeat split. Qed.

Example c25_example : forall eps, 0 <= eps < 1 ->
  frames_of c25_e = Some (F3 1 1 3) /\ one_type_per_object c25_e /\
  good eps c23_m (erase c25_e) KTrans /\ (exists x, means eps c23_m (erase c25_e) = Some x) /\
  NoDup (map (fun y => (snd (fst y), snd y)) (fleaves c25_e)) /\
  In (2%nat, Plain LMat, F2 3 1) (fleaves c25_e) /\
  smooth eps (fun b => den (c23_m b)) 2 (erase c25_e) /\
  (exists v, feval eps c23_m c25_e = Some (v, F3 1 1 3)).
Proof.
  intros eps (He & He1). destruct (c23_example eps He) as (_ & G & _).
  assert (F : frames_of c25_e = Some (F3 1 1 3)) by reflexivity.
  change (erase c23_e) with (erase c25_e) in G.
  assert (O : one_type_per_object c25_e).
  { intros a t f t' f' [H|[H|[H|[]]]] [H'|[H'|[H'|[]]]]; injection H as <- <- <-;
      try discriminate H'; injection H' as <- <-; auto. }
  split; [exact F|]. split; [exact O|]. split; [exact G|].
  destruct (feval_den eps c23_m c25_e KTrans _ _ He G F eq_refl) as (v & E & D).
  split; [|split; [|split; [|split]]].
  - apply feval_erase in E as (_ & E). exists (den v). unfold means. now rewrite E.
  - repeat constructor; cbn; intuition discriminate.
  - cbn. auto.
  - cbn. repeat split; intros; try contradiction; intuition discriminate.
  - eauto.
Qed.
