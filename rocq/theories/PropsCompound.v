(** C32: compound values behave element by element. *)

From Coq Require Import Reals Lra Lia List Bool Arith Ratan.
From Verif Require Import Mat ModelMeta MetaProofs V3 ModelLeaf SpecLeaf LeafProofs ModelExpr
  SpecExpr ExprProofs PropsExpr PropsVec ModelApprox PropsApprox ModelCompound SpecCompound.
Import ListNotations.
Local Open Scope R_scope.

(** ** Exponential: injectivity below a half turn *)

Lemma so3_exp_inj v w : vnorm v < PI -> vnorm w < PI -> so3_exp v = so3_exp w -> v = w.
Proof.
  intros Hv Hw E. assert (N : vnorm v = vnorm w).
  { rewrite <- (rot_angle_exp v), <- (rot_angle_exp w), E by lra. reflexivity. }
  destruct (Req_EM_T (vnorm v) 0) as [Z|Z].
  - rewrite (vnorm_eq0 v Z), (vnorm_eq0 w); congruence.
  - assert (P : forall x, vnorm x = vnorm v -> 0 < vnorm2 x).
    { intros x Hx. rewrite <- vnorm_sq, Hx. pose proof (vnorm_nonneg v). nra. }
    pose proof (log_exp_general 0 v (Rle_refl 0) (P v eq_refl) Hv) as L1.
    pose proof (log_exp_general 0 w (Rle_refl 0) (P w (eq_sym N)) Hw) as L2.
    rewrite E, L2 in L1. congruence.
Qed.

Lemma vadd_cancel a b c : vadd a b = vadd a c -> b = c.
Proof.
  destruct a, b, c. cbn. intros H. injection H as ? ? ?. f_equal; lra.
Qed.

Lemma so3_V_inj w u u' : vnorm w < PI -> app3 (so3_V w) u = app3 (so3_V w) u' -> u = u'.
Proof.
  intros Hw E. destruct (Req_EM_T (vnorm w) 0) as [Z|Z].
  - apply vnorm_eq0 in Z. subst w. rewrite so3_V_0, !app3_i in E. exact E.
  - assert (W : w <> v0) by (intros ->; apply Z, vnorm_0).
    pose proof PI_RGT_0. destruct (V_Vinv w W ltac:(lra)) as (_ & I).
    rewrite <- (app3_i u), <- (app3_i u'), <- I, !app3_mul, E. reflexivity.
Qed.

Lemma displaced_unique x d d' y : dvalid x -> displaced x d y -> displaced x d' y ->
  less_than_half_turn x d -> less_than_half_turn x d' -> d = d'.
Proof.
  intros V H H' L L'.
  destruct x as [x|x|x|x|w u|X|X tx], d, y; try contradiction; destruct d'; try contradiction;
    cbn in H, H', L, L', V.
  - f_equal; lra.
  - f_equal. eapply vadd_cancel. rewrite <- H. exact H'.
  - f_equal. eapply vadd_cancel. rewrite <- H. exact H'.
  - f_equal. eapply vadd_cancel. rewrite <- H. exact H'.
  - destruct H as (H1 & H2), H' as (H1' & H2'). f_equal; eapply vadd_cancel.
    + rewrite <- H1. exact H1'.
    + rewrite <- H2. exact H2'.
  - f_equal. apply so3_exp_inj; auto. rewrite H in H'.
    apply (f_equal (fun z => mul3 z (tr3 X))) in H'.
    now rewrite !mul3_assoc, rot_mul_tr, !mul3_i_r in H' by exact V.
  - destruct H as (H1 & H2), H' as (H1' & H2'). rewrite H1 in H1'.
    apply (f_equal (fun z => mul3 z (tr3 X))) in H1'.
    rewrite !mul3_assoc, rot_mul_tr, !mul3_i_r in H1' by exact V.
    apply so3_exp_inj in H1'; auto. rewrite <- H1' in *.
    rewrite H2 in H2'. apply vadd_cancel in H2'. apply so3_V_inj in H2'; auto. now rewrite H2'.
Qed.

Lemma displaced_fun x d y y' : displaced x d y -> displaced x d y' -> y = y'.
Proof.
  destruct x, d, y; cbn; try contradiction; destruct y'; try contradiction;
    intros; repeat match goal with H : _ /\ _ |- _ => destruct H end; subst; reflexivity.
Qed.

(** ** One element *)

Section Elem.
  Variable eps : R.
  Hypothesis He : 0 < eps < 1.
  Let He0 : 0 <= eps. Proof. lra. Qed.

  Lemma good_0 a b : valid a -> good eps (two_leaves a b) (XLeaf 0%nat (vty a)) (vkind a).
  Proof. intros V. exact (good_leaf eps (two_leaves a b) 0%nat (vty a) eq_refl V). Qed.
  Lemma good_1 a b : valid b -> good eps (two_leaves a b) (XLeaf 1%nat (vty b)) (vkind b).
  Proof. intros V. exact (good_leaf eps (two_leaves a b) 1%nat (vty b) eq_refl V). Qed.

  Lemma from_deval m e k d : good eps m e k -> deval eps (fun a => den (m a)) e = Some d ->
    exists v, eval eps m e = Some v /\ valid v /\ vkind v = k /\ den v = d.
  Proof.
    intros G D. pose proof (good_means eps m e k He0 G) as M. rewrite D in M. unfold means in M.
    destruct (eval eps m e) as [v|] eqn:E; [|discriminate]. cbn in M. injection M as M.
    pose proof (eval_valid eps He0 m e k v G E) as V. exists v. repeat split; auto.
    rewrite <- valid_dkind, M by exact V. now destruct (good_deval _ _ _ _ _ He0 G D).
  Qed.

  Lemma elem_plus_ok a d : valid a -> valid d -> vkind d = displacement_kind (vkind a) ->
    (group_kind (vkind a) = true -> exp_exact eps (den d)) ->
    exists y, elem_plus eps a d = Some y /\ valid y /\ vkind y = vkind a /\
      displaced (den a) (den d) (den y).
  Proof.
    intros Va Vd K X. pose proof (good_0 a d Va) as G0. pose proof (good_1 a d Vd) as G1.
    rewrite K in G1. pose proof (valid_dkind a Va) as Ka. pose proof (valid_dkind d Vd) as Kd.
    rewrite K in Kd. unfold elem_plus.
    assert (R : forall e, good eps (two_leaves a d) e (vkind a) ->
      (exists w, deval eps (fun i => den (two_leaves a d i)) e = Some w /\
                 displaced (den a) (den d) w) ->
      exists y, eval eps (two_leaves a d) e = Some y /\ valid y /\ vkind y = vkind a /\
        displaced (den a) (den d) (den y)).
    { intros e G (w & D & P). destruct (from_deval _ _ _ _ G D) as (y & E & V & Ky & Dy).
      exists y. rewrite Dy. auto. }
    destruct (vkind a) eqn:Ea; cbn [displacement_kind group_kind] in *;
      try (apply R; [eapply good_bin; [exact G0|exact G1|reflexivity]|];
           cbn [deval two_leaves];
           destruct (den a) as [|[]|[]|[]|[] []| |], (den d) as [|[]|[]|[]|[] []| |];
           try discriminate; eexists; (split; [reflexivity|]); cbn; auto).
    - assert (Ge : good eps (two_leaves a d) (XUn OExpMap (XLeaf 1%nat (vty d))) KRot).
      { eapply good_exp; [exact G1|reflexivity|]. intros x [= <-]. now apply X. }
      apply R; [eapply good_bin; [exact G0|exact Ge|reflexivity]|]. unfold XBoxPlus. cbn [deval two_leaves].
      destruct (den a), (den d); try discriminate. eexists. split; reflexivity.
    - assert (Ge : good eps (two_leaves a d) (XUn OExpMap (XLeaf 1%nat (vty d))) KRT).
      { eapply good_exp; [exact G1|reflexivity|]. intros x [= <-]. now apply X. }
      apply R; [eapply good_bin; [exact G0|exact Ge|reflexivity]|]. unfold XBoxPlus. cbn [deval two_leaves].
      destruct (den a), (den d); try discriminate. eexists. split; [reflexivity|]. cbn. auto.
  Qed.

  Lemma elem_minus_ok a b : valid a -> valid b -> vkind a = vkind b ->
    difference_exact eps (den b) (den a) ->
    exists d, elem_minus eps a b = Some d /\ valid d /\ vkind d = displacement_kind (vkind a) /\
      displaced (den b) (den d) (den a) /\ less_than_half_turn (den b) (den d).
  Proof.
    intros Va Vb K X. pose proof (good_0 a b Va) as G0. pose proof (good_1 a b Vb) as G1.
    rewrite <- K in G1. pose proof (valid_dkind a Va) as Ka. pose proof (valid_dkind b Vb) as Kb.
    rewrite <- K in Kb. pose proof (valid_dvalid a Va) as Da. pose proof (valid_dvalid b Vb) as Db.
    unfold elem_minus.
    assert (R : forall e, good eps (two_leaves a b) e (displacement_kind (vkind a)) ->
      (exists w, deval eps (fun i => den (two_leaves a b i)) e = Some w /\
                 displaced (den b) w (den a) /\ less_than_half_turn (den b) w) ->
      exists d, eval eps (two_leaves a b) e = Some d /\ valid d /\
        vkind d = displacement_kind (vkind a) /\
        displaced (den b) (den d) (den a) /\ less_than_half_turn (den b) (den d)).
    { intros e G (w & D & P & H). destruct (from_deval _ _ _ _ G D) as (y & E & V & Ky & Dy).
      exists y. rewrite Dy. auto. }
    destruct (vkind a) eqn:Ea; cbn [displacement_kind] in *;
      try (apply R; [eapply good_bin; [exact G0|exact G1|reflexivity]|];
           cbn [deval two_leaves];
           destruct (den a) as [|[]|[]|[]|[] []| |], (den b) as [|[]|[]|[]|[] []| |];
           try discriminate; eexists; (split; [reflexivity|]); cbn; v3unf;
           repeat split; try f_equal; ring).
    - apply R; [apply (good_boxminus eps _ _ _ KRot eq_refl G0 G1)|].
      destruct (den a) as [| | | | |A|] eqn:EA, (den b) as [| | | | |B|] eqn:EB; try discriminate.
      cbn in Da, Db, X.
      rewrite (deval_bm_rot eps (two_leaves a b) _ _ A B) by (cbn; congruence).
      destruct X as [->|(X1 & X2)].
      + rewrite rot_mul_tr, log_i by assumption. exists (DRel v0). split; [reflexivity|].
        cbn. rewrite so3_exp_0, mul3_i_l, vnorm_0. pose proof PI_RGT_0. auto.
      + assert (HR : is_rot (mul3 A (tr3 B))) by auto using is_rot_mul, is_rot_tr.
        destruct (exp_log_general eps _ HR He0 X2 X1) as (v & E1 & E2 & E3). rewrite E1.
        exists (DRel v). split; [reflexivity|]. cbn.
        rewrite E3, mul3_assoc, rot_tr_mul, mul3_i_r by assumption. split; [reflexivity|lra].
    - apply R; [apply (good_boxminus eps _ _ _ KRT eq_refl G0 G1)|].
      destruct (den a) as [| | | | | |A ta] eqn:EA, (den b) as [| | | | | |B tb] eqn:EB; try discriminate.
      cbn in Da, Db, X.
      rewrite (deval_bm_rt eps (two_leaves a b) _ _ A ta B tb) by (cbn; congruence).
      set (t := vadd (app3 A (vopp (app3 (tr3 B) tb))) ta).
      assert (Et : ta = vadd (app3 (mul3 A (tr3 B)) tb) t).
      { unfold t. rewrite app3_opp_r, app3_mul. generalize (app3 A (app3 (tr3 B) tb)). clear.
        intros [? ? ?]. destruct ta. v3unf. f_equal; ring. }
      destruct X as [->|(X1 & X2)].
      + rewrite rot_mul_tr in * by assumption.
        pose proof (rt_log_exp_0 eps t He0) as Q. rewrite so3_exp_0, so3_V_0, app3_i in Q. rewrite Q.
        exists (DTwist v0 t). split; [reflexivity|]. cbn.
        rewrite so3_exp_0, mul3_i_l, vnorm_0, so3_V_0, app3_i. rewrite app3_i in *.
        pose proof PI_RGT_0. auto.
      + assert (HR : is_rot (mul3 A (tr3 B))) by auto using is_rot_mul, is_rot_tr.
        destruct (rt_exp_log eps _ t He0 HR X2 X1) as (w & u & E1 & E2 & E3 & E4). rewrite E1.
        exists (DTwist w u). split; [reflexivity|]. cbn.
        rewrite E3, E4. rewrite mul3_assoc, rot_tr_mul, mul3_i_r by assumption.
        split; [split; [reflexivity|exact Et]|lra].
  Qed.

  Lemma difference_exact_displaced x d y : dvalid x -> displaced x d y ->
    (group_kind (dkind x) = true -> exp_exact eps d) -> less_than_half_turn x d ->
    difference_exact eps x y.
  Proof.
    intros V H X L. destruct x as [| | | | |A|A ta], d as [| |vd| |wd ud| |], y as [| | | | |B|B tb];
      try contradiction; try exact I; cbn in *.
    - specialize (X eq_refl). destruct X as [->|X].
      + left. rewrite H, so3_exp_0, mul3_i_l. reflexivity.
      + right. rewrite H, mul3_assoc, rot_mul_tr, mul3_i_r by exact V.
        rewrite rot_angle_exp by lra. rewrite vnorm_sq. split; [|exact L].
        apply eps_sq; auto using vnorm2_pos.
    - specialize (X eq_refl). destruct H as (H & _). destruct X as [->|X].
      + left. rewrite H, so3_exp_0, mul3_i_l. reflexivity.
      + right. rewrite H, mul3_assoc, rot_mul_tr, mul3_i_r by exact V.
        rewrite rot_angle_exp by lra. rewrite vnorm_sq. split; [exact X|exact L].
  Qed.
End Elem.

(** ** Expansion *)

Lemma each3_nil {A B C} (P : A -> B -> C -> Prop) : each3 P [] [] [].
Proof. repeat split; auto. intros [|i] a b c; discriminate. Qed.
Lemma each3_cons {A B C} (P : A -> B -> C -> Prop) a b c x y z :
  P a b c -> each3 P x y z -> each3 P (a :: x) (b :: y) (c :: z).
Proof.
  intros H (L1 & L2 & E). repeat split; [cbn; lia|cbn; lia|].
  intros [|i] a' b' c'; cbn; [now intros [= <-] [= <-] [= <-]|apply E].
Qed.
Lemma each2_cons_inv {A B} (P : A -> B -> Prop) a b x y :
  each2 P (a :: x) (b :: y) -> P a b /\ each2 P x y.
Proof.
  intros (L & E). cbn in L. repeat split; [now apply (E 0%nat)|lia|]. intros i. apply (E (S i)).
Qed.
Lemma each3_cons_inv {A B C} (P : A -> B -> C -> Prop) a b c x y z :
  each3 P (a :: x) (b :: y) (c :: z) -> P a b c /\ each3 P x y z.
Proof.
  intros (L & L' & E). cbn in L, L'. split; [now apply (E 0%nat)|].
  repeat split; [lia|lia|]. intros i. apply (E (S i)).
Qed.

Lemma expand2_some f (Q : value -> value -> value -> Prop) x y :
  length x = length y ->
  (forall i a b, nth_error x i = Some a -> nth_error y i = Some b ->
     exists c, f a b = Some c /\ Q a b c) ->
  exists z, expand2 f x y = Some z /\ each3 Q x y z.
Proof.
  revert y. induction x as [|a x IH]; intros [|b y] L H; try discriminate.
  - exists []. split; [reflexivity|apply each3_nil].
  - destruct (H 0%nat a b eq_refl eq_refl) as (c & E & HQ).
    destruct (IH y) as (z & E' & HZ); [cbn in L; lia|intros i; apply (H (S i))|].
    exists (c :: z). cbn. rewrite E, E'. split; [reflexivity|now apply each3_cons].
Qed.

Lemma expand2_inv f x y z : expand2 f x y = Some z -> each3 (fun a b c => f a b = Some c) x y z.
Proof.
  revert y z. induction x as [|a x IH]; intros [|b y] z H; try discriminate.
  - injection H as <-. apply each3_nil.
  - cbn in H. destruct (f a b) as [c|] eqn:E; [|discriminate].
    destruct (expand2 f x y) as [cs|] eqn:E'; [|discriminate]. injection H as <-.
    apply each3_cons; auto.
Qed.

Lemma Forall_nth {A} (P : A -> Prop) l i a : Forall P l -> nth_error l i = Some a -> P a.
Proof. intros H E. rewrite Forall_forall in H. eapply H, nth_error_In, E. Qed.
Lemma Fv l i a : Forall valid l -> nth_error l i = Some a -> valid a.
Proof. apply Forall_nth. Qed.
Lemma each3_len {A B C} (P : A -> B -> C -> Prop) x y z : each3 P x y z ->
  length x = length y /\ length x = length z.
Proof. intros (L & L' & _). auto. Qed.
Lemma nth_error_3 {A B C} (x : list A) (y : list B) (z : list C) i c :
  length x = length z -> length y = length z -> nth_error z i = Some c ->
  exists a b, nth_error x i = Some a /\ nth_error y i = Some b.
Proof.
  intros L L' E. assert (H : (i < length z)%nat) by (apply nth_error_Some; congruence).
  destruct (nth_error x i) as [a|] eqn:Ea; [|apply nth_error_None in Ea; lia].
  destruct (nth_error y i) as [b|] eqn:Eb; [|apply nth_error_None in Eb; lia]. eauto.
Qed.
Lemma Forall_of_each3 {A B C} (P : A -> B -> C -> Prop) (Q : C -> Prop) x y z :
  each3 P x y z -> (forall a b c, P a b c -> Q c) -> Forall Q z.
Proof.
  intros (L & L' & E) H. apply Forall_forall. intros c Hc. apply In_nth_error in Hc.
  destruct Hc as (i & Hi). destruct (nth_error_3 x y z i c) as (a & b & Ea & Eb); try congruence.
  eapply H, E; eauto.
Qed.
Lemma each3_impl {A B C} (P Q : A -> B -> C -> Prop) x y z :
  each3 P x y z -> (forall a b c, P a b c -> Q a b c) -> each3 Q x y z.
Proof. intros (L & L' & E) H. repeat split; auto. intros; eapply H, E; eauto. Qed.

(** ** Element-by-element evaluation *)

(** x + d of compounds: defined, valid, and each element is the element of x displaced by
    the element of d. *)
Theorem c32_plus_elementwise : forall eps x d, 0 < eps < 1 ->
  Forall valid x -> Forall valid d ->
  each2 (fun a b => vkind b = displacement_kind (vkind a)) x d ->
  each2 (fun a b => group_kind (vkind a) = true -> exp_exact eps (den b)) x d ->
  exists y, compound_plus eps x d = Some y /\ Forall valid y /\
    each3 (fun a b c => vkind c = vkind a /\ displaced (den a) (den b) (den c)) x d y.
Proof.
  intros eps x d He Vx Vd (L & K) (_ & X).
  destruct (expand2_some (elem_plus eps)
    (fun a b c => valid c /\ vkind c = vkind a /\ displaced (den a) (den b) (den c)) x d L)
    as (y & E & H).
  { intros i a b Ea Eb. apply elem_plus_ok; eauto using Fv. }
  exists y. split; [exact E|]. split.
  - eapply Forall_of_each3; [exact H|]. cbn. tauto.
  - eapply each3_impl; [exact H|]. cbn. tauto.
Qed.
Print Assumptions c32_plus_elementwise.

(** y - x of compounds: defined, and each element is the displacement, of less than half a
    turn, from the element of x to the element of y. *)
Theorem c32_minus_elementwise : forall eps y x, 0 < eps < 1 ->
  Forall valid y -> Forall valid x -> each2 (fun a b => vkind a = vkind b) y x ->
  each2 (fun a b => difference_exact eps (den b) (den a)) y x ->
  exists d, compound_minus eps y x = Some d /\ Forall valid d /\
    each3 (fun a b c => vkind c = displacement_kind (vkind a) /\
             displaced (den b) (den c) (den a) /\ less_than_half_turn (den b) (den c)) y x d.
Proof.
  intros eps y x He Vy Vx (L & K) (_ & X).
  destruct (expand2_some (elem_minus eps)
    (fun a b c => valid c /\ vkind c = displacement_kind (vkind a) /\
             displaced (den b) (den c) (den a) /\ less_than_half_turn (den b) (den c)) y x L)
    as (d & E & H).
  { intros i a b Ea Eb. apply elem_minus_ok; eauto using Fv. }
  exists d. split; [exact E|]. split.
  - eapply Forall_of_each3; [exact H|]. cbn. tauto.
  - eapply each3_impl; [exact H|]. cbn. tauto.
Qed.
Print Assumptions c32_minus_elementwise.

(** Elements of different number: no result. *)
Theorem c32_length_mismatch_rejected : forall eps x y, length x <> length y ->
  compound_minus eps x y = None /\ compound_plus eps x y = None.
Proof.
  intros eps x y H. unfold compound_minus, compound_plus. split.
  - destruct (expand2 _ x y) eqn:E; [|reflexivity]. apply expand2_inv, each3_len in E. tauto.
  - destruct (expand2 _ x y) eqn:E; [|reflexivity]. apply expand2_inv, each3_len in E. tauto.
Qed.
Print Assumptions c32_length_mismatch_rejected.

Lemma map_den_ext x y : length x = length y ->
  (forall i a b, nth_error x i = Some a -> nth_error y i = Some b -> den a = den b) ->
  map den x = map den y.
Proof.
  revert y. induction x as [|a x IH]; intros [|b y] L H; try discriminate; [reflexivity|].
  cbn. f_equal; [now apply (H 0%nat)|]. apply IH; [cbn in L; lia|]. intros i. apply (H (S i)).
Qed.

(** ** The box axioms for compounds *)

(** x + (y - x) denotes y. *)
Theorem c32_plus_of_minus : forall eps x y d, 0 < eps < 1 ->
  Forall valid y -> Forall valid x -> each2 (fun a b => vkind a = vkind b) y x ->
  each2 (fun a b => difference_exact eps (den b) (den a)) y x ->
  compound_minus eps y x = Some d ->
  each2 (fun a b => group_kind (vkind a) = true -> exp_exact eps (den b)) x d ->
  exists y', compound_plus eps x d = Some y' /\ map den y' = map den y.
Proof.
  intros eps x y d He Vy Vx K X Ed Xd.
  destruct (c32_minus_elementwise eps y x He Vy Vx K X) as (d' & E & Vd & (L1 & L2 & H)).
  rewrite Ed in E. injection E as <-. destruct K as (L & K).
  destruct (c32_plus_elementwise eps x d He Vx Vd) as (y' & E' & _ & (L3 & L4 & H')); auto.
  { split; [congruence|]. intros i b c Eb Ec.
    destruct (nth_error_3 y x d i c) as (a & b' & Ea & Eb'); try congruence.
    destruct (H i a b c) as (H1 & _); auto. rewrite H1. f_equal. eauto. }
  exists y'. split; [exact E'|]. apply map_den_ext; [congruence|]. intros i c a Ec Ea.
  destruct (nth_error_3 x d y' i c) as (b & d0 & Eb & E0); try congruence.
  destruct (H i a b d0) as (_ & H1 & _); auto. destruct (H' i b d0 c) as (_ & H2); auto.
  eapply displaced_fun; eauto.
Qed.
Print Assumptions c32_plus_of_minus.

(** (x + d) - x denotes d. *)
Theorem c32_minus_of_plus : forall eps x d y, 0 < eps < 1 ->
  Forall valid x -> Forall valid d ->
  each2 (fun a b => vkind b = displacement_kind (vkind a)) x d ->
  each2 (fun a b => group_kind (vkind a) = true -> exp_exact eps (den b)) x d ->
  each2 (fun a b => less_than_half_turn (den a) (den b)) x d ->
  compound_plus eps x d = Some y ->
  exists d', compound_minus eps y x = Some d' /\ map den d' = map den d.
Proof.
  intros eps x d y He Vx Vd K X T Ey.
  destruct (c32_plus_elementwise eps x d He Vx Vd K X) as (y' & E & Vy & (L1 & L2 & H)).
  rewrite Ey in E. injection E as <-. destruct X as (_ & X), T as (_ & T).
  destruct (c32_minus_elementwise eps y x He Vy Vx) as (d' & E' & Vd' & (L3 & L4 & H')).
  { split; [congruence|]. intros i c a Ec Ea.
    destruct (nth_error_3 x d y i c) as (a' & b & Ea' & Eb); try congruence.
    destruct (H i a b c) as (H1 & _); auto. }
  { split; [congruence|]. intros i c a Ec Ea.
    destruct (nth_error_3 x d y i c) as (a' & b & Ea' & Eb); try congruence.
    destruct (H i a b c) as (H1 & H2); auto.
    eapply difference_exact_displaced; eauto using valid_dvalid, Fv.
    rewrite valid_dkind by eauto using Fv. eauto. }
  exists d'. split; [exact E'|]. apply map_den_ext; [congruence|]. intros i b' b Eb' Eb.
  destruct (nth_error_3 y x d' i b') as (c & a & Ec & Ea); try congruence.
  destruct (H i a b c) as (_ & H1); auto. destruct (H' i c a b') as (_ & H2 & H3); auto.
  apply (displaced_unique (den a) _ _ (den c)); eauto using valid_dvalid, Fv.
Qed.
Print Assumptions c32_minus_of_plus.

(** x - x is zero. *)
Theorem c32_minus_self : forall eps x, 0 < eps < 1 -> Forall valid x ->
  exists d, compound_minus eps x x = Some d /\
    Forall (fun v => forall i, dcoord (den v) i = 0) d.
Proof.
  intros eps x He Vx.
  destruct (c32_minus_elementwise eps x x He Vx Vx) as (d & E & Vd & (L1 & L2 & H)).
  { split; [reflexivity|]. congruence. }
  { split; [reflexivity|]. intros i a b Ea Eb. assert (a = b) as -> by congruence.
    unfold difference_exact. destruct (den b); auto. }
  exists d. split; [exact E|]. apply Forall_forall. intros v Hv i.
  apply In_nth_error in Hv. destruct Hv as (j & Hj).
  destruct (nth_error_3 x x d j v) as (a & b & Ea & Eb); try congruence.
  assert (b = a) as -> by congruence.
  destruct (H j a a v) as (_ & H1 & H2); auto.
  pose proof (valid_dvalid a (Forall_nth _ _ _ _ Vx Ea)) as V. pose proof PI_RGT_0.
  destruct (den a) as [s|s|s|s|w u|M|M t] eqn:Da, (den v) as [s1|s1|s1|s1|w1 u1|M1|M1 t1] eqn:Dv;
    try contradiction.
  1-5: pose proof (displaced_unique _ _ (match den a with DScalar _ => DScalar 0
          | DTrans _ => DTrans v0 | DRel _ => DRel v0 | DPoint _ => DTrans v0 | _ => DTwist v0 v0 end)
          _ V H1) as Q; rewrite Da in Q; rewrite Q; cbn; auto;
       try lra; try (symmetry; apply vadd_0_r);
       try (split; symmetry; apply vadd_0_r);
       destruct i as [|[|[|[|[|[|i]]]]]]; reflexivity.
  - pose proof (displaced_unique _ _ (DRel v0) _ V H1) as Q. rewrite Q; cbn; auto.
    + destruct i as [|[|[|i]]]; reflexivity.
    + now rewrite so3_exp_0, mul3_i_l.
    + now rewrite vnorm_0.
  - pose proof (displaced_unique _ _ (DTwist v0 v0) _ V H1) as Q. rewrite Q; cbn; auto.
    + destruct i as [|[|[|[|[|[|i]]]]]]; reflexivity.
    + rewrite so3_exp_0, mul3_i_l, app3_0, vadd_0_r, app3_i. auto.
    + now rewrite vnorm_0.
Qed.
Print Assumptions c32_minus_self.

(** x + 0 denotes x. *)
Theorem c32_plus_zero : forall eps x d, 0 < eps < 1 ->
  Forall valid x -> Forall valid d ->
  each2 (fun a b => vkind b = displacement_kind (vkind a)) x d ->
  Forall (fun v => forall i, dcoord (den v) i = 0) d ->
  exists y, compound_plus eps x d = Some y /\ map den y = map den x.
Proof.
  intros eps x d He Vx Vd K Z.
  assert (V0 : forall v, (forall i, vget v i = 0) -> v = v0).
  { intros [a b c] H. pose proof (H 0%nat). pose proof (H 1%nat). pose proof (H 2%nat).
    cbn in *. subst. reflexivity. }
  assert (Z' : forall j b, nth_error d j = Some b -> forall i, dcoord (den b) i = 0)
    by (intros j b Eb; exact (Forall_nth _ _ _ _ Z Eb)).
  destruct (c32_plus_elementwise eps x d He Vx Vd K) as (y & E & Vy & (L1 & L2 & H)).
  { destruct K as (L & K). split; [exact L|]. intros i a b Ea Eb G. specialize (Z' i b Eb).
    unfold exp_exact. destruct (den b); auto; left; apply V0; auto.
    intros [|[|[|n]]]; [apply (Z' 0%nat)|apply (Z' 1%nat)|apply (Z' 2%nat)|reflexivity]. }
  exists y. split; [exact E|]. apply map_den_ext; [congruence|]. intros i c a Ec Ea.
  destruct (nth_error_3 x d y i c) as (a' & b & Ea' & Eb); try congruence.
  destruct (H i a b c) as (_ & H1); auto. specialize (Z' i b Eb).
  eapply displaced_fun; [exact H1|].
  assert (ZT : forall w u, den b = DTwist w u -> w = v0 /\ u = v0).
  { intros w u Eq. rewrite Eq in Z'. split; apply V0; intros [|[|[|n]]]; try reflexivity;
      [apply (Z' 0%nat)|apply (Z' 1%nat)|apply (Z' 2%nat)
      |apply (Z' 3%nat)|apply (Z' 4%nat)|apply (Z' 5%nat)]. }
  assert (ZV : forall w, den b = DTrans w \/ den b = DRel w -> w = v0).
  { intros w [Eq|Eq]; rewrite Eq in Z'; apply V0; exact Z'. }
  destruct (den a) as [s|s|s|s|w u|M|M t], (den b) as [s1|s1|s1|s1|w1 u1|M1|M1 t1];
    try (destruct (den c); contradiction); cbn.
  - specialize (Z' 0%nat). cbn in Z'. lra.
  - rewrite (ZV s1) by auto. now rewrite vadd_0_r.
  - rewrite (ZV s1) by auto. now rewrite vadd_0_r.
  - rewrite (ZV s1) by auto. now rewrite vadd_0_r.
  - destruct (ZT w1 u1 eq_refl) as (-> & ->). now rewrite !vadd_0_r.
  - rewrite (ZV s1) by auto. now rewrite so3_exp_0, mul3_i_l.
  - destruct (ZT w1 u1 eq_refl) as (-> & ->).
    now rewrite so3_exp_0, mul3_i_l, app3_i, app3_0, vadd_0_r.
Qed.
Print Assumptions c32_plus_zero.

(** ** Conversion to a vector *)

Lemma comma_fold c : forall st,
  let st' := fold_left comma_push c st in
  (ci_row st' + ci_rows st' = ci_row st + ci_rows st + sum_sequence (map vdim c))%nat /\
  (forall i, (i < ci_row st + ci_rows st)%nat -> ci_dst st' i = ci_dst st i) /\
  (forall k v j, nth_error c k = Some v -> (j < vdim v)%nat ->
     ci_dst st' (ci_row st + ci_rows st + sum_sequence (map vdim (firstn k c)) + j)%nat = coord v j).
Proof.
  induction c as [|v c IH]; intros st; cbn [fold_left map sum_sequence].
  - split; [lia|]. split; [reflexivity|]. intros [|k]; discriminate.
  - destruct (IH (comma_push st v)) as (H1 & H2 & H3). cbn [comma_push ci_row ci_rows ci_dst] in *.
    split; [lia|]. split.
    + intros i Hi. rewrite H2 by lia. destruct (_ <=? i)%nat eqn:L; [|reflexivity].
      apply Nat.leb_le in L. lia.
    + intros [|k] w j Hk Hj.
      * injection Hk as <-. cbn [firstn map sum_sequence]. rewrite H2 by lia.
        replace (ci_row st + ci_rows st + 0 + j)%nat with (ci_row st + ci_rows st + j)%nat by lia.
        rewrite (proj2 (Nat.leb_le _ _)), (proj2 (Nat.ltb_lt _ _)) by lia. cbn [andb].
        f_equal. lia.
      * cbn [firstn map sum_sequence].
        replace (ci_row st + ci_rows st + (vdim v + sum_sequence (map vdim (firstn k c))) + j)%nat
          with (ci_row st + ci_rows st + vdim v + sum_sequence (map vdim (firstn k c)) + j)%nat by lia.
        now apply H3.
Qed.

(** The vector of a compound has one row per coordinate; the coordinates of element k
    start after those of the elements before it, in order; every row is covered, so the
    vector's initial content does not matter. *)
Theorem c32_value_as_vector : forall garbage c, Forall valid c ->
  (forall k v j, nth_error c k = Some v -> (j < tsize (vkind v))%nat ->
     mnth (compound_vector garbage c) (list_sum (map (fun w => tsize (vkind w)) (firstn k c)) + j) 0
     = dcoord (den v) j) /\
  mrows (compound_vector garbage c) = list_sum (map (fun w => tsize (vkind w)) c) /\
  (forall i, (i < mrows (compound_vector garbage c))%nat ->
     exists k v j, nth_error c k = Some v /\ (j < tsize (vkind v))%nat /\
       i = (list_sum (map (fun w => tsize (vkind w)) (firstn k c)) + j)%nat).
Proof.
  intros garbage c V. change (fun w => tsize (vkind w)) with vdim.
  assert (LS : forall a l, list_sum (a :: l) = (a + list_sum l)%nat) by reflexivity.
  assert (B : forall (l : list value) k v j, nth_error l k = Some v -> (j < vdim v)%nat ->
    (list_sum (map vdim (firstn k l)) + j < list_sum (map vdim l))%nat).
  { induction l as [|a l IH]; intros [|k] v j Hk Hj; try discriminate;
      cbn [nth_error firstn map] in *; rewrite ?LS.
    - injection Hk as <-. cbn. lia.
    - specialize (IH k v j Hk Hj). lia. }
  assert (CV : forall (l : list value) i, (i < list_sum (map vdim l))%nat ->
    exists k v j, nth_error l k = Some v /\ (j < vdim v)%nat /\
       i = (list_sum (map vdim (firstn k l)) + j)%nat).
  { induction l as [|a l IH]; intros i Hi; [cbn in Hi; lia|]. cbn [map] in Hi. rewrite LS in Hi.
    destruct (le_lt_dec (vdim a) i) as [L|L].
    - destruct (IH (i - vdim a)%nat) as (k & v & j & E & Hj & Ei); [lia|].
      exists (S k), v, j. cbn [nth_error firstn map]. rewrite LS. repeat split; auto. lia.
    - exists 0%nat, a, i. auto. }
  unfold compound_vector. cbn [mrows]. rewrite sum_sequence_list_sum. split.
  - intros k v j Hk Hj. rewrite <- coord_den by eauto using Fv.
    destruct (comma_fold c (Comma 0 0 garbage)) as (_ & _ & H). cbn [ci_row ci_rows] in H.
    specialize (H k v j Hk Hj). rewrite sum_sequence_list_sum in H. cbn [Nat.add] in H.
    unfold mnth. cbn [mrows mcols mget]. rewrite (proj2 (Nat.ltb_lt _ _)) by eauto. exact H.
  - split; [reflexivity|]. intros i Hi. destruct (CV c i Hi) as (k & v & j & E & Hj & Ei). eauto 6.
Qed.
Print Assumptions c32_value_as_vector.

(** ** Comparison *)

(** A comparison of compound vectors accepts exactly when every pair of elements is within
    the tolerance times the smaller norm. *)
Theorem c32_isApprox_elementwise : forall eps prec x y, 0 < eps < 1 -> 0 <= prec ->
  Forall valid x -> Forall valid y -> each2 (fun a b => vkind a = vkind b) x y ->
  Forall (fun a => affine_kind (vkind a) = true) x ->
  (compound_isApprox eps prec x y = true <->
   each2 (fun a b => sqrt (dist2 (den a) (den b))
                     <= prec * Rmin (sqrt (dnorm2 (den a))) (sqrt (dnorm2 (den b)))) x y).
Proof.
  intros eps prec x y He Hp Vx Vy (L & K) A.
  unfold compound_isApprox.
  set (g := fun p : value * value => isApprox eps prec (two_leaves (fst p) (snd p))
                 (XLeaf 0 (vty (fst p))) (XLeaf 1 (vty (snd p)))).
  assert (F : forall l b, fold_left (fun res p => res && g p) l b = b && forallb g l).
  { induction l as [|p l IH]; intros b; cbn; [now rewrite andb_true_r|].
    rewrite IH. now rewrite andb_assoc. }
  rewrite F. cbn [andb]. clear F.
  assert (E1 : forall a b, valid a -> valid b -> vkind a = vkind b -> affine_kind (vkind a) = true ->
    (g (a, b) = true <-> sqrt (dist2 (den a) (den b))
                     <= prec * Rmin (sqrt (dnorm2 (den a))) (sqrt (dnorm2 (den b))))).
  { intros a b Va Vb Kab Ak. unfold g. cbn [fst snd].
    pose proof (good_0 eps a b Va) as G0. pose proof (good_1 eps a b Vb) as G1.
    rewrite <- Kab in G1.
    apply (c43_vectors_iff eps prec (two_leaves a b) _ _ (vkind a)); auto; try lra.
    - rewrite (good_means eps _ _ _ ltac:(lra) G0). reflexivity.
    - rewrite (good_means eps _ _ _ ltac:(lra) G1). reflexivity. }
  clearbody g. revert y L K Vy. induction x as [|a x IH]; intros [|b y] L K Vy; try discriminate.
  - cbn. split; [|reflexivity]. intros _. split; [reflexivity|]. intros [|i]; discriminate.
  - cbn [combine forallb]. rewrite andb_true_iff. inversion Vx; subst. inversion Vy; subst.
    inversion A; subst. rewrite E1; auto. 2:{ now apply (K 0%nat). }
    rewrite IH; auto. 2:{ intros i. apply (K (S i)). }
    split.
    + intros (H & (_ & H')). split; [cbn in *; lia|]. intros [|i] p q; cbn.
      * now intros [= <-] [= <-].
      * apply H'.
    + intros H. apply each2_cons_inv in H. exact H.
Qed.
Print Assumptions c32_isApprox_elementwise.

(** ** An instance: a pose and a range. *)
Example c32_example : exists x d y, Forall valid x /\ Forall valid d /\
  map vkind x = [KRot; KScalar; KPoint] /\ map vkind d = [KRel; KScalar; KTrans] /\
  each2 (fun a b => vkind b = displacement_kind (vkind a)) x d /\
  each2 (fun a b => group_kind (vkind a) = true -> exp_exact (1/4) (den b)) x d /\
  each2 (fun a b => less_than_half_turn (den a) (den b)) x d /\
  compound_plus (1/4) x d = Some y /\
  mnth (compound_vector (fun _ => 7) d) 3 0 = 5 /\ mnth (compound_vector (fun _ => 7) d) 5 0 = 9.
Proof.
  set (x := [VQuat (mkQ 0 0 1 0); VScalar 2; VPoint (mkV 1 2 3)]).
  set (d := [VRel (mkV 2 0 0); VScalar 5; VTrans (mkV 8 9 10)]).
  assert (Vx : Forall valid x) by (repeat constructor; apply ex_q).
  assert (Vd : Forall valid d) by (repeat constructor).
  assert (K : each2 (fun a b => vkind b = displacement_kind (vkind a)) x d).
  { split; [reflexivity|]. intros [|[|[|[|i]]]] a b; cbn; intros [= <-] [= <-]; reflexivity. }
  assert (X : each2 (fun a b => group_kind (vkind a) = true -> exp_exact (1/4) (den b)) x d).
  { split; [reflexivity|]. intros [|[|[|[|i]]]] a b; cbn; intros [= <-] [= <-]; cbn; try discriminate.
    intros _. right. unfold vnorm2, vdot. cbn. lra. }
  destruct (c32_plus_elementwise (1/4) x d ltac:(lra) Vx Vd K X) as (y & E & _).
  exists x, d, y. repeat (split; [first [assumption|reflexivity]|]). split.
  - split; [reflexivity|]. intros [|[|[|[|i]]]] a b; cbn; intros [= <-] [= <-]; cbn; auto.
    unfold vnorm. replace (vnorm2 (mkV 2 0 0)) with (2 * 2) by (unfold vnorm2, vdot; cbn; ring).
    rewrite sqrt_square by lra. pose proof PI2_1. lra.
  - split; [exact E|]. split; reflexivity.
Qed.
