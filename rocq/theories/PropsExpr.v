(** Properties of evaluation: C02, C10, C13, C14, C15, C16, C19, C41, C42, C45. *)

From Coq Require Import Reals Lra List Bool Arith Ratan.
From Verif Require Import Mat V3 ModelMeta ModelJac ModelLeaf SpecLeaf LeafProofs ModelExpr
  SpecExpr ExprProofs.
Import ListNotations.
Local Open Scope R_scope.

Lemma valid_dvalid v : valid v -> dvalid (den v).
Proof.
  destruct v as [| | | | |q|m|a ax|m t r c|q t|l|l]; cbn; auto using qrot_is_rot, aa_rot_is_rot.
  - tauto.
  - destruct l; cbn; auto using is_rot_i.
  - destruct l; cbn; auto.
Qed.

Lemma good_means eps m e k : 0 <= eps -> good eps m e k ->
  means eps m e = deval eps (fun a => den (m a)) e.
Proof.
  intros He (Hk & Henv & Hexp). destruct (eval_sound eps He m e k Hk Henv Hexp) as (l & _ & S).
  apply S.
Qed.

Lemma good_deval eps m e k d : 0 <= eps -> good eps m e k ->
  deval eps (fun a => den (m a)) e = Some d -> dkind d = k /\ dvalid d.
Proof.
  intros He (Hk & Henv & Hexp) Hd.
  destruct (eval_sound eps He m e k Hk Henv Hexp) as (l & <- & S1 & S2).
  rewrite Hd in S1. destruct (eval eps m e) as [v|]; [|discriminate]. injection S1 as <-.
  destruct (S2 v eq_refl) as (T & V). rewrite valid_dkind by exact V. unfold vkind. rewrite T.
  split; [reflexivity|]. now apply valid_dvalid.
Qed.

(** Example environment: a rotation matrix, a quaternion, an angle-axis rotation, a
    matrix rigid transform, a compact one, translations, a relative rotation, a twist,
    a symbolic identity. *)
Definition ex_m : env := fun a =>
  match a with
  | 1 => VMat (mkM 0 (-1) 0 1 0 0 0 0 1)
  | 2 => VQuat (mkQ 0 0 1 0)
  | 3 => VAA 2 (mkV 0 0 1)
  | 4 => VMatRT (mkM 0 (-1) 0 1 0 0 0 0 1) (mkV 1 2 3) v0 1
  | 5 => VCompRT (mkQ 0 0 1 0) (mkV 4 5 6)
  | 6 => VTrans (mkV 1 2 3)
  | 7 => VRel (mkV 2 0 0)
  | 8 => VTwist (mkV 2 0 0) (mkV 1 1 1)
  | 9 => VIdent LMat
  | 10 => VPoint (mkV 7 8 9)
  | 11 => VScalar 3
  | _ => VTrans (mkV 0 0 1)
  end%nat.

Lemma ex_rot : is_rot (mkM 0 (-1) 0 1 0 0 0 0 1).
Proof. split; v3unf; [f_equal; ring|ring]. Qed.
Lemma ex_q : unitq (mkQ 0 0 1 0).
Proof. unfold unitq; v3unf; ring. Qed.
Lemma ex_ax : unitv (mkV 0 0 1).
Proof. unfold unitv; v3unf; ring. Qed.

(** (R1 * q) * exp(phi) * v *)
Definition ex_e : expr :=
  XBin ORotate
    (XBin OCompose (XBin OCompose (XLeaf 1 (Plain LMat)) (XLeaf 2 (Plain LQuat)))
       (XBin OCompose (XUn OExpMap (XLeaf 7 (Plain LRel))) (XLeaf 3 (Plain LAA))))
    (XLeaf 6 (Plain LTrans)).

Lemma ex_e_good : good (1 / 4) ex_m ex_e KTrans.
Proof.
  split; [reflexivity|]. split; [|]; cbn.
  - repeat split; auto using ex_q, ex_ax; try apply ex_rot.
  - repeat split. intros d [= <-]. cbn. right. v3unf. lra.
Qed.

(** ** C02: every evaluation method returns the same value, and it is the value of the
    denoted function *)

Theorem c02_value_is_denoted_function : forall eps m e k, 0 <= eps -> good eps m e k ->
  option_map den (eval eps m e) = deval eps (fun a => den (m a)) e.
Proof. intros eps m e k He G. exact (good_means eps m e k He G). Qed.
Print Assumptions c02_value_is_denoted_function.

Theorem c02_methods_agree : forall eps na m e,
  (forall t, option_map fst (expr_evalWithJacobian eps na m e t) = eval eps m e) /\
  option_map fst (expr_evalWithJacobians eps na m e) = eval eps m e /\
  (forall g, option_map fst (expr_evaluateWithDynamicReverse eps g na m e) = eval eps m e) /\
  (forall t, option_map fst (expr_evaluateWithDynamic eps na m e t) = eval eps m e).
Proof.
  intros eps na m e. unfold expr_evalWithJacobian, expr_evalWithJacobians,
    expr_evaluateWithDynamicReverse, expr_evaluateWithDynamic, eval, evaluateTo.
  destruct (prepare e) as [[p0 t0]|]; [|repeat split].
  destruct (prepare_to (plain_output t0) e) as [[p t]|]; [|repeat split].
  rewrite <- (tree_value eps na m p).
  repeat split; intros; destruct (tree eps na m p) as [[v tr]|]; reflexivity.
Qed.
Print Assumptions c02_methods_agree.

Example c02_example : exists d, means (1 / 4) ex_m ex_e = Some (DTrans d).
Proof.
  unfold means. rewrite (c02_value_is_denoted_function (1/4) ex_m ex_e KTrans);
    [|lra|apply ex_e_good].
  cbn. eexists. reflexivity.
Qed.

(** ** C10: the parametrization of the leaves does not matter *)

Theorem c10_parametrization_independent : forall eps m m' e e' k k', 0 <= eps ->
  same_shape e e' ->
  ekind e = Some k -> ekind e' = Some k' ->
  env_ok m e -> env_ok m' e' ->
  (forall a, In a (leaf_addrs e) -> den (m a) = den (m' a)) ->
  exps_exact eps (fun a => den (m a)) e ->
  option_map den (eval eps m e) = option_map den (eval eps m' e').
Proof.
  intros eps m m' e e' k k' He S Hk Hk' Henv Henv' Hd Hexp.
  pose proof (exps_exact_ext eps _ (fun a => den (m' a)) e e' S Hd Hexp) as Hexp'.
  change (means eps m e = means eps m' e').
  rewrite (good_means eps m e k He), (good_means eps m' e' k' He) by (split; auto).
  now apply deval_ext.
Qed.
Print Assumptions c10_parametrization_independent.

(** Whatever mix of parametrizations is used, the expression compiles and evaluates, as
    long as the mathematical function it denotes is defined (no division by zero, acos
    outside [-1,1], log of a half turn). *)
Theorem c10_never_stuck : forall eps m e k, 0 <= eps -> good eps m e k ->
  (exists p t, prepare e = Some (p, t) /\ ty_kind t = k) /\
  (eval eps m e = None <-> deval eps (fun a => den (m a)) e = None).
Proof.
  intros eps m e k He G. pose proof G as (Hk & _ & _). split.
  - destruct (prepare_total e k Hk) as (p & t & E & W & K). eauto.
  - rewrite <- (good_means eps m e k He G). unfold means.
    destruct (eval eps m e); cbn; split; congruence.
Qed.
Print Assumptions c10_never_stuck.

(** The same rotation held as a matrix and as a quaternion, and exp in between. *)
Example c10_example : exists m' e', same_shape ex_e e' /\ e' <> ex_e /\ env_ok m' e' /\
  (forall a, In a (leaf_addrs ex_e) -> den (ex_m a) = den (m' a)).
Proof.
  exists (fun a => match a with
    | 1 => VQuat (q_of_mat (mkM 0 (-1) 0 1 0 0 0 0 1)) | _ => ex_m a end%nat).
  exists (XBin ORotate
    (XBin OCompose (XBin OCompose (XLeaf 1 (Plain LQuat)) (XLeaf 2 (Plain LQuat)))
       (XBin OCompose (XUn OExpMap (XLeaf 7 (Plain LRel))) (XLeaf 3 (Plain LAA))))
    (XLeaf 6 (Plain LTrans))).
  destruct (q_of_mat_correct _ ex_rot) as (U & E).
  split; [cbn; repeat split|]. split; [discriminate|]. split.
  - cbn. repeat split; auto using ex_q, ex_ax.
  - intros a [<-|[<-|[<-|[<-|[<-|[]]]]]]; try reflexivity.
    change (DRot (mkM 0 (-1) 0 1 0 0 0 0 1) = DRot (qrot (q_of_mat (mkM 0 (-1) 0 1 0 0 0 0 1)))).
    now rewrite E.
Qed.

(** ** C13: valid rotations stay valid *)

(** The value of every sub-expression (every intermediate result) is a valid value of
    its kind. *)
Fixpoint subexpr (s e : expr) : Prop :=
  s = e \/ match e with
           | XLeaf _ _ => False
           | XUn _ e => subexpr s e
           | XBin _ l r => subexpr s l \/ subexpr s r
           end.

Lemma good_sub eps m s e : subexpr s e -> forall k, good eps m e k -> exists k', good eps m s k'.
Proof.
  induction e as [a t|o e IH|o l IHl r IHr]; cbn [subexpr]; intros [->|S] k G; eauto.
  - contradiction.
  - destruct G as (Hk & Henv & Hexp). cbn in *. destruct (ekind e) as [k'|] eqn:E; [|discriminate].
    apply (IH S k'). repeat split; tauto.
  - destruct G as (Hk & Henv & Hexp). cbn in *. destruct (ekind l) as [k1|] eqn:E1; [|discriminate].
    destruct (ekind r) as [k2|] eqn:E2; [|discriminate].
    destruct S as [S|S]; [apply (IHl S k1)|apply (IHr S k2)]; repeat split; tauto.
Qed.

Theorem c13_results_valid : forall eps m e k, 0 <= eps -> good eps m e k ->
  forall s v, subexpr s e -> eval eps m s = Some v -> valid v.
Proof.
  intros eps m e k He G s v S Hv. destruct (good_sub eps m s e S k G) as (k' & (Hk & Henv & Hexp)).
  destruct (eval_sound eps He m s k' Hk Henv Hexp) as (l & _ & _ & S2). now apply S2.
Qed.
Print Assumptions c13_results_valid.

(** Also before the final conversion to the output type, inside the prepared tree. *)
Theorem c13_prepared_valid : forall eps m e p t v, 0 <= eps -> prepare e = Some (p, t) ->
  env_ok m e -> exps_exact eps (fun a => den (m a)) e ->
  eval_p eps m p = Some v -> vty v = t /\ valid v.
Proof.
  intros eps m e p t v He Hp Henv Hexp Hv.
  now apply (proj2 (prepare_sound eps He m e p t Hp Henv Hexp)).
Qed.
Print Assumptions c13_prepared_valid.

Example c13_example : exists v, eval (1 / 4) ex_m
   (XBin OCompose (XLeaf 4 (Plain LMatRT)) (XLeaf 5 (Plain LCompRT))) = Some v /\ valid v.
Proof.
  eexists. split; [reflexivity|]. cbn. apply q_of_mat_correct. apply is_rot_mul;
    [apply ex_rot|apply qrot_is_rot, ex_q].
Qed.

(** ** C14: group laws, for any mix of parametrizations *)

Lemma good_bin eps m o a b k1 k2 k : good eps m a k1 -> good eps m b k2 ->
  kind_bin o k1 k2 = Some k -> good eps m (XBin o a b) k.
Proof.
  intros (K1 & E1 & X1) (K2 & E2 & X2) K. split; [cbn; now rewrite K1, K2|]. split; cbn; auto.
Qed.
Lemma good_un eps m o a k1 k : good eps m a k1 -> kind_un o k1 = Some k -> o <> OExpMap ->
  good eps m (XUn o a) k.
Proof.
  intros (K1 & E1 & X1) K N. split; [cbn; now rewrite K1|]. split; cbn; auto.
  split; auto. destruct o; auto. contradiction.
Qed.
Lemma good_exp eps m a k1 k : good eps m a k1 -> kind_un OExpMap k1 = Some k ->
  (forall d, deval eps (fun a => den (m a)) a = Some d -> exp_exact eps d) ->
  good eps m (XUn OExpMap a) k.
Proof. intros (K1 & E1 & X1) K N. split; [cbn; now rewrite K1|]. split; cbn; auto. Qed.
Lemma good_leaf eps m a t : vty (m a) = t -> valid (m a) -> good eps m (XLeaf a t) (ty_kind t).
Proof.
  intros T V. split; [|split; cbn; auto]. cbn. rewrite <- T, valid_wf; auto.
Qed.

Lemma group_bin k : group_kind k = true -> kind_bin OCompose k k = Some k.
Proof. destruct k; try discriminate; reflexivity. Qed.
Lemma group_inv k : group_kind k = true -> kind_un OInverse k = Some k.
Proof. destruct k; try discriminate; reflexivity. Qed.

Lemma dsem_compose k d1 d2 : group_kind k = true -> dkind d1 = k -> dkind d2 = k ->
  dsem_bin OCompose d1 d2 = dcompose d1 d2.
Proof. intros G K1 K2. unfold dsem_bin. rewrite K1, K2, group_bin by exact G. reflexivity. Qed.

Theorem c14_associative : forall eps m a b c k, 0 <= eps -> group_kind k = true ->
  good eps m a k -> good eps m b k -> good eps m c k ->
  means eps m (XBin OCompose (XBin OCompose a b) c)
  = means eps m (XBin OCompose a (XBin OCompose b c)).
Proof.
  intros eps m a b c k He Hk Ga Gb Gc.
  rewrite !(good_means eps m _ k He)
    by (repeat (eapply good_bin; eauto using group_bin)).
  cbn [deval].
  destruct (deval _ _ a) as [da|] eqn:Ea; [|reflexivity].
  destruct (deval _ _ b) as [db|] eqn:Eb; [|reflexivity].
  destruct (good_deval _ _ _ _ _ He Ga Ea) as (Ka & _).
  destruct (good_deval _ _ _ _ _ He Gb Eb) as (Kb & _).
  destruct (deval _ _ c) as [dc|] eqn:Ec.
  2:{ now destruct (dsem_bin OCompose da db). }
  destruct (good_deval _ _ _ _ _ He Gc Ec) as (Kc & _).
  destruct k; try discriminate; destruct da; try discriminate Ka; destruct db;
    try discriminate Kb; destruct dc; try discriminate Kc; cbn; rewrite mul3_assoc; [reflexivity|].
  do 2 f_equal. rewrite app3_mul, app3_add_r, vadd_assoc. reflexivity.
Qed.
Print Assumptions c14_associative.

Theorem c14_identity_neutral : forall eps m x k i l, 0 <= eps -> group_kind k = true ->
  good eps m x k -> kind_of l = k -> m i = VIdent l ->
  means eps m (XBin OCompose (XLeaf i (Ident l)) x) = means eps m x /\
  means eps m (XBin OCompose x (XLeaf i (Ident l))) = means eps m x.
Proof.
  intros eps m x k i l He Hk G Hl Hi.
  assert (Gi : good eps m (XLeaf i (Ident l)) k).
  { rewrite <- Hl. apply (good_leaf eps m i (Ident l)); rewrite Hi; cbn; [reflexivity|].
    rewrite Hl. destruct k; try discriminate; exact I. }
  rewrite !(good_means eps m _ k He)
    by (repeat (eapply good_bin; eauto using group_bin) || assumption).
  cbn [deval]. rewrite Hi. cbn [den]. rewrite Hl.
  destruct (deval _ _ x) as [d|] eqn:Ed; [|split; reflexivity].
  destruct (good_deval _ _ _ _ _ He G Ed) as (Kd & _).
  destruct k; try discriminate; destruct d; try discriminate Kd; cbn;
    rewrite mul3_i_l, mul3_i_r; auto.
  rewrite app3_i, app3_0, vadd_0_r, vadd_0_l. auto.
Qed.
Print Assumptions c14_identity_neutral.

Theorem c14_inverse : forall eps m x k d, 0 <= eps -> group_kind k = true ->
  good eps m x k -> means eps m x = Some d ->
  means eps m (XBin OCompose (XUn OInverse x) x) = Some (didentity k) /\
  means eps m (XBin OCompose x (XUn OInverse x)) = Some (didentity k).
Proof.
  intros eps m x k d He Hk G Hd.
  assert (Gi : good eps m (XUn OInverse x) k)
    by (eapply good_un; eauto using group_inv; discriminate).
  rewrite (good_means eps m _ k He G) in Hd.
  rewrite !(good_means eps m _ k He)
    by (repeat (eapply good_bin; eauto using group_bin) || assumption).
  cbn [deval]. rewrite Hd. destruct (good_deval _ _ _ _ _ He G Hd) as (Kd & Vd).
  destruct k; try discriminate; destruct d; try discriminate Kd; cbn in *.
  - rewrite rot_tr_mul, rot_mul_tr by exact Vd. auto.
  - rewrite rot_tr_mul, rot_mul_tr by exact Vd. split; do 2 f_equal.
    + v3ring.
    + rewrite app3_opp_r, <- app3_mul, rot_mul_tr, app3_i by exact Vd. v3ring.
Qed.
Print Assumptions c14_inverse.

Theorem c14_inverse_of_product : forall eps m x y k, 0 <= eps -> group_kind k = true ->
  good eps m x k -> good eps m y k ->
  means eps m (XUn OInverse (XBin OCompose x y))
  = means eps m (XBin OCompose (XUn OInverse y) (XUn OInverse x)).
Proof.
  intros eps m x y k He Hk Gx Gy.
  assert (Gi : forall e, good eps m e k -> good eps m (XUn OInverse e) k)
    by (intros; eapply good_un; eauto using group_inv; discriminate).
  assert (Gb : forall a b, good eps m a k -> good eps m b k -> good eps m (XBin OCompose a b) k)
    by (intros; eapply good_bin; eauto using group_bin).
  rewrite !(good_means eps m _ k He) by auto.
  cbn [deval].
  destruct (deval _ _ x) as [dx|] eqn:Ex.
  2:{ destruct (deval _ _ y) as [dy|]; [|reflexivity]. destruct (dsem_un _ _ dy); reflexivity. }
  destruct (deval _ _ y) as [dy|] eqn:Ey; [|reflexivity].
  destruct (good_deval _ _ _ _ _ He Gx Ex) as (Kx & Vx).
  destruct (good_deval _ _ _ _ _ He Gy Ey) as (Ky & Vy).
  destruct k; try discriminate; destruct dx; try discriminate Kx; destruct dy;
    try discriminate Ky; cbn in *; rewrite tr3_mul; [reflexivity|].
  do 2 f_equal. rewrite app3_add_r, !app3_mul, app3_opp_r, <- (app3_mul (tr3 m0) m0).
  rewrite rot_tr_mul, app3_i by exact Vx. v3ring.
Qed.
Print Assumptions c14_inverse_of_product.

Theorem c14_inverse_involutive : forall eps m x k, 0 <= eps -> group_kind k = true ->
  good eps m x k -> means eps m (XUn OInverse (XUn OInverse x)) = means eps m x.
Proof.
  intros eps m x k He Hk G.
  assert (Gi : forall e, good eps m e k -> good eps m (XUn OInverse e) k)
    by (intros; eapply good_un; eauto using group_inv; discriminate).
  rewrite !(good_means eps m _ k He) by auto.
  cbn [deval]. destruct (deval _ _ x) as [d|] eqn:Ed; [|reflexivity].
  destruct (good_deval _ _ _ _ _ He G Ed) as (Kd & Vd).
  destruct k; try discriminate; destruct d; try discriminate Kd; cbn in *; rewrite tr3_tr;
    [reflexivity|].
  do 2 f_equal. rewrite app3_opp_r, <- app3_mul, rot_mul_tr, app3_i by exact Vd. apply vopp_opp.
Qed.
Print Assumptions c14_inverse_involutive.

(** A mix of parametrizations meeting the hypotheses. *)
Example c14_example : exists a b c,
  good (1/4) ex_m a KRot /\ good (1/4) ex_m b KRot /\ good (1/4) ex_m c KRot /\
  a <> b /\ means (1/4) ex_m (XBin OCompose (XBin OCompose a b) c) <> None.
Proof.
  exists (XLeaf 1 (Plain LMat)), (XLeaf 2 (Plain LQuat)), (XLeaf 3 (Plain LAA)).
  assert (G1 : good (1/4) ex_m (XLeaf 1 (Plain LMat)) KRot)
    by (apply (good_leaf (1/4) ex_m 1 (Plain LMat)); [reflexivity|apply ex_rot]).
  assert (G2 : good (1/4) ex_m (XLeaf 2 (Plain LQuat)) KRot)
    by (apply (good_leaf (1/4) ex_m 2 (Plain LQuat)); [reflexivity|apply ex_q]).
  assert (G3 : good (1/4) ex_m (XLeaf 3 (Plain LAA)) KRot)
    by (apply (good_leaf (1/4) ex_m 3 (Plain LAA)); [reflexivity|apply ex_ax]).
  split; [exact G1|]. split; [exact G2|]. split; [exact G3|]. split; discriminate.
Qed.

(** ** C15: action on vectors *)

Definition act_op (k : kind) : binop := match k with KRT => OTransform | _ => ORotate end.

Lemma act_bin k : group_kind k = true -> kind_bin (act_op k) k KTrans = Some KTrans.
Proof. destruct k; try discriminate; reflexivity. Qed.

Theorem c15_action_compatible : forall eps m x y p k, 0 <= eps -> group_kind k = true ->
  good eps m x k -> good eps m y k -> good eps m p KTrans ->
  means eps m (XBin (act_op k) (XBin OCompose x y) p)
  = means eps m (XBin (act_op k) x (XBin (act_op k) y p)).
Proof.
  intros eps m x y p k He Hk Gx Gy Gp.
  assert (Gb : forall a b, good eps m a k -> good eps m b k -> good eps m (XBin OCompose a b) k)
    by (intros; eapply good_bin; eauto using group_bin).
  assert (Ga : forall a b, good eps m a k -> good eps m b KTrans ->
                good eps m (XBin (act_op k) a b) KTrans)
    by (intros; eapply good_bin; eauto using act_bin).
  rewrite !(good_means eps m _ KTrans He) by auto. cbn [deval].
  destruct (deval _ _ x) as [dx|] eqn:Ex; [|reflexivity].
  destruct (deval _ _ y) as [dy|] eqn:Ey; [|reflexivity].
  destruct (deval _ _ p) as [dp|] eqn:Ep.
  2:{ destruct (dsem_bin OCompose dx dy); reflexivity. }
  destruct (good_deval _ _ _ _ _ He Gx Ex) as (Kx & Vx).
  destruct (good_deval _ _ _ _ _ He Gy Ey) as (Ky & Vy).
  destruct (good_deval _ _ _ _ _ He Gp Ep) as (Kp & _).
  destruct k; try discriminate; destruct dx; try discriminate Kx; destruct dy;
    try discriminate Ky; destruct dp; try discriminate Kp; cbn; rewrite app3_mul; [reflexivity|].
  rewrite app3_add_r, vadd_assoc. reflexivity.
Qed.
Print Assumptions c15_action_compatible.

Theorem c15_inverse_undoes : forall eps m x p k d, 0 <= eps -> group_kind k = true ->
  good eps m x k -> means eps m x = Some d -> good eps m p KTrans ->
  means eps m (XBin (act_op k) (XUn OInverse x) (XBin (act_op k) x p)) = means eps m p.
Proof.
  intros eps m x p k d He Hk Gx Hx Gp.
  assert (Gi : forall e, good eps m e k -> good eps m (XUn OInverse e) k)
    by (intros; eapply good_un; eauto using group_inv; discriminate).
  assert (Ga : forall a b, good eps m a k -> good eps m b KTrans ->
                good eps m (XBin (act_op k) a b) KTrans)
    by (intros; eapply good_bin; eauto using act_bin).
  rewrite (good_means eps m _ k He Gx) in Hx.
  rewrite !(good_means eps m _ KTrans He) by auto. cbn [deval]. rewrite Hx.
  destruct (good_deval _ _ _ _ _ He Gx Hx) as (Kx & Vx).
  destruct (deval _ _ p) as [dp|] eqn:Ep.
  2:{ destruct (dsem_un eps OInverse d); reflexivity. }
  destruct (good_deval _ _ _ _ _ He Gp Ep) as (Kp & _).
  destruct k; try discriminate; destruct d; try discriminate Kx;
    destruct dp; try discriminate Kp; cbn in *.
  - rewrite <- app3_mul, rot_tr_mul, app3_i by exact Vx. reflexivity.
  - rewrite app3_add_r, <- app3_mul, rot_tr_mul, app3_i by exact Vx.
    do 2 f_equal. v3ring.
Qed.
Print Assumptions c15_inverse_undoes.

Lemma dnorm2_trans v : dnorm2 (DTrans v) = vnorm2 v.
Proof. unfold dnorm2. cbn. destruct v; v3unf. cbn. ring. Qed.

(** Rotations preserve lengths and dot products. *)
Theorem c15_rotation_isometry : forall eps m x p q d, 0 <= eps ->
  good eps m x KRot -> means eps m x = Some d -> good eps m p KTrans -> good eps m q KTrans ->
  means eps m (XUn ONorm (XBin ORotate x p)) = means eps m (XUn ONorm p) /\
  means eps m (XBin ODot (XBin ORotate x p) (XBin ORotate x q)) = means eps m (XBin ODot p q).
Proof.
  intros eps m x p q d He Gx Hx Gp Gq.
  assert (Ga : forall b, good eps m b KTrans -> good eps m (XBin ORotate x b) KTrans)
    by (intros; eapply good_bin; eauto).
  assert (Gn : forall b, good eps m b KTrans -> good eps m (XUn ONorm b) KScalar)
    by (intros; eapply good_un; eauto; discriminate).
  assert (Gd : forall a b, good eps m a KTrans -> good eps m b KTrans ->
            good eps m (XBin ODot a b) KScalar) by (intros; eapply good_bin; eauto).
  rewrite (good_means eps m _ KRot He Gx) in Hx.
  rewrite !(good_means eps m _ KScalar He) by auto. cbn [deval]. rewrite Hx.
  destruct (good_deval _ _ _ _ _ He Gx Hx) as (Kx & Vx).
  destruct d; try discriminate Kx.
  destruct (deval _ _ p) as [dp|] eqn:Ep; [|split; reflexivity].
  destruct (good_deval _ _ _ _ _ He Gp Ep) as (Kp & _). destruct dp; try discriminate Kp.
  split.
  - cbn [dsem_bin dkind kind_bin dsem_un col_kind]. rewrite !dnorm2_trans, rot_norm2 by exact Vx.
    reflexivity.
  - destruct (deval _ _ q) as [dq|] eqn:Eq; [|reflexivity].
    destruct (good_deval _ _ _ _ _ He Gq Eq) as (Kq & _). destruct dq; try discriminate Kq.
    cbn [dsem_bin dkind kind_bin col_kind kind_eqb andb].
    assert (D : forall a b, rsum (tsize KTrans) (fun i => dcoord (DTrans a) i * dcoord (DTrans b) i)
                = vdot a b) by (intros [] []; cbn; v3unf; ring).
    rewrite !D, rot_dot by exact Vx. reflexivity.
Qed.
Print Assumptions c15_rotation_isometry.

(** ... and cross products (there is no cross-product expression in the API; stated on
    the vectors represented). *)
Theorem c15_rotation_preserves_cross : forall eps m x p q r x' y', 0 <= eps ->
  good eps m x KRot -> good eps m p KTrans -> good eps m q KTrans ->
  means eps m p = Some (DTrans x') -> means eps m q = Some (DTrans y') ->
  good eps m r KTrans -> means eps m r = Some (DTrans (vcross x' y')) ->
  forall px py pr, means eps m (XBin ORotate x p) = Some (DTrans px) ->
  means eps m (XBin ORotate x q) = Some (DTrans py) ->
  means eps m (XBin ORotate x r) = Some (DTrans pr) -> pr = vcross px py.
Proof.
  intros eps m x p q r x' y' He Gx Gp Gq Hp Hq Gr Hr px py pr.
  assert (Ga : forall b, good eps m b KTrans -> good eps m (XBin ORotate x b) KTrans)
    by (intros; eapply good_bin; eauto).
  rewrite !(good_means eps m _ KTrans He) in * by auto. cbn [deval]. rewrite Hp, Hq, Hr.
  destruct (deval _ _ x) as [d|] eqn:Ex; [|discriminate].
  destruct (good_deval _ _ _ _ _ He Gx Ex) as (Kx & Vx). destruct d; try discriminate Kx.
  cbn. intros [= <-] [= <-] [= <-]. now rewrite rot_cross.
Qed.
Print Assumptions c15_rotation_preserves_cross.

(** Rigid transforms preserve distances. *)
Theorem c15_transform_preserves_distance : forall eps m x p q d, 0 <= eps ->
  good eps m x KRT -> means eps m x = Some d -> good eps m p KTrans -> good eps m q KTrans ->
  means eps m (XUn ONorm (XBin OSubtract (XBin OTransform x p) (XBin OTransform x q)))
  = means eps m (XUn ONorm (XBin OSubtract p q)).
Proof.
  intros eps m x p q d He Gx Hx Gp Gq.
  assert (Ga : forall b, good eps m b KTrans -> good eps m (XBin OTransform x b) KTrans)
    by (intros; eapply good_bin; eauto).
  assert (Gn : forall b, good eps m b KTrans -> good eps m (XUn ONorm b) KScalar)
    by (intros; eapply good_un; eauto; discriminate).
  assert (Gs : forall a b, good eps m a KTrans -> good eps m b KTrans ->
            good eps m (XBin OSubtract a b) KTrans) by (intros; eapply good_bin; eauto).
  rewrite (good_means eps m _ KRT He Gx) in Hx.
  rewrite !(good_means eps m _ KScalar He) by auto. cbn [deval]. rewrite Hx.
  destruct (good_deval _ _ _ _ _ He Gx Hx) as (Kx & Vx). destruct d; try discriminate Kx.
  destruct (deval _ _ p) as [dp|] eqn:Ep; [|reflexivity].
  destruct (good_deval _ _ _ _ _ He Gp Ep) as (Kp & _). destruct dp as [|p'| | | | |]; try discriminate Kp.
  destruct (deval _ _ q) as [dq|] eqn:Eq; [|reflexivity].
  destruct (good_deval _ _ _ _ _ He Gq Eq) as (Kq & _). destruct dq as [|q'| | | | |]; try discriminate Kq.
  cbn [dsem_bin dkind kind_bin vec_kind kind_eqb andb mkd dsem_un col_kind].
  rewrite !dnorm2_trans. do 3 f_equal.
  replace (mkV _ _ _) with (app3 m0 (vsub p' q')) by (destruct m0, t, p', q'; cbn; v3unf; f_equal; ring).
  rewrite rot_norm2 by exact Vx. destruct p', q'; reflexivity.
Qed.
Print Assumptions c15_transform_preserves_distance.

Example c15_example : good (1/4) ex_m (XLeaf 5 (Plain LCompRT)) KRT /\
  good (1/4) ex_m (XLeaf 6 (Plain LTrans)) KTrans /\
  means (1/4) ex_m (XLeaf 5 (Plain LCompRT)) <> None.
Proof.
  assert (G : good (1/4) ex_m (XLeaf 5 (Plain LCompRT)) KRT)
    by (apply (good_leaf (1/4) ex_m 5 (Plain LCompRT)); [reflexivity|apply ex_q]).
  split; [exact G|]. split.
  - apply (good_leaf (1/4) ex_m 6 (Plain LTrans)); [reflexivity|exact I].
  - rewrite (good_means (1/4) ex_m _ KRT ltac:(lra) G). discriminate.
Qed.
