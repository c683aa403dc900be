(** Curves of values that agree to second order, and the operations on them. *)

From Coq Require Import Reals Lra Lia List Bool Arith Ratan.
From Verif Require Import Mat ModelMeta V3 ModelLeaf SpecLeaf LeafProofs ModelExpr SpecExpr
  ExprProofs Calc SpecDeriv SpecNum PropsLie NumLip NumExp0.
Import ListNotations.
Local Open Scope R_scope.

Definition matof (v : value) : M3 :=
  match v with VMat m | VMatRT m _ _ _ => m | VAA a x => aa_rot a x | _ => i3 end.
Definition trof (v : value) : V3 :=
  match v with VMatRT _ t _ _ | VCompRT _ t => t | _ => v0 end.
Definition quatof (v : value) : Q4 :=
  match v with VQuat q | VCompRT q _ => q | _ => qone end.

(** The curves have the type of [v]; near 0, [c] stays within O(h) of [v] and [c'] within
    O(h^2) of [c]: coordinates, matrices, translations, and quaternions up to sign. *)
Definition CR (v : value) (c c' : R -> value) : Prop :=
  near (fun h => vty (c h) = vty v /\ vty (c' h) = vty v) /\
  (forall i, LR (coord v i) (fun h => coord (c h) i) (fun h => coord (c' h) i)) /\
  LM (matof v) (fun h => matof (c h)) (fun h => matof (c' h)) /\
  LV (trof v) (fun h => trof (c h)) (fun h => trof (c' h)) /\
  LQ (quatof v) (fun h => quatof (c h)) (fun h => quatof (c' h)).

Lemma CR_const v : CR v (fun _ => v) (fun _ => v).
Proof.
  split; [apply near_all; auto|]. split; [intros; apply LR_const|]. split; [apply LM_const|].
  split; [apply LV_const|apply LQ_const].
Qed.

Lemma CR_near v c c' d d' : near (fun h => c h = d h /\ c' h = d' h) -> CR v c c' -> CR v d d'.
Proof.
  intros N (A & B & C & D & E). split; [|split; [|split; [|split]]].
  - apply (near_impl2 _ _ _) with (2 := N) (3 := A). intros h (<- & <-). auto.
  - intros i. eapply LR_near; [|apply B]. apply (near_impl _ _) with (2 := N). intros h (<- & <-). auto.
  - eapply LM_near; [|exact C]. apply (near_impl _ _) with (2 := N). intros h (<- & <-). auto.
  - eapply LV_near; [|exact D]. apply (near_impl _ _) with (2 := N). intros h (<- & <-). auto.
  - eapply LQ_near; [|exact E]. apply (near_impl _ _) with (2 := N). intros h (<- & <-). auto.
Qed.

(** *** Construction *)

Ltac crc := split; [apply near_all; intros; split; reflexivity|]; split; [intros; cbn; apply LR_const|]; cbn [matof trof quatof];
  split; [first [assumption|apply LM_const]|]; split; [first [assumption|apply LV_const]|first [assumption|apply LQ_const]].

Lemma CR_mat m f f' : LM m f f' -> CR (VMat m) (fun h => VMat (f h)) (fun h => VMat (f' h)).
Proof. intros. crc. Qed.
Lemma CR_quat q f f' : LQ q f f' -> CR (VQuat q) (fun h => VQuat (f h)) (fun h => VQuat (f' h)).
Proof. intros. crc. Qed.
Lemma CR_aa a x g g' y y' : LM (aa_rot a x) (fun h => aa_rot (g h) (y h)) (fun h => aa_rot (g' h) (y' h)) ->
  CR (VAA a x) (fun h => VAA (g h) (y h)) (fun h => VAA (g' h) (y' h)).
Proof. intros. crc. Qed.
Lemma CR_matrt m f f' t g g' r s s' k z z' : LM m f f' -> LV t g g' ->
  CR (VMatRT m t r k) (fun h => VMatRT (f h) (g h) (s h) (z h)) (fun h => VMatRT (f' h) (g' h) (s' h) (z' h)).
Proof. intros. crc. Qed.
Lemma CR_rt1 m f f' t g g' : LM m f f' -> LV t g g' ->
  CR (VMatRT m t v0 1) (fun h => VMatRT (f h) (g h) v0 1) (fun h => VMatRT (f' h) (g' h) v0 1).
Proof. intros. now apply (CR_matrt m f f' t g g' v0 (fun _ => v0) (fun _ => v0) 1 (fun _ => 1) (fun _ => 1)). Qed.
Lemma CR_comprt q f f' t g g' : LQ q f f' -> LV t g g' ->
  CR (VCompRT q t) (fun h => VCompRT (f h) (g h)) (fun h => VCompRT (f' h) (g' h)).
Proof. intros. crc. Qed.
Lemma LR_vget v f f' i : LV v f f' -> LR (vget v i) (fun h => vget (f h) i) (fun h => vget (f' h) i).
Proof. intros (A & B & C). destruct i as [|[|[|i]]]; cbn; auto. apply LR_const. Qed.

Ltac crv := split; [apply near_all; intros; split; reflexivity|]; split;
  [|cbn [matof trof quatof]; split; [apply LM_const|split; [apply LV_const|apply LQ_const]]].
Lemma CR_trans m f f' : LV m f f' -> CR (VTrans m) (fun h => VTrans (f h)) (fun h => VTrans (f' h)).
Proof. intros. crv. intros i. now apply LR_vget. Qed.
Lemma CR_rel m f f' : LV m f f' -> CR (VRel m) (fun h => VRel (f h)) (fun h => VRel (f' h)).
Proof. intros. crv. intros i. now apply LR_vget. Qed.
Lemma CR_twist m f f' n g g' : LV m f f' -> LV n g g' -> CR (VTwist m n) (fun h => VTwist (f h) (g h)) (fun h => VTwist (f' h) (g' h)).
Proof. intros. crv. intros i. cbn [coord]. destruct (i <? 3)%nat; now apply LR_vget. Qed.
Lemma CR_scalar m f f' : LR m f f' -> CR (VScalar m) (fun h => VScalar (f h)) (fun h => VScalar (f' h)).
Proof. intros. crv. intros [|i]; cbn; [assumption|apply LR_const]. Qed.

Definition mkvec' (l : lty) (f : nat -> R) : value :=
  match mkvec l f with Some v => v | None => VScalar 0 end.
Lemma mkvec'_eq l f v : mkvec l f = Some v -> forall g, mkvec l g = Some (mkvec' l g).
Proof. intros H g. unfold mkvec'. destruct l; cbn in *; try discriminate; reflexivity. Qed.

Lemma CR_mkvec l F f f' v : mkvec l F = Some v ->
  (forall i, LR (F i) (fun h => f h i) (fun h => f' h i)) ->
  CR v (fun h => mkvec' l (f h)) (fun h => mkvec' l (f' h)).
Proof.
  intros E H. destruct l; cbn in E; try discriminate; injection E as <-; crv; intros i; unfold mkvec'; cbn;
    try (destruct i as [|[|[|i]]]; cbn; auto using LR_const; fail).
  destruct i as [|[|[|[|[|[|i]]]]]]; cbn; auto using LR_const.
Qed.

(** *** Inversion *)

Lemma shape_mat v : vty v = Plain LMat -> v = VMat (matof v).
Proof. destruct v; try discriminate. reflexivity. Qed.
Lemma shape_quat v : vty v = Plain LQuat -> v = VQuat (quatof v).
Proof. destruct v; try discriminate. reflexivity. Qed.
Lemma shape_aa v : vty v = Plain LAA -> exists a x, v = VAA a x.
Proof. destruct v; try discriminate. eauto. Qed.
Lemma shape_matrt v : vty v = Plain LMatRT -> exists r k, v = VMatRT (matof v) (trof v) r k.
Proof. destruct v; try discriminate. cbn. eauto. Qed.
Lemma shape_comprt v : vty v = Plain LCompRT -> v = VCompRT (quatof v) (trof v).
Proof. destruct v; try discriminate. reflexivity. Qed.
Lemma shape_ident v l : vty v = Ident l -> v = VIdent l.
Proof. destruct v; try discriminate. cbn. congruence. Qed.
Lemma shape_zero v l : vty v = ZeroOf l -> v = VZero l.
Proof. destruct v; try discriminate. cbn. congruence. Qed.
Definition cv (v : value) : V3 := mkV (coord v 0%nat) (coord v 1%nat) (coord v 2%nat).
Definition cw (v : value) : V3 := mkV (coord v 3%nat) (coord v 4%nat) (coord v 5%nat).
Lemma shape_scalar v : vty v = Plain LScalar -> v = VScalar (coord v 0).
Proof. destruct v; try discriminate. reflexivity. Qed.
Lemma shape_trans v : vty v = Plain LTrans -> v = VTrans (cv v).
Proof. destruct v as [|[]| | | | | | | | | |]; try discriminate. reflexivity. Qed.
Lemma shape_rel v : vty v = Plain LRel -> v = VRel (cv v).
Proof. destruct v as [| |[]| | | | | | | | |]; try discriminate. reflexivity. Qed.
Lemma shape_twist v : vty v = Plain LTwist -> v = VTwist (cv v) (cw v).
Proof. destruct v as [| | | |[] []| | | | | | |]; try discriminate. reflexivity. Qed.
Lemma cv_trans x : cv (VTrans x) = x. Proof. now destruct x. Qed.
Lemma cv_rel x : cv (VRel x) = x. Proof. now destruct x. Qed.
Lemma cv_twist x y : cv (VTwist x y) = x. Proof. now destruct x. Qed.
Lemma cw_twist x y : cw (VTwist x y) = y. Proof. now destruct y. Qed.
Lemma CR_cv v c c' : CR v c c' -> LV (cv v) (fun h => cv (c h)) (fun h => cv (c' h)).
Proof. intros (_ & H & _). split; [|split]; apply H. Qed.
Lemma CR_cw v c c' : CR v c c' -> LV (cw v) (fun h => cw (c h)) (fun h => cw (c' h)).
Proof. intros (_ & H & _). split; [|split]; apply H. Qed.

Lemma LR_rsum n x f f' : (forall i, LR (x i) (fun h => f h i) (fun h => f' h i)) ->
  LR (rsum n x) (fun h => rsum n (f h)) (fun h => rsum n (f' h)).
Proof. intros H. induction n as [|n IH]; cbn; [apply LR_const|]. apply LR_add; auto. Qed.

(** *** Operations *)

Section Eps.
  Variable eps : R.
  Hypothesis He : 0 < eps.

  (** [F] maps the curves to curves around [w]. *)
  Definition CRo (w : value) (c c' : R -> option value) : Prop :=
    exists d d', near (fun h => c h = Some (d h) /\ c' h = Some (d' h)) /\ CR w d d'.

  Lemma CRo_near w c c' k k' : near (fun h => c h = k h /\ c' h = k' h) -> CRo w c c' -> CRo w k k'.
  Proof.
    intros N (d & d' & M & H). exists d, d'. split; [|exact H].
    apply (near_impl2 _ _ _) with (2 := N) (3 := M). intros h (<- & <-). auto.
  Qed.
  Lemma CRo_some w c c' : CR w c c' -> CRo w (fun h => Some (c h)) (fun h => Some (c' h)).
  Proof. intros H. exists c, c'. split; [apply near_all; auto|exact H]. Qed.
  Lemma CRo_mkvec l F f f' w : mkvec l F = Some w -> (forall i, LR (F i) (fun h => f h i) (fun h => f' h i)) ->
    CRo w (fun h => mkvec l (f h)) (fun h => mkvec l (f' h)).
  Proof.
    intros E H. exists (fun h => mkvec' l (f h)), (fun h => mkvec' l (f' h)). split; [|now apply (CR_mkvec l F)].
    apply near_all. intros h. split; eapply mkvec'_eq; eauto.
  Qed.

  (** Points at which the operation varies smoothly, or a logarithm at the identity. *)
  Definition cond_un (o : unop) (x : dval) : Prop :=
    match o, x with
    | OLogMap, (DRot m | DRT m _) => (eps < rot_angle m * rot_angle m /\ rot_angle m < PI) \/ m = i3
    | OExpMap, _ => exp_strict eps x \/ x = DRel v0
    | (ONorm | ONormalize), _ => 0 < dnorm2 x
    | OACos, DScalar y => -1 < y < 1
    | _, _ => True
    end.

  (** The operations, with exact exponentials. *)
  Definition sem_x (o : unop) (v : value) : option value :=
    match o with OExpMap => sem_un 0 o v | _ => sem_un eps o v end.

  Lemma exp_quat_big v : eps < vnorm2 v * vnorm2 v -> exp_quat eps v = exp_quat 0 v.
  Proof.
    intros L. unfold exp_quat. destruct (Rlt_dec eps _); [|contradiction]. destruct (Rlt_dec 0 _); [reflexivity|lra].
  Qed.
  Lemma twist_exp_big w u : eps < vnorm2 w -> twist_exp eps w u = twist_exp 0 w u.
  Proof.
    intros L. unfold twist_exp. destruct (Rlt_dec eps _); [|contradiction]. destruct (Rlt_dec 0 _); [reflexivity|lra].
  Qed.

  Lemma angle_i3 : rot_angle i3 = 0.
  Proof. unfold rot_angle. replace ((trace3 i3 - 1) / 2) with 1 by (v3unf; field). apply acos_1. Qed.

  Lemma log_cond_of m : (eps < rot_angle m * rot_angle m /\ rot_angle m < PI) \/ m = i3 -> log_cond eps m.
  Proof.
    intros [(A & B)|E]; split; auto; subst; rewrite angle_i3; [apply PI_RGT_0|right; lra].
  Qed.

  Lemma log_norm_ne m w : is_rot m -> (eps < rot_angle m * rot_angle m /\ rot_angle m < PI) \/ m = i3 ->
    log_mat eps m = Some w -> vnorm2 w <> eps.
  Proof.
    intros Rm [(A & B)|E] H.
    - destruct (exp_log_general eps m Rm (Rlt_le _ _ He) B A) as (u & E & N & _). rewrite E in H. injection H as <-.
      rewrite <- vnorm_sq, N. lra.
    - subst m. rewrite log_mat_small in H.
      + injection H as <-. unfold log_small. v3unf. unfold uncross. cbn. lra.
      + intros _ _. fold (rot_angle i3). rewrite angle_i3. lra.
  Qed.

  Lemma CRo_aa q f f' a x : unitq q -> aa_of_q q = (a, x) -> LQ q f f' ->
    CRo (VAA a x) (fun h => let (a, x) := aa_of_q (f h) in Some (VAA a x)) (fun h => let (a, x) := aa_of_q (f' h) in Some (VAA a x)).
  Proof.
    intros U E H.
    apply (CRo_near _ (fun h => Some (VAA (fst (aa_of_q (f h))) (snd (aa_of_q (f h)))))
                      (fun h => Some (VAA (fst (aa_of_q (f' h))) (snd (aa_of_q (f' h)))))).
    { apply near_all. intros h. destruct (aa_of_q (f h)), (aa_of_q (f' h)). auto. }
    apply CRo_some, CR_aa.
    pose proof (aa_of_q_correct q U) as (_ & A). rewrite E in A. cbn in A. rewrite A.
    exact (LM_aa q f f' U H).
  Qed.

  Lemma near_valid_mat c c' v : near (fun h => valid (c h)) -> near (fun h => vty (c h) = vty v /\ vty (c' h) = vty v) ->
    (vty v = Plain LMat \/ vty v = Plain LAA \/ vty v = Plain LMatRT) -> near (fun h => is_rot (matof (c h))).
  Proof.
    intros V T K. apply (near_impl2 _ _ _) with (2 := V) (3 := T). intros h Vh (Th & _).
    destruct K as [K|[K|K]]; rewrite K in Th; destruct (c h); try discriminate Th; cbn in *; auto using aa_rot_is_rot.
    apply Vh.
  Qed.

  Lemma CR_convert l v c c' w t : ty_un (OConvert l) (vty v) = Some t -> valid v -> near (fun h => valid (c h)) ->
    sem_convert l v = Some w -> CR v c c' ->
    CRo w (fun h => sem_convert l (c h)) (fun h => sem_convert l (c' h)).
  Proof.
    intros Ty V Nv E H. pose proof H as (T & Co & M & Tr & Qt).
    pose proof (near_valid_mat c c' v Nv T) as Rt.
    destruct l, v; cbn in Ty, E; try discriminate Ty; try discriminate E;
      repeat match type of E with context [match ?x with _ => _ end] => is_var x; destruct x; cbn in Ty, E; try discriminate Ty; try discriminate E end.
    (* identity conversions and Zero *)
    all: cbn [vty] in T.
    all: try (injection E as <-; eapply CRo_near; [|exact (CRo_some _ _ _ H)];
      apply (near_impl _ _) with (2 := T); intros h (A & B);
      destruct (c h); try discriminate A; destruct (c' h); try discriminate B; cbn; auto; fail).
    all: try (eapply CRo_near; [|apply (CRo_some _ _ _ (CR_const w))]; apply (near_impl _ _) with (2 := T);
      intros h (A & B); apply shape_zero in A, B; rewrite A, B; cbn; rewrite <- ?E; auto; fail).
    all: try (eapply CRo_near; [|apply (CRo_some _ _ _ (CR_const w))]; apply (near_impl _ _) with (2 := T);
      intros h (A & B); apply shape_ident in A, B; rewrite A, B; cbn; rewrite <- ?E; auto; fail).
    all: cbn [matof quatof trof] in M, Tr, Qt.
    - (* LQuat <- VMat *)
      injection E as <-. eapply CRo_near; [|apply CRo_some, CR_quat, (LQ_of_mat (q_of_mat m) m)].
      5: exact M. 4: apply Rt; auto. 2,3: apply q_of_mat_correct, V.
      apply (near_impl _ _) with (2 := T); intros h (A & B). apply shape_mat in A, B. rewrite A, B. auto.
    - (* LQuat <- VAA *)
      injection E as <-. pose proof (aa_rot_is_rot angle axis V) as Ra.
      eapply CRo_near; [|apply CRo_some, CR_quat, (LQ_of_mat (q_of_mat (aa_rot angle axis)) (aa_rot angle axis))].
      5: exact M. 4: apply Rt; auto. 2,3: apply q_of_mat_correct, Ra.
      apply (near_impl _ _) with (2 := T); intros h (A & B).
      apply shape_aa in A as (? & ? & A), B as (? & ? & B). rewrite A, B. auto.
    - (* LMat <- VQuat *)
      injection E as <-. eapply CRo_near; [|apply CRo_some, CR_mat, LM_qrot; exact Qt].
      apply (near_impl _ _) with (2 := T); intros h (A & B). apply shape_quat in A, B. rewrite A, B. auto.
    - (* LMat <- VAA *)
      injection E as <-. eapply CRo_near; [|apply CRo_some, CR_mat; exact M].
      apply (near_impl _ _) with (2 := T); intros h (A & B).
      apply shape_aa in A as (? & ? & A), B as (? & ? & B). rewrite A, B. auto.
    - (* LAA <- VQuat *)
      destruct (aa_of_q q) as (a, x) eqn:Q. injection E as <-.
      eapply CRo_near; [|apply (CRo_aa q _ _ a x V Q Qt)].
      apply (near_impl _ _) with (2 := T); intros h (A & B). apply shape_quat in A, B. rewrite A, B. auto.
    - (* LAA <- VMat *)
      destruct (aa_of_q (q_of_mat m)) as (a, x) eqn:Q. injection E as <-.
      destruct (q_of_mat_correct m V) as (U & Em).
      pose proof (LQ_of_mat _ m _ _ U Em (Rt (or_introl eq_refl)) M) as QQ.
      eapply CRo_near; [|exact (CRo_aa _ _ _ a x U Q QQ)].
      apply (near_impl _ _) with (2 := T); intros h (A & B). apply shape_mat in A, B. rewrite A, B. auto.
    - (* LMatRT <- VCompRT *)
      injection E as <-. eapply CRo_near; [|exact (CRo_some _ _ _ (CR_rt1 _ _ _ _ _ _ (LM_qrot _ _ _ Qt) Tr))].
      apply (near_impl _ _) with (2 := T); intros h (A & B). apply shape_comprt in A, B. rewrite A, B. auto.
    - (* LCompRT <- VMatRT *)
      injection E as <-. destruct V as (V & _ & _).
      eapply CRo_near; [|apply CRo_some, CR_comprt; [apply (LQ_of_mat (q_of_mat m) m)|exact Tr]].
      5: exact M. 4: apply Rt; auto. 2,3: apply q_of_mat_correct, V.
      apply (near_impl _ _) with (2 := T); intros h (A & B).
      apply shape_matrt in A as (? & ? & A), B as (? & ? & B). rewrite A, B. auto.
  Qed.

  Lemma LM_aa_neg a x : aa_rot (- a) x = tr3 (aa_rot a x).
  Proof. unfold aa_rot, tr3. rewrite sin_neg, cos_neg. cbn. f_equal; ring. Qed.

  Lemma vec_shape o v c : (o = OMinus \/ o = OSquaredNorm \/ o = ONorm \/ o = ONormalize) ->
    forall l, vty v = Plain l \/ (o <> OMinus /\ vty v = ZeroOf l) -> vty c = vty v ->
    sem_un eps o c =
      match o with
      | OMinus => if vec_kind (kind_of l) then mkvec l (fun i => - coord c i) else None
      | OSquaredNorm => if col_kind (kind_of l) then Some (VScalar (rsum (vdim v) (fun i => coord c i * coord c i))) else None
      | ONorm => if col_kind (kind_of l) then Some (VScalar (sqrt (rsum (vdim v) (fun i => coord c i * coord c i)))) else None
      | _ => if col_kind (kind_of l) then
               if Rlt_dec 0 (rsum (vdim v) (fun i => coord c i * coord c i))
               then mkvec l (fun i => coord c i / sqrt (rsum (vdim v) (fun i => coord c i * coord c i)))
               else mkvec l (coord c) else None
      end.
  Proof.
    intros Ho l Hl T.
    assert (D : vdim v = vdim c) by (unfold vdim, vkind; now rewrite T). rewrite D. fold (norm2_of c).
    assert (K : vkind c = kind_of l) by (unfold vkind; rewrite T; destruct Hl as [-> |(_ & ->)]; reflexivity).
    assert (L : ty_leaf (vty c) = l) by (rewrite T; destruct Hl as [-> |(_ & ->)]; reflexivity).
    rewrite <- K, <- L.
    destruct Ho as [-> |[-> |[-> | ->]]]; cbn [sem_un]; try reflexivity.
    destruct Hl as [Hl|(N & _)]; [|contradiction]. rewrite Hl in T.
    destruct c; try discriminate T; reflexivity.
  Qed.

  Lemma CR_un o v c c' w t : ty_un o (vty v) = Some t -> valid v -> near (fun h => valid (c h)) ->
    cond_un o (den v) -> sem_x o v = Some w -> CR v c c' ->
    CRo w (fun h => sem_x o (c h)) (fun h => sem_un eps o (c' h)).
  Proof.
    intros Ty V Nv Cd E H. pose proof H as (T & Co & M & Tr & Qt).
    assert (N2 : LR (rsum (vdim v) (fun i => coord v i * coord v i))
      (fun h => rsum (vdim v) (fun i => coord (c h) i * coord (c h) i))
      (fun h => rsum (vdim v) (fun i => coord (c' h) i * coord (c' h) i))).
    { apply LR_rsum. intros i. apply LR_mul; apply Co. }
    destruct o; cbn [sem_x] in *.
    - (* Inverse *)
      destruct v; cbn in Ty, E; try discriminate Ty; injection E as <-; cbn [vty matof quatof trof] in T, M, Tr, Qt.
      + eapply CRo_near; [|exact (CRo_some _ _ _ (CR_quat _ _ _ (LQ_conj _ _ _ Qt)))].
        apply (near_impl _ _) with (2 := T); intros h (A & B). apply shape_quat in A, B. rewrite A, B. auto.
      + eapply CRo_near; [|exact (CRo_some _ _ _ (CR_mat _ _ _ (LM_tr _ _ _ M)))].
        apply (near_impl _ _) with (2 := T); intros h (A & B). apply shape_mat in A, B. rewrite A, B. auto.
      + set (ang := fun v => match v with VAA a _ => a | _ => 0 end).
        set (axi := fun v => match v with VAA _ x => x | _ => v0 end).
        apply (CRo_near _ (fun h => Some (VAA (- ang (c h)) (axi (c h)))) (fun h => Some (VAA (- ang (c' h)) (axi (c' h))))).
        { apply (near_impl _ _) with (2 := T); intros h (A & B).
          apply shape_aa in A as (? & ? & A), B as (? & ? & B). rewrite A, B. auto. }
        apply CRo_some, CR_aa. rewrite LM_aa_neg. eapply LM_near; [|exact (LM_tr _ _ _ M)].
        apply (near_impl _ _) with (2 := T); intros h (A & B).
        apply shape_aa in A as (? & ? & A), B as (? & ? & B). rewrite A, B. cbn. now rewrite !LM_aa_neg.
      + eapply CRo_near; [|exact (CRo_some _ _ _ (CR_rt1 _ _ _ _ _ _ (LM_tr _ _ _ M) (LV_opp _ _ _ (LV_app _ _ _ _ _ _ (LM_tr _ _ _ M) Tr))))].
        apply (near_impl _ _) with (2 := T); intros h (A & B).
        apply shape_matrt in A as (? & ? & A), B as (? & ? & B). rewrite A, B. auto.
      + eapply CRo_near; [|exact (CRo_some _ _ _ (CR_comprt _ _ _ _ _ _ (LQ_conj _ _ _ Qt) (LV_opp _ _ _ (LV_qact _ _ _ _ _ _ (LQ_conj _ _ _ Qt) Tr))))].
        apply (near_impl _ _) with (2 := T); intros h (A & B). apply shape_comprt in A, B. rewrite A, B. auto.
      + eapply CRo_near; [|exact (CRo_some _ _ _ (CR_const (VIdent l)))].
        apply (near_impl _ _) with (2 := T); intros h (A & B). apply shape_ident in A, B. rewrite A, B. auto.
    - (* LogMap *)
      destruct v; cbn in Ty, E; try discriminate Ty; cbn [vty matof quatof trof] in T, M, Tr, Qt; cbn [den cond_un] in Cd.
      + cbn in V. destruct (LV_log eps (Rlt_le _ _ He) m _ _ V (log_cond_of m Cd) M) as (u & g & g' & Eu & Ng & Lg).
        rewrite Eu in E. injection E as <-.
        eapply CRo_near; [|exact (CRo_some _ _ _ (CR_rel _ _ _ Lg))].
        apply (near_impl2 _ _ _) with (2 := T) (3 := Ng); intros h (A & B) (P & Q).
        apply shape_mat in A, B. rewrite A, B. cbn. now rewrite P, Q.
      + destruct V as (V & _ & _).
        destruct (LV_log eps (Rlt_le _ _ He) m _ _ V (log_cond_of m Cd) M) as (u & g & g' & Eu & Ng & Lg).
        rewrite rt_log_split, Eu in E. destruct (rt_log_t eps u t0) as [y|] eqn:Ey; [|discriminate]. injection E as <-.
        destruct (LV_rt_log_t eps (Rlt_le _ _ He) u g g' t0 _ _ y (log_norm_ne m u V Cd Eu) Ey Lg Tr) as (k & k' & Nk & Lk).
        eapply CRo_near; [|exact (CRo_some _ _ _ (CR_twist _ _ _ _ _ _ Lg Lk))].
        apply (near_impl2 _ _ _) with (2 := T) (3 := near_and _ _ Ng Nk); intros h (A & B) ((P & Q) & (P' & Q')).
        apply shape_matrt in A as (? & ? & A), B as (? & ? & B). rewrite A, B. cbn [sem_un rt_rot].
        rewrite !rt_log_split, P, Q, P', Q'. split; reflexivity.
      + pose proof (LM_qrot _ _ _ Qt) as MQ. pose proof (qrot_is_rot q V) as Rq.
        destruct (LV_log eps (Rlt_le _ _ He) (qrot q) _ _ Rq (log_cond_of _ Cd) MQ) as (u & g & g' & Eu & Ng & Lg).
        rewrite rt_log_split, Eu in E. destruct (rt_log_t eps u t0) as [y|] eqn:Ey; [|discriminate]. injection E as <-.
        destruct (LV_rt_log_t eps (Rlt_le _ _ He) u g g' t0 _ _ y (log_norm_ne _ u Rq Cd Eu) Ey Lg Tr) as (k & k' & Nk & Lk).
        eapply CRo_near; [|exact (CRo_some _ _ _ (CR_twist _ _ _ _ _ _ Lg Lk))].
        apply (near_impl2 _ _ _) with (2 := T) (3 := near_and _ _ Ng Nk); intros h (A & B) ((P & Q) & (P' & Q')).
        apply shape_comprt in A, B. rewrite A, B. cbn [sem_un rt_rot].
        rewrite !rt_log_split, P, Q, P', Q'. split; reflexivity.
      + injection E as <-. eapply CRo_near; [|exact (CRo_some _ _ _ (CR_const (VZero (tangent_leaf l))))].
        apply (near_impl _ _) with (2 := T); intros h (A & B). apply shape_ident in A, B. rewrite A, B. auto.
    - (* ExpMap *)
      destruct v; cbn in Ty, E; try discriminate Ty; cbn [vty] in T; cbn [den cond_un exp_strict] in Cd.
      + injection E as <-. pose proof (CR_cv _ _ _ H) as F. rewrite cv_rel in F.
        assert (LQ (exp_quat 0 v) (fun h => exp_quat 0 (cv (c h))) (fun h => exp_quat eps (cv (c' h)))) as Q.
        { destruct Cd as [Cd|Cd].
          - rewrite <- exp_quat_big by exact Cd.
            eapply LQ_near; [|exact (LQ_exp eps (Rlt_le _ _ He) _ _ _ Cd F)].
            pose proof (LR_norm2 _ _ _ F) as N.
            apply (near_impl _ _) with (2 := LR_gt _ _ _ _ (LR_mul _ _ _ _ _ _ N N) Cd). intros h (A & _).
            now rewrite (exp_quat_big _ A).
          - injection Cd as ->.
            replace (exp_quat 0 v0) with qone; [exact (LQ_exp0 eps _ _ He F)|].
            rewrite exp_quat_small by (replace (vnorm2 v0) with 0 by (v3unf; ring); lra).
            unfold qone. v3unf. f_equal; lra. }
        eapply CRo_near; [|exact (CRo_some _ _ _ (CR_quat _ _ _ Q))].
        apply (near_impl _ _) with (2 := T); intros h (A & B). apply shape_rel in A, B. rewrite A, B. cbn [sem_un].
        rewrite !cv_rel. auto.
      + injection E as <-. destruct Cd as [Cd|Cd]; [|discriminate]. pose proof (CR_cv _ _ _ H) as F. rewrite cv_twist in F.
        pose proof (CR_cw _ _ _ H) as G. rewrite cw_twist in G.
        destruct (L_twist_exp eps (Rlt_le _ _ He) _ _ _ _ _ _ Cd F G) as (Q1 & Q2).
        rewrite <- twist_exp_big by exact Cd.
        eapply CRo_near; [|exact (CRo_some _ _ _ (CR_rt1 _ _ _ _ _ _ Q1 Q2))].
        apply (near_impl2 _ _ _) with (2 := T) (3 := LR_gt _ _ _ _ (LR_norm2 _ _ _ F) Cd); intros h (A & B) (L & _).
        apply shape_twist in A, B. rewrite A, B. cbn [sem_un].
        rewrite !cv_twist, !cw_twist. rewrite A, cv_twist in L. rewrite (twist_exp_big _ _ L). auto.
      + eapply CRo_near; [|exact (CRo_some _ _ _ (CR_const w))].
        apply (near_impl _ _) with (2 := T); intros h (A & B). apply shape_zero in A, B. rewrite A, B. cbn. now rewrite E.
    - (* Minus *)
      destruct (vty v) as [l|l|l] eqn:Tv; try discriminate Ty.
      2:{ apply shape_zero in Tv. subst v. cbn in E. injection E as <-.
          eapply CRo_near; [|exact (CRo_some _ _ _ (CR_const (VZero l)))].
          apply (near_impl _ _) with (2 := T); intros h (A & B). apply shape_zero in A, B. rewrite A, B. auto. }
      rewrite (vec_shape OMinus v v (or_introl eq_refl) l (or_introl Tv) eq_refl) in E.
      destruct (vec_kind (kind_of l)) eqn:Kl; [|discriminate].
      eapply CRo_near; [|apply (CRo_mkvec l _ (fun h i => - coord (c h) i) (fun h i => - coord (c' h) i) w E)].
      + apply (near_impl _ _) with (2 := T); intros h (A & B). rewrite <- Tv in A, B.
        rewrite (vec_shape OMinus v (c h) (or_introl eq_refl) l (or_introl Tv) A).
        rewrite (vec_shape OMinus v (c' h) (or_introl eq_refl) l (or_introl Tv) B). rewrite Kl. auto.
      + intros i. apply LR_opp, Co.
    - (* SquaredNorm *)
      assert (exists l, vty v = Plain l \/ (OSquaredNorm <> OMinus /\ vty v = ZeroOf l)) as (l & Hl).
      { destruct (vty v) as [l|l|l]; try discriminate Ty; exists l; auto. right. split; [discriminate|reflexivity]. }
      assert (Ho : OSquaredNorm = OMinus \/ OSquaredNorm = OSquaredNorm \/ OSquaredNorm = ONorm \/ OSquaredNorm = ONormalize) by auto.
      rewrite (vec_shape _ v v Ho l Hl eq_refl) in E. destruct (col_kind (kind_of l)) eqn:Kl; [|discriminate].
      injection E as <-. eapply CRo_near; [|exact (CRo_some _ _ _ (CR_scalar _ _ _ N2))].
      apply (near_impl _ _) with (2 := T); intros h (A & B).
      rewrite (vec_shape _ v (c h) Ho l Hl A), (vec_shape _ v (c' h) Ho l Hl B), Kl. auto.
    - (* Norm *)
      assert (exists l, vty v = Plain l \/ (ONorm <> OMinus /\ vty v = ZeroOf l)) as (l & Hl).
      { destruct (vty v) as [l|l|l]; try discriminate Ty; exists l; auto. right. split; [discriminate|reflexivity]. }
      assert (Ho : ONorm = OMinus \/ ONorm = OSquaredNorm \/ ONorm = ONorm \/ ONorm = ONormalize) by auto.
      rewrite (vec_shape _ v v Ho l Hl eq_refl) in E. destruct (col_kind (kind_of l)) eqn:Kl; [|discriminate].
      cbn [cond_un] in Cd. rewrite <- norm2_den in Cd by exact V. unfold norm2_of in Cd.
      injection E as <-. eapply CRo_near; [|exact (CRo_some _ _ _ (CR_scalar _ _ _ (LR_sqrt _ _ _ Cd N2)))].
      apply (near_impl _ _) with (2 := T); intros h (A & B).
      rewrite (vec_shape _ v (c h) Ho l Hl A), (vec_shape _ v (c' h) Ho l Hl B), Kl. auto.
    - (* Normalize *)
      assert (exists l, vty v = Plain l \/ (ONormalize <> OMinus /\ vty v = ZeroOf l)) as (l & Hl).
      { destruct (vty v) as [l|l|l]; try discriminate Ty; exists l; auto. right. split; [discriminate|reflexivity]. }
      assert (Ho : ONormalize = OMinus \/ ONormalize = OSquaredNorm \/ ONormalize = ONorm \/ ONormalize = ONormalize) by auto.
      rewrite (vec_shape _ v v Ho l Hl eq_refl) in E. destruct (col_kind (kind_of l)) eqn:Kl; [|discriminate].
      cbn [cond_un] in Cd. rewrite <- norm2_den in Cd by exact V. unfold norm2_of in Cd.
      destruct (Rlt_dec 0 (rsum (vdim v) (fun i => coord v i * coord v i))) as [P|P]; [|contradiction].
      eapply CRo_near; [|apply (CRo_mkvec l _
        (fun h i => coord (c h) i / sqrt (rsum (vdim v) (fun i => coord (c h) i * coord (c h) i)))
        (fun h i => coord (c' h) i / sqrt (rsum (vdim v) (fun i => coord (c' h) i * coord (c' h) i))) w E)].
      + apply (near_impl2 _ _ _) with (2 := T) (3 := LR_gt _ _ _ 0 N2 P); intros h (A & B) (A' & B').
        rewrite (vec_shape _ v (c h) Ho l Hl A), (vec_shape _ v (c' h) Ho l Hl B), Kl.
        destruct (Rlt_dec 0 _); [|contradiction]. destruct (Rlt_dec 0 _); [|contradiction]. auto.
      + intros i. apply LR_div; [apply Rgt_not_eq, sqrt_lt_R0, P|apply Co|]. exact (LR_sqrt _ _ _ P N2).
    - (* ACos *)
      destruct v; cbn in Ty, E; try discriminate Ty; cbn [vty] in T; cbn [den cond_un] in Cd.
      destruct (Rle_dec (-1) s) as [L1|L1]; [|discriminate]. destruct (Rle_dec s 1) as [L2|L2]; [|discriminate].
      injection E as <-. pose proof (Co 0%nat) as C0. cbn [coord] in C0.
      eapply CRo_near; [|exact (CRo_some _ _ _ (CR_scalar _ _ _ (LR_acos _ _ _ Cd C0)))].
      apply (near_impl2 _ _ _) with (2 := T) (3 := near_and _ _ (LR_gt _ _ _ _ C0 (proj1 Cd)) (LR_lt _ _ _ _ C0 (proj2 Cd))).
      intros h (A & B) ((P & P') & (Q & Q')). apply shape_scalar in A, B. revert A B P P' Q Q'.
      generalize (coord (c h) 0) (coord (c' h) 0). intros x y -> -> P P' Q Q'. cbn [sem_un].
      destruct (Rle_dec (-1) x); [|lra]. destruct (Rle_dec x 1); [|lra].
      destruct (Rle_dec (-1) y); [|lra]. destruct (Rle_dec y 1); [|lra]. auto.
    - (* rotation() *)
      destruct v; cbn in Ty, E; try discriminate Ty; injection E as <-; cbn [vty matof quatof trof] in T, M, Tr, Qt.
      + eapply CRo_near; [|exact (CRo_some _ _ _ (CR_mat _ _ _ M))].
        apply (near_impl _ _) with (2 := T); intros h (A & B).
        apply shape_matrt in A as (? & ? & A), B as (? & ? & B). rewrite A, B. auto.
      + eapply CRo_near; [|exact (CRo_some _ _ _ (CR_quat _ _ _ Qt))].
        apply (near_impl _ _) with (2 := T); intros h (A & B). apply shape_comprt in A, B. rewrite A, B. auto.
    - (* translation() *)
      destruct v; cbn in Ty, E; try discriminate Ty; injection E as <-; cbn [vty matof quatof trof] in T, M, Tr, Qt.
      + eapply CRo_near; [|exact (CRo_some _ _ _ (CR_trans _ _ _ Tr))].
        apply (near_impl _ _) with (2 := T); intros h (A & B).
        apply shape_matrt in A as (? & ? & A), B as (? & ? & B). rewrite A, B. auto.
      + eapply CRo_near; [|exact (CRo_some _ _ _ (CR_trans _ _ _ Tr))].
        apply (near_impl _ _) with (2 := T); intros h (A & B). apply shape_comprt in A, B. rewrite A, B. auto.
    - exact (CR_convert to v c c' w t Ty V Nv E H).
  Qed.

  Lemma CRo_same w c c' d d' : near (fun h => d h = Some (c h) /\ d' h = Some (c' h)) -> CR w c c' -> CRo w d d'.
  Proof. intros N H. exists c, c'. split; [exact N|exact H]. Qed.

  Lemma near_valid_quat c c' v : near (fun h => valid (c h)) -> near (fun h => vty (c h) = vty v /\ vty (c' h) = vty v) ->
    vty v = Plain LCompRT -> near (fun h => is_rot (qrot (quatof (c h)))).
  Proof.
    intros N T Tv. apply (near_impl2 _ _ _) with (2 := N) (3 := T). intros h V (A & _). rewrite Tv in A.
    apply shape_comprt in A. rewrite A in V. now apply qrot_is_rot.
  Qed.

  Lemma compose_ident_l l a t : ty_compose (Ident l) (vty a) = Some t -> (forall m, vty a <> Ident m) -> sem_compose (VIdent l) a = Some a.
  Proof.
    intros Ty N. destruct (vty a) as [k|k|k] eqn:Ta; cbn in Ty; [|now elim (N k)|try discriminate; destruct k; discriminate].
    destruct a; try discriminate Ta; injection Ta as <-; cbn in *; destruct (kind_of l); try discriminate; reflexivity.
  Qed.
  Lemma compose_ident_r l a t : ty_compose (vty a) (Ident l) = Some t -> (forall m, vty a <> Ident m) -> sem_compose a (VIdent l) = Some a.
  Proof.
    intros Ty N. destruct (vty a) as [k|k|k] eqn:Ta; cbn in Ty; [|now elim (N k)|try discriminate; destruct k; discriminate].
    destruct a; try discriminate Ta; injection Ta as <-; cbn in *; destruct (kind_of l); try discriminate; reflexivity.
  Qed.

  Lemma CR_compose v1 v2 c1 c1' c2 c2' w t : ty_compose (vty v1) (vty v2) = Some t ->
    valid v1 -> valid v2 -> near (fun h => valid (c1 h)) -> near (fun h => valid (c2 h)) ->
    sem_compose v1 v2 = Some w -> CR v1 c1 c1' -> CR v2 c2 c2' ->
    CRo w (fun h => sem_compose (c1 h) (c2 h)) (fun h => sem_compose (c1' h) (c2' h)).
  Proof.
    intros Ty V1 V2 N1 N2 E H1 H2.
    pose proof H1 as (T1 & Co1 & M1 & Tr1 & Qt1). pose proof H2 as (T2 & Co2 & M2 & Tr2 & Qt2).
    assert (T : near (fun h => (vty (c1 h) = vty v1 /\ vty (c2 h) = vty v2) /\ (vty (c1' h) = vty v1 /\ vty (c2' h) = vty v2))).
    { apply (near_impl2 _ _ _) with (2 := T1) (3 := T2). tauto. }
    assert (II : (exists l m, vty v1 = Ident l /\ vty v2 = Ident m) \/
                 (exists l, vty v1 = Ident l /\ forall m, vty v2 <> Ident m) \/
                 (exists l, vty v2 = Ident l /\ forall m, vty v1 <> Ident m) \/
                 ((forall m, vty v1 <> Ident m) /\ (forall m, vty v2 <> Ident m))).
    { destruct (vty v1) as [a|a|a], (vty v2) as [b|b|b]; try (left; eauto; fail); right.
      all: try (left; eexists; split; [reflexivity|intros; discriminate]).
      all: right; try (left; eexists; split; [reflexivity|intros; discriminate]).
      all: right; split; intros; discriminate. }
    destruct II as [(l & m & A1 & A2)|[(l & A1 & A2)|[(l & A1 & A2)|(A1 & A2)]]].
    - eapply CRo_same; [|exact (CR_const w)]. rewrite A1, A2 in T.
      apply (near_impl _ _) with (2 := T); intros h ((A & B) & (A' & B')).
      apply shape_ident in A, B, A', B', A1, A2. rewrite A, B, A', B'. now rewrite <- A1, <- A2.
    - pose proof A1 as S1. apply shape_ident in S1. subst v1. rewrite (compose_ident_l l v2 t Ty A2) in E. injection E as <-.
      eapply CRo_same; [|exact H2].
      apply (near_impl _ _) with (2 := T); intros h ((A & B) & (A' & B')). cbn in A, A'.
      apply shape_ident in A, A'. rewrite A, A'.
      split; eapply compose_ident_l; rewrite ?B, ?B'; eassumption.
    - pose proof A1 as S1. apply shape_ident in S1. subst v2. rewrite (compose_ident_r l v1 t Ty A2) in E. injection E as <-.
      eapply CRo_same; [|exact H1].
      apply (near_impl _ _) with (2 := T); intros h ((A & B) & (A' & B')). cbn in B, B'.
      apply shape_ident in B, B'. rewrite B, B'.
      split; eapply compose_ident_r; rewrite ?A, ?A'; eassumption.
    - pose proof (near_valid_mat c1 c1' v1 N1 T1) as R1. pose proof (near_valid_quat c2 c2' v2 N2 T2) as R2.
      destruct v1, v2; cbn in Ty, E; try discriminate Ty; try discriminate E;
        try (elim (A1 _ eq_refl); fail); try (elim (A2 _ eq_refl); fail);
        try (destruct l; discriminate Ty); injection E as <-;
        cbn [vty matof quatof trof] in T, M1, Tr1, Qt1, M2, Tr2, Qt2, R1, R2.
      + eapply CRo_same; [|exact (CR_quat _ _ _ (LQ_mul _ _ _ _ _ _ Qt1 Qt2))].
        apply (near_impl _ _) with (2 := T); intros h ((A & B) & (A' & B')). apply shape_quat in A, B, A', B'.
        rewrite A, B, A', B'. auto.
      + eapply CRo_same; [|exact (CR_mat _ _ _ (LM_mul _ _ _ _ _ _ M1 M2))].
        apply (near_impl _ _) with (2 := T); intros h ((A & B) & (A' & B')). apply shape_mat in A, B, A', B'.
        rewrite A, B, A', B'. auto.
      + eapply CRo_same; [|exact (CR_rt1 _ _ _ _ _ _ (LM_mul _ _ _ _ _ _ M1 M2) (LV_add _ _ _ _ _ _ (LV_app _ _ _ _ _ _ M1 Tr2) Tr1))].
        apply (near_impl _ _) with (2 := T); intros h ((A & B) & (A' & B')).
        apply shape_matrt in A as (? & ? & A), B as (? & ? & B), A' as (? & ? & A'), B' as (? & ? & B').
        rewrite A, B, A', B'. auto.
      + pose proof (LM_mul _ _ _ _ _ _ M1 (LM_qrot _ _ _ Qt2)) as MM.
        destruct V1 as (V1 & _ & _). pose proof (is_rot_mul _ _ V1 (qrot_is_rot _ V2)) as RR.
        destruct (q_of_mat_correct _ RR) as (U & QR).
        eapply CRo_same; [|exact (CR_comprt _ _ _ _ _ _ (LQ_of_mat _ _ _ _ U QR
           (near_impl2 _ _ _ (fun h a b => is_rot_mul _ _ a b) (R1 (or_intror (or_intror eq_refl))) (R2 eq_refl)) MM)
           (LV_add _ _ _ _ _ _ (LV_app _ _ _ _ _ _ M1 Tr2) Tr1))].
        apply (near_impl _ _) with (2 := T); intros h ((A & B) & (A' & B')).
        apply shape_matrt in A as (? & ? & A), A' as (? & ? & A'). apply shape_comprt in B, B'.
        rewrite A, B, A', B'. auto.
      + eapply CRo_same; [|exact (CR_rt1 _ _ _ _ _ _ (LM_mul _ _ _ _ _ _ (LM_qrot _ _ _ Qt1) M2) (LV_add _ _ _ _ _ _ (LV_qact _ _ _ _ _ _ Qt1 Tr2) Tr1))].
        apply (near_impl _ _) with (2 := T); intros h ((A & B) & (A' & B')).
        apply shape_matrt in B as (? & ? & B), B' as (? & ? & B'). apply shape_comprt in A, A'.
        rewrite A, B, A', B'. auto.
      + eapply CRo_same; [|exact (CR_comprt _ _ _ _ _ _ (LQ_mul _ _ _ _ _ _ Qt1 Qt2) (LV_add _ _ _ _ _ _ (LV_qact _ _ _ _ _ _ Qt1 Tr2) Tr1))].
        apply (near_impl _ _) with (2 := T); intros h ((A & B) & (A' & B')).
        apply shape_comprt in A, B, A', B'. rewrite A, B, A', B'. auto.
  Qed.

  (** Both operands keep the base types, so the operation takes the same branch. *)
  Lemma CR_bin o v1 v2 c1 c1' c2 c2' w t : ty_bin o (vty v1) (vty v2) = Some t ->
    valid v1 -> valid v2 -> near (fun h => valid (c1 h)) -> near (fun h => valid (c2 h)) ->
    sem_bin o v1 v2 = Some w -> CR v1 c1 c1' -> CR v2 c2 c2' ->
    CRo w (fun h => sem_bin o (c1 h) (c2 h)) (fun h => sem_bin o (c1' h) (c2' h)).
  Proof.
    intros Ty V1 V2 N1 N2 E H1 H2.
    pose proof H1 as (T1 & Co1 & M1 & Tr1 & Qt1). pose proof H2 as (T2 & Co2 & M2 & Tr2 & Qt2).
    assert (T : near (fun h => (vty (c1 h) = vty v1 /\ vty (c2 h) = vty v2) /\ (vty (c1' h) = vty v1 /\ vty (c2' h) = vty v2))).
    { apply (near_impl2 _ _ _) with (2 := T1) (3 := T2). tauto. }
    unfold sem_bin in E. rewrite Ty in E.
    assert (VEC : forall F : value -> value -> nat -> R, forall v1' v2',
      (forall a b, vty a = vty v1 -> vty b = vty v2 -> sem_bin o a b = mkvec (ty_leaf t) (F a b)) ->
      mkvec (ty_leaf t) (F v1' v2') = Some w ->
      (forall i, LR (F v1' v2' i) (fun h => F (c1 h) (c2 h) i) (fun h => F (c1' h) (c2' h) i)) ->
      CRo w (fun h => sem_bin o (c1 h) (c2 h)) (fun h => sem_bin o (c1' h) (c2' h))).
    { intros F v1' v2' S0 E' L'. eapply CRo_near; [|apply (CRo_mkvec (ty_leaf t) _ _ _ w E' L')].
      apply (near_impl _ _) with (2 := T); intros h ((A & B) & (A' & B')). rewrite !S0 by assumption. auto. }
    destruct o.
    - eapply CRo_near; [|exact (CR_compose v1 v2 c1 c1' c2 c2' w t Ty V1 V2 N1 N2 E H1 H2)].
      apply (near_impl _ _) with (2 := T); intros h ((A & B) & (A' & B')).
      unfold sem_bin. rewrite A, B, A', B', Ty. auto.
    - eapply CRo_near; [|exact (CR_compose v2 v1 c2 c2' c1 c1' w t Ty V2 V1 N2 N1 E H2 H1)].
      apply (near_impl _ _) with (2 := T); intros h ((A & B) & (A' & B')).
      unfold sem_bin. rewrite A, B, A', B', Ty. auto.
    - (* Rotate *)
      destruct (vty v1) as [l|l|l] eqn:Ty1.
      2:{ apply shape_ident in Ty1. subst v1. injection E as <-.
          eapply CRo_same; [|exact H2].
          apply (near_impl _ _) with (2 := T); intros h ((A & B) & (A' & B')).
          unfold sem_bin. rewrite A, B, A', B', Ty. apply shape_ident in A, A'. rewrite A, A'. auto. }
      2:{ destruct l; discriminate Ty. }
      destruct v1, v2; try discriminate Ty1; injection Ty1 as <-; cbn in Ty; try discriminate Ty; injection E as <-;
        pose proof (CR_cv _ _ _ H2) as F; rewrite cv_trans in F; cbn [vty matof quatof] in M1, Qt1, T.
      + eapply CRo_same; [|exact (CR_trans _ _ _ (LV_qact _ _ _ _ _ _ Qt1 F))].
        apply (near_impl _ _) with (2 := T); intros h ((A & B) & (A' & B')).
        apply shape_quat in A, A'. apply shape_trans in B, B'. rewrite A, B, A', B', !cv_trans. auto.
      + eapply CRo_same; [|exact (CR_trans _ _ _ (LV_app _ _ _ _ _ _ M1 F))].
        apply (near_impl _ _) with (2 := T); intros h ((A & B) & (A' & B')).
        apply shape_mat in A, A'. apply shape_trans in B, B'. rewrite A, B, A', B', !cv_trans. auto.
    - (* Transform *)
      destruct (vty v1) as [l|l|l] eqn:Ty1.
      2:{ apply shape_ident in Ty1. subst v1. injection E as <-.
          eapply CRo_same; [|exact H2].
          apply (near_impl _ _) with (2 := T); intros h ((A & B) & (A' & B')).
          unfold sem_bin. rewrite A, B, A', B', Ty. apply shape_ident in A, A'. rewrite A, A'. auto. }
      2:{ destruct l; discriminate Ty. }
      assert (F : LV (cv v2) (fun h => cv (c2 h)) (fun h => cv (c2' h))) by (apply CR_cv; assumption).
      destruct v1, v2; try discriminate Ty1; injection Ty1 as <-; cbn in Ty; try discriminate Ty;
        try (destruct l; discriminate Ty); injection E as <-;
        cbn [vty matof quatof trof] in M1, Qt1, Tr1, T; cbn [rt_act rt_trans].
      + eapply CRo_same; [|rewrite cv_trans in F; exact (CR_trans _ _ _ (LV_add _ _ _ _ _ _ (LV_app _ _ _ _ _ _ M1 F) Tr1))].
        apply (near_impl _ _) with (2 := T); intros h ((A & B) & (A' & B')).
        apply shape_matrt in A as (? & ? & A), A' as (? & ? & A'). apply shape_trans in B, B'.
        rewrite A, B, A', B', !cv_trans. auto.
      + assert (Z : forall l, cv (VZero l) = v0) by reflexivity. rewrite Z in F.
        eapply CRo_same; [|exact (CR_trans _ _ _ (LV_add _ _ _ _ _ _ (LV_app _ _ _ _ _ _ M1 F) Tr1))].
        apply (near_impl _ _) with (2 := T); intros h ((A & B) & (A' & B')).
        apply shape_matrt in A as (? & ? & A), A' as (? & ? & A'). apply shape_zero in B, B'.
        rewrite A, B, A', B'. match type of Ty with context [ZeroOf ?x] => destruct x | context [match ?x with _ => _ end] => destruct x end; try discriminate Ty; auto.
      + eapply CRo_same; [|rewrite cv_trans in F; exact (CR_trans _ _ _ (LV_add _ _ _ _ _ _ (LV_qact _ _ _ _ _ _ Qt1 F) Tr1))].
        apply (near_impl _ _) with (2 := T); intros h ((A & B) & (A' & B')).
        apply shape_comprt in A, A'. apply shape_trans in B, B'.
        rewrite A, B, A', B', !cv_trans. auto.
      + assert (Z : forall l, cv (VZero l) = v0) by reflexivity. rewrite Z in F.
        eapply CRo_same; [|exact (CR_trans _ _ _ (LV_add _ _ _ _ _ _ (LV_qact _ _ _ _ _ _ Qt1 F) Tr1))].
        apply (near_impl _ _) with (2 := T); intros h ((A & B) & (A' & B')).
        apply shape_comprt in A, A'. apply shape_zero in B, B'.
        rewrite A, B, A', B'. match type of Ty with context [ZeroOf ?x] => destruct x | context [match ?x with _ => _ end] => destruct x end; try discriminate Ty; auto.
    - (* Sum *)
      assert (Z : (exists l m, vty v1 = ZeroOf l /\ vty v2 = ZeroOf m) \/
                  ~ (exists l m, vty v1 = ZeroOf l /\ vty v2 = ZeroOf m)).
      { destruct (vty v1) as [a|a|a], (vty v2) as [b|b|b]; try (right; intros (? & ? & ? & ?); discriminate). left; eauto. }
      destruct Z as [(l & m & A1 & A2)|Z].
      + pose proof A1 as S1. pose proof A2 as S2. apply shape_zero in S1, S2. subst v1 v2. injection E as <-.
        eapply CRo_same; [|exact H1].
        apply (near_impl _ _) with (2 := T); intros h ((A & B) & (A' & B')).
        unfold sem_bin. rewrite A, B, A', B', Ty. apply shape_zero in A, A', B, B'. rewrite A, A', B, B'. auto.
      + assert (S0 : forall a b, vty a = vty v1 -> vty b = vty v2 -> sem_bin OSum a b = mkvec (ty_leaf t) (fun i => coord a i + coord b i)).
        { intros a b A B. unfold sem_bin. rewrite A, B, Ty. destruct a; try reflexivity. destruct b; try reflexivity.
          elim Z. rewrite <- A, <- B. cbn. eauto. }
        apply (VEC (fun a b i => coord a i + coord b i) v1 v2 S0).
        * rewrite <- S0 by reflexivity. unfold sem_bin. rewrite Ty. exact E.
        * intros i. apply LR_add; [apply Co1|apply Co2].
    - (* Subtract *)
      apply (VEC (fun a b i => coord a i - coord b i) v1 v2).
      + intros a b A B. unfold sem_bin. rewrite A, B, Ty. reflexivity.
      + exact E.
      + intros i. apply LR_sub; [apply Co1|apply Co2].
    - (* Scale *)
      apply (VEC (fun a b i => coord a 0 * coord b i) v1 v2).
      + intros a b A B. unfold sem_bin. rewrite A, B, Ty.
        destruct (vty v1) as [[]| |]; try discriminate Ty. apply shape_scalar in A. rewrite A. reflexivity.
      + destruct (vty v1) as [[]| |] eqn:A; try discriminate Ty. apply shape_scalar in A. rewrite A in *. exact E.
      + intros i. apply LR_mul; [apply Co1|apply Co2].
    - (* ScaleR *)
      assert (S2 : vty v2 = Plain LScalar).
      { destruct (vty v1) as [l|l|l], (vty v2) as [[]| |]; try discriminate Ty; auto. }
      apply (VEC (fun a b i => coord a i * coord b 0) v1 v2).
      + intros a b A B. unfold sem_bin. rewrite A, B, Ty. rewrite S2 in B. apply shape_scalar in B. rewrite B. reflexivity.
      + apply shape_scalar in S2. rewrite S2 in *. exact E.
      + intros i. apply LR_mul; [apply Co1|apply Co2].
    - (* ScaleDiv *)
      assert (S2 : vty v2 = Plain LScalar).
      { destruct (vty v1) as [l|l|l], (vty v2) as [[]| |]; try discriminate Ty; auto. }
      pose proof S2 as S3. apply shape_scalar in S3. set (x := coord v2 0) in *. rewrite S3 in E.
      destruct (Req_EM_T x 0) as [|Nx]; [discriminate|].
      eapply CRo_near; [|apply (CRo_mkvec (ty_leaf t) _ (fun h i => coord (c1 h) i / coord (c2 h) 0)
        (fun h i => coord (c1' h) i / coord (c2' h) 0) w E)].
      + apply (near_impl2 _ _ _) with (2 := T) (3 := LR_nz _ _ _ (Co2 0%nat) Nx); intros h ((A & B) & (A' & B')) (P & Q).
        unfold sem_bin. rewrite A, B, A', B', Ty. rewrite S2 in B, B'. apply shape_scalar in B, B'.
        revert P Q B B'. generalize (coord (c2 h) 0) (coord (c2' h) 0). intros y z P Q -> ->.
        destruct (Req_EM_T y 0); [contradiction|]. destruct (Req_EM_T z 0); [contradiction|]. auto.
      + intros i. apply LR_div; [exact Nx|apply Co1|apply Co2].
    - (* Product *)
      destruct v1, v2; cbn in Ty; try discriminate Ty; try (destruct l; discriminate Ty). injection E as <-.
      eapply CRo_same; [|exact (CR_scalar _ _ _ (LR_mul _ _ _ _ _ _ (Co1 0%nat) (Co2 0%nat)))].
      apply (near_impl _ _) with (2 := T); intros h ((A & B) & (A' & B')).
      apply shape_scalar in A, B, A', B'. rewrite A, B, A', B'. auto.
    - (* Divide *)
      destruct v1, v2; cbn in Ty; try discriminate Ty; try (destruct l; discriminate Ty).
      unfold odiv in E. destruct (Req_EM_T s0 0) as [|Nx]; [discriminate|]. injection E as <-.
      eapply CRo_same; [|exact (CR_scalar _ _ _ (LR_div _ _ _ _ _ _ Nx (Co1 0%nat) (Co2 0%nat)))].
      apply (near_impl2 _ _ _) with (2 := T) (3 := LR_nz _ _ _ (Co2 0%nat) Nx); intros h ((A & B) & (A' & B')) (P & Q).
      apply shape_scalar in A, A', B, B'. revert P Q B B'. rewrite A, A'.
      generalize (coord (c2 h) 0) (coord (c2' h) 0). intros y z P Q -> ->. cbn. unfold odiv.
      destruct (Req_EM_T y 0); [contradiction|]. destruct (Req_EM_T z 0); [contradiction|]. auto.
    - (* Dot *)
      injection E as <-.
      eapply CRo_same; [|apply CR_scalar, (LR_rsum (vdim v1) _ (fun h i => coord (c1 h) i * coord (c2 h) i)
         (fun h i => coord (c1' h) i * coord (c2' h) i))].
      + apply (near_impl _ _) with (2 := T); intros h ((A & B) & (A' & B')).
        unfold sem_bin. rewrite A, B, A', B', Ty. unfold vdim, vkind. rewrite A, A'. auto.
      + intros i. apply LR_mul; [apply Co1|apply Co2].
  Qed.
End Eps.
