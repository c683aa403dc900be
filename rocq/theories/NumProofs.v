(** Evaluation with an offset: the numerical differentiation code evaluates the
    expression at a displaced leaf. *)

From Coq Require Import Reals Lra Lia List Bool Arith.
From Verif Require Import Mat ModelMeta ModelJac V3 ModelLeaf SpecLeaf LeafProofs ModelExpr SpecExpr
  ExprProofs PropsExpr Calc SpecDeriv DerivProofs DerivTree PropsDeriv ModelCompound ModelNum SpecNum.
Import ListNotations.
Local Open Scope R_scope.

(** *** Types of prepared expressions *)

Lemma ty_un_check : forallb (fun o => forallb (fun t =>
    match ty_un o t with
    | Some r => negb (wf_ty t) || (wf_ty r && match kind_un o (ty_kind t) with
                                              | Some k => kind_eqb k (ty_kind r) | None => false end)
    | None => true
    end) all_ty) all_un = true.
Proof. vm_compute. reflexivity. Qed.
Lemma ty_un_kind o t r : wf_ty t = true -> ty_un o t = Some r ->
  wf_ty r = true /\ kind_un o (ty_kind t) = Some (ty_kind r).
Proof.
  intros W H. pose proof ty_un_check as K. rewrite forallb_forall in K.
  specialize (K o (all_un_in o)). rewrite forallb_forall in K. specialize (K t (all_ty_in t)).
  rewrite H, W in K. cbn in K. apply andb_prop in K as (K1 & K2). split; [exact K1|].
  destruct (kind_un o (ty_kind t)); [|discriminate]. apply kind_eqb_eq in K2. now subst.
Qed.
Lemma ty_bin_check : forallb (fun o => forallb (fun t => forallb (fun t' =>
    match ty_bin o t t' with
    | Some r => negb (wf_ty t && wf_ty t') || (wf_ty r && match kind_bin o (ty_kind t) (ty_kind t') with
                                              | Some k => kind_eqb k (ty_kind r) | None => false end)
    | None => true
    end) all_ty) all_ty) all_bin = true.
Proof. vm_compute. reflexivity. Qed.
Lemma ty_bin_kind o t t' r : wf_ty t = true -> wf_ty t' = true -> ty_bin o t t' = Some r ->
  wf_ty r = true /\ kind_bin o (ty_kind t) (ty_kind t') = Some (ty_kind r).
Proof.
  intros W W' H. pose proof ty_bin_check as K. rewrite forallb_forall in K.
  specialize (K o (all_bin_in o)). rewrite forallb_forall in K. specialize (K t (all_ty_in t)).
  rewrite forallb_forall in K. specialize (K t' (all_ty_in t')).
  rewrite H, W, W' in K. cbn in K. apply andb_prop in K as (K1 & K2). split; [exact K1|].
  destruct (kind_bin o (ty_kind t) (ty_kind t')); [|discriminate]. apply kind_eqb_eq in K2. now subst.
Qed.

(** The EvalType of an expression that needs no conversions. *)
Fixpoint pty (p : expr) : option ty :=
  match p with
  | XLeaf _ t => Some t
  | XUn o p => match pty p with Some t => ty_un o t | None => None end
  | XBin o p q => match pty p, pty q with Some t, Some t' => ty_bin o t t' | _, _ => None end
  end.

(** What is known of the operand [p] prepared from [e]. *)
Record prepared (eps : R) (m : env) (e : expr) (p : expr) (t : ty) : Prop := {
  pr_ty : pty p = Some t;
  pr_wf : wf_ty t = true;
  pr_env : env_ok m p;
  pr_exp : exps_exact eps (fun a => den (m a)) p;
  pr_val : deval eps (fun a => den (m a)) p = deval eps (fun a => den (m a)) e;
  pr_kind : forall d, deval eps (fun a => den (m a)) e = Some d -> dkind d = ty_kind t }.

Section P.
  Variables (eps : R) (m : env).
  Hypothesis He : 0 <= eps.

  Lemma prepared_convert e p t t' : can_convert t t' = true -> prepared eps m e p t ->
    prepared eps m e (xconvert t' p) t'.
  Proof.
    intros C [A1 A2 A3 A4 A5 A6]. destruct (can_convert_inv _ _ C) as (l & -> & T).
    destruct (ty_un_kind _ _ _ A2 T) as (W & K).
    assert (Kl : kind_of l = ty_kind t).
    { cbn in K. destruct (kind_eqb (kind_of l) (ty_kind t)) eqn:E; [|discriminate].
      now apply kind_eqb_eq in E. }
    cbn [xconvert]. constructor; cbn [pty env_ok exps_exact deval]; auto.
    - now rewrite A1.
    - rewrite A5. destruct (deval eps (fun a => den (m a)) e) as [d|]; [|reflexivity]. cbn [dsem_un].
      rewrite (A6 d eq_refl), <- Kl. assert (E : kind_eqb (kind_of l) (kind_of l) = true) by now apply kind_eqb_eq.
      now rewrite E.
    - intros d Hd. rewrite (A6 d Hd). symmetry. exact Kl.
  Qed.

  Lemma prepared_un o e p t r : prepared eps m e p t -> ty_un o t = Some r ->
    exps_exact eps (fun a => den (m a)) (XUn o e) ->
    (forall d, deval eps (fun a => den (m a)) (XUn o e) = Some d -> dkind d = ty_kind r) ->
    prepared eps m (XUn o e) (XUn o p) r.
  Proof.
    intros [A1 A2 A3 A4 A5 A6] T X K. destruct (ty_un_kind _ _ _ A2 T) as (W & _).
    constructor; auto.
    - cbn. now rewrite A1.
    - cbn [exps_exact] in *. split; [exact A4|]. rewrite A5. apply X.
    - cbn [deval]. now rewrite A5.
  Qed.

  Lemma prepared_bin o e1 e2 p1 p2 t1 t2 r : prepared eps m e1 p1 t1 -> prepared eps m e2 p2 t2 ->
    ty_bin o t1 t2 = Some r ->
    (forall d, deval eps (fun a => den (m a)) (XBin o e1 e2) = Some d -> dkind d = ty_kind r) ->
    prepared eps m (XBin o e1 e2) (XBin o p1 p2) r.
  Proof.
    intros [A1 A2 A3 A4 A5 A6] [B1 B2 B3 B4 B5 B6] T K. destruct (ty_bin_kind _ _ _ _ A2 B2 T) as (W & _).
    constructor; cbn [env_ok exps_exact deval pty]; auto.
    - now rewrite A1, B1.
    - now rewrite A5, B5.
  Qed.

  Lemma prepare_prepared e : forall p t k, prepare e = Some (p, t) -> good eps m e k ->
    prepared eps m e p t.
  Proof.
    induction e as [a t0|o e IH|o l IHl r IHr]; intros p t k Hp G.
    - cbn in Hp. injection Hp as <- <-. destruct G as (G1 & G2 & G3). cbn in G1.
      destruct (wf_ty t0) eqn:W; [|discriminate]. cbn in G2.
      constructor; cbn; auto. intros d [= <-]. destruct G2 as (T & V).
      rewrite valid_dkind by exact V. unfold vkind. now rewrite T.
    - pose proof (fun d H => proj1 (good_deval eps m (XUn o e) k d He G H)) as KD.
      assert (Kt : ty_kind t = k) by (eapply prepare_kind; [exact Hp|apply G]).
      rewrite <- Kt in KD.
      pose proof G as (G1 & G2 & G3). cbn [ekind] in G1.
      destruct (ekind e) as [k'|] eqn:Ek; [|discriminate].
      assert (G' : good eps m e k') by (split; [exact Ek|split; [exact G2|apply G3]]).
      cbn in Hp. destruct (prepare e) as [[p' t']|]; [|discriminate].
      specialize (IH _ _ _ eq_refl G').
      destruct (choose_unary _ _ _ _) as [[|t'']|] eqn:C; [| |discriminate].
      + destruct (ty_un o t') eqn:T; [|discriminate]. injection Hp as <- <-.
        eapply prepared_un; eauto.
      + unfold choose_unary in C. destruct (is_some (ty_un o t')); [discriminate|].
        destruct (first_true _ _) as [x|] eqn:F; [|discriminate]. injection C as ->.
        apply first_true_some in F. destruct F as (F & _). apply andb_prop in F as (F1 & F2).
        destruct (ty_un o t'') eqn:T; [|discriminate]. injection Hp as <- <-.
        eapply prepared_un; eauto. eapply prepared_convert; eauto.
    - pose proof (fun d H => proj1 (good_deval eps m (XBin o l r) k d He G H)) as KD.
      assert (Kt : ty_kind t = k) by (eapply prepare_kind; [exact Hp|apply G]).
      rewrite <- Kt in KD.
      pose proof G as (G1 & (G2 & G2') & (G3 & G3')). cbn [ekind] in G1.
      destruct (ekind l) as [kl|] eqn:El; [|discriminate].
      destruct (ekind r) as [kr|] eqn:Er; [|discriminate].
      assert (Gl : good eps m l kl) by (split; [exact El|split; assumption]).
      assert (Gr : good eps m r kr) by (split; [exact Er|split; assumption]).
      cbn in Hp. destruct (prepare l) as [[pl tl]|]; [|discriminate].
      destruct (prepare r) as [[pr tr]|]; [|discriminate].
      specialize (IHl _ _ _ eq_refl Gl). specialize (IHr _ _ _ eq_refl Gr).
      destruct (choose_binary _ _ _ _ _ _) as [[|tr'|tl'|tl' tr']|] eqn:C; [| | | |discriminate].
      + destruct (ty_bin o tl tr) eqn:T; [|discriminate]. injection Hp as <- <-.
        eapply prepared_bin; eauto.
      + destruct (ty_bin o tl tr') eqn:T; [|discriminate]. injection Hp as <- <-.
        eapply prepared_bin; eauto. eapply prepared_convert; eauto.
        unfold choose_binary in C. destruct (is_some _); [discriminate|].
        destruct (first_true _ (convert_to tr)) as [x|] eqn:F.
        * injection C as ->. apply first_true_some in F. destruct F as (F & _).
          apply andb_prop in F. tauto.
        * destruct (first_true _ (convert_to tl)); [discriminate|].
          destruct (first_true _ (cartesian _ _)); discriminate.
      + destruct (ty_bin o tl' tr) eqn:T; [|discriminate]. injection Hp as <- <-.
        eapply prepared_bin; eauto. eapply prepared_convert; eauto.
        unfold choose_binary in C. destruct (is_some _); [discriminate|].
        destruct (first_true _ (convert_to tr)) as [x|]; [discriminate|].
        destruct (first_true _ (convert_to tl)) as [x|] eqn:F.
        * injection C as ->. apply first_true_some in F. destruct F as (F & _).
          apply andb_prop in F. tauto.
        * destruct (first_true _ (cartesian _ _)); discriminate.
      + destruct (ty_bin o tl' tr') eqn:T; [|discriminate]. injection Hp as <- <-.
        unfold choose_binary in C. destruct (is_some _); [discriminate|].
        destruct (first_true _ (convert_to tr)) as [x|]; [discriminate|].
        destruct (first_true _ (convert_to tl)) as [x|]; [discriminate|].
        destruct (first_true _ (cartesian _ _)) as [[x y]|] eqn:F; [|discriminate].
        injection C as -> ->. apply first_true_some in F. destruct F as (F & _). cbn in F.
        apply andb_prop in F as (F & _). apply andb_prop in F as (F1 & F2).
        eapply prepared_bin; eauto; eapply prepared_convert; eauto.
  Qed.

  Lemma prepared_same e e' p t : prepared eps m e p t ->
    deval eps (fun a => den (m a)) e' = deval eps (fun a => den (m a)) e -> prepared eps m e' p t.
  Proof. intros [A1 A2 A3 A4 A5 A6] E. constructor; auto; rewrite E; auto. Qed.

  Lemma prepare_to_prepared e k p t l : prepare_to (Plain l) e = Some (p, t) -> good eps m e k ->
    prepared eps m e p t /\ t = Plain l.
  Proof.
    intros Hp G. unfold prepare_to in Hp.
    destruct (prepare e) as [[p0 t0]|] eqn:E; [|discriminate].
    destruct (ty_eqb (Plain l) t0) eqn:D.
    - injection Hp as -> ->. apply ty_eqb_eq in D. split; [|auto]. eapply prepare_prepared; eauto.
    - destruct (prepare_kind _ _ _ _ E (proj1 G)) as (W & K).
      pose proof (prepare_un (OConvert l) e p0 t0 E) as P. rewrite Hp in P. cbn in P.
      symmetry in P. apply pty_convert_kind in P as (-> & KL); [|exact W]. split; [|reflexivity].
      assert (Kr : kind_eqb k k = true) by now apply kind_eqb_eq.
      assert (G' : good eps m (XUn (OConvert l) e) k).
      { apply (good_un eps m (OConvert l) e k k G); [|discriminate]. cbn. now rewrite KL, K, Kr. }
      eapply prepared_same; [exact (prepare_prepared _ _ _ _ Hp G')|]. cbn [deval].
      destruct (deval eps (fun a => den (m a)) e) as [d|] eqn:Ed; [|reflexivity]. cbn [dsem_un].
      rewrite (proj1 (good_deval eps m e k d He G Ed)), KL, K, Kr. reflexivity.
  Qed.
End P.

(** *** Evaluation with an offset *)

Lemma sound_value r d t : sound r (Some d) t -> exists v, r = Some v /\ den v = d /\ vty v = t /\ valid v.
Proof.
  intros (H1 & H2). destruct r as [v|]; [|discriminate]. injection H1 as H1. destruct (H2 v eq_refl). eauto.
Qed.

Lemma dsem_un_some_kind eps o v r d : valid v -> ty_un o (vty v) = Some r -> 0 <= eps ->
  (o = OExpMap -> exp_exact eps (den v)) -> dsem_un eps o (den v) = Some d -> dkind d = ty_kind r.
Proof.
  intros V T He X D. pose proof (un_sound eps He o v r T V X) as S. rewrite D in S.
  destruct (sound_value _ _ _ S) as (w & _ & <- & Tw & Vw). rewrite valid_dkind by exact Vw.
  unfold vkind. now rewrite Tw.
Qed.

Section W.
  Variables (eps : R) (m : env) (na a coeff : nat) (delta : R) (l : lty) (v' : value).
  Hypothesis He : 0 <= eps.
  Hypothesis Na : na <> a.
  Hypothesis Hl : vty (m a) = Plain l.
  Hypothesis Hv : add_delta eps l (m a) coeff delta = Some v'.
  Hypothesis Vv : valid v'.
  Hypothesis Tv : vty v' = Plain l.

  Lemma leaf_value t b : vty (m b) = t -> valid (m b) ->
    exists w, evaluateTo eps (plain_output t) m (XLeaf b t) = Some w /\ den w = den (m b) /\
      vty w = plain_output t /\ valid w /\ (forall l, t = Plain l -> w = m b).
  Proof.
    intros T V.
    assert (S : sound (evaluateTo eps (plain_output t) m (XLeaf b t)) (Some (den (m b))) (plain_output t)).
    { apply (evaluateTo_sound eps He m (XLeaf b t) (ty_leaf t) (ty_kind t)).
      - cbn. rewrite <- T, (valid_wf _ V). reflexivity.
      - reflexivity.
      - split; assumption.
      - exact I. }
    destruct (sound_value _ _ _ S) as (w & E & D & Tw & Vw). exists w. repeat split; auto.
    intros l0 ->. revert E. unfold evaluateTo, prepare_to, plain_output. cbn [prepare ty_leaf].
    assert (X : ty_eqb (Plain l0) (Plain l0) = true) by now apply ty_eqb_eq. rewrite X. cbn. congruence.
  Qed.

  Lemma na_not w r : delta_if eps a coeff delta na r w = Some w.
  Proof. unfold delta_if. destruct (Nat.eqb_spec na a); [contradiction|reflexivity]. Qed.

  Lemma ty_kind_plain t : ty_kind (plain_output t) = ty_kind t.
  Proof. destruct t; reflexivity. Qed.

  Lemma with_delta_ok p : forall t d, pty p = Some t -> env_ok m p -> env_ok (upd m a v') p ->
    exps_exact eps (fun b => den (upd m a v' b)) p ->
    deval eps (fun b => den (upd m a v' b)) p = Some d ->
    wf_ty t = true /\
    exists w, with_delta eps na a coeff delta m p = Some (w, t) /\ den w = d /\ valid w /\
      vty w = plain_output t.
  Proof.
    induction p as [b t0|o p IH|o p IHp q IHq]; intros t d Pt E E' X D.
    - cbn in Pt. injection Pt as <-. destruct E as (T & V). split; [rewrite <- T; now apply valid_wf|].
      cbn [with_delta]. destruct (leaf_value t0 b T V) as (w & Ew & Dw & Tw & Vw & Pw). rewrite Ew.
      unfold delta_if. cbn [deval] in D. injection D as D. unfold upd in D, E'.
      destruct (Nat.eqb_spec b a) as [->|N].
      + rewrite Hl in T. subst t0. rewrite (Pw l eq_refl). cbn [ty_leaf]. rewrite Hv. cbn.
        exists v'. repeat split; auto.
      + cbn. exists w. repeat split; auto. congruence.
    - cbn [pty] in Pt. destruct (pty p) as [t1|] eqn:P1; [|discriminate]. cbn [deval] in D.
      destruct (deval eps (fun b => den (upd m a v' b)) p) as [d1|] eqn:D1; [|discriminate].
      cbn [env_ok exps_exact] in *. destruct X as (X & Xe).
      destruct (IH t1 d1 eq_refl E E' X eq_refl) as (W1 & w & Ew & Dw & Vw & Tw).
      destruct (ty_un_kind _ _ _ W1 Pt) as (W & K). split; [exact W|].
      cbn [with_delta]. rewrite Ew, Pt.
      assert (S : sound (evaluateTo eps (plain_output t) (fun _ => w) (XUn o (XLeaf 0 (plain_output t1))))
                    (Some d) (plain_output t)).
      { rewrite <- D, <- Dw.
        apply (evaluateTo_sound eps He (fun _ => w) (XUn o (XLeaf 0%nat (plain_output t1))) (ty_leaf t) (ty_kind t)).
        - cbn [ekind plain_output wf_ty]. exact K.
        - reflexivity.
        - split; assumption.
        - cbn [exps_exact deval]. split; [exact I|]. destruct o; try exact I. intros y [= <-].
          apply Xe. congruence. }
      destruct (sound_value _ _ _ S) as (z & Ez & Dz & Tz & Vz). rewrite Ez, na_not. cbn.
      exists z. auto.
    - cbn [pty] in Pt. destruct (pty p) as [t1|] eqn:P1; [|discriminate].
      destruct (pty q) as [t2|] eqn:P2; [|discriminate]. cbn [deval] in D.
      destruct (deval eps (fun b => den (upd m a v' b)) p) as [d1|] eqn:D1; [|discriminate].
      destruct (deval eps (fun b => den (upd m a v' b)) q) as [d2|] eqn:D2; [|discriminate].
      cbn [env_ok exps_exact] in *. destruct X as (X1 & X2), E as (E1 & E2), E' as (E1' & E2').
      destruct (IHp t1 d1 eq_refl E1 E1' X1 eq_refl) as (W1 & w1 & Ew1 & Dw1 & Vw1 & Tw1).
      destruct (IHq t2 d2 eq_refl E2 E2' X2 eq_refl) as (W2 & w2 & Ew2 & Dw2 & Vw2 & Tw2).
      destruct (ty_bin_kind _ _ _ _ W1 W2 Pt) as (W & K). split; [exact W|].
      cbn [with_delta]. rewrite Ew1, Ew2, Pt.
      assert (S : sound (evaluateTo eps (plain_output t) (two_leaves w1 w2)
                   (XBin o (XLeaf 0 (plain_output t1)) (XLeaf 1 (plain_output t2))))
                    (Some d) (plain_output t)).
      { rewrite <- D, <- Dw1, <- Dw2.
        apply (evaluateTo_sound eps He (two_leaves w1 w2)
          (XBin o (XLeaf 0%nat (plain_output t1)) (XLeaf 1%nat (plain_output t2))) (ty_leaf t) (ty_kind t)).
        - cbn [ekind plain_output wf_ty]. exact K.
        - reflexivity.
        - split; split; assumption.
        - split; exact I. }
      destruct (sound_value _ _ _ S) as (z & Ez & Dz & Tz & Vz). rewrite Ez, na_not. cbn.
      exists z. auto.
  Qed.
End W.

(** *** The displaced leaf *)

Lemma mkvec_tangent l f : exists d, mkvec (tangent_leaf l) f = Some d.
Proof. destruct l; cbn; eauto. Qed.

(** The displacement as an exponential's argument. *)
Definition displacement (k : kind) (f : nat -> R) : dval :=
  match k with
  | KRT => DTwist (tv f) (tw f)
  | _ => DRel (tv f)
  end.

Lemma add_delta_ok eps l v j h : 0 <= eps -> valid v -> vty v = Plain l ->
  (group_kind (kind_of l) = true -> exp_exact eps (displacement (kind_of l) (fun i => h * dir j i))) ->
  exists w, add_delta eps l v j h = Some w /\ valid w /\ vty w = Plain l /\
    den w = dpert (den v) (dir j) h.
Proof.
  intros He V T X. unfold add_delta.
  set (f := fun i : nat => if (i =? j)%nat then h else 0).
  assert (F : forall i, f i = h * dir j i) by (intros i; unfold f, dir; destruct (i =? j)%nat; ring).
  destruct (mkvec_tangent l f) as (d & Hd). rewrite Hd.
  assert (Td : vty d = Plain (tangent_leaf l) /\ valid d)
    by (destruct l; cbn in Hd; injection Hd as <-; cbn; auto).
  destruct Td as (Td & Vd).
  set (e := plus_expr (kind_of l) (XLeaf 0 (Plain l)) (XLeaf 1 (Plain (tangent_leaf l)))).
  assert (Ok : env_ok (two_leaves v d) e)
    by (unfold e, plus_expr, XBoxPlus; destruct (kind_of l); cbn; auto).
  assert (Ke : ekind e = Some (kind_of l)) by (unfold e; destruct l; reflexivity).
  assert (Xe : exps_exact eps (fun i => den (two_leaves v d i)) e).
  { unfold e, plus_expr, XBoxPlus. destruct l; cbn [kind_of]; try (split; exact I);
      (split; [exact I|]; split; [exact I|]); cbn [deval two_leaves]; intros x [= <-];
      cbn in Hd; injection Hd as <-; cbn [den]; cbn [kind_of group_kind displacement] in X;
      unfold tv, tw in X; rewrite <- !F in X; exact (X eq_refl). }
  assert (D : deval eps (fun i => den (two_leaves v d i)) e = Some (dpert (den v) (dir j) h)).
  { assert (TV : vscal h (tv (dir j)) = mkV (f 0%nat) (f 1%nat) (f 2%nat))
      by (rewrite !F; reflexivity).
    assert (TW : vscal h (tw (dir j)) = mkV (f 3%nat) (f 4%nat) (f 5%nat))
      by (rewrite !F; reflexivity).
    unfold e, plus_expr, XBoxPlus. destruct v; try discriminate T; cbn in T; injection T as <-;
      cbn in Hd; injection Hd as <-; cbn [kind_of deval two_leaves den dpert];
      rewrite ?TV, ?TW, <- ?F; cbn; unfold vadd; cbn; try reflexivity; try (do 2 f_equal; ring). }
  pose proof (evaluateTo_sound eps He (two_leaves v d) e l (kind_of l) Ke eq_refl Ok Xe) as S.
  rewrite D in S. destruct (sound_value _ _ _ S) as (w & A & B & C & E). exists w. auto.
Qed.

(** *** One column *)

Lemma rt_diff m' (t' : V3) m t : vadd (app3 m' (vopp (app3 (tr3 m) t))) t' = vsub t' (app3 (mul3 m' (tr3 m)) t).
Proof. clear. v3ring. Qed.

Lemma minus_ok eps l w v f : 0 <= eps -> valid w -> valid v -> vty w = Plain l -> vty v = Plain l ->
  ddiff eps (den w) (den v) = Some f ->
  exists d, evaluateTo eps (Plain (tangent_leaf l)) (two_leaves w v)
      (minus_expr (kind_of l) (XLeaf 0 (Plain l)) (XLeaf 1 (Plain l))) = Some d /\
    forall i, (i < tsize (kind_of l))%nat -> coord d i = f i.
Proof.
  intros He Vw Vv Tw Tv D.
  set (e := minus_expr (kind_of l) (XLeaf 0 (Plain l)) (XLeaf 1 (Plain l))).
  assert (Ok : env_ok (two_leaves w v) e)
    by (unfold e, minus_expr, XBoxMinus; destruct (kind_of l); cbn; auto).
  assert (Ke : ekind e = Some (kind_of (tangent_leaf l))) by (unfold e; destruct l; reflexivity).
  assert (Xe : exps_exact eps (fun i => den (two_leaves w v i)) e)
    by (unfold e, minus_expr, XBoxMinus; destruct (kind_of l); cbn; auto).
  assert (Q : exists x, deval eps (fun i => den (two_leaves w v i)) e = Some x /\
                forall i, (i < tsize (kind_of l))%nat -> dcoord x i = f i).
  { unfold e, minus_expr, XBoxMinus. clear e Ok Ke Xe.
    assert (Kw : dkind (den w) = kind_of l) by (rewrite valid_dkind by exact Vw; unfold vkind; now rewrite Tw).
    assert (Kv : dkind (den v) = kind_of l) by (rewrite valid_dkind by exact Vv; unfold vkind; now rewrite Tv).
    set (M := fun i => den (two_leaves w v i)).
    assert (M0 : M 0%nat = den w) by reflexivity. assert (M1 : M 1%nat = den v) by reflexivity.
    clearbody M. destruct (den w) as [s|x|x|x|x1 x2|mm|mm tt], (den v) as [s'|y|y|y|y1 y2|mm'|mm' tt'];
      cbn in Kw; rewrite <- Kw in Kv |- *; try discriminate Kv; cbn [ddiff] in D.
    - injection D as <-. cbn [deval]. rewrite M0, M1. cbn. eexists. split; [reflexivity|]. intros i Hi. destruct i; [reflexivity|lia].
    - injection D as <-. cbn [deval]. rewrite M0, M1. cbn. eexists. split; [reflexivity|]. intros i Hi. lt3 i; reflexivity.
    - injection D as <-. cbn [deval]. rewrite M0, M1. cbn. eexists. split; [reflexivity|]. intros i Hi. lt3 i; reflexivity.
    - injection D as <-. cbn [deval]. rewrite M0, M1. cbn. eexists. split; [reflexivity|]. intros i Hi. lt3 i; reflexivity.
    - injection D as <-. cbn [deval]. rewrite M0, M1. cbn. eexists. split; [reflexivity|]. intros i Hi. lt6 i; reflexivity.
    - cbn [deval]. rewrite M0, M1.
      cbn [dsem_un dsem_bin kind_bin dkind dcompose].
      destruct (log_mat eps (mul3 mm (tr3 mm'))) as [x|] eqn:L; cbn in D; [|discriminate D].
      injection D as <-. exists (DRel x). split; [reflexivity|]. intros i Hi. reflexivity.
    - cbn [deval]. rewrite M0, M1. cbn [dsem_un dsem_bin kind_bin dkind dcompose]. rewrite rt_diff.
      destruct (rt_log eps (mul3 mm (tr3 mm')) (vsub tt (app3 (mul3 mm (tr3 mm')) tt'))) as [[x y]|] eqn:L;
        cbn in D; [|discriminate D].
      injection D as <-. exists (DTwist x y). split; [reflexivity|]. intros i Hi. cbn in Hi. lt6 i; reflexivity. }
  destruct Q as (x & Dx & Cx).
  pose proof (evaluateTo_sound eps He (two_leaves w v) e _ _ Ke eq_refl Ok Xe) as S.
  rewrite Dx in S. destruct (sound_value _ _ _ S) as (d & A & B & C & E). exists d. split; [exact A|].
  intros i Hi. rewrite coord_den by exact E. rewrite B. now apply Cx.
Qed.

Lemma all_some_map {A B} (f : A -> option B) (g : A -> B) l : (forall x, In x l -> f x = Some (g x)) ->
  all_some (map f l) = Some (map g l).
Proof.
  induction l as [|x l IH]; intros H; cbn; [reflexivity|].
  rewrite (H x) by now left. rewrite IH; [reflexivity|]. intros y Hy. apply H. now right.
Qed.

Lemma all_some_choice {B} (f : nat -> option B) n : (forall j, (j < n)%nat -> exists b, f j = Some b) ->
  exists l, all_some (map f (seq 0 n)) = Some l /\ length l = n /\
    forall j b0, (j < n)%nat -> f j = Some (nth j l b0).
Proof.
  assert (G : forall n s, (forall j, (j < n)%nat -> exists b, f (s + j)%nat = Some b) ->
     exists l, all_some (map f (seq s n)) = Some l /\ length l = n /\
       forall j b0, (j < n)%nat -> f (s + j)%nat = Some (nth j l b0)).
  { clear n. induction n as [|n IH]; intros s H.
    - exists []. cbn. repeat split; auto. intros; lia.
    - destruct (H 0%nat ltac:(lia)) as (b & Hb). rewrite Nat.add_0_r in Hb.
      destruct (IH (S s)) as (l & E & L & N).
      { intros j Hj. destruct (H (S j) ltac:(lia)) as (b' & Hb'). exists b'. rewrite <- Hb'. f_equal. lia. }
      exists (b :: l). cbn [seq map all_some]. rewrite Hb, E. cbn. repeat split; [lia|].
      intros [|j] b0 Hj; [now rewrite Nat.add_0_r|]. cbn. rewrite <- N by lia. f_equal. lia. }
  intros H. exact (G n 0%nat H).
Qed.
