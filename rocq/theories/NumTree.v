(** Second-order agreement of curves through whole expressions and through evaluation
    with an offset. *)

From Coq Require Import Reals Lra Lia List Bool Arith.
From Verif Require Import Mat ModelMeta ModelJac V3 ModelLeaf SpecLeaf LeafProofs ModelExpr SpecExpr
  ExprProofs PropsExpr Calc SpecDeriv DerivProofs DerivTree PropsDeriv ModelCompound ModelNum SpecNum
  NumProofs NumLimit PropsNum NumLip NumVal.
Import ListNotations.
Local Open Scope R_scope.

Section Eps.
  Variable eps : R.
  Hypothesis He : 0 < eps.

  (** Every operation applied to a sub-expression holding an object of [A] is at a point
      where it varies smoothly. *)
  Fixpoint conds (A : nat -> Prop) (m : nat -> dval) (e : expr) : Prop :=
    match e with
    | XLeaf _ _ => True
    | XUn o e => conds A m e /\
        ((exists b, A b /\ In b (leaf_addrs e)) -> forall d, deval eps m e = Some d -> cond_un eps o d)
    | XBin _ l r => conds A m l /\ conds A m r
    end.

  Lemma xconvert_addrs t p : leaf_addrs (xconvert t p) = leaf_addrs p.
  Proof. destruct t; reflexivity. Qed.
  Lemma xconvert_conds A m t p : conds A m p -> conds A m (xconvert t p).
  Proof. destruct t; cbn; auto. Qed.

  Lemma prepare_addrs e : forall p t, prepare e = Some (p, t) -> leaf_addrs p = leaf_addrs e.
  Proof.
    induction e as [a t0|o e IH|o l IHl r IHr]; intros p t Hp; cbn in Hp.
    - injection Hp as <- <-. reflexivity.
    - destruct (prepare e) as [[p' t']|]; [|discriminate]. specialize (IH _ _ eq_refl).
      destruct (choose_unary _ _ _ _) as [[|t'']|]; [| |discriminate].
      + destruct (ty_un o t'); [|discriminate]. injection Hp as <- <-. exact IH.
      + destruct (ty_un o t''); [|discriminate]. injection Hp as <- <-. cbn. now rewrite xconvert_addrs.
    - destruct (prepare l) as [[pl tl]|]; [|discriminate]. destruct (prepare r) as [[pr tr]|]; [|discriminate].
      specialize (IHl _ _ eq_refl). specialize (IHr _ _ eq_refl).
      destruct (choose_binary _ _ _ _ _ _) as [[|tr'|tl'|tl' tr']|]; [| | | |discriminate].
      + destruct (ty_bin o tl tr); [|discriminate]. injection Hp as <- <-. cbn. congruence.
      + destruct (ty_bin o tl tr'); [|discriminate]. injection Hp as <- <-. cbn. rewrite xconvert_addrs. congruence.
      + destruct (ty_bin o tl' tr); [|discriminate]. injection Hp as <- <-. cbn. rewrite xconvert_addrs. congruence.
      + destruct (ty_bin o tl' tr'); [|discriminate]. injection Hp as <- <-. cbn. rewrite !xconvert_addrs. congruence.
  Qed.

  Lemma prepare_to_addrs e p t l : prepare_to (Plain l) e = Some (p, t) -> leaf_addrs p = leaf_addrs e.
  Proof.
    unfold prepare_to. intros H. destruct (prepare e) as [[p0 t0]|] eqn:E; [|discriminate].
    destruct (ty_eqb (Plain l) t0); [injection H as <- <-; now apply (prepare_addrs e p0 t0)|].
    now rewrite (prepare_addrs _ _ _ H).
  Qed.

  Lemma convert_deval e p t t' m : can_convert t t' = true -> prepared eps m e p t ->
    deval eps (fun a => den (m a)) (xconvert t' p) = deval eps (fun a => den (m a)) e.
  Proof. intros C P. exact (pr_val _ _ _ _ _ (prepared_convert eps m e p t t' C P)). Qed.

  Lemma prepare_conds A m e : forall p t k, prepare e = Some (p, t) -> good eps m e k ->
    conds A (fun a => den (m a)) e -> conds A (fun a => den (m a)) p.
  Proof.
    induction e as [a t0|o e IH|o l IHl r IHr]; intros p t k Hp G C.
    - cbn in Hp. injection Hp as <- <-. exact I.
    - destruct (good_sub eps m e (XUn o e) (or_intror (subexpr_refl e)) k G) as (k' & G').
      destruct C as (C1 & C2). cbn in Hp. destruct (prepare e) as [[p' t']|] eqn:P; [|discriminate].
      specialize (IH _ _ _ eq_refl G' C1).
      pose proof (prepare_prepared eps m (Rlt_le _ _ He) e p' t' k' P G') as Q.
      pose proof (prepare_addrs e p' t' P) as L.
      destruct (choose_unary _ _ _ _) as [[|t'']|] eqn:Ch; [| |discriminate].
      + destruct (ty_un o t'); [|discriminate]. injection Hp as <- <-. cbn [conds].
        rewrite L, (pr_val _ _ _ _ _ Q). auto.
      + unfold choose_unary in Ch. destruct (is_some (ty_un o t')); [discriminate|].
        destruct (first_true _ _) as [x|] eqn:F; [|discriminate]. injection Ch as ->.
        apply first_true_some in F. destruct F as (F & _). apply andb_prop in F as (F1 & F2).
        destruct (ty_un o t''); [|discriminate]. injection Hp as <- <-. cbn [conds].
        rewrite xconvert_addrs, L, (convert_deval _ _ _ _ _ F1 Q). split; [now apply xconvert_conds|exact C2].
    - destruct (good_sub eps m l (XBin o l r) (or_intror (or_introl (subexpr_refl l))) k G) as (k1 & G1).
      destruct (good_sub eps m r (XBin o l r) (or_intror (or_intror (subexpr_refl r))) k G) as (k2 & G2).
      destruct C as (C1 & C2). cbn in Hp.
      destruct (prepare l) as [[pl tl]|]; [|discriminate]. destruct (prepare r) as [[pr tr]|]; [|discriminate].
      specialize (IHl _ _ _ eq_refl G1 C1). specialize (IHr _ _ _ eq_refl G2 C2).
      destruct (choose_binary _ _ _ _ _ _) as [[|tr'|tl'|tl' tr']|]; [| | | |discriminate].
      + destruct (ty_bin o tl tr); [|discriminate]. injection Hp as <- <-. split; auto.
      + destruct (ty_bin o tl tr'); [|discriminate]. injection Hp as <- <-. split; auto using xconvert_conds.
      + destruct (ty_bin o tl' tr); [|discriminate]. injection Hp as <- <-. split; auto using xconvert_conds.
      + destruct (ty_bin o tl' tr'); [|discriminate]. injection Hp as <- <-. split; auto using xconvert_conds.
  Qed.

  Lemma prepare_to_conds A m e p t l k : prepare_to (Plain l) e = Some (p, t) -> good eps m e k ->
    kind_of l = k -> conds A (fun a => den (m a)) e -> conds A (fun a => den (m a)) p.
  Proof.
    unfold prepare_to. intros H G Kl C. destruct (prepare e) as [[p0 t0]|] eqn:E; [|discriminate].
    destruct (ty_eqb (Plain l) t0).
    - injection H as <- <-. now apply (prepare_conds A m e p0 t0 k).
    - assert (Kr : kind_eqb k k = true) by now apply kind_eqb_eq.
      assert (G' : good eps m (XUn (OConvert l) e) k).
      { apply (good_un eps m (OConvert l) e k k G); [|discriminate]. cbn. now rewrite Kl, Kr. }
      apply (prepare_conds A m _ p t k H G'). split; [exact C|]. intros; exact I.
  Qed.

  (** *** Evaluation of a prepared expression *)

  (** Evaluation with exact exponentials. *)
  Fixpoint eval_x (m : env) (e : expr) : option value :=
    match e with
    | XLeaf a _ => Some (m a)
    | XUn o e => match eval_x m e with Some v => sem_x eps o v | None => None end
    | XBin o l r =>
        match eval_x m l, eval_x m r with
        | Some a, Some b => sem_bin o a b
        | _, _ => None
        end
    end.

  Definition evaluateTo_x (dest : ty) (m : env) (e : expr) : option value :=
    match prepare_to dest e with
    | Some (p, _) => eval_x m p
    | None => None
    end.

  Lemma un_sound_x o v t : ty_un o (vty v) = Some t -> valid v -> sound (sem_x eps o v) (dsem_un eps o (den v)) t.
  Proof.
    intros T V. destruct o; cbn [sem_x]; try (apply un_sound; auto; [lra|discriminate]).
    change (dsem_un eps OExpMap (den v)) with (dsem_un 0 OExpMap (den v)).
    apply un_sound; auto; [lra|]. intros _. apply exp_exact_0.
  Qed.

  Lemma eval_x_ok m p : forall t, pty p = Some t -> env_ok m p ->
    sound (eval_x m p) (deval eps (fun a => den (m a)) p) t.
  Proof.
    induction p as [b t0|o p IH|o p IHp q IHq]; intros t Pt E.
    - cbn in *. injection Pt as <-. destruct E. now apply sound_some.
    - cbn [pty] in Pt. destruct (pty p) as [t1|] eqn:P1; [|discriminate].
      specialize (IH t1 eq_refl E). cbn [eval_x deval].
      destruct IH as (I1 & I2). destruct (eval_x m p) as [v|].
      + destruct (I2 v eq_refl) as (T & V). cbn in I1. rewrite <- I1.
        apply un_sound_x; [now rewrite T|exact V].
      + cbn in I1. rewrite <- I1. apply sound_none.
    - cbn [pty] in Pt. destruct (pty p) as [t1|] eqn:P1; [|discriminate].
      destruct (pty q) as [t2|] eqn:P2; [|discriminate]. destruct E as (E1 & E2).
      specialize (IHp t1 eq_refl E1). specialize (IHq t2 eq_refl E2). cbn [eval_x deval].
      destruct IHp as (I1 & I2), IHq as (J1 & J2).
      destruct (eval_x m p) as [v|]; cbn in I1; rewrite <- I1; [|apply sound_none].
      destruct (eval_x m q) as [w|]; cbn in J1; rewrite <- J1; [|apply sound_none].
      destruct (I2 v eq_refl) as (T & V), (J2 w eq_refl) as (T' & V').
      apply bin_sound; [now rewrite T, T'|exact V|exact V'].
  Qed.

  (** Preparing an expression does not change the function it denotes. *)
  Record preparedx (m : env) (e p : expr) (t : ty) : Prop := {
    px_ty : pty p = Some t;
    px_env : env_ok m p;
    px_val : deval eps (fun a => den (m a)) p = deval eps (fun a => den (m a)) e;
  }.

  Lemma preparedx_kind m e p t d : preparedx m e p t -> deval eps (fun a => den (m a)) e = Some d -> dkind d = ty_kind t.
  Proof.
    intros [A B C] H. pose proof (eval_x_ok m p t A B) as S. rewrite C, H in S.
    destruct (sound_value _ _ _ S) as (v & _ & <- & <- & V). now apply valid_dkind.
  Qed.

  Lemma preparedx_convert m e p t t' : wf_ty t = true -> can_convert t t' = true -> preparedx m e p t -> preparedx m e (xconvert t' p) t'.
  Proof.
    intros W C P. pose proof (fun d => preparedx_kind m e p t d P) as KD. destruct P as [A1 A2 A3].
    destruct (can_convert_inv _ _ C) as (l & -> & T).
    destruct (ty_un_kind _ _ _ W T) as (_ & K).
    assert (Kl : kind_of l = ty_kind t).
    { cbn in K. destruct (kind_eqb (kind_of l) (ty_kind t)) eqn:E; [|discriminate].
      now apply kind_eqb_eq in E. }
    cbn [xconvert]. constructor; cbn [pty env_ok deval]; auto.
    - now rewrite A1.
    - rewrite A3. destruct (deval eps (fun a => den (m a)) e) as [d|]; [|reflexivity]. cbn [dsem_un].
      rewrite (KD d eq_refl), <- Kl. assert (E : kind_eqb (kind_of l) (kind_of l) = true) by now apply kind_eqb_eq.
      now rewrite E.
  Qed.
  Lemma preparedx_un m o e p t r : preparedx m e p t -> ty_un o t = Some r -> preparedx m (XUn o e) (XUn o p) r.
  Proof.
    intros [A1 A2 A3] T. constructor; auto; cbn [pty deval]; [now rewrite A1|now rewrite A3].
  Qed.
  Lemma preparedx_bin m o e1 e2 p1 p2 t1 t2 r : preparedx m e1 p1 t1 -> preparedx m e2 p2 t2 ->
    ty_bin o t1 t2 = Some r -> preparedx m (XBin o e1 e2) (XBin o p1 p2) r.
  Proof.
    intros [A1 A2 A3] [B1 B2 B3] T. constructor; cbn [pty deval env_ok]; auto; [now rewrite A1, B1|now rewrite A3, B3].
  Qed.

  Lemma prepare_preparedx m e : forall p t k, prepare e = Some (p, t) -> ekind e = Some k -> env_ok m e ->
    wf_ty t = true /\ preparedx m e p t.
  Proof.
    induction e as [a t0|o e IH|o l IHl r IHr]; intros p t k Hp K G.
    - cbn in Hp. injection Hp as <- <-. cbn in K. destruct (wf_ty t0) eqn:W; [|discriminate].
      split; [reflexivity|]. constructor; cbn; auto.
    - split; [exact (proj1 (prepare_kind _ _ _ _ Hp K))|].
      cbn [ekind] in K. destruct (ekind e) as [k'|] eqn:Ek; [|discriminate].
      cbn in Hp. destruct (prepare e) as [[p' t']|]; [|discriminate].
      destruct (IH _ _ _ eq_refl eq_refl G) as (W & P).
      destruct (choose_unary _ _ _ _) as [[|t'']|] eqn:C; [| |discriminate].
      + destruct (ty_un o t') eqn:T; [|discriminate]. injection Hp as <- <-. eapply preparedx_un; eauto.
      + unfold choose_unary in C. destruct (is_some (ty_un o t')); [discriminate|].
        destruct (first_true _ _) as [x|] eqn:F; [|discriminate]. injection C as ->.
        apply first_true_some in F. destruct F as (F & _). apply andb_prop in F as (F1 & F2).
        destruct (ty_un o t'') eqn:T; [|discriminate]. injection Hp as <- <-.
        apply (preparedx_un m o e (xconvert t'' p') t''); auto. apply (preparedx_convert m e p' t' t'' W); auto.
    - split; [exact (proj1 (prepare_kind _ _ _ _ Hp K))|].
      cbn [ekind] in K. destruct G as (G1 & G2).
      destruct (ekind l) as [kl|] eqn:El; [|discriminate].
      destruct (ekind r) as [kr|] eqn:Er; [|discriminate].
      cbn in Hp. destruct (prepare l) as [[pl tl]|]; [|discriminate].
      destruct (prepare r) as [[pr tr]|]; [|discriminate].
      destruct (IHl _ _ _ eq_refl eq_refl G1) as (Wl & Pl). destruct (IHr _ _ _ eq_refl eq_refl G2) as (Wr & Pr).
      destruct (choose_binary _ _ _ _ _ _) as [[|tr'|tl'|tl' tr']|] eqn:C; [| | | |discriminate].
      + destruct (ty_bin o tl tr) eqn:T; [|discriminate]. injection Hp as <- <-.
        eapply preparedx_bin; eauto.
      + destruct (ty_bin o tl tr') eqn:T; [|discriminate]. injection Hp as <- <-.
        apply (preparedx_bin m o l r pl (xconvert tr' pr) tl tr'); auto. apply (preparedx_convert m r pr tr tr' Wr); auto.
        unfold choose_binary in C. destruct (is_some _); [discriminate|].
        destruct (first_true _ (convert_to tr)) as [x|] eqn:F.
        * injection C as ->. apply first_true_some in F. destruct F as (F & _).
          apply andb_prop in F. tauto.
        * destruct (first_true _ (convert_to tl)); [discriminate|].
          destruct (first_true _ (cartesian _ _)); discriminate.
      + destruct (ty_bin o tl' tr) eqn:T; [|discriminate]. injection Hp as <- <-.
        apply (preparedx_bin m o l r (xconvert tl' pl) pr tl' tr); auto. apply (preparedx_convert m l pl tl tl' Wl); auto.
        unfold choose_binary in C. destruct (is_some _); [discriminate|].
        destruct (first_true _ (convert_to tr)) as [x|]; [discriminate|].
        destruct (first_true _ (convert_to tl)) as [x|] eqn:F.
        * injection C as ->. apply first_true_some in F. destruct F as (F & _).
          apply andb_prop in F. tauto.
        * destruct (first_true _ (cartesian _ _)); discriminate.
      + destruct (ty_bin o tl' tr') eqn:T; [|discriminate]. injection Hp as <- <-.
        unfold choose_binary in C. destruct (is_some _); [discriminate|].
        destruct (first_true _ (convert_to tr)) as [x|]; [discriminate|].
        destruct (first_true _ (convert_to tl)) as [x|]; [discriminate|].
        destruct (first_true _ (cartesian _ _)) as [[x y]|] eqn:F; [|discriminate].
        injection C as -> ->. apply first_true_some in F. destruct F as (F & _). cbn in F.
        apply andb_prop in F as (F & _). apply andb_prop in F as (F1 & F2).
        apply (preparedx_bin m o l r (xconvert tl' pl) (xconvert tr' pr) tl' tr'); auto;
          [apply (preparedx_convert m l pl tl tl' Wl)|apply (preparedx_convert m r pr tr tr' Wr)]; auto.
  Qed.

  Lemma prepare_to_preparedx m e k p t l : prepare_to (Plain l) e = Some (p, t) -> ekind e = Some k -> env_ok m e ->
    preparedx m e p t /\ t = Plain l.
  Proof.
    intros Hp K G. unfold prepare_to in Hp.
    destruct (prepare e) as [[p0 t0]|] eqn:E; [|discriminate].
    destruct (ty_eqb (Plain l) t0) eqn:D.
    - injection Hp as -> ->. apply ty_eqb_eq in D. split; [|auto]. eapply prepare_preparedx; eauto.
    - destruct (prepare_kind _ _ _ _ E K) as (W & Kt).
      pose proof (prepare_un (OConvert l) e p0 t0 E) as P. rewrite Hp in P. cbn in P.
      symmetry in P. apply pty_convert_kind in P as (-> & KL); [|exact W]. split; [|reflexivity].
      assert (Kr : kind_eqb k k = true) by now apply kind_eqb_eq.
      assert (K' : ekind (XUn (OConvert l) e) = Some k) by (cbn [ekind]; rewrite K; cbn; now rewrite KL, Kt, Kr).
      destruct (prepare_preparedx m _ _ _ _ Hp K' G) as (_ & [A B C]). constructor; auto. rewrite C. cbn [deval].
      destruct (prepare_preparedx m _ _ _ _ E K G) as (_ & P0).
      destruct (deval eps (fun a => den (m a)) e) as [d|] eqn:Ed; [|reflexivity]. cbn [dsem_un].
      rewrite (preparedx_kind m e p0 t0 d P0 Ed), KL, Kt, Kr. reflexivity.
  Qed.

  Lemma evaluateTo_x_sound m e l : ekind e = Some (kind_of l) -> env_ok m e ->
    sound (evaluateTo_x (Plain l) m e) (deval eps (fun a => den (m a)) e) (Plain l).
  Proof.
    intros K E. destruct (prepare_to_total e l _ K eq_refl) as (p & P). unfold evaluateTo_x. rewrite P.
    destruct (prepare_to_preparedx m e _ p _ l P K E) as ([A B C] & _). rewrite <- C. now apply eval_x_ok.
  Qed.

  (** Where no small-angle formula is used the two evaluations coincide. *)
  Lemma sem_x_exact o v : ty_un o (vty v) <> None -> valid v -> (o = OExpMap -> exp_exact eps (den v)) ->
    sem_x eps o v = sem_un eps o v.
  Proof.
    intros T V X. destruct o; try reflexivity. specialize (X eq_refl). cbn [sem_x].
    assert (Z : vnorm2 v0 = 0) by (v3unf; ring).
    destruct v; try (now elim T); try reflexivity; cbn [sem_un]; cbn [den exp_exact] in X; destruct X as [X|X].
    - subst. unfold exp_quat. rewrite Z.
      destruct (Rlt_dec 0 (0 * 0)) as [L|L]; [lra|]. destruct (Rlt_dec eps (0 * 0)) as [L'|L']; [lra|]. reflexivity.
    - now rewrite (exp_quat_big eps He _ X).
    - subst. unfold twist_exp. rewrite Z.
      destruct (Rlt_dec 0 0) as [L|L]; [lra|]. destruct (Rlt_dec eps 0) as [L'|L']; [lra|]. reflexivity.
    - now rewrite (twist_exp_big eps He _ _ X).
  Qed.

  Lemma eval_x_exact m p : pty p <> None -> env_ok m p -> exps_exact eps (fun b => den (m b)) p ->
    eval_x m p = eval_p eps m p.
  Proof.
    induction p as [b t0|o p IH|o p IHp q IHq]; intros T E X; cbn [eval_x eval_p].
    - reflexivity.
    - cbn [pty] in T. destruct (pty p) as [t1|] eqn:P1; [|now elim T]. destruct X as (X & Xe).
      rewrite <- IH; [|congruence|exact E|exact X].
      pose proof (eval_x_ok m p t1 P1 E) as (S1 & S2). destruct (eval_x m p) as [v|]; [|reflexivity].
      destruct (S2 v eq_refl) as (Tv & Vv). apply sem_x_exact; [now rewrite Tv|exact Vv|].
      intros ->. apply Xe. now rewrite <- S1.
    - cbn [pty] in T. destruct (pty p) as [t1|] eqn:P1; [|now elim T]. destruct (pty q) as [t2|] eqn:P2; [|now elim T].
      destruct X as (X1 & X2), E as (E1 & E2). rewrite <- IHp, <- IHq; auto; congruence.
  Qed.

  Lemma evaluateTo_x_exact m e l : ekind e = Some (kind_of l) -> env_ok m e -> exps_exact eps (fun b => den (m b)) e ->
    evaluateTo_x (Plain l) m e = evaluateTo eps (Plain l) m e.
  Proof.
    intros K E X. destruct (prepare_to_total e l _ K eq_refl) as (p & P). unfold evaluateTo_x, evaluateTo. rewrite P.
    assert (G : good eps m e (kind_of l)) by (split; [exact K|split; assumption]).
    destruct (prepare_to_prepared eps m (Rlt_le _ _ He) e _ p _ l P G) as ([A1 A2 A3 A4 A5 A6] & _).
    apply eval_x_exact; auto. congruence.
  Qed.

  Section Eval.
    Variables (mu : env) (nu nu' : R -> env).

    Lemma CR_eval p : forall t d0, pty p = Some t -> env_ok mu p -> near (fun h => env_ok (nu h) p) ->
      (forall b, In b (leaf_addrs p) -> CR (mu b) (fun h => nu h b) (fun h => nu' h b)) ->
      conds (fun _ => True) (fun b => den (mu b)) p ->
      deval eps (fun b => den (mu b)) p = Some d0 ->
      exists w, eval_x mu p = Some w /\ den w = d0 /\ valid w /\ vty w = t /\
        exists x x', near (fun h => eval_x (nu h) p = Some (x h) /\ eval_p eps (nu' h) p = Some (x' h)) /\
          near (fun h => valid (x h)) /\ CR w x x'.
    Proof.
      assert (Fin : forall p t w, pty p = Some t -> near (fun h => env_ok (nu h) p) ->
        CRo w (fun h => eval_x (nu h) p) (fun h => eval_p eps (nu' h) p) ->
        exists x x', near (fun h => eval_x (nu h) p = Some (x h) /\ eval_p eps (nu' h) p = Some (x' h)) /\
          near (fun h => valid (x h)) /\ CR w x x').
      { intros p0 t w Pt E (x & x' & N & C). exists x, x'. split; [exact N|]. split; [|exact C].
        apply (near_impl2 _ _ _) with (2 := E) (3 := N). intros h Eh (Vh & _).
        exact (proj2 (proj2 (eval_x_ok (nu h) p0 t Pt Eh) _ Vh)). }
      assert (Leafs : forall e, exists b, In b (leaf_addrs e)).
      { clear. induction e as [a t|o e IH|o e1 IH1 e2 IH2]; cbn; eauto.
        destruct IH1 as (b & Hb). exists b. apply in_or_app. auto. }
      induction p as [b t0|o p IH|o p IHp q IHq]; intros t d0 Pt E Nn C Cd D.
      - destruct (sound_value _ _ _ (eq_ind _ (fun y => sound _ y t) (eval_x_ok mu _ t Pt E) _ D)) as (w & Ew & Dw & Tw & Vw).
        exists w. repeat (split; [assumption|]). cbn in Ew. injection Ew as <-.
        apply (Fin (XLeaf b t0) t _ Pt Nn). cbn [eval_p eval_x]. apply CRo_some, C. now left.
      - destruct (sound_value _ _ _ (eq_ind _ (fun y => sound _ y t) (eval_x_ok mu _ t Pt E) _ D)) as (w & Ew & Dw & Tw & Vw).
        exists w. repeat (split; [assumption|]). apply (Fin _ t w Pt Nn).
        cbn [pty] in Pt. destruct (pty p) as [t1|] eqn:P1; [|discriminate].
        cbn [deval] in D. destruct (deval eps (fun b => den (mu b)) p) as [d1|] eqn:D1; [|discriminate].
        destruct Cd as (Cd & Co).
        destruct (IH t1 d1 eq_refl E Nn C Cd eq_refl)
          as (v & Ev & Dv & Vv & Tv & x & x' & N & Nv & CRv).
        cbn [eval_x] in Ew. rewrite Ev in Ew.
        assert (Cv : cond_un eps o (den v)).
        { rewrite Dv. destruct (Leafs p) as (b & Hb). apply Co; [exists b; auto|exact D1]. }
        eapply CRo_near; [|eapply (CR_un eps He o v x x' w t); eauto; now rewrite Tv].
        apply (near_impl _ _) with (2 := N). intros h (A & B). cbn [eval_p eval_x]. rewrite A, B. auto.
      - destruct (sound_value _ _ _ (eq_ind _ (fun y => sound _ y t) (eval_x_ok mu _ t Pt E) _ D)) as (w & Ew & Dw & Tw & Vw).
        exists w. repeat (split; [assumption|]). apply (Fin _ t w Pt Nn).
        cbn [pty] in Pt. destruct (pty p) as [t1|] eqn:P1; [|discriminate].
        destruct (pty q) as [t2|] eqn:P2; [|discriminate].
        cbn [deval] in D. destruct (deval eps (fun b => den (mu b)) p) as [d1|] eqn:D1; [|discriminate].
        destruct (deval eps (fun b => den (mu b)) q) as [d2|] eqn:D2; [|discriminate].
        destruct Cd as (Cd1 & Cd2), E as (E1 & E2).
        destruct (IHp t1 d1 eq_refl E1 (near_impl _ _ (fun h a => proj1 a) Nn)
            (fun b Hb => C b (in_or_app _ _ _ (or_introl Hb))) Cd1 eq_refl)
          as (v1 & Ev1 & Dv1 & Vv1 & Tv1 & x1 & x1' & N1 & Nv1 & CR1).
        destruct (IHq t2 d2 eq_refl E2 (near_impl _ _ (fun h a => proj2 a) Nn)
            (fun b Hb => C b (in_or_app _ _ _ (or_intror Hb))) Cd2 eq_refl)
          as (v2 & Ev2 & Dv2 & Vv2 & Tv2 & x2 & x2' & N2 & Nv2 & CR2).
        cbn [eval_x] in Ew. rewrite Ev1, Ev2 in Ew.
        eapply CRo_near; [|eapply (CR_bin o v1 v2 x1 x1' x2 x2' w t); eauto; now rewrite Tv1, Tv2].
        apply (near_impl2 _ _ _) with (2 := N1) (3 := N2). intros h (A & B) (A' & B'). cbn [eval_p eval_x].
        rewrite A, B, A', B'. auto.
    Qed.

    Lemma CR_evaluateTo e l d0 : ekind e = Some (kind_of l) -> env_ok mu e -> near (fun h => env_ok (nu h) e) ->
      (forall b, In b (leaf_addrs e) -> CR (mu b) (fun h => nu h b) (fun h => nu' h b)) ->
      exps_exact eps (fun b => den (mu b)) e ->
      conds (fun _ => True) (fun b => den (mu b)) e ->
      deval eps (fun b => den (mu b)) e = Some d0 ->
      exists w, evaluateTo_x (Plain l) mu e = Some w /\ den w = d0 /\ valid w /\ vty w = Plain l /\
        exists x x', near (fun h => evaluateTo_x (Plain l) (nu h) e = Some (x h) /\
                                    evaluateTo eps (Plain l) (nu' h) e = Some (x' h)) /\
          near (fun h => valid (x h)) /\ CR w x x'.
    Proof.
      intros Ke E Nn C X Cd D.
      destruct (prepare_to_total e l (kind_of l) Ke eq_refl) as (p & P). unfold evaluateTo, evaluateTo_x. rewrite P.
      assert (G : good eps mu e (kind_of l)) by (split; [exact Ke|split; assumption]).
      destruct (prepare_to_preparedx mu e _ p _ l P Ke E) as ([A1 A2 A3] & _).
      assert (NP : near (fun h => env_ok (nu h) p)).
      { apply (near_impl _ _) with (2 := Nn). intros h Eh.
        destruct (prepare_to_preparedx (nu h) e _ p _ l P Ke Eh) as ([B1 B2 B3] & _). exact B2. }
      apply (CR_eval p (Plain l) d0 A1 A2 NP); auto.
      - intros b Hb. apply C. now rewrite <- (prepare_to_addrs e p (Plain l) l P).
      - exact (prepare_to_conds _ mu e p (Plain l) l _ P G eq_refl Cd).
      - now rewrite A3.
    Qed.
  End Eval.

  (** *** Evaluation with an offset *)

  (** [with_delta] with a given value in place of the displaced leaf, operations evaluated
      by [ev]. *)
  Section WithLeaf.
    Variables (m : env) (a : nat).

    Section Ev.
    Variable ev : ty -> env -> expr -> option value.
    Fixpoint with_leaf (x : value) (p : expr) : option (value * ty) :=
      match p with
      | XLeaf b t =>
          match evaluateTo eps (plain_output t) m (XLeaf b t) with
          | Some v => Some ((if (b =? a)%nat then x else v), t)
          | None => None
          end
      | XUn o p =>
          match with_leaf x p with
          | Some (v, t) =>
              match ty_un o t with
              | Some r =>
                  option_map (fun w => (w, r)) (ev (plain_output r) (fun _ => v)
                          (XUn o (XLeaf 0 (plain_output t))))
              | None => None
              end
          | None => None
          end
      | XBin o p q =>
          match with_leaf x p, with_leaf x q with
          | Some (v1, t1), Some (v2, t2) =>
              match ty_bin o t1 t2 with
              | Some r =>
                  option_map (fun w => (w, r)) (ev (plain_output r) (two_leaves v1 v2)
                          (XBin o (XLeaf 0 (plain_output t1)) (XLeaf 1 (plain_output t2))))
              | None => None
              end
          | _, _ => None
          end
      end.

    Lemma with_leaf_const x y p : ~ In a (leaf_addrs p) -> with_leaf x p = with_leaf y p.
    Proof.
      induction p as [b t|o p IH|o p IHp q IHq]; cbn [with_leaf leaf_addrs]; intros N.
      - destruct (Nat.eqb_spec b a) as [->|]; [elim N; now left|reflexivity].
      - now rewrite (IH N).
      - rewrite IHp by (intros H; apply N, in_or_app; auto). rewrite IHq by (intros H; apply N, in_or_app; auto).
        reflexivity.
    Qed.
    End Ev.
    Notation with_leaf_x := (with_leaf evaluateTo_x).
    Notation with_leaf_c := (with_leaf (evaluateTo eps)).

    Variable l : lty.
    Hypothesis Hl : vty (m a) = Plain l.

    Lemma with_delta_leaf na coeff delta x p : na <> a -> env_ok m p ->
      add_delta eps l (m a) coeff delta = Some x ->
      with_delta eps na a coeff delta m p = with_leaf_c x p.
    Proof.
      intros Na E Hx.
      assert (D : forall r w, delta_if eps a coeff delta na r w = Some w).
      { intros r w. unfold delta_if. destruct (Nat.eqb_spec na a); [contradiction|reflexivity]. }
      induction p as [b t|o p IH|o p IHp q IHq]; cbn [with_delta with_leaf].
      - destruct E as (T & V). destruct (leaf_value eps m (Rlt_le _ _ He) t b T V) as (w & Ew & Dw & Tw & Vw & Pw).
        rewrite Ew. unfold delta_if. destruct (Nat.eqb_spec b a) as [->|N]; [|reflexivity].
        rewrite Hl in T. subst t. rewrite (Pw l eq_refl). cbn [ty_leaf]. now rewrite Hx.
      - rewrite (IH E). destruct (with_leaf_c x p) as [[v t]|]; [|reflexivity].
        destruct (ty_un o t) as [r|]; [|reflexivity].
        destruct (evaluateTo _ _ _ _); [|reflexivity]. now rewrite D.
      - destruct E as (E1 & E2). rewrite (IHp E1), (IHq E2).
        destruct (with_leaf_c x p) as [[v1 t1]|]; [|reflexivity].
        destruct (with_leaf_c x q) as [[v2 t2]|]; [|reflexivity].
        destruct (ty_bin o t1 t2) as [r|]; [|reflexivity].
        destruct (evaluateTo _ _ _ _); [|reflexivity]. now rewrite D.
    Qed.

    Lemma with_leaf_ok x p : valid x -> vty x = Plain l -> forall t d, pty p = Some t -> env_ok m p ->
      deval eps (fun b => den (upd m a x b)) p = Some d ->
      wf_ty t = true /\ exists w, with_leaf_x x p = Some (w, t) /\ den w = d /\ valid w /\ vty w = plain_output t.
    Proof.
      intros Vx Tx. induction p as [b t0|o p IH|o p IHp q IHq]; intros t d Pt E D.
      - cbn in Pt. injection Pt as <-. destruct E as (T & V). split; [rewrite <- T; now apply valid_wf|].
        cbn [with_leaf]. destruct (leaf_value eps m (Rlt_le _ _ He) t0 b T V) as (w & Ew & Dw & Tw & Vw & Pw). rewrite Ew.
        cbn [deval] in D. injection D as D. unfold upd in D.
        destruct (Nat.eqb_spec b a) as [->|N].
        + rewrite Hl in T. subst t0. exists x. auto.
        + exists w. split; [reflexivity|]. split; [congruence|auto].
      - cbn [pty] in Pt. destruct (pty p) as [t1|] eqn:P1; [|discriminate]. cbn [deval] in D.
        destruct (deval eps (fun b => den (upd m a x b)) p) as [d1|] eqn:D1; [|discriminate].
        cbn [env_ok] in *.
        destruct (IH t1 d1 eq_refl E eq_refl) as (W1 & w & Ew & Dw & Vw & Tw).
        destruct (ty_un_kind _ _ _ W1 Pt) as (W & K). split; [exact W|].
        cbn [with_leaf]. rewrite Ew, Pt.
        assert (S : sound (evaluateTo_x (plain_output t) (fun _ => w) (XUn o (XLeaf 0 (plain_output t1))))
                      (Some d) (plain_output t)).
        { rewrite <- D, <- Dw.
          apply (evaluateTo_x_sound (fun _ => w) (XUn o (XLeaf 0%nat (plain_output t1))) (ty_leaf t)).
          - cbn [ekind plain_output wf_ty]. exact K.
          - split; assumption. }
        destruct (sound_value _ _ _ S) as (z & Ez & Dz & Tz & Vz). rewrite Ez. cbn. exists z. auto.
      - cbn [pty] in Pt. destruct (pty p) as [t1|] eqn:P1; [|discriminate].
        destruct (pty q) as [t2|] eqn:P2; [|discriminate]. cbn [deval] in D.
        destruct (deval eps (fun b => den (upd m a x b)) p) as [d1|] eqn:D1; [|discriminate].
        destruct (deval eps (fun b => den (upd m a x b)) q) as [d2|] eqn:D2; [|discriminate].
        cbn [env_ok] in *. destruct E as (E1 & E2).
        destruct (IHp t1 d1 eq_refl E1 eq_refl) as (W1 & w1 & Ew1 & Dw1 & Vw1 & Tw1).
        destruct (IHq t2 d2 eq_refl E2 eq_refl) as (W2 & w2 & Ew2 & Dw2 & Vw2 & Tw2).
        destruct (ty_bin_kind _ _ _ _ W1 W2 Pt) as (W & K). split; [exact W|].
        cbn [with_leaf]. rewrite Ew1, Ew2, Pt.
        assert (S : sound (evaluateTo_x (plain_output t) (two_leaves w1 w2)
                     (XBin o (XLeaf 0 (plain_output t1)) (XLeaf 1 (plain_output t2))))
                      (Some d) (plain_output t)).
        { rewrite <- D, <- Dw1, <- Dw2.
          apply (evaluateTo_x_sound (two_leaves w1 w2)
            (XBin o (XLeaf 0%nat (plain_output t1)) (XLeaf 1%nat (plain_output t2))) (ty_leaf t)).
          - cbn [ekind plain_output wf_ty]. exact K.
          - split; split; assumption. }
        destruct (sound_value _ _ _ S) as (z & Ez & Dz & Tz & Vz). rewrite Ez. cbn. exists z. auto.
    Qed.

    (** The displaced leaf along the exact and the computed curve, around [b0]. *)
    Variables (b0 : value) (c c' : R -> value).
    Hypothesis V0 : valid b0.
    Hypothesis T0 : vty b0 = Plain l.
    Hypothesis D0 : den b0 = den (m a).
    Hypothesis Vc : near (fun h => valid (c h)).
    Hypothesis Cc : CR b0 c c'.

    Lemma base_deval p : deval eps (fun b => den (upd m a b0 b)) p = deval eps (fun b => den (m b)) p.
    Proof.
      apply deval_ext.
      - clear. induction p; cbn; auto.
      - intros b _. unfold upd. destruct (Nat.eqb_spec b a); [now subst|reflexivity].
    Qed.

    (** Sub-expressions without the displaced object are evaluated exactly. *)
    Lemma with_leaf_static x p : ~ In a (leaf_addrs p) -> pty p <> None -> env_ok m p ->
      exps_exact eps (fun b => den (m b)) p -> deval eps (fun b => den (m b)) p <> None ->
      with_leaf_c x p = with_leaf_x x p.
    Proof.
      induction p as [b t0|o p IH|o p IHp q IHq]; intros Na T E X D.
      - reflexivity.
      - cbn [pty] in T. destruct (pty p) as [t1|] eqn:P1; [|now elim T]. cbn [deval] in D.
        destruct (deval eps (fun b => den (m b)) p) as [d1|] eqn:D1; [|now elim D].
        destruct X as (X & Xe).
        assert (T1 : Some t1 <> None) by discriminate. assert (D1' : Some d1 <> None) by discriminate.
        specialize (IH Na T1 E X D1'). cbn [with_leaf]. rewrite IH.
        rewrite (with_leaf_const _ x b0 p Na).
        destruct (with_leaf_ok b0 p V0 T0 t1 d1 P1 E (eq_trans (base_deval p) D1)) as (W1 & w & Ew & Dw & Vw & Tw).
        rewrite Ew. destruct (ty_un o t1) as [r|] eqn:Tr; [|reflexivity].
        destruct (ty_un_kind _ _ _ W1 Tr) as (W & K). apply f_equal. symmetry. apply evaluateTo_x_exact.
        + cbn [ekind plain_output wf_ty]. exact K.
        + split; assumption.
        + cbn [exps_exact deval]. split; [exact I|]. destruct o; try exact I. intros y [= <-]. apply Xe. congruence.
      - cbn [pty] in T. destruct (pty p) as [t1|] eqn:P1; [|now elim T].
        destruct (pty q) as [t2|] eqn:P2; [|now elim T]. cbn [deval] in D.
        destruct (deval eps (fun b => den (m b)) p) as [d1|] eqn:D1; [|now elim D].
        destruct (deval eps (fun b => den (m b)) q) as [d2|] eqn:D2; [|now elim D].
        destruct X as (X1 & X2), E as (E1 & E2). cbn [leaf_addrs] in Na.
        assert (N1 : ~ In a (leaf_addrs p)) by (intros H; apply Na, in_or_app; auto).
        assert (N2 : ~ In a (leaf_addrs q)) by (intros H; apply Na, in_or_app; auto).
        cbn [with_leaf]. rewrite IHp, IHq by (auto; discriminate).
        rewrite (with_leaf_const _ x b0 p N1), (with_leaf_const _ x b0 q N2).
        destruct (with_leaf_ok b0 p V0 T0 t1 d1 P1 E1 (eq_trans (base_deval p) D1)) as (W1 & w1 & Ew1 & Dw1 & Vw1 & Tw1).
        destruct (with_leaf_ok b0 q V0 T0 t2 d2 P2 E2 (eq_trans (base_deval q) D2)) as (W2 & w2 & Ew2 & Dw2 & Vw2 & Tw2).
        rewrite Ew1, Ew2. destruct (ty_bin o t1 t2) as [r|] eqn:Tr; [|reflexivity].
        destruct (ty_bin_kind _ _ _ _ W1 W2 Tr) as (W & K). apply f_equal. symmetry. apply evaluateTo_x_exact.
        + cbn [ekind plain_output wf_ty]. exact K.
        + split; split; assumption.
        + split; exact I.
    Qed.

    Lemma CR_with_leaf p : forall t d0, pty p = Some t -> env_ok m p ->
      exps_exact eps (fun b => den (m b)) p ->
      near (fun h => deval eps (fun b => den (upd m a (c h) b)) p <> None) ->
      conds (fun b => b = a) (fun b => den (m b)) p ->
      deval eps (fun b => den (m b)) p = Some d0 ->
      exists w, with_leaf_x b0 p = Some (w, t) /\ den w = d0 /\ valid w /\ vty w = plain_output t /\
        exists x x', near (fun h => with_leaf_x (c h) p = Some (x h, t) /\ with_leaf_c (c' h) p = Some (x' h, t)) /\
          near (fun h => valid (x h)) /\ CR w x x'.
    Proof.
      assert (Tc : near (fun h => vty (c h) = Plain l /\ vty (c' h) = Plain l)).
      { destruct Cc as (T & _). rewrite T0 in T. exact T. }
      assert (Ok : forall p t, pty p = Some t -> env_ok m p ->
        near (fun h => deval eps (fun b => den (upd m a (c h) b)) p <> None) ->
        near (fun h => exists z, with_leaf_x (c h) p = Some (z, t) /\ valid z /\ vty z = plain_output t /\
           deval eps (fun b => den (upd m a (c h) b)) p = Some (den z))).
      { intros p0 t Pt E N.
        apply (near_impl2 _ _ _) with (2 := near_and _ _ Vc Tc) (3 := N).
        intros h (Vh & Th & _) Dh.
        destruct (deval eps (fun b => den (upd m a (c h) b)) p0) as [d|] eqn:D; [|contradiction].
        destruct (with_leaf_ok (c h) p0 Vh Th t d Pt E D) as (_ & z & Ez & Dz & Vz & Tz).
        exists z. repeat (split; [assumption|]). congruence. }
      assert (Fin : forall p t w, pty p = Some t -> env_ok m p ->
        near (fun h => deval eps (fun b => den (upd m a (c h) b)) p <> None) ->
        (exists x x', near (fun h => with_leaf_x (c h) p = Some (x h, t) /\ with_leaf_c (c' h) p = Some (x' h, t)) /\ CR w x x') ->
        exists x x', near (fun h => with_leaf_x (c h) p = Some (x h, t) /\ with_leaf_c (c' h) p = Some (x' h, t)) /\
          near (fun h => valid (x h)) /\ CR w x x').
      { intros p0 t w Pt E N (x & x' & Nn & C). exists x, x'. split; [exact Nn|]. split; [|exact C].
        apply (near_impl2 _ _ _) with (2 := Ok p0 t Pt E N) (3 := Nn).
        intros h (z & Ez & Vz & _) (Wh & _). rewrite Wh in Ez. injection Ez as ->. exact Vz. }
      induction p as [b t0|o p IH|o p IHp q IHq]; intros t d0 Pt E X Nd Cd D.
      - destruct (with_leaf_ok b0 _ V0 T0 t d0 Pt E (eq_trans (base_deval _) D)) as (W & w & Ew & Dw & Vw & Tw).
        exists w. repeat (split; [assumption|]). apply (Fin _ t w Pt E Nd).
        cbn in Pt. injection Pt as <-. cbn [with_leaf] in *.
        destruct (evaluateTo eps (plain_output t0) m (XLeaf b t0)) as [v|]; [|discriminate].
        destruct (b =? a)%nat; injection Ew as <-.
        + exists c, c'. split; [apply near_all; auto|exact Cc].
        + exists (fun _ => v), (fun _ => v). split; [apply near_all; auto|apply CR_const].
      - destruct (with_leaf_ok b0 _ V0 T0 t d0 Pt E (eq_trans (base_deval _) D)) as (W & w & Ew & Dw & Vw & Tw).
        exists w. repeat (split; [assumption|]). apply (Fin _ t w Pt E Nd).
        destruct (List.in_dec Nat.eq_dec a (leaf_addrs p)) as [Ia|Ia].
        2:{ exists (fun _ => w), (fun _ => w). split; [|apply CR_const]. apply near_all. intros h.
            rewrite (with_leaf_static (c' h) (XUn o p) Ia ltac:(congruence) E X ltac:(congruence)).
            rewrite <- Ew. split; symmetry; now apply with_leaf_const. }
        cbn [pty] in Pt. destruct (pty p) as [t1|] eqn:P1; [|discriminate].
        cbn [deval] in D. destruct (deval eps (fun b => den (m b)) p) as [d1|] eqn:D1; [|discriminate].
        destruct X as (X1 & Xe). destruct Cd as (Cd & Co).
        assert (Nd1 : near (fun h => deval eps (fun b => den (upd m a (c h) b)) p <> None)).
        { apply (near_impl _ _) with (2 := Nd). intros h Hd Hn. apply Hd. cbn [deval]. now rewrite Hn. }
        destruct (IH t1 d1 eq_refl E X1 Nd1 Cd eq_refl)
          as (v & Ev & Dv & Vv & Tv & x & x' & N & Nv & CRv).
        pose proof (Ok p t1 P1 E Nd1) as Okp.
        assert (W1 : wf_ty t1 = true).
        { destruct (with_leaf_ok b0 p V0 T0 t1 d1 P1 E (eq_trans (base_deval _) D1)) as (W1 & _). exact W1. }
        destruct (ty_un_kind _ _ _ W1 Pt) as (_ & K).
        destruct (CR_evaluateTo (fun _ => v) (fun h _ => x h) (fun h _ => x' h)
                    (XUn o (XLeaf 0%nat (plain_output t1))) (ty_leaf t) d0) as (w' & Ew' & _ & _ & _ & y & y' & Ny & _ & CRy).
        + exact K.
        + split; assumption.
        + apply (near_impl2 _ _ _) with (2 := Okp) (3 := N). intros h (z & Ez & Vz & Tz & _) (Wh & _).
          rewrite Wh in Ez. injection Ez as ->. split; assumption.
        + intros b _. exact CRv.
        + cbn [exps_exact deval]. split; [exact I|]. destruct o; try exact I. intros y [= <-]. apply Xe. congruence.
        + cbn [conds deval]. split; [exact I|]. intros _ d [= <-]. rewrite Dv. apply Co; [exists a; auto|exact D1].
        + cbn [deval]. now rewrite Dv.
        + cbn [with_leaf] in Ew. rewrite Ev, Pt in Ew. change (Plain (ty_leaf t)) with (plain_output t) in Ew', Ny.
          rewrite Ew' in Ew. injection Ew as ->.
          exists y, y'. split; [|exact CRy].
          apply (near_impl2 _ _ _) with (2 := N) (3 := Ny). intros h (A & B) (A' & B').
          cbn [with_leaf]. rewrite A, B, Pt, A', B'. auto.
      - destruct (with_leaf_ok b0 _ V0 T0 t d0 Pt E (eq_trans (base_deval _) D)) as (W & w & Ew & Dw & Vw & Tw).
        exists w. repeat (split; [assumption|]). apply (Fin _ t w Pt E Nd).
        cbn [pty] in Pt. destruct (pty p) as [t1|] eqn:P1; [|discriminate].
        destruct (pty q) as [t2|] eqn:P2; [|discriminate].
        cbn [deval] in D. destruct (deval eps (fun b => den (m b)) p) as [d1|] eqn:D1; [|discriminate].
        destruct (deval eps (fun b => den (m b)) q) as [d2|] eqn:D2; [|discriminate].
        destruct X as (X1 & X2), Cd as (Cd1 & Cd2), E as (E1 & E2).
        assert (Nd1 : near (fun h => deval eps (fun b => den (upd m a (c h) b)) p <> None)).
        { apply (near_impl _ _) with (2 := Nd). intros h Hd Hn. apply Hd. cbn [deval]. now rewrite Hn. }
        assert (Nd2 : near (fun h => deval eps (fun b => den (upd m a (c h) b)) q <> None)).
        { apply (near_impl _ _) with (2 := Nd). intros h Hd Hn. apply Hd. cbn [deval]. rewrite Hn.
          now destruct (deval eps (fun b => den (upd m a (c h) b)) p). }
        destruct (IHp t1 d1 eq_refl E1 X1 Nd1 Cd1 eq_refl)
          as (v1 & Ev1 & Dv1 & Vv1 & Tv1 & x1 & x1' & N1 & Nv1 & CR1).
        destruct (IHq t2 d2 eq_refl E2 X2 Nd2 Cd2 eq_refl)
          as (v2 & Ev2 & Dv2 & Vv2 & Tv2 & x2 & x2' & N2 & Nv2 & CR2).
        pose proof (Ok p t1 P1 E1 Nd1) as Ok1. pose proof (Ok q t2 P2 E2 Nd2) as Ok2.
        assert (W1 : wf_ty t1 = true).
        { destruct (with_leaf_ok b0 p V0 T0 t1 d1 P1 E1 (eq_trans (base_deval _) D1)) as (W1 & _). exact W1. }
        assert (W2 : wf_ty t2 = true).
        { destruct (with_leaf_ok b0 q V0 T0 t2 d2 P2 E2 (eq_trans (base_deval _) D2)) as (W2 & _). exact W2. }
        destruct (ty_bin_kind _ _ _ _ W1 W2 Pt) as (_ & K).
        destruct (CR_evaluateTo (two_leaves v1 v2) (fun h => two_leaves (x1 h) (x2 h)) (fun h => two_leaves (x1' h) (x2' h))
                    (XBin o (XLeaf 0%nat (plain_output t1)) (XLeaf 1%nat (plain_output t2))) (ty_leaf t) d0)
          as (w' & Ew' & _ & _ & _ & y & y' & Ny & _ & CRy).
        + exact K.
        + split; split; assumption.
        + apply (near_impl2 _ _ _) with (2 := near_and _ _ Ok1 Ok2) (3 := near_and _ _ N1 N2).
          intros h ((z & Ez & Vz & Tz & _) & (z' & Ez' & Vz' & Tz' & _)) ((Wh & _) & (Wh' & _)).
          rewrite Wh in Ez. injection Ez as ->. rewrite Wh' in Ez'. injection Ez' as ->. split; split; assumption.
        + intros b [<-|[<-|[]]]; assumption.
        + split; exact I.
        + split; exact I.
        + cbn [deval two_leaves]. now rewrite Dv1, Dv2.
        + cbn [with_leaf] in Ew. rewrite Ev1, Ev2, Pt in Ew. change (Plain (ty_leaf t)) with (plain_output t) in Ew', Ny.
          rewrite Ew' in Ew. injection Ew as ->.
          exists y, y'. split; [|exact CRy].
          apply (near_impl2 _ _ _) with (2 := near_and _ _ N1 N2) (3 := Ny). intros h ((A & B) & (A2 & B2)) (A' & B').
          cbn [with_leaf]. rewrite A, B, A2, B2, Pt, A', B'. auto.
    Qed.
  End WithLeaf.
End Eps.
