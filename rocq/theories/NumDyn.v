(** Second-order agreement of curves through evaluation with an offset of expressions that
    are not prepared, and expansion of proxies in it. *)

From Coq Require Import Reals Lra Lia List Bool Arith Classical.
From Verif Require Import Mat ModelMeta ModelJac V3 ModelLeaf SpecLeaf LeafProofs ModelExpr SpecExpr
  ExprProofs PropsExpr Calc SpecDeriv DerivProofs DerivTree PropsDeriv ModelCompound ModelNum SpecNum
  NumProofs NumLimit PropsNum NumLip NumVal NumTree NumStep ModelDyn SpecDyn DynProofs ModelNumDyn.
Import ListNotations.
Local Open Scope R_scope.

Lemma un_kind_leaf o t1 t k1 k : ty_kind t1 = k1 -> kind_un o k1 = Some k -> ty_kind t = k ->
  ekind (XUn o (XLeaf 0 (plain_output t1))) = Some (kind_of (ty_leaf t)).
Proof. intros <- H <-. exact H. Qed.
Lemma bin_kind_leaf o t1 t2 t k1 k2 k : ty_kind t1 = k1 -> ty_kind t2 = k2 -> kind_bin o k1 k2 = Some k ->
  ty_kind t = k ->
  ekind (XBin o (XLeaf 0 (plain_output t1)) (XLeaf 1 (plain_output t2))) = Some (kind_of (ty_leaf t)).
Proof. intros <- <- H <-. exact H. Qed.

Section Eps.
  Variable eps : R.
  Hypothesis He : 0 < eps.

  (** [dwith_delta] with given (plain) values for the leaves, operations evaluated by
      [ev]. *)
  Section Ev.
    Variable ev : ty -> env -> expr -> option value.
    Fixpoint uw (lv : env) (e : expr) : option (value * ty) :=
      match e with
      | XLeaf b t => Some (lv b, t)
      | XUn o e1 =>
          match uw lv e1, prepare (XUn o e1) with
          | Some (v, t), Some (_, r) =>
              option_map (fun w => (w, r)) (ev (plain_output r) (fun _ => v) (XUn o (XLeaf 0 (plain_output t))))
          | _, _ => None
          end
      | XBin o e1 e2 =>
          match uw lv e1, uw lv e2, prepare (XBin o e1 e2) with
          | Some (v1, t1), Some (v2, t2), Some (_, r) =>
              option_map (fun w => (w, r)) (ev (plain_output r) (two_leaves v1 v2)
                (XBin o (XLeaf 0 (plain_output t1)) (XLeaf 1 (plain_output t2))))
          | _, _, _ => None
          end
      end.

    Lemma uw_ext lv lv' e : (forall b, In b (leaf_addrs e) -> lv b = lv' b) -> uw lv e = uw lv' e.
    Proof.
      induction e as [b t|o e IH|o e1 IH1 e2 IH2]; cbn [uw leaf_addrs]; intros H.
      - rewrite H; [reflexivity|now left].
      - now rewrite IH.
      - rewrite IH1, IH2; [reflexivity| |]; intros b Hb; apply H, in_or_app; auto.
    Qed.

    Lemma uw_type lv e : forall v t, uw lv e = Some (v, t) -> exists p, prepare e = Some (p, t).
    Proof.
      destruct e as [b t0|o e|o e1 e2]; intros v t H.
      - cbn in *. injection H as <- <-. eauto.
      - cbn [uw] in H. destruct (uw lv e) as [[v1 t1]|]; [|discriminate].
        destruct (prepare (XUn o e)) as [[p r]|]; [|discriminate].
        destruct (ev _ _ _); [|discriminate]. cbn in H. injection H as _ <-. eauto.
      - cbn [uw] in H. destruct (uw lv e1) as [[v1 t1]|]; [|discriminate].
        destruct (uw lv e2) as [[v2 t2]|]; [|discriminate].
        destruct (prepare (XBin o e1 e2)) as [[p r]|]; [|discriminate].
        destruct (ev _ _ _); [|discriminate]. cbn in H. injection H as _ <-. eauto.
    Qed.
  End Ev.
  Notation uw_x := (uw (evaluateTo_x eps)).
  Notation uw_c := (uw (evaluateTo eps)).

  (** The leaves have valid values of their plain types. *)
  Fixpoint penv (lv : env) (e : expr) : Prop :=
    match e with
    | XLeaf b t => wf_ty t = true /\ vty (lv b) = plain_output t /\ valid (lv b)
    | XUn _ e => penv lv e
    | XBin _ l r => penv lv l /\ penv lv r
    end.

  Lemma uw_ok lv e : forall p t k d, prepare e = Some (p, t) -> ekind e = Some k -> penv lv e ->
    deval eps (fun b => den (lv b)) e = Some d ->
    exists w, uw_x lv e = Some (w, t) /\ den w = d /\ valid w /\ vty w = plain_output t.
  Proof.
    induction e as [b t0|o e IH|o e1 IH1 e2 IH2]; intros p t k d Hp K E D.
    - cbn in Hp, D. injection Hp as <- <-. injection D as <-. destruct E as (_ & T & V). exists (lv b). auto.
    - destruct (prepare_kind _ _ _ _ Hp K) as (W & Kt).
      cbn [ekind] in K. destruct (ekind e) as [k1|] eqn:K1; [|discriminate].
      destruct (prepare_total e k1 K1) as (p1 & t1 & P1 & W1 & Kt1).
      cbn [deval] in D. destruct (deval eps (fun b => den (lv b)) e) as [d1|] eqn:D1; [|discriminate].
      destruct (IH p1 t1 k1 d1 P1 eq_refl E eq_refl) as (w & Ew & Dw & Vw & Tw).
      cbn [uw]. rewrite Ew, Hp.
      assert (S : sound (evaluateTo_x eps (plain_output t) (fun _ => w) (XUn o (XLeaf 0 (plain_output t1))))
                    (Some d) (plain_output t)).
      { rewrite <- D, <- Dw.
        apply (evaluateTo_x_sound eps He (fun _ => w) (XUn o (XLeaf 0%nat (plain_output t1))) (ty_leaf t)).
        - exact (un_kind_leaf o t1 t k1 k Kt1 K Kt).
        - split; assumption. }
      destruct (sound_value _ _ _ S) as (z & Ez & Dz & Tz & Vz). rewrite Ez. cbn. exists z. auto.
    - destruct (prepare_kind _ _ _ _ Hp K) as (W & Kt).
      cbn [ekind] in K. destruct (ekind e1) as [k1|] eqn:K1; [|discriminate].
      destruct (ekind e2) as [k2|] eqn:K2; [|discriminate].
      destruct (prepare_total e1 k1 K1) as (p1 & t1 & P1 & W1 & Kt1).
      destruct (prepare_total e2 k2 K2) as (p2 & t2 & P2 & W2 & Kt2).
      cbn [deval] in D. destruct (deval eps (fun b => den (lv b)) e1) as [d1|] eqn:D1; [|discriminate].
      destruct (deval eps (fun b => den (lv b)) e2) as [d2|] eqn:D2; [|discriminate].
      destruct E as (E1 & E2).
      destruct (IH1 p1 t1 k1 d1 P1 eq_refl E1 eq_refl) as (w1 & Ew1 & Dw1 & Vw1 & Tw1).
      destruct (IH2 p2 t2 k2 d2 P2 eq_refl E2 eq_refl) as (w2 & Ew2 & Dw2 & Vw2 & Tw2).
      cbn [uw]. rewrite Ew1, Ew2, Hp.
      assert (S : sound (evaluateTo_x eps (plain_output t) (two_leaves w1 w2)
                   (XBin o (XLeaf 0 (plain_output t1)) (XLeaf 1 (plain_output t2))))
                    (Some d) (plain_output t)).
      { rewrite <- D, <- Dw1, <- Dw2.
        apply (evaluateTo_x_sound eps He (two_leaves w1 w2)
          (XBin o (XLeaf 0%nat (plain_output t1)) (XLeaf 1%nat (plain_output t2))) (ty_leaf t)).
        - exact (bin_kind_leaf o t1 t2 t k1 k2 k Kt1 Kt2 K Kt).
        - split; split; assumption. }
      destruct (sound_value _ _ _ S) as (z & Ez & Dz & Tz & Vz). rewrite Ez. cbn. exists z. auto.
  Qed.

  (** Where all exponentials are exact the library's evaluation is the exact one. *)
  Lemma uw_static lv e : ekind e <> None -> penv lv e ->
    exps_exact eps (fun b => den (lv b)) e -> deval eps (fun b => den (lv b)) e <> None ->
    uw_c lv e = uw_x lv e.
  Proof.
    induction e as [b t0|o e IH|o e1 IH1 e2 IH2]; intros K E X D.
    - reflexivity.
    - destruct (ekind (XUn o e)) as [k|] eqn:Ko; [|now elim K].
      destruct (prepare_total _ k Ko) as (p & t & P & W & Kt).
      cbn [ekind] in Ko. destruct (ekind e) as [k1|] eqn:K1; [|discriminate].
      destruct (prepare_total e k1 K1) as (p1 & t1 & P1 & W1 & Kt1).
      cbn [deval] in D. destruct (deval eps (fun b => den (lv b)) e) as [d1|] eqn:D1; [|now elim D].
      destruct X as (X & Xe). cbn [uw]. rewrite IH by (auto; discriminate).
      destruct (uw_ok lv e p1 t1 k1 d1 P1 K1 E D1) as (w & Ew & Dw & Vw & Tw).
      rewrite Ew, P. apply f_equal. symmetry. apply evaluateTo_x_exact; auto.
      + exact (un_kind_leaf o t1 t k1 k Kt1 Ko Kt).
      + split; assumption.
      + cbn [exps_exact deval]. split; [exact I|]. destruct o; try exact I. intros y [= <-]. apply Xe. congruence.
    - destruct (ekind (XBin o e1 e2)) as [k|] eqn:Ko; [|now elim K].
      destruct (prepare_total _ k Ko) as (p & t & P & W & Kt).
      cbn [ekind] in Ko. destruct (ekind e1) as [k1|] eqn:K1; [|discriminate].
      destruct (ekind e2) as [k2|] eqn:K2; [|discriminate].
      destruct (prepare_total e1 k1 K1) as (p1 & t1 & P1 & W1 & Kt1).
      destruct (prepare_total e2 k2 K2) as (p2 & t2 & P2 & W2 & Kt2).
      cbn [deval] in D. destruct (deval eps (fun b => den (lv b)) e1) as [d1|] eqn:D1; [|now elim D].
      destruct (deval eps (fun b => den (lv b)) e2) as [d2|] eqn:D2; [|now elim D].
      destruct X as (X1 & X2), E as (E1 & E2). cbn [uw]. rewrite IH1, IH2 by (auto; discriminate).
      destruct (uw_ok lv e1 p1 t1 k1 d1 P1 K1 E1 D1) as (w1 & Ew1 & Dw1 & Vw1 & Tw1).
      destruct (uw_ok lv e2 p2 t2 k2 d2 P2 K2 E2 D2) as (w2 & Ew2 & Dw2 & Vw2 & Tw2).
      rewrite Ew1, Ew2, P. apply f_equal. symmetry. apply evaluateTo_x_exact; auto.
      + exact (bin_kind_leaf o t1 t2 t k1 k2 k Kt1 Kt2 Ko Kt).
      + split; split; assumption.
      + split; exact I.
  Qed.

  Section Curves.
    (** The displaced leaf [a] along the exact and the computed curve. *)
    Variables (mu : env) (a : nat) (c c' : R -> value).
    Hypothesis Cc : CR (mu a) c c'.
    Hypothesis Vc : near (fun h => valid (c h)).

    Lemma upd_penv e x : vty x = vty (mu a) -> valid x -> penv mu e -> penv (upd mu a x) e.
    Proof.
      intros T V. induction e as [b t|o e IH|o e1 IH1 e2 IH2]; cbn; [|auto|intuition].
      intros (W & Tb & Vb). unfold upd. destruct (Nat.eqb_spec b a) as [->|]; [|auto].
      split; [exact W|]. split; [congruence|exact V].
    Qed.

    Lemma uw_away ev x e : ~ In a (leaf_addrs e) -> uw ev (upd mu a x) e = uw ev mu e.
    Proof.
      intros N. apply uw_ext. intros b Hb. unfold upd. destruct (Nat.eqb_spec b a) as [->|]; [contradiction|reflexivity].
    Qed.

    Lemma CR_uw e : forall p t k d0, prepare e = Some (p, t) -> ekind e = Some k -> penv mu e ->
      exps_exact eps (fun b => den (mu b)) e ->
      near (fun h => deval eps (fun b => den (upd mu a (c h) b)) e <> None) ->
      conds eps (fun b => b = a) (fun b => den (mu b)) e ->
      deval eps (fun b => den (mu b)) e = Some d0 ->
      exists w, uw_x mu e = Some (w, t) /\ den w = d0 /\ valid w /\ vty w = plain_output t /\
        exists x x', near (fun h => uw_x (upd mu a (c h)) e = Some (x h, t) /\ uw_c (upd mu a (c' h)) e = Some (x' h, t)) /\
          near (fun h => valid (x h)) /\ CR w x x'.
    Proof.
      assert (Tc : near (fun h => vty (c h) = vty (mu a))).
      { destruct Cc as (T & _). exact (near_impl _ _ (fun h a => proj1 a) T). }
      assert (Ok : forall e p t k, prepare e = Some (p, t) -> ekind e = Some k -> penv mu e ->
        near (fun h => deval eps (fun b => den (upd mu a (c h) b)) e <> None) ->
        near (fun h => exists z, uw_x (upd mu a (c h)) e = Some (z, t) /\ valid z /\ vty z = plain_output t)).
      { intros e0 p t k P K E N.
        apply (near_impl2 _ _ _) with (2 := near_and _ _ Vc Tc) (3 := N).
        intros h (Vh & Th) Dh.
        destruct (deval eps (fun b => den (upd mu a (c h) b)) e0) as [d|] eqn:D; [|contradiction].
        destruct (uw_ok (upd mu a (c h)) e0 p t k d P K (upd_penv _ _ Th Vh E) D) as (z & Ez & Dz & Vz & Tz).
        exists z. auto. }
      assert (Fin : forall e p t k w, prepare e = Some (p, t) -> ekind e = Some k -> penv mu e ->
        near (fun h => deval eps (fun b => den (upd mu a (c h) b)) e <> None) ->
        (exists x x', near (fun h => uw_x (upd mu a (c h)) e = Some (x h, t) /\ uw_c (upd mu a (c' h)) e = Some (x' h, t)) /\ CR w x x') ->
        exists x x', near (fun h => uw_x (upd mu a (c h)) e = Some (x h, t) /\ uw_c (upd mu a (c' h)) e = Some (x' h, t)) /\
          near (fun h => valid (x h)) /\ CR w x x').
      { intros e0 p t k w P K E N (x & x' & Nn & C). exists x, x'. split; [exact Nn|]. split; [|exact C].
        apply (near_impl2 _ _ _) with (2 := Ok e0 p t k P K E N) (3 := Nn).
        intros h (z & Ez & Vz & _) (Wh & _). rewrite Wh in Ez. injection Ez as ->. exact Vz. }
      induction e as [b t0|o e IH|o e1 IH1 e2 IH2]; intros p t k d0 P K E X Nd Cd D;
        destruct (uw_ok mu _ p t k d0 P K E D) as (w & Ew & Dw & Vw & Tw);
        exists w; repeat (split; [assumption|]); apply (Fin _ p t k w P K E Nd).
      - cbn in P. injection P as <- <-. cbn in Ew. injection Ew as <-. cbn [uw]. unfold upd.
        destruct (Nat.eqb_spec b a) as [->|].
        + exists c, c'. split; [apply near_all; auto|exact Cc].
        + exists (fun _ => mu b), (fun _ => mu b). split; [apply near_all; auto|apply CR_const].
      - destruct (List.in_dec Nat.eq_dec a (leaf_addrs e)) as [Ia|Ia].
        2:{ exists (fun _ => w), (fun _ => w). split; [|apply CR_const]. apply near_all. intros h.
            rewrite !uw_away by exact Ia.
            rewrite (uw_static mu (XUn o e) ltac:(congruence) E X ltac:(congruence)). auto. }
        destruct (prepare_kind _ _ _ _ P K) as (W & Kt).
        cbn [ekind] in K. destruct (ekind e) as [k1|] eqn:K1; [|discriminate].
        destruct (prepare_total e k1 K1) as (p1 & t1 & P1 & W1 & Kt1).
        cbn [deval] in D. destruct (deval eps (fun b => den (mu b)) e) as [d1|] eqn:D1; [|discriminate].
        destruct X as (X1 & Xe). destruct Cd as (Cd & Co).
        assert (Nd1 : near (fun h => deval eps (fun b => den (upd mu a (c h) b)) e <> None)).
        { apply (near_impl _ _) with (2 := Nd). intros h Hd Hn. apply Hd. cbn [deval]. now rewrite Hn. }
        destruct (IH p1 t1 k1 d1 P1 eq_refl E X1 Nd1 Cd eq_refl)
          as (v & Ev & Dv & Vv & Tv & x & x' & N & Nv & CRv).
        pose proof (Ok e p1 t1 k1 P1 K1 E Nd1) as Oke.
        destruct (CR_evaluateTo eps He (fun _ => v) (fun h _ => x h) (fun h _ => x' h)
                    (XUn o (XLeaf 0%nat (plain_output t1))) (ty_leaf t) d0) as (w' & Ew' & _ & _ & _ & y & y' & Ny & _ & CRy).
        + exact (un_kind_leaf o t1 t k1 k Kt1 K Kt).
        + split; assumption.
        + apply (near_impl2 _ _ _) with (2 := Oke) (3 := N). intros h (z & Ez & Vz & Tz) (Wh & _).
          rewrite Wh in Ez. injection Ez as ->. split; assumption.
        + intros b _. exact CRv.
        + cbn [exps_exact deval]. split; [exact I|]. destruct o; try exact I. intros y [= <-]. apply Xe. congruence.
        + cbn [conds deval]. split; [exact I|]. intros _ d [= <-]. rewrite Dv. apply Co; [exists a; auto|exact D1].
        + cbn [deval]. now rewrite Dv.
        + cbn [uw] in Ew. rewrite Ev, P in Ew. change (Plain (ty_leaf t)) with (plain_output t) in Ew', Ny.
          rewrite Ew' in Ew. injection Ew as ->.
          exists y, y'. split; [|exact CRy].
          apply (near_impl2 _ _ _) with (2 := N) (3 := Ny). intros h (A & B) (A' & B').
          cbn [uw]. rewrite A, B, P, A', B'. auto.
      - destruct (prepare_kind _ _ _ _ P K) as (W & Kt).
        cbn [ekind] in K. destruct (ekind e1) as [k1|] eqn:K1; [|discriminate].
        destruct (ekind e2) as [k2|] eqn:K2; [|discriminate].
        destruct (prepare_total e1 k1 K1) as (p1 & t1 & P1 & W1 & Kt1).
        destruct (prepare_total e2 k2 K2) as (p2 & t2 & P2 & W2 & Kt2).
        cbn [deval] in D. destruct (deval eps (fun b => den (mu b)) e1) as [d1|] eqn:D1; [|discriminate].
        destruct (deval eps (fun b => den (mu b)) e2) as [d2|] eqn:D2; [|discriminate].
        destruct X as (X1 & X2), Cd as (Cd1 & Cd2), E as (E1 & E2).
        assert (Nd1 : near (fun h => deval eps (fun b => den (upd mu a (c h) b)) e1 <> None)).
        { apply (near_impl _ _) with (2 := Nd). intros h Hd Hn. apply Hd. cbn [deval]. now rewrite Hn. }
        assert (Nd2 : near (fun h => deval eps (fun b => den (upd mu a (c h) b)) e2 <> None)).
        { apply (near_impl _ _) with (2 := Nd). intros h Hd Hn. apply Hd. cbn [deval]. rewrite Hn.
          now destruct (deval eps (fun b => den (upd mu a (c h) b)) e1). }
        destruct (IH1 p1 t1 k1 d1 P1 eq_refl E1 X1 Nd1 Cd1 eq_refl)
          as (v1 & Ev1 & Dv1 & Vv1 & Tv1 & x1 & x1' & N1 & Nv1 & CR1).
        destruct (IH2 p2 t2 k2 d2 P2 eq_refl E2 X2 Nd2 Cd2 eq_refl)
          as (v2 & Ev2 & Dv2 & Vv2 & Tv2 & x2 & x2' & N2 & Nv2 & CR2).
        pose proof (Ok e1 p1 t1 k1 P1 K1 E1 Nd1) as Ok1. pose proof (Ok e2 p2 t2 k2 P2 K2 E2 Nd2) as Ok2.
        destruct (CR_evaluateTo eps He (two_leaves v1 v2) (fun h => two_leaves (x1 h) (x2 h)) (fun h => two_leaves (x1' h) (x2' h))
                    (XBin o (XLeaf 0%nat (plain_output t1)) (XLeaf 1%nat (plain_output t2))) (ty_leaf t) d0)
          as (w' & Ew' & _ & _ & _ & y & y' & Ny & _ & CRy).
        + exact (bin_kind_leaf o t1 t2 t k1 k2 k Kt1 Kt2 K Kt).
        + split; split; assumption.
        + apply (near_impl2 _ _ _) with (2 := near_and _ _ Ok1 Ok2) (3 := near_and _ _ N1 N2).
          intros h ((z & Ez & Vz & Tz) & (z' & Ez' & Vz' & Tz')) ((Wh & _) & (Wh' & _)).
          rewrite Wh in Ez. injection Ez as ->. rewrite Wh' in Ez'. injection Ez' as ->. split; split; assumption.
        + intros b [<-|[<-|[]]]; assumption.
        + split; exact I.
        + split; exact I.
        + cbn [deval two_leaves]. now rewrite Dv1, Dv2.
        + cbn [uw] in Ew. rewrite Ev1, Ev2, P in Ew. change (Plain (ty_leaf t)) with (plain_output t) in Ew', Ny.
          rewrite Ew' in Ew. injection Ew as ->.
          exists y, y'. split; [|exact CRy].
          apply (near_impl2 _ _ _) with (2 := near_and _ _ N1 N2) (3 := Ny). intros h ((A & B) & (A2 & B2)) (A' & B').
          cbn [uw]. rewrite A, B, A2, B2, P, A', B'. auto.
    Qed.
  End Curves.
End Eps.

(** *** Preparing an expression inserts conversions *)

(** An operand, possibly converted. *)
Definition adj (t t' : ty) (p p' : expr) : Prop :=
  (t' = t /\ p' = p) \/ (can_convert t t' = true /\ p' = xconvert t' p).

Lemma prepare_un_inv o e p t : prepare (XUn o e) = Some (p, t) -> exists p1 t1 p1' t1',
  prepare e = Some (p1, t1) /\ adj t1 t1' p1 p1' /\ p = XUn o p1' /\ ty_un o t1' = Some t.
Proof.
  cbn [prepare]. destruct (prepare e) as [[p1 t1]|]; [|discriminate]. unfold choose_unary.
  destruct (is_some (ty_un o t1)).
  - destruct (ty_un o t1) eqn:T; [|discriminate]. intros [= <- <-].
    exists p1, t1, p1, t1. unfold adj. auto.
  - destruct (first_true _ _) as [t1'|] eqn:F; [|discriminate]. apply first_true_some in F as (F & _).
    apply andb_prop in F as (F & _). destruct (ty_un o t1') eqn:T; [|discriminate]. intros [= <- <-].
    exists p1, t1, (xconvert t1' p1), t1'. unfold adj. auto.
Qed.

Lemma prepare_bin_inv o l r p t : prepare (XBin o l r) = Some (p, t) -> exists p1 t1 p1' t1' p2 t2 p2' t2',
  prepare l = Some (p1, t1) /\ prepare r = Some (p2, t2) /\ adj t1 t1' p1 p1' /\ adj t2 t2' p2 p2' /\
  p = XBin o p1' p2' /\ ty_bin o t1' t2' = Some t.
Proof.
  cbn [prepare]. destruct (prepare l) as [[p1 t1]|]; [|discriminate].
  destruct (prepare r) as [[p2 t2]|]; [|discriminate]. unfold choose_binary.
  destruct (is_some (ty_bin o t1 t2)).
  { destruct (ty_bin o t1 t2) eqn:T; [|discriminate]. intros [= <- <-].
    exists p1, t1, p1, t1, p2, t2, p2, t2. unfold adj. auto 10. }
  destruct (first_true _ (convert_to t2)) as [t2'|] eqn:F.
  { apply first_true_some in F as (F & _). apply andb_prop in F as (F & _).
    destruct (ty_bin o t1 t2') eqn:T; [|discriminate]. intros [= <- <-].
    exists p1, t1, p1, t1, p2, t2, (xconvert t2' p2), t2'. unfold adj. auto 10. }
  destruct (first_true _ (convert_to t1)) as [t1'|] eqn:F1.
  { apply first_true_some in F1 as (F1 & _). apply andb_prop in F1 as (F1 & _).
    destruct (ty_bin o t1' t2) eqn:T; [|discriminate]. intros [= <- <-].
    exists p1, t1, (xconvert t1' p1), t1', p2, t2, p2, t2. unfold adj. auto 10. }
  destruct (first_true _ (cartesian _ _)) as [[t1' t2']|] eqn:F2; [|discriminate].
  apply first_true_some in F2 as (F2 & _). apply andb_prop in F2 as (F2 & _).
  apply andb_prop in F2 as (F2 & F3). cbn [fst snd] in *.
  destruct (ty_bin o t1' t2') eqn:T; [|discriminate]. intros [= <- <-].
  exists p1, t1, (xconvert t1' p1), t1', p2, t2, (xconvert t2' p2), t2'. unfold adj. auto 10.
Qed.

Lemma adj_pty t t' p p' : adj t t' p p' -> pty p = Some t -> pty p' = Some t'.
Proof.
  intros [(-> & ->)|(C & ->)]; [auto|]. intros P. destruct (can_convert_inv _ _ C) as (l & -> & T).
  cbn [xconvert pty]. now rewrite P.
Qed.

Lemma prepare_pty e : forall p t, prepare e = Some (p, t) -> pty p = Some t.
Proof.
  induction e as [a t0|o e IH|o l IHl r IHr]; intros p t H.
  - cbn in *. now injection H as <- <-.
  - destruct (prepare_un_inv _ _ _ _ H) as (p1 & t1 & p1' & t1' & P & A & -> & T).
    cbn [pty]. rewrite (adj_pty _ _ _ _ A (IH _ _ P)). exact T.
  - destruct (prepare_bin_inv _ _ _ _ _ H) as (p1 & t1 & p1' & t1' & p2 & t2 & p2' & t2' & P1 & P2 & A1 & A2 & -> & T).
    cbn [pty]. rewrite (adj_pty _ _ _ _ A1 (IHl _ _ P1)), (adj_pty _ _ _ _ A2 (IHr _ _ P2)). exact T.
Qed.

(** A prepared expression needs no further conversions. *)
Lemma pty_prepare p : forall t, pty p = Some t -> prepare p = Some (p, t).
Proof.
  induction p as [a t0|o p IH|o p IHp q IHq]; intros t H; cbn [pty] in H.
  - injection H as ->. reflexivity.
  - destruct (pty p) as [t1|]; [|discriminate]. cbn [prepare]. rewrite (IH t1 eq_refl). unfold choose_unary.
    rewrite H. reflexivity.
  - destruct (pty p) as [t1|]; [|discriminate]. destruct (pty q) as [t2|]; [|discriminate].
    cbn [prepare]. rewrite (IHp t1 eq_refl), (IHq t2 eq_refl). unfold choose_binary.
    rewrite H. reflexivity.
Qed.

(** [cv e q]: [q] is [e] with conversions between representations inserted. *)
Inductive cv : expr -> expr -> Prop :=
| cv_refl e : cv e e
| cv_un o e q : cv e q -> cv (XUn o e) (XUn o q)
| cv_bin o e q e' q' : cv e q -> cv e' q' -> cv (XBin o e e') (XBin o q q')
| cv_conv l e : ekind e = Some (kind_of l) -> cv e (XUn (OConvert l) e)
| cv_trans e q r : cv e q -> cv q r -> cv e r.

Lemma kind_eqb_refl k : kind_eqb k k = true.
Proof. now apply kind_eqb_eq. Qed.

Lemma cv_kind e q : cv e q -> ekind q = ekind e.
Proof.
  induction 1 as [e|o e q _ IH|o e q e' q' _ IH _ IH'|l e K|e q r _ IH _ IH']; cbn [ekind]; try congruence.
  - now rewrite IH.
  - now rewrite IH, IH'.
  - rewrite K. cbn. now rewrite kind_eqb_refl.
Qed.
Lemma cv_addrs e q : cv e q -> leaf_addrs q = leaf_addrs e.
Proof.
  induction 1 as [e|o e q _ IH|o e q e' q' _ IH _ IH'|l e K|e q r _ IH _ IH']; cbn [leaf_addrs]; try congruence.
Qed.
Lemma cv_env m e q : cv e q -> env_ok m e -> env_ok m q.
Proof.
  induction 1 as [e|o e q _ IH|o e q e' q' _ IH _ IH'|l e K|e q r _ IH _ IH']; cbn [env_ok]; intuition.
Qed.

Section Cv.
  Variable eps : R.
  Hypothesis He : 0 < eps.

  Lemma deval_kind m e k d : ekind e = Some k -> env_ok m e -> deval eps (fun a => den (m a)) e = Some d -> dkind d = k.
  Proof.
    intros K E D. destruct (prepare_total e k K) as (p & t & P & W & Kt). rewrite <- Kt.
    destruct (prepare_preparedx eps He m e p t k P K E) as (_ & Px). exact (preparedx_kind eps He m e p t d Px D).
  Qed.

  Lemma cv_deval m e q : cv e q -> ekind e <> None -> env_ok m e ->
    deval eps (fun a => den (m a)) q = deval eps (fun a => den (m a)) e.
  Proof.
    induction 1 as [e|o e q _ IH|o e q e' q' _ IH _ IH'|l e K|e q r C IH C' IH']; intros Hk E.
    - reflexivity.
    - cbn [ekind] in Hk. destruct (ekind e) eqn:Ke; [|now elim Hk]. cbn [deval]. now rewrite IH.
    - cbn [ekind] in Hk. destruct (ekind e) eqn:Ke; [|now elim Hk]. destruct (ekind e') eqn:Ke'; [|now elim Hk].
      destruct E as (E & E'). cbn [deval]. rewrite IH, IH'; auto; discriminate.
    - cbn [deval]. destruct (deval eps (fun a => den (m a)) e) as [d|] eqn:D; [|reflexivity].
      cbn [dsem_un]. rewrite (deval_kind m e _ d K E D), kind_eqb_refl. reflexivity.
    - rewrite IH', IH; auto; [now rewrite (cv_kind _ _ C)|now apply (cv_env m e)].
  Qed.

  Lemma cv_exps m e q : cv e q -> ekind e <> None -> env_ok m e ->
    exps_exact eps (fun a => den (m a)) e -> exps_exact eps (fun a => den (m a)) q.
  Proof.
    induction 1 as [e|o e q C IH|o e q e' q' _ IH _ IH'|l e K|e q r C IH C' IH']; intros Hk E X.
    - exact X.
    - cbn [ekind] in Hk. destruct (ekind e) eqn:Ke; [|now elim Hk]. destruct X as (X & Xe).
      cbn [exps_exact]. split; [apply IH; auto; discriminate|].
      rewrite (cv_deval m e q C); [exact Xe|congruence|exact E].
    - cbn [ekind] in Hk. destruct (ekind e) eqn:Ke; [|now elim Hk]. destruct (ekind e') eqn:Ke'; [|now elim Hk].
      destruct E as (E & E'), X as (X & X'). split; [apply IH|apply IH']; auto; discriminate.
    - split; [exact X|exact I].
    - apply IH'; [now rewrite (cv_kind _ _ C)|now apply (cv_env m e)|now apply IH].
  Qed.

  Lemma cv_conds A m e q : cv e q -> ekind e <> None -> env_ok m e ->
    conds eps A (fun a => den (m a)) e -> conds eps A (fun a => den (m a)) q.
  Proof.
    induction 1 as [e|o e q C IH|o e q e' q' _ IH _ IH'|l e K|e q r C IH C' IH']; intros Hk E X.
    - exact X.
    - cbn [ekind] in Hk. destruct (ekind e) eqn:Ke; [|now elim Hk]. destruct X as (X & Xe).
      cbn [conds]. split; [apply IH; auto; discriminate|].
      rewrite (cv_addrs e q C), (cv_deval m e q C); [exact Xe|congruence|exact E].
    - cbn [ekind] in Hk. destruct (ekind e) eqn:Ke; [|now elim Hk]. destruct (ekind e') eqn:Ke'; [|now elim Hk].
      destruct E as (E & E'), X as (X & X'). split; [apply IH|apply IH']; auto; discriminate.
    - split; [exact X|]. intros; exact I.
    - apply IH'; [now rewrite (cv_kind _ _ C)|now apply (cv_env m e)|now apply IH].
  Qed.
End Cv.

(** The prepared outline with the operands of its proxies put in as they are. *)
Lemma xp_prepared s stop e0 e : xp s stop e0 e -> forall p0 t k, prepare e0 = Some (p0, t) -> ekind e = Some k ->
  exists q, xp s stop p0 q /\ cv e q.
Proof.
  assert (Adj : forall e0 e p0 t k p0' t' q, xp s stop e0 e -> prepare e0 = Some (p0, t) -> ekind e = Some k ->
    xp s stop p0 q -> cv e q -> adj t t' p0 p0' -> exists q', xp s stop p0' q' /\ cv e q').
  { intros e0' e' p0 t k p0' t' q X P K Xq C [(-> & ->)|(Cc & ->)]; [eauto|].
    destruct (can_convert_inv _ _ Cc) as (l & -> & T). cbn [xconvert].
    exists (XUn (OConvert l) q). split; [now constructor|]. eapply cv_trans; [exact C|]. apply cv_conv.
    rewrite (cv_kind _ _ C). pose proof (prepare_xp _ _ _ _ X) as R. rewrite P in R. unfold rel_prep in R.
    destruct (prepare e') as [[p' u]|] eqn:P'; [|contradiction]. destruct R as (<- & _).
    destruct (prepare_kind _ _ _ _ P' K) as (W & Kt). destruct (ty_un_kind _ _ _ W T) as (_ & Ku).
    cbn in Ku. destruct (kind_eqb (kind_of l) (ty_kind t)) eqn:Q; [|discriminate].
    apply kind_eqb_eq in Q. now rewrite K, Q, Kt. }
  induction 1 as [a t0 H|d n l S H|d n l f e0 e S H O X IH T|o e0 e X IH|o a0 a b0 b X1 IH1 X2 IH2];
    intros p0 t k P K.
  - cbn in P. injection P as <- <-. eexists. split; [now constructor|constructor].
  - cbn in P. injection P as <- <-. eexists. split; [eapply xp_stop; eauto|constructor].
  - cbn in P. injection P as <- <-. exists e. split; [eapply xp_proxy; eauto|constructor].
  - destruct (prepare_un_inv _ _ _ _ P) as (p1 & t1 & p1' & t1' & P1 & A & -> & T).
    cbn [ekind] in K. destruct (ekind e) as [k1|] eqn:Ke; [|discriminate].
    destruct (IH p1 t1 k1 P1 eq_refl) as (q & Xq & Cq).
    destruct (Adj e0 e p1 t1 k1 p1' t1' q X P1 Ke Xq Cq A) as (q' & Xq' & Cq').
    exists (XUn o q'). split; now constructor.
  - destruct (prepare_bin_inv _ _ _ _ _ P) as (p1 & t1 & p1' & t1' & p2 & t2 & p2' & t2' & P1 & P2 & A1 & A2 & -> & T).
    cbn [ekind] in K. destruct (ekind a) as [k1|] eqn:Ke1; [|discriminate]. destruct (ekind b) as [k2|] eqn:Ke2; [|discriminate].
    destruct (IH1 p1 t1 k1 P1 eq_refl) as (q1 & Xq1 & Cq1). destruct (IH2 p2 t2 k2 P2 eq_refl) as (q2 & Xq2 & Cq2).
    destruct (Adj a0 a p1 t1 k1 p1' t1' q1 X1 P1 Ke1 Xq1 Cq1 A1) as (q1' & Xq1' & Cq1').
    destruct (Adj b0 b p2 t2 k2 p2' t2' q2 X2 P2 Ke2 Xq2 Cq2 A2) as (q2' & Xq2' & Cq2').
    exists (XBin o q1' q2'). split; now constructor.
Qed.

Lemma xp_prepared_to s stop e0 e p0 l k : xp s stop e0 e -> prepare_to (Plain l) e0 = Some (p0, Plain l) ->
  ekind e = Some k -> kind_of l = k ->
  exists q p, xp s stop p0 q /\ cv e q /\ prepare q = Some (p, Plain l).
Proof.
  intros X P K Kl.
  assert (exists e1 e1', prepare e1 = Some (p0, Plain l) /\ xp s stop e1 e1' /\ cv e e1') as (e1 & e1' & P1 & X1 & C1).
  { unfold prepare_to in P. destruct (prepare e0) as [[p1 t1]|] eqn:P1; [|discriminate].
    destruct (ty_eqb (Plain l) t1) eqn:Q.
    - injection P as -> ->. exists e0, e. split; [exact P1|]. split; [exact X|constructor].
    - exists (XUn (OConvert l) e0), (XUn (OConvert l) e). split; [exact P|]. split; [now constructor|].
      apply cv_conv. congruence. }
  destruct (xp_prepared _ _ _ _ X1 _ _ k P1) as (q & Xq & Cq); [now rewrite (cv_kind _ _ C1)|].
  pose proof (prepare_xp _ _ _ _ Xq) as R. rewrite (pty_prepare p0 (Plain l) (prepare_pty _ _ _ P1)) in R.
  unfold rel_prep in R. destruct (prepare q) as [[p u]|] eqn:Pq; [|contradiction]. destruct R as (<- & _).
  exists q, p. split; [exact Xq|]. split; [eapply cv_trans; eauto|exact Pq].
Qed.

(** *** Proxies *)

(** [xp] with a bound on the number of proxies followed one behind the other. *)
Inductive xph (s : state) (stop : nat -> bool) : nat -> expr -> expr -> Prop :=
| xph_leaf k a t : is_dyn s a = false -> xph s stop k (XLeaf a t) (XLeaf a t)
| xph_stop k d n l : stop d = true -> objs s d = Some (ODyn n l) ->
    xph s stop k (XLeaf d (Plain l)) (XLeaf d (Plain l))
| xph_proxy k d n l f e0 e : stop d = false -> objs s d = Some (ODyn n l) ->
    outline f s n = Some e0 -> xp s stop e0 e -> xph s stop k e0 e -> evaluates_as e (Plain l) ->
    xph s stop (S k) (XLeaf d (Plain l)) e
| xph_un k o e0 e : xp s stop e0 e -> xph s stop k e0 e -> xph s stop k (XUn o e0) (XUn o e)
| xph_bin k o a0 a b0 b : xp s stop a0 a -> xp s stop b0 b -> xph s stop k a0 a -> xph s stop k b0 b ->
    xph s stop k (XBin o a0 b0) (XBin o a b).

Lemma xph_mono s stop k e0 e : xph s stop k e0 e -> forall k', (k <= k')%nat -> xph s stop k' e0 e.
Proof.
  induction 1 as [k a t H|k d n l S H|k d n l f e0 e S H O X Xh IH T|k o e0 e X Xh IH|k o a0 a b0 b X1 X2 H1 IH1 H2 IH2];
    intros k' L.
  - now constructor.
  - eapply xph_stop; eauto.
  - destruct k' as [|k']; [lia|]. eapply xph_proxy; eauto. apply IH. lia.
  - apply xph_un; auto.
  - apply xph_bin; auto.
Qed.

Lemma xp_xph s stop e0 e : xp s stop e0 e -> exists k, xph s stop k e0 e.
Proof.
  induction 1 as [a t H|d n l S H|d n l f e0 e S H O X (k & IH) T|o e0 e X (k & IH)|o a0 a b0 b X1 (k1 & IH1) X2 (k2 & IH2)].
  - exists 0%nat. now constructor.
  - exists 0%nat. eapply xph_stop; eauto.
  - exists (Datatypes.S k). eapply xph_proxy; eauto.
  - exists k. now apply xph_un.
  - exists (k1 + k2)%nat. apply xph_bin; auto; eapply xph_mono; eauto; lia.
Qed.

Lemma xp_det s stop e0 e : xp s stop e0 e -> forall e', xp s stop e0 e' -> e' = e.
Proof.
  induction 1 as [a t H|d n l S H|d n l f e0 e S H O X IH T|o e0 e X IH|o a0 a b0 b X1 IH1 X2 IH2]; intros e' X'.
  - inversion X' as [| |d' n' l' f' e0' e'' S' H' O' X'' T'| |]; subst; try reflexivity.
    unfold is_dyn in H. rewrite H' in H. discriminate.
  - inversion X' as [| |d' n' l' f' e0' e'' S' H' O' X'' T'| |]; subst; try reflexivity. congruence.
  - inversion X' as [a' t' H'|d' n' l' S' H'|d' n' l' f' e0' e'' S' H' O' X'' T'| |]; subst.
    + unfold is_dyn in H'. rewrite H in H'. discriminate.
    + congruence.
    + rewrite H in H'. injection H' as <-. rewrite (outline_det _ _ _ _ _ _ O' O) in X''. now apply IH.
  - inversion X' as [| | |o' e0' e'' X''|]; subst. f_equal. now apply IH.
  - inversion X' as [| | | |o' a0' a' b0' b' Xa Xb]; subst. f_equal; auto.
Qed.

Lemma least (P : nat -> Prop) : (exists k, P k) -> exists k, P k /\ forall j, (j < k)%nat -> ~ P j.
Proof.
  intros (k & Pk). revert Pk. induction k as [k IH] using lt_wf_ind. intros Pk.
  destruct (classic (exists j, (j < k)%nat /\ P j)) as [(j & L & Pj)|N]; [eauto|].
  exists k. split; [exact Pk|]. intros j L Pj. apply N. eauto.
Qed.

(** Leaf addresses of an expansion are not those of Dynamics, except where it stops. *)
Lemma xp_leaves s stop e0 e : xp s stop e0 e -> forall a, In a (leaf_addrs e) -> is_dyn s a = false \/ stop a = true.
Proof.
  induction 1 as [a t H|d n l S H|d n l f e0 e S H O X IH T|o e0 e X IH|o a0 a b0 b X1 IH1 X2 IH2]; intros x Hx; auto.
  - destruct Hx as [<-|[]]. auto.
  - destruct Hx as [<-|[]]. auto.
  - cbn in Hx. apply in_app_or in Hx. destruct Hx; auto.
Qed.

Section Delta.
  Variables (eps : R) (na : nat).

  Lemma dwd_type t c h dd s e : forall v u, dwith_delta eps na t c h dd s e = Some (v, u) -> exists p, prepare e = Some (p, u).
  Proof.
    destruct e as [b t0|o e|o e1 e2]; intros v u H; cbn [dwith_delta] in H.
    - destruct (if is_dyn s b then dd b else _); [|discriminate].
      destruct (delta_if _ _ _ _ _ _ _); [|discriminate]. cbn in H. injection H as _ <-. cbn. eauto.
    - destruct (dwith_delta eps na t c h dd s e) as [[v1 t1]|]; [|discriminate].
      destruct (prepare (XUn o e)) as [[p r]|]; [|discriminate]. destruct (evaluateTo _ _ _ _); [|discriminate].
      destruct (delta_if _ _ _ _ _ _ _); [|discriminate]. cbn in H. injection H as _ <-. eauto.
    - destruct (dwith_delta eps na t c h dd s e1) as [[v1 t1]|]; [|discriminate].
      destruct (dwith_delta eps na t c h dd s e2) as [[v2 t2]|]; [|discriminate].
      destruct (prepare (XBin o e1 e2)) as [[p r]|]; [|discriminate]. destruct (evaluateTo _ _ _ _); [|discriminate].
      destruct (delta_if _ _ _ _ _ _ _); [|discriminate]. cbn in H. injection H as _ <-. eauto.
  Qed.

  (** Following the proxies is evaluating the expanded expression, if the target is not
      the object of a proxy that is followed. *)
  Lemma dwd_xph t s stop r F0 :
    (forall d f c h, stop d = true -> (F0 <= f)%nat -> dynWithDelta eps na t c h f s d = r c h) ->
    forall k e0 e, xph s stop k e0 e ->
    (forall j l e, (j <= k)%nat -> xph s stop j (XLeaf t (Plain l)) e -> is_dyn s t = true -> stop t = true) ->
    exists F, forall f c h, (F <= f)%nat ->
      dwith_delta eps na t c h (dynWithDelta eps na t c h f s) s e0 = dwith_delta eps na t c h (fun _ => r c h) s e.
  Proof.
    intros Hr k e0 e X.
    assert (Same : forall e0 e, xp s stop e0 e -> option_map snd (prepare e0) = option_map snd (prepare e)).
    { intros a b Xab. pose proof (prepare_xp _ _ _ _ Xab) as R. unfold rel_prep in R.
      destruct (prepare a) as [[? ?]|], (prepare b) as [[? ?]|]; try contradiction; [|reflexivity].
      destruct R as (-> & _). reflexivity. }
    induction X as [k a u H|k d n l S H|k d n l f0 e0 e S H O X Xh IH T|k o e0 e X Xh IH|k o a0 a b0 b X1 X2 H1 IH1 H2 IH2];
      intros Nt.
    - exists 0%nat. intros f c h _. cbn [dwith_delta]. now rewrite H.
    - exists F0. intros f c h L. cbn [dwith_delta]. now rewrite (Hr d f c h S L).
    - destruct IH as (F & IH); [intros j l' e' L X' D'; exact (Nt j l' e' ltac:(lia) X' D')|].
      assert (Dd : is_dyn s d = true) by (unfold is_dyn; now rewrite H).
      assert (Ne : d <> t).
      { intros ->. assert (stop t = true); [|congruence]. apply (Nt (Datatypes.S k) l e); auto. eapply xph_proxy; eauto. }
      exists (Datatypes.S (F + f0)). intros f c h L. destruct f as [|f]; [lia|].
      cbn [dwith_delta]. rewrite Dd. cbn [dynWithDelta]. rewrite H, (outline_mono _ _ _ _ O f) by lia.
      rewrite IH by lia.
      destruct (dwith_delta eps na t c h (fun _ => r c h) s e) as [[v u]|] eqn:E; [|reflexivity].
      destruct (dwd_type _ _ _ _ _ _ _ _ E) as (p & P). destruct T as (p' & P'). rewrite P in P'. injection P' as _ ->.
      cbn. unfold delta_if. destruct (Nat.eqb_spec d t); [contradiction|reflexivity].
    - destruct (IH Nt) as (F & HF). exists F. intros f c h L. cbn [dwith_delta]. rewrite (HF f c h L).
      destruct (dwith_delta eps na t c h (fun _ => r c h) s e) as [[v u]|]; [|reflexivity].
      pose proof (Same (XUn o e0) (XUn o e) (xp_un _ _ o _ _ X)) as Sm.
      destruct (prepare (XUn o e0)) as [[? r0]|], (prepare (XUn o e)) as [[? r1]|]; try discriminate Sm; [|reflexivity].
      cbn in Sm. injection Sm as ->. reflexivity.
    - destruct (IH1 Nt) as (Fa & HF1). destruct (IH2 Nt) as (Fb & HF2). exists (Fa + Fb)%nat. intros f c h L.
      cbn [dwith_delta]. rewrite (HF1 f c h), (HF2 f c h) by lia.
      destruct (dwith_delta eps na t c h (fun _ => r c h) s a) as [[v1 u1]|]; [|reflexivity].
      destruct (dwith_delta eps na t c h (fun _ => r c h) s b) as [[v2 u2]|]; [|reflexivity].
      pose proof (Same (XBin o a0 b0) (XBin o a b) (xp_bin _ _ o _ _ _ _ X1 X2)) as Sm.
      destruct (prepare (XBin o a0 b0)) as [[? r0]|], (prepare (XBin o a b)) as [[? r1]|]; try discriminate Sm; [|reflexivity].
      cbn in Sm. injection Sm as ->. reflexivity.
  Qed.

  (** A Dynamic is not among what it holds. *)
  Lemma dyn_value t s n l e : objs s t = Some (ODyn n l) -> stands s no_stop (NProxy t l) e ->
    exists F, forall f c h, (F <= f)%nat ->
      dynWithDelta eps na t c h f s t = option_map fst (dwith_delta eps na t c h (fun _ => None) s e).
  Proof.
    intros O St.
    assert (Dt : is_dyn s t = true) by (unfold is_dyn; now rewrite O).
    assert (Xt : xp s no_stop (XLeaf t (Plain l)) e).
    { destruct (stands_xp _ _ _ _ St) as (f & e0 & Oe & X). destruct f; [discriminate|]. cbn in Oe.
      rewrite O, lty_eqb_refl in Oe. injection Oe as <-. exact X. }
    destruct (least (fun k => exists l e, xph s no_stop k (XLeaf t (Plain l)) e)) as (k & (l' & e' & X) & Min).
    { destruct (xp_xph _ _ _ _ Xt) as (k & X). eauto. }
    inversion X as [k' a' t' H'|k' d' n' l'' S' H'|k' d' n' l'' f' e0' e'' S' H' O' X' Xh' T'| |]; subst.
    - congruence.
    - discriminate.
    - rewrite O in H'. injection H' as <- <-.
      assert (Ee : e' = e).
      { apply (xp_det _ _ _ _ Xt). eapply xp_proxy; eauto. }
      subst e'.
      destruct (dwd_xph t s no_stop (fun _ _ => None) 0 ltac:(discriminate) _ _ _ Xh') as (F & HF).
      { intros j l1 e1 L X1 _. exfalso. apply (Min j); [lia|]. eauto. }
      exists (Datatypes.S (F + f')). intros f c h L. destruct f as [|f]; [lia|].
      cbn [dynWithDelta]. rewrite O, (outline_mono _ _ _ _ O' f) by lia. now rewrite HF by lia.
  Qed.

  (** What the leaves evaluate to, with the offset. *)
  Fixpoint fetched (t c : nat) (h : R) (dd : nat -> option value) (s : state) (lv : env) (e : expr) : Prop :=
    match e with
    | XLeaf b u => exists v, (if is_dyn s b then dd b else evaluateTo eps (plain_output u) (vals s) (XLeaf b u)) = Some v /\
        delta_if eps t c h b (ty_leaf u) v = Some (lv b)
    | XUn _ e => fetched t c h dd s lv e
    | XBin _ l r => fetched t c h dd s lv l /\ fetched t c h dd s lv r
    end.

  Lemma dwd_uw t c h dd s lv e : na <> t -> fetched t c h dd s lv e ->
    dwith_delta eps na t c h dd s e = uw (evaluateTo eps) lv e.
  Proof.
    intros Na.
    assert (D : forall r w, delta_if eps t c h na r w = Some w).
    { intros r w. unfold delta_if. destruct (Nat.eqb_spec na t); [contradiction|reflexivity]. }
    induction e as [b u|o e IH|o e1 IH1 e2 IH2]; intros Fe; cbn [dwith_delta uw].
    - destruct Fe as (v & -> & ->). reflexivity.
    - rewrite (IH Fe). destruct (uw (evaluateTo eps) lv e) as [[v u]|]; [|reflexivity].
      destruct (prepare (XUn o e)) as [[p r]|]; [|reflexivity]. destruct (evaluateTo _ _ _ _); [|reflexivity]. now rewrite D.
    - destruct Fe as (F1 & F2). rewrite (IH1 F1), (IH2 F2).
      destruct (uw (evaluateTo eps) lv e1) as [[v1 u1]|]; [|reflexivity].
      destruct (uw (evaluateTo eps) lv e2) as [[v2 u2]|]; [|reflexivity].
      destruct (prepare (XBin o e1 e2)) as [[p r]|]; [|reflexivity]. destruct (evaluateTo _ _ _ _); [|reflexivity]. now rewrite D.
  Qed.

  (** The plain values of the leaves. *)
  Definition plv (m : env) (b : nat) : value :=
    match evaluateTo eps (plain_output (vty (m b))) m (XLeaf b (vty (m b))) with Some w => w | None => m b end.

  Hypothesis He : 0 <= eps.

  Lemma plv_ok m b : valid (m b) -> evaluateTo eps (plain_output (vty (m b))) m (XLeaf b (vty (m b))) = Some (plv m b) /\
    den (plv m b) = den (m b) /\ vty (plv m b) = plain_output (vty (m b)) /\ valid (plv m b) /\
    (forall l, vty (m b) = Plain l -> plv m b = m b).
  Proof.
    intros V. destruct (leaf_value eps m He (vty (m b)) b eq_refl V) as (w & Ew & Dw & Tw & Vw & Pw).
    unfold plv. rewrite Ew. auto 6.
  Qed.

  Lemma plv_penv m e : env_ok m e -> penv (plv m) e.
  Proof.
    induction e as [b u|o e IH|o e1 IH1 e2 IH2]; cbn; [|auto|intuition].
    intros (<- & V). destruct (plv_ok m b V) as (_ & _ & T & Vp & _). split; [now apply valid_wf|auto].
  Qed.
End Delta.
