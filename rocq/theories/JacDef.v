(** Under the side conditions of C01 no local Jacobian on the way to the target is 0/0. *)

From Coq Require Import Reals Lra Lia List Bool Arith.
From Verif Require Import Mat ModelMeta ModelJac V3 ModelLeaf SpecLeaf LeafProofs
  ModelExpr SpecExpr ExprProofs PropsExpr Calc SpecDeriv DerivProofs DerivUn DerivTree.
Import ListNotations.
Local Open Scope R_scope.

Section Def.
  Variable eps : R.
  Hypothesis eps_lo : 0 <= eps.
  Hypothesis eps_hi : eps < 1.

  Lemma log_phi_nz m w : is_rot m -> rot_angle m < PI -> eps < rot_angle m * rot_angle m ->
    log_mat eps m = Some w -> w <> v0 /\ vnorm w < 2 * PI.
  Proof.
    intros H1 H2 H3 H4. destruct (exp_log_general eps m H1 eps_lo H2 H3) as (v & E & N & _).
    rewrite H4 in E. injection E as <-. pose proof PI_RGT_0. split; [|lra].
    intros ->. rewrite vnorm_0 in N. rewrite <- N in H3. lra.
  Qed.

  Lemma un_defined o v val t : valid v -> ty_un o (vty v) = Some t -> sem_un eps o v = Some val ->
    is_plain v -> smooth_un eps o (den v) -> is_def (jac_un eps o val v) = true.
  Proof.
    intros V Ht Hs (lv & Pl) Sm.
    destruct o.
    - destruct v; cbn in Hs; try discriminate Hs; injection Hs as <-; try reflexivity. discriminate Pl.
    - destruct v as [| | | | |q|m|an ax|m tt rr c|q tt|l|l]; cbn [sem_un] in Hs; try discriminate Hs;
        try discriminate Pl.
      + destruct (log_mat eps m) as [w|] eqn:L; [|discriminate Hs]. injection Hs as <-.
        destruct Sm as (S1 & S2). destruct (log_phi_nz m w V S2 S1 L) as (A & B).
        cbn [jac_un vkind vty ty_kind ty_leaf kind_of]. rewrite log_rot_jac_Vinv by assumption. reflexivity.
      + destruct (rt_log eps _ tt) as [[w u]|] eqn:L; [|discriminate Hs]. injection Hs as <-.
        destruct Sm as (S1 & S2). destruct V as (V & _).
        destruct (rt_exp_log eps m tt eps_lo V S2 S1) as (w' & u' & E & N & _).
        cbn [rt_rot] in L. rewrite L in E. injection E as <- <-.
        assert (Z : w <> v0) by (intros ->; rewrite vnorm_0 in N; rewrite <- N in S1; lra).
        cbn [jac_un vkind vty ty_kind ty_leaf kind_of fst snd]. pose proof PI_RGT_0.
        rewrite log_rot_jac_Vinv, eade_B_EB; [reflexivity|exact Z|exact Z|lra].
      + destruct (rt_log eps _ tt) as [[w u]|] eqn:L; [|discriminate Hs]. injection Hs as <-.
        destruct Sm as (S1 & S2). cbn in V.
        destruct (rt_exp_log eps (qrot q) tt eps_lo (qrot_is_rot q V) S2 S1) as (w' & u' & E & N & _).
        cbn [rt_rot] in L. rewrite L in E. injection E as <- <-.
        assert (Z : w <> v0) by (intros ->; rewrite vnorm_0 in N; rewrite <- N in S1; lra).
        cbn [jac_un vkind vty ty_kind ty_leaf kind_of fst snd]. pose proof PI_RGT_0.
        rewrite log_rot_jac_Vinv, eade_B_EB; [reflexivity|exact Z|exact Z|lra].
    - destruct v; cbn [sem_un] in Hs; try discriminate Hs; try discriminate Pl.
      + injection Hs as <-. reflexivity.
      + injection Hs as <-. cbn [jac_un]. cbn in Sm. rewrite eade_B_EB by exact Sm. reflexivity.
    - rewrite Pl in Ht. cbn [ty_un] in Ht. destruct (vec_kind (kind_of lv)) eqn:K; [|discriminate Ht].
      cbn [jac_un]. unfold vkind. rewrite Pl. unfold ty_kind. cbn [ty_leaf]. rewrite K. reflexivity.
    - rewrite Pl in Ht. cbn [ty_un] in Ht. destruct (col_kind (kind_of lv)) eqn:K; [|discriminate Ht].
      cbn [jac_un]. unfold vkind. rewrite Pl. unfold ty_kind. cbn [ty_leaf]. rewrite K. reflexivity.
    - cbn [sem_un] in Hs. destruct (col_kind (vkind v)); [|discriminate Hs]. injection Hs as <-.
      cbn [jac_un]. cbn in Sm. rewrite <- norm2_den in Sm by exact V.
      pose proof (sqrt_lt_R0 _ Sm). destruct (Req_EM_T _ 0); [lra|reflexivity].
    - cbn [jac_un]. cbn in Sm. rewrite <- norm2_den in Sm by exact V.
      pose proof (sqrt_lt_R0 _ Sm). destruct (Req_EM_T _ 0); [lra|reflexivity].
    - destruct v; cbn [sem_un] in Hs; try discriminate Hs. cbn in Sm. cbn [jac_un].
      destruct (Rlt_dec 0 (1 - s * s)); [reflexivity|]. exfalso. nra.
    - destruct v; cbn [sem_un] in Hs; try discriminate Hs; reflexivity.
    - destruct v; cbn [sem_un] in Hs; try discriminate Hs; injection Hs as <-; reflexivity.
    - reflexivity.
  Qed.

  Lemma jacr_compose_defined val x b : valid x -> group_kind (vkind x) = true ->
    (forall l, x = VIdent l -> kind_of l = KRot) -> is_def (jacr_compose val x b) = true.
  Proof.
    intros V G N. destruct x as [| | | | |q|m|an ax|m t r c|q t|l|l]; try discriminate G; try reflexivity.
    - cbn. rewrite (N l eq_refl). reflexivity.
    - destruct l; cbn in V; try contradiction; discriminate G.
  Qed.

  Lemma bin_l_defined o a b val t : valid a -> valid b -> ty_bin o (vty a) (vty b) = Some t ->
    sem_bin o a b = Some val -> is_plain a -> is_def (jac_l o val a b) = true.
  Proof.
    intros Va Vb Ht Hs (la & Pa). destruct (bj_facts o a b val t Va Vb Ht Hs) as (D & T & V & K).
    destruct o; try reflexivity.
    - cbn [jac_l]. apply jacr_compose_defined; auto.
      + destruct (vkind a), (vkind b); cbn in K; try discriminate K; reflexivity.
      + cbn in Ht. intros l ->. eapply (compose_ident _ _ t); eauto.
    - assert (X : exists x, val = VTrans x).
      { rewrite Pa in Ht. cbn in Ht. assert (E : t = Plain LTrans).
        { destruct la; try discriminate Ht; destruct (vty b) as [l'|l'|l']; try discriminate Ht;
          destruct l'; try discriminate Ht; injection Ht as <-; reflexivity. }
        rewrite E in T. destruct val; try discriminate T. eauto. }
      destruct X as (x & ->). reflexivity.
    - assert (X : exists x, val = VTrans x).
      { rewrite Pa in Ht. cbn in Ht. assert (E : t = Plain LTrans).
        { destruct la; try discriminate Ht; destruct (vty b) as [l'|l'|l']; try discriminate Ht;
          destruct l'; try discriminate Ht; injection Ht as <-; reflexivity. }
        rewrite E in T. destruct val; try discriminate T. eauto. }
      destruct X as (x & ->). reflexivity.
    - assert (X : vkind b = KScalar)
        by (destruct (vkind a), (vkind b); cbn in K; try discriminate K; reflexivity).
      destruct (v_scalar b Vb X) as (s & ->). reflexivity.
    - assert (X : vkind b = KScalar)
        by (destruct (vkind a), (vkind b); cbn in K; try discriminate K; reflexivity).
      destruct (v_scalar b Vb X) as (s & ->). unfold sem_bin in Hs. rewrite Ht in Hs. cbn [jac_l].
      destruct (Req_EM_T s 0); [discriminate Hs|reflexivity].
    - assert (X : vkind b = KScalar)
        by (destruct (vkind a), (vkind b); cbn in K; try discriminate K; reflexivity).
      destruct (v_scalar b Vb X) as (s & ->). reflexivity.
    - assert (X : vkind a = KScalar /\ vkind b = KScalar)
        by (destruct (vkind a), (vkind b); cbn in K; try discriminate K; auto).
      destruct X as (Y & X).
      destruct (v_scalar b Vb X) as (s & ->). destruct (v_scalar a Va Y) as (s' & ->).
      unfold sem_bin in Hs. rewrite Ht in Hs. cbn [jac_l]. unfold odiv in *.
      destruct (Req_EM_T s 0); [discriminate Hs|reflexivity].
  Qed.

  Lemma bin_r_defined o a b val t : valid a -> valid b -> ty_bin o (vty a) (vty b) = Some t ->
    sem_bin o a b = Some val -> is_plain b -> (o = ORotate \/ o = OTransform -> is_plain a) ->
    is_def (jac_r o val a b) = true.
  Proof.
    intros Va Vb Ht Hs (lb & Pb) Pa. destruct (bj_facts o a b val t Va Vb Ht Hs) as (D & T & V & K).
    destruct o; try reflexivity.
    - cbn [jac_r]. apply jacr_compose_defined; auto.
      + destruct (vkind a), (vkind b); cbn in K; try discriminate K; reflexivity.
      + cbn in Ht. intros l ->. eapply (compose_ident _ _ t); eauto.
    - destruct (Pa (or_introl eq_refl)) as (la & Pa'). rewrite Pa', Pb in Ht.
      destruct a; try discriminate Pa'; cbn in Pa'; injection Pa' as <-; try discriminate Ht;
      destruct b; try discriminate Pb; cbn in Pb; injection Pb as <-; try discriminate Ht;
        cbn in Ht; injection Ht as <-; destruct val; try discriminate T; reflexivity.
    - destruct (Pa (or_intror eq_refl)) as (la & Pa'). rewrite Pa', Pb in Ht.
      destruct a; try discriminate Pa'; cbn in Pa'; injection Pa' as <-; try discriminate Ht;
      destruct b; try discriminate Pb; cbn in Pb; injection Pb as <-; try discriminate Ht;
        cbn in Ht; injection Ht as <-; destruct val; try discriminate T; reflexivity.
    - assert (X : vkind a = KScalar)
        by (destruct (vkind a), (vkind b); cbn in K; try discriminate K; reflexivity).
      destruct (v_scalar a Va X) as (s & ->). reflexivity.
    - assert (X : vkind b = KScalar)
        by (destruct (vkind a), (vkind b); cbn in K; try discriminate K; reflexivity).
      destruct (v_scalar b Vb X) as (s & ->). unfold sem_bin in Hs. rewrite Ht in Hs. cbn [jac_r].
      destruct (Req_EM_T s 0) as [|N]; [discriminate Hs|].
      destruct (Req_EM_T (s * s) 0) as [E|_]; [|reflexivity]. apply Rmult_integral in E. tauto.
    - assert (X : vkind a = KScalar)
        by (destruct (vkind a), (vkind b); cbn in K; try discriminate K; reflexivity).
      destruct (v_scalar a Va X) as (s & ->). reflexivity.
    - assert (X : vkind a = KScalar /\ vkind b = KScalar)
        by (destruct (vkind a), (vkind b); cbn in K; try discriminate K; auto).
      destruct X as (Y & X).
      destruct (v_scalar b Vb X) as (s & ->). destruct (v_scalar a Va Y) as (s' & ->).
      unfold sem_bin in Hs. rewrite Ht in Hs. cbn [jac_r]. unfold odiv in *.
      destruct (Req_EM_T s 0) as [|N]; [discriminate Hs|].
      destruct (Req_EM_T (s * s) 0) as [E|_]; [|reflexivity]. apply Rmult_integral in E. tauto.
  Qed.

  Variables (m : env) (a : nat) (l : lty).
  Hypothesis Tm : vty (m a) = Plain l.
  Let den0 : nat -> dval := fun b => den (m b).

  Definition dinv (x : dval) (A : Prop) (p : expr) (t : ty) : Prop := exists v,
    eval_p eps m p = Some v /\ vty v = t /\ valid v /\ den v = x /\
    (mentions a p = true -> A /\ exists l', t = Plain l') /\ jac_defined eps m a p = true.

  Lemma dinv_convert x A p t t' : can_convert t t' = true -> dinv x A p t -> dinv x A (xconvert t' p) t'.
  Proof.
    intros Hc (v & I1 & I2 & I3 & I4 & I5 & I6).
    destruct (can_convert_inv _ _ Hc) as (l' & -> & Ht). rewrite <- I2 in Ht.
    destruct (convert_sound l' v _ Ht I3) as (r & E & D & T' & V').
    exists r. cbn [xconvert eval_p mentions jac_defined]. rewrite I1. cbn [sem_un jac_un is_def].
    rewrite E, I6. repeat split; auto; try congruence.
    - now apply I5.
    - eauto.
    - cbn. apply orb_true_r.
  Qed.

  Lemma dinv_un o x y (A : Prop) p t r : dinv x A p t -> ty_un o t = Some r ->
    (o = OExpMap -> exp_exact eps x) -> (A -> smooth_un eps o x) ->
    dsem_un eps o x = Some y -> dinv y A (XUn o p) r.
  Proof.
    intros (v & I1 & I2 & I3 & I4 & I5 & I6) Ht He Sm Hd. subst x. rewrite <- I2 in Ht.
    destruct (un_sound eps eps_lo o v r Ht I3 He) as (S1 & S2).
    rewrite Hd in S1. destruct (sem_un eps o v) as [val|] eqn:Sv; [|discriminate S1].
    cbn in S1. injection S1 as S1. destruct (S2 val eq_refl) as (T' & V').
    exists val. cbn [eval_p mentions jac_defined]. rewrite I1, Sv, I6.
    repeat split; auto.
    - now apply I5.
    - destruct (I5 H) as (_ & P). apply (ty_un_plain _ _ _ Ht). now rewrite I2.
    - destruct (mentions a p) eqn:M; [|reflexivity]. destruct (I5 eq_refl) as (HA & l' & P). cbn.
      apply (un_defined o v val r I3 Ht Sv); [exists l'; congruence|auto].
  Qed.

  Lemma dinv_bin o x y z (A B : Prop) p1 p2 t1 t2 r : dinv x A p1 t1 -> dinv y B p2 t2 ->
    ty_bin o t1 t2 = Some r ->
    (B -> o = ORotate \/ o = OTransform -> forall i, t1 <> Ident i) ->
    dsem_bin o x y = Some z -> dinv z (A \/ B) (XBin o p1 p2) r.
  Proof.
    intros (v & I1 & I2 & I3 & I4 & I5 & I6) (w & K1 & K2 & K3 & K4 & K5 & K6) Ht Hr Hd.
    subst x y. rewrite <- I2, <- K2 in Ht.
    destruct (bin_sound o v w r Ht I3 K3) as (S1 & S2).
    rewrite Hd in S1. destruct (sem_bin o v w) as [val|] eqn:Sv; [|discriminate S1].
    cbn in S1. injection S1 as S1. destruct (S2 val eq_refl) as (T' & V').
    exists val. cbn [eval_p mentions jac_defined]. rewrite I1, K1, Sv, I6, K6.
    split; [reflexivity|]. split; [exact T'|]. split; [exact V'|]. split; [exact S1|]. split.
    - intros H. apply orb_true_iff in H as [H|H].
      + destruct (I5 H) as (HA & P). split; [auto|]. apply (ty_bin_plain _ _ _ _ Ht). left. now rewrite I2.
      + destruct (K5 H) as (HA & P). split; [auto|]. apply (ty_bin_plain _ _ _ _ Ht). right. now rewrite K2.
    - cbn [andb]. apply andb_true_iff. split.
      + destruct (mentions a p1) eqn:M; [|reflexivity]. destruct (I5 eq_refl) as (HA & l' & P). cbn.
        apply (bin_l_defined o v w val r); auto. exists l'. congruence.
      + destruct (mentions a p2) eqn:M; [|reflexivity]. destruct (K5 eq_refl) as (HA & l' & P). cbn.
        apply (bin_r_defined o v w val r); auto; [exists l'; congruence|].
        intros Ho. specialize (Hr HA Ho). rewrite I2 in Ht. unfold is_plain. rewrite I2.
        destruct t1 as [l1|l1|l1]; [eauto|exfalso; eapply Hr; reflexivity|].
        destruct Ho as [-> | ->]; discriminate Ht.
  Qed.

  Theorem smooth_defined e : forall p t x, prepare e = Some (p, t) -> env_ok m e ->
    exps_exact eps den0 e -> smooth eps den0 a e -> deval eps den0 e = Some x ->
    dinv x (In a (leaf_addrs e)) p t.
  Proof.
    induction e as [b t0|o e IH|o e1 IH1 e2 IH2]; intros p t x Hp Henv Hexp Hsm Hx.
    - cbn in Hp. injection Hp as <- <-. cbn in Henv. destruct Henv as (Tb & Vb).
      cbn in Hx. injection Hx as <-. exists (m b). cbn. repeat split; auto.
      + apply Nat.eqb_eq in H. auto.
      + apply Nat.eqb_eq in H. subst b. rewrite <- Tb. eauto.
    - cbn in Hp. destruct (prepare e) as [[p' t']|] eqn:P; [|discriminate].
      cbn in Henv, Hexp, Hsm. destruct Hexp as (Hexp & Hxx). destruct Hsm as (Hs1 & Hs2).
      cbn [deval] in Hx. destruct (deval eps den0 e) as [x'|] eqn:Dx; [|discriminate].
      specialize (IH _ _ x' eq_refl Henv Hexp Hs1 eq_refl).
      cbn [leaf_addrs].
      assert (H1 : o = OExpMap -> exp_exact eps x').
      { intros ->. exact (Hxx _ eq_refl). }
      pose proof (fun Ha => Hs2 Ha _ eq_refl) as H2. cbv beta in H2.
      destruct (choose_unary _ _ _ _) as [[|t'']|] eqn:C; [| |discriminate].
      + destruct (ty_un o t') eqn:T; [|discriminate]. injection Hp as <- <-.
        eapply dinv_un; eauto.
      + unfold choose_unary in C. destruct (is_some (ty_un o t')); [discriminate|].
        destruct (first_true _ _) as [y|] eqn:F; [|discriminate]. injection C as ->.
        apply first_true_some in F. destruct F as (F & _). apply andb_prop in F as (F1 & F2).
        destruct (ty_un o t'') eqn:T; [|discriminate]. injection Hp as <- <-.
        eapply dinv_un; [eapply dinv_convert; eassumption| | | |]; eauto.
    - cbn in Hp. destruct (prepare e1) as [[p1 t1]|] eqn:P1; [|discriminate].
      destruct (prepare e2) as [[p2 t2]|] eqn:P2; [|discriminate].
      cbn in Henv, Hexp, Hsm. destruct Henv as (Hl & Hr). destruct Hexp as (Xl & Xr).
      destruct Hsm as (Sl & Sr & Hrot). rewrite P1 in Hrot. cbn in Hrot.
      cbn [deval] in Hx. destruct (deval eps den0 e1) as [x1|] eqn:D1; [|discriminate].
      destruct (deval eps den0 e2) as [x2|] eqn:D2; [|discriminate].
      specialize (IH1 _ _ x1 eq_refl Hl Xl Sl eq_refl). specialize (IH2 _ _ x2 eq_refl Hr Xr Sr eq_refl).
      cbn [leaf_addrs].
      assert (Rt : In a (leaf_addrs e2) -> o = ORotate \/ o = OTransform -> forall i, t1 <> Ident i).
      { intros Ha Ho i ->. exact (Hrot Ha Ho i eq_refl). }
      assert (Fin : forall q1 s1 q2 s2 r, dinv x1 (In a (leaf_addrs e1)) q1 s1 ->
        dinv x2 (In a (leaf_addrs e2)) q2 s2 -> ty_bin o s1 s2 = Some r ->
        (s1 = t1 \/ exists l', s1 = Plain l') ->
        dinv x (In a (leaf_addrs e1 ++ leaf_addrs e2)%list) (XBin o q1 q2) r).
      { intros q1 s1 q2 s2 r J1 J2 Tb Or.
        destruct (dinv_bin o x1 x2 x _ _ q1 q2 s1 s2 r J1 J2 Tb) as (v & Y1 & Y2 & Y3 & Y4 & Y5 & Y6);
          [|exact Hx|].
        - destruct Or as [-> |(l' & ->)]; [exact Rt|]. intros; discriminate.
        - exists v. repeat split; auto; [rewrite in_app_iff|]; now apply Y5. }
      destruct (choose_binary _ _ _ _ _ _) as [[|tr'|tl'|tl' tr']|] eqn:C; [| | | |discriminate].
      + destruct (ty_bin o t1 t2) eqn:T; [|discriminate]. injection Hp as <- <-.
        eapply Fin; eauto.
      + destruct (ty_bin o t1 tr') eqn:T; [|discriminate]. injection Hp as <- <-.
        eapply Fin; [exact IH1|eapply dinv_convert; [|exact IH2]|exact T|auto].
        unfold choose_binary in C. destruct (is_some _); [discriminate|].
        destruct (first_true _ (convert_to t2)) as [y|] eqn:F.
        * injection C as ->. apply first_true_some in F. destruct F as (F & _).
          apply andb_prop in F. tauto.
        * destruct (first_true _ (convert_to t1)); [discriminate|].
          destruct (first_true _ (cartesian _ _)); discriminate.
      + destruct (ty_bin o tl' t2) eqn:T; [|discriminate]. injection Hp as <- <-.
        assert (Cc : can_convert t1 tl' = true).
        { unfold choose_binary in C. destruct (is_some _); [discriminate|].
          destruct (first_true _ (convert_to t2)) as [y|]; [discriminate|].
          destruct (first_true _ (convert_to t1)) as [y|] eqn:F.
          - injection C as ->. apply first_true_some in F. destruct F as (F & _).
            apply andb_prop in F. tauto.
          - destruct (first_true _ (cartesian _ _)); discriminate. }
        eapply Fin; [eapply dinv_convert; [exact Cc|exact IH1]|exact IH2|exact T|].
        right. destruct (can_convert_inv _ _ Cc) as (l' & -> & _). eauto.
      + destruct (ty_bin o tl' tr') eqn:T; [|discriminate]. injection Hp as <- <-.
        unfold choose_binary in C. destruct (is_some _); [discriminate|].
        destruct (first_true _ (convert_to t2)) as [y|]; [discriminate|].
        destruct (first_true _ (convert_to t1)) as [y|]; [discriminate|].
        destruct (first_true _ (cartesian _ _)) as [[y z]|] eqn:F; [|discriminate].
        injection C as -> ->. apply first_true_some in F. destruct F as (F & _). cbn in F.
        apply andb_prop in F as (F & _). apply andb_prop in F as (F1 & F2).
        eapply Fin; [eapply dinv_convert; [exact F1|exact IH1]|eapply dinv_convert; [exact F2|exact IH2]|exact T|].
        right. destruct (can_convert_inv _ _ F1) as (l' & -> & _). eauto.
  Qed.
End Def.
