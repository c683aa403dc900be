(** The chain rule when several objects move at once: the expression moves with the sum of
    the contributions of the moving objects (generalises DerivTree.v to many targets). *)

From Coq Require Import Reals Lra Lia List Bool Arith.
From Verif Require Import Mat ModelMeta ModelJac SpecJac JacProofs V3 ModelLeaf SpecLeaf LeafProofs
  ModelExpr SpecExpr ExprProofs PropsExpr Calc SpecDeriv SpecTotal DerivProofs DerivUn DerivTree.
Import ListNotations.
Local Open Scope R_scope.
Local Open Scope mat_scope.

Local Arguments mvec : simpl never.

Lemma sum_over_0 S f : (forall a, In a S -> f a = 0) -> sum_over S f = 0.
Proof.
  unfold sum_over. induction S as [|a S IH]; intros H; cbn; [reflexivity|].
  rewrite H by (now left). rewrite IH; [ring|]. intros b Hb. apply H. now right.
Qed.
Lemma sum_over_ext S f g : (forall a, In a S -> f a = g a) -> sum_over S f = sum_over S g.
Proof.
  unfold sum_over. induction S as [|a S IH]; intros H; cbn; [reflexivity|].
  rewrite H by (now left). rewrite IH; [reflexivity|]. intros b Hb. apply H. now right.
Qed.
Lemma sum_over_plus S f g : sum_over S (fun a => f a + g a) = sum_over S f + sum_over S g.
Proof. unfold sum_over. induction S as [|a S IH]; cbn; [ring|]. rewrite IH. ring. Qed.
Lemma sum_over_one S a f : NoDup S -> In a S -> (forall b, In b S -> b <> a -> f b = 0) ->
  sum_over S f = f a.
Proof.
  unfold sum_over. induction S as [|b S IH]; [intros _ []|]. intros N H Z. inversion_clear N as [|? ? Nb NS].
  cbn. destruct (Nat.eq_dec b a) as [->|Hb].
  - fold (sum_over S f). rewrite sum_over_0; [ring|]. intros q Hq. apply Z; [now right|].
    intros ->. contradiction.
  - rewrite Z by (auto; now left). destruct H as [H|H]; [contradiction|].
    rewrite IH; auto; [ring|]. intros q Hq. apply Z. now right.
Qed.
Lemma mvec_sum A S f i : mvec A (fun k => sum_over S (fun a => f a k)) i = sum_over S (fun a => mvec A (f a) i).
Proof.
  unfold sum_over. induction S as [|a S IH]; cbn.
  - apply mvec_zero. reflexivity.
  - rewrite <- IH. unfold mvec. rewrite <- rsum_plus. apply rsum_ext. intros k _. ring.
Qed.

Section Tree.
  Variable eps : R.
  Hypothesis eps_lo : 0 <= eps.
  Hypothesis eps_hi : eps < 1.
  Variables (na : nat) (m : env) (S : list nat) (c : nat -> R -> dval) (d : nat -> nat -> R).
  Hypothesis ND : NoDup S.
  Hypothesis c0 : forall a, In a S -> c a 0 = den (m a).
  Hypothesis Tm : forall a, In a S -> exists l, vty (m a) = Plain l.
  Hypothesis Mv : forall a, In a S -> moves (c a) (d a).

  Let tgt (a : nat) := leaf_obj a (vty (m a)).
  Let den0 : nat -> dval := fun b => den (m b).

  Definition hit (T : etree) : Prop := exists a, In a S /\ In (tgt a) (leaves T).
  Definition vel (T : etree) (i : nat) : R := sum_over S (fun a => mvec (true_jacobian (tgt a) T) (d a) i).

  Record tinv_at (f : R -> option dval) (A : Prop) (p : expr) (t : ty) (v : value) (T : etree)
    : Prop := TInv {
    i_tree : tree eps na m p = Some (v, T);
    i_ty : vty v = t; i_valid : valid v; i_wf : wf_tree T; i_dim : edim T = vdim v;
    i_0 : f 0 = Some (den v);
    i_in : hit T <-> A;
    i_plain : hit T -> exists l', t = Plain l';
    i_const : ~ hit T -> forall s, f s = f 0;
    i_moves : moves_opt f (vel T)
  }.
  Definition tinv f A p t := exists v T, tinv_at f A p t v T.

  Lemma hit_dec T : {hit T} + {~ hit T}.
  Proof.
    unfold hit. clear. induction S as [|a L IH].
    - right. intros (a & [] & _).
    - destruct (List.in_dec leaf_eq_dec (tgt a) (leaves T)) as [H|H].
      + left. exists a. split; [now left|exact H].
      + destruct IH as [H'|H'].
        * left. destruct H' as (b & Hb & Hin). exists b. split; [now right|exact Hin].
        * right. intros (b & [<-|Hb] & Hin); [contradiction|]. apply H'. eauto.
  Qed.

  Lemma tabsent T i : ~ hit T -> vel T i = 0.
  Proof.
    intros N. apply sum_over_0. intros a Ha. rewrite true_jacobian_absent; [apply mvec_mzero|].
    intros H. apply N. exists a. auto.
  Qed.
  Lemma tabsent_moves f v T : valid v -> edim T = vdim v -> f 0 = Some (den v) ->
    ~ hit T -> (forall s, f s = f 0) -> moves_opt f (vel T).
  Proof.
    intros V D F0 N C.
    apply mo_near with (c := fun _ => Some (den v)); [apply near_all; intros s; now rewrite C|].
    apply mo_const; [now apply valid_dvalid|].
    intros i Hi. now apply tabsent.
  Qed.
  Lemma tabsent_zero T n : ~ hit T -> zero_below n (vel T).
  Proof. intros N i Hi. now apply tabsent. Qed.

  Lemma vel_un n J T i : has_shape n (edim T) J -> (0 < n)%nat -> wf_tree T ->
    vel (EUn na n J T) i = mvec J (vel T) i.
  Proof.
    intros Sh P W. unfold vel. rewrite mvec_sum. apply sum_over_ext. intros a Ha.
    destruct (Tm a Ha) as (l & El). unfold tgt. rewrite El. now apply true_jac_un.
  Qed.
  Lemma vel_bin n JL JR T1 T2 i : has_shape n (edim T1) JL -> has_shape n (edim T2) JR ->
    (0 < n)%nat -> wf_tree T1 -> wf_tree T2 ->
    vel (EBin na n JL JR T1 T2) i = mvec JL (vel T1) i + mvec JR (vel T2) i.
  Proof.
    intros S1 S2 P W1 W2. unfold vel. rewrite !mvec_sum, <- sum_over_plus. apply sum_over_ext.
    intros a Ha. destruct (Tm a Ha) as (l & El). unfold tgt. rewrite El. now apply true_jac_bin.
  Qed.
  Definition touched (e : expr) : Prop := exists a, In a S /\ In a (leaf_addrs e).

  Lemma tinv_convert f A p t t' : can_convert t t' = true -> tinv f A p t -> tinv f A (xconvert t' p) t'.
  Proof.
    intros Hc (v & T & [I1 I2 I3 I4 I5 I6 I7 I8 I9 I10]).
    destruct (can_convert_inv _ _ Hc) as (l' & -> & Ht). rewrite <- I2 in Ht.
    destruct (convert_sound l' v _ Ht I3) as (r & E & D & T' & V').
    assert (Kk : vdim r = vdim v).
    { unfold vdim. rewrite <- (valid_dkind r V'), <- (valid_dkind v I3), D. reflexivity. }
    assert (Kl : tsize (kind_of l') = vdim r) by (unfold vdim, vkind; rewrite T'; reflexivity).
    exists r, (EUn na (vdim r) (mid (tsize (kind_of l'))) T). constructor; auto.
    - cbn [xconvert tree]. rewrite I1. cbn [sem_un jac_un orzero]. rewrite E. reflexivity.
    - cbn. rewrite Kl, I5, Kk. repeat split; auto. apply vdim_pos.
    - now rewrite D.
    - intros _. eauto.
    - apply (mo_ext _ _ _ (dkind (den v)) I10).
      + intros x Hx. rewrite I6 in Hx. congruence.
      + rewrite valid_dkind by exact I3. fold (vdim v). rewrite <- Kk. intros i Hi.
        rewrite vel_un; [|rewrite Kl, I5, Kk; split; reflexivity|apply vdim_pos|exact I4].
        rewrite mvec_mid; [reflexivity|]. now rewrite Kl.
  Qed.

  Lemma tinv_un o f (A : Prop) p t r x : tinv f A p t -> ty_un o t = Some r ->
    (o = OExpMap -> forall d', f 0 = Some d' -> exp_exact eps d') ->
    (A -> forall x, f 0 = Some x -> smooth_un eps o x) ->
    match f 0 with Some y => dsem_un eps o y | None => None end = Some x ->
    tinv (fun s => match f s with Some y => dsem_un eps o y | None => None end) A (XUn o p) r.
  Proof.
    intros (v & T & [I1 I2 I3 I4 I5 I6 I7 I8 I9 I10]) Ht He Hsm Hd.
    rewrite I6 in Hd. rewrite <- I2 in Ht.
    pose proof (fun E => He E _ I6) as He'.
    destruct (un_sound eps eps_lo o v r Ht I3 He') as (S1 & S2).
    rewrite Hd in S1. destruct (sem_un eps o v) as [val|] eqn:Sv; [|discriminate S1].
    cbn in S1. injection S1 as S1. destruct (S2 val eq_refl) as (T' & V').
    pose proof (jac_un_shape eps eps_lo o v val r I3 Ht Sv He') as Sh.
    set (J := orzero (jac_un eps o val v) (vdim val) (vdim v)) in *.
    rewrite <- I5 in Sh.
    exists val, (EUn na (vdim val) J T).
    assert (F0 : match f 0 with Some y => dsem_un eps o y | None => None end = Some (den val))
      by (rewrite I6, Hd, S1; reflexivity).
    assert (Cn : ~ hit T -> forall s,
       match f s with Some y => dsem_un eps o y | None => None end
       = match f 0 with Some y => dsem_un eps o y | None => None end).
    { intros N s. now rewrite (I9 N s). }
    constructor; auto.
    - cbn [tree]. rewrite I1, Sv. reflexivity.
    - cbn. auto using vdim_pos.
    - cbn. intros H. apply (ty_un_plain _ _ _ Ht). rewrite I2. exact (I8 H).
    - destruct (hit_dec T) as [H|N].
      + destruct I10 as (rr & N1 & M1).
        assert (R0 : rr 0 = den v) by (pose proof (near_0 _ N1) as X; cbv beta in X; congruence).
        assert (Pl : is_plain v) by (destruct (I8 H) as (l' & ->); exists l'; exact I2).
        apply (mo_bind _ rr _ _ N1).
        pose proof (un_moves eps eps_lo eps_hi o v val r I3 Ht Sv He' rr _ Pl
          (Hsm (proj1 I7 H) _ I6) R0 M1) as U.
        apply (mo_ext _ _ _ (vkind val) U).
        * rewrite R0, Hd. intros y Ey. injection Ey as <-. rewrite <- S1. now apply valid_dkind.
        * intros i Hi. symmetry. apply vel_un; auto using vdim_pos.
      + apply tabsent_moves with (v := val); auto.
  Qed.

  Lemma tinv_bin o f g (A B : Prop) p1 p2 t1 t2 r x : tinv f A p1 t1 -> tinv g B p2 t2 ->
    ty_bin o t1 t2 = Some r ->
    (B -> o = ORotate \/ o = OTransform -> forall i, t1 <> Ident i) ->
    match f 0, g 0 with Some y, Some z => dsem_bin o y z | _, _ => None end = Some x ->
    tinv (fun s => match f s, g s with Some y, Some z => dsem_bin o y z | _, _ => None end)
      (A \/ B) (XBin o p1 p2) r.
  Proof.
    intros (v & T & [I1 I2 I3 I4 I5 I6 I7 I8 I9 I10]) (v' & T2 & [K1 K2 K3 K4 K5 K6 K7 K8 K9 K10])
      Ht Hrot Hd.
    rewrite I6, K6 in Hd. rewrite <- I2, <- K2 in Ht.
    destruct (bin_sound o v v' r Ht I3 K3) as (S1 & S2).
    rewrite Hd in S1. destruct (sem_bin o v v') as [val|] eqn:Sv; [|discriminate S1].
    cbn in S1. injection S1 as S1. destruct (S2 val eq_refl) as (T' & V').
    pose proof (jac_bin_shape o v v' val r I3 K3 Ht Sv) as (ShL & ShR).
    set (JL := orzero (jac_l o val v v') (vdim val) (vdim v)) in *.
    set (JR := orzero (jac_r o val v v') (vdim val) (vdim v')) in *.
    pose proof ShL as ShL'. pose proof ShR as ShR'.
    rewrite <- I5 in ShL. rewrite <- K5 in ShR.
    exists val, (EBin na (vdim val) JL JR T T2).
    assert (F0 : match f 0, g 0 with Some y, Some z => dsem_bin o y z | _, _ => None end = Some (den val))
      by (rewrite I6, K6, Hd, S1; reflexivity).
    assert (Li : hit (EBin na (vdim val) JL JR T T2) <->
      hit T \/ hit T2).
    { unfold hit. cbn. split.
      - intros (b & Hb & H). apply in_app_iff in H as [H|H]; eauto.
      - intros [(b & Hb & H)|(b & Hb & H)]; exists b; rewrite in_app_iff; auto. }
    assert (Cn : ~ hit T -> ~ hit T2 -> forall s,
       match f s, g s with Some y, Some z => dsem_bin o y z | _, _ => None end
       = match f 0, g 0 with Some y, Some z => dsem_bin o y z | _, _ => None end).
    { intros N N' s. now rewrite (I9 N s), (K9 N' s). }
    constructor; auto.
    - cbn [tree]. rewrite I1, K1, Sv. reflexivity.
    - cbn. auto using vdim_pos.
    - rewrite Li, I7, K7. reflexivity.
    - rewrite Li. intros H. apply (ty_bin_plain _ _ _ _ Ht). rewrite I2, K2.
      destruct H as [H|H]; [left; exact (I8 H)|right; exact (K8 H)].
    - rewrite Li. intros N. apply Cn; tauto.
    - destruct I10 as (r1 & N1 & M1). destruct K10 as (r2 & N2 & M2).
      assert (R1 : r1 0 = den v) by (pose proof (near_0 _ N1) as X; cbv beta in X; congruence).
      assert (R2 : r2 0 = den v') by (pose proof (near_0 _ N2) as X; cbv beta in X; congruence).
      apply (mo_bind2 _ r1 _ r2 _ _ N1 N2).
      assert (Z : dsem_bin o (r1 0) (r2 0) = Some (den val)) by (rewrite R1, R2, Hd, S1; reflexivity).
      pose proof (dbin_moves o r1 r2 _ _ _ M1 M2 Z) as U.
      apply (mo_ext _ _ _ (vkind val) U).
      + rewrite Z. intros y Ey. injection Ey as <-. now apply valid_dkind.
      + intros i Hi. rewrite vel_bin by auto using vdim_pos.
        rewrite R1, R2 in Z |- *.
        assert (Hi' : (i < tsize (dkind (den val)))%nat) by (rewrite valid_dkind by exact V'; exact Hi).
        f_equal.
        * destruct (hit_dec T) as [H|N].
          -- symmetry. apply (jacl_ok o v v' val r); auto.
             destruct (I8 H) as (l' & ->). exists l'. exact I2.
          -- rewrite (ddl_zero o _ _ _ _ Z) by (auto using tabsent_zero).
             symmetry. apply mvec_zero. intros j Hj. now apply (tabsent_zero T (mcols JL)).
        * destruct (hit_dec T2) as [H|N].
          -- symmetry. apply (jacr_ok o v v' val r); auto.
             ++ destruct (K8 H) as (l' & ->). exists l'. exact K2.
             ++ intros Ho. specialize (Hrot (proj1 K7 H) Ho). rewrite I2 in Ht. unfold is_plain.
                rewrite I2. destruct t1 as [l1|l1|l1]; [eauto|exfalso; eapply Hrot; reflexivity|].
                destruct Ho as [-> | ->]; discriminate Ht.
          -- rewrite (ddr_zero o _ _ _ _ Z) by (auto using tabsent_zero).
             symmetry. apply mvec_zero. intros j Hj. now apply (tabsent_zero T2 (mcols JR)).
  Qed.

  Let denv (s : R) : nat -> dval := dmoved den0 S c s.

  Lemma denv_0 : forall b, denv 0 b = den (m b).
  Proof. intros b. unfold denv, dmoved. destruct (List.in_dec _ _ _); [now apply c0|reflexivity]. Qed.

  Lemma deval_0 e : deval eps (denv 0) e = deval eps den0 e.
  Proof.
    apply deval_ext; [|intros; apply denv_0].
    induction e; cbn; auto.
  Qed.

  Theorem total_moves e : forall p t x, prepare e = Some (p, t) -> env_ok m e ->
    exps_exact eps den0 e -> (forall a, In a S -> smooth eps den0 a e) -> deval eps den0 e = Some x ->
    tinv (fun s => deval eps (denv s) e) (touched e) p t.
  Proof.
    induction e as [b t0|o e IH|o e1 IH1 e2 IH2]; intros p t x Hp Henv Hexp Hsm Hx.
    - cbn in Hp. injection Hp as <- <-. cbn in Henv. destruct Henv as (Tb & Vb).
      exists (m b), (ELeaf (leaf_obj b t0)).
      assert (E0 : deval eps (denv 0) (XLeaf b t0) = Some (den (m b))) by (cbn; now rewrite denv_0).
      assert (In' : hit (ELeaf (leaf_obj b t0)) <-> In b S).
      { unfold hit. cbn. split.
        - intros (q & Hq & [E|[]]). unfold tgt, leaf_obj in E. injection E as E. congruence.
        - intros H. exists b. split; [exact H|]. left. unfold tgt. now rewrite Tb. }
      assert (Cn : ~ hit (ELeaf (leaf_obj b t0)) -> forall s,
         deval eps (denv s) (XLeaf b t0) = deval eps (denv 0) (XLeaf b t0)).
      { rewrite In'. intros N s. cbn. unfold denv, dmoved. destruct (List.in_dec _ _ _); [contradiction|reflexivity]. }
      assert (Di : edim (ELeaf (leaf_obj b t0)) = vdim (m b)) by (unfold vdim, vkind; rewrite Tb; reflexivity).
      constructor; auto.
      + cbn. apply tsize_pos.
      + rewrite In'. unfold touched. cbn. split.
        * intros H. exists b. auto.
        * intros (q & Hq & [<-|[]]). exact Hq.
      + rewrite In'. intros H. rewrite <- Tb. auto.
      + destruct (hit_dec (ELeaf (leaf_obj b t0))) as [H|N].
        * pose proof (proj1 In' H) as Hb.
          exists (c b). split.
          -- apply near_all. intros s. cbn. unfold denv, dmoved. destruct (List.in_dec _ _ _); [reflexivity|contradiction].
          -- apply (moves_ext _ _ _ (Mv b Hb)). intros i Hi. unfold vel.
             rewrite (sum_over_one S b); [|exact ND|exact Hb|].
             ++ unfold tgt. rewrite Tb. rewrite (mvec_meq _ _ _ _ (true_jacobian_leaf_same (leaf_obj b t0))).
                rewrite mvec_mid; [reflexivity|]. rewrite c0, valid_dkind in Hi by assumption.
                unfold vkind in Hi. rewrite Tb in Hi. exact Hi.
             ++ intros q Hq Nq. rewrite true_jacobian_absent; [apply mvec_mzero|].
                cbn. intros [E|[]]. unfold tgt, leaf_obj in E. injection E as E. congruence.
        * apply tabsent_moves with (v := m b); auto.
    - cbn in Hp. destruct (prepare e) as [[p' t']|] eqn:P; [|discriminate].
      cbn in Henv, Hexp. destruct Hexp as (Hexp & Hxx).
      assert (Hs1 : forall a, In a S -> smooth eps den0 a e) by (intros a Ha; exact (proj1 (Hsm a Ha))).
      assert (Hs2 : touched e -> forall y, deval eps den0 e = Some y -> smooth_un eps o y)
        by (intros (a & Ha & Hin); exact (proj2 (Hsm a Ha) Hin)).
      cbn [deval] in Hx. destruct (deval eps den0 e) as [x'|] eqn:Dx; [|discriminate].
      specialize (IH _ _ x' eq_refl Henv Hexp Hs1 eq_refl).
      cbn [leaf_addrs deval].
      assert (H1 : o = OExpMap -> forall d', deval eps (denv 0) e = Some d' -> exp_exact eps d').
      { intros -> d'. rewrite deval_0, Dx. exact (Hxx d'). }
      assert (H2 : touched e -> forall x, deval eps (denv 0) e = Some x -> smooth_un eps o x).
      { intros Ha y. rewrite deval_0, Dx. exact (Hs2 Ha y). }
      assert (H3 : match deval eps (denv 0) e with Some y => dsem_un eps o y | None => None end = Some x)
        by (rewrite deval_0, Dx; exact Hx).
      destruct (choose_unary _ _ _ _) as [[|t'']|] eqn:C; [| |discriminate].
      + destruct (ty_un o t') eqn:T; [|discriminate]. injection Hp as <- <-.
        eapply tinv_un; eassumption.
      + unfold choose_unary in C. destruct (is_some (ty_un o t')); [discriminate|].
        destruct (first_true _ _) as [y|] eqn:F; [|discriminate]. injection C as ->.
        apply first_true_some in F. destruct F as (F & _). apply andb_prop in F as (F1 & F2).
        destruct (ty_un o t'') eqn:T; [|discriminate]. injection Hp as <- <-.
        eapply tinv_un; [eapply tinv_convert; eassumption| | | |]; eassumption.
    - cbn in Hp. destruct (prepare e1) as [[p1 t1]|] eqn:P1; [|discriminate].
      destruct (prepare e2) as [[p2 t2]|] eqn:P2; [|discriminate].
      cbn in Henv, Hexp. destruct Henv as (Hl & Hr). destruct Hexp as (Xl & Xr).
      assert (Sl : forall a, In a S -> smooth eps den0 a e1) by (intros a Ha; exact (proj1 (Hsm a Ha))).
      assert (Sr : forall a, In a S -> smooth eps den0 a e2) by (intros a Ha; exact (proj1 (proj2 (Hsm a Ha)))).
      assert (Hrot : touched e2 -> o = ORotate \/ o = OTransform -> forall i, Some t1 <> Some (Ident i)).
      { intros (a & Ha & Hin) Ho. pose proof (proj2 (proj2 (Hsm a Ha)) Hin Ho) as X. rewrite P1 in X. exact X. }
      cbn [deval] in Hx. destruct (deval eps den0 e1) as [x1|] eqn:D1; [|discriminate].
      destruct (deval eps den0 e2) as [x2|] eqn:D2; [|discriminate].
      specialize (IH1 _ _ x1 eq_refl Hl Xl Sl eq_refl). specialize (IH2 _ _ x2 eq_refl Hr Xr Sr eq_refl).
      cbn [leaf_addrs deval].
      assert (H3 : match deval eps (denv 0) e1, deval eps (denv 0) e2 with
                   Some y, Some z => dsem_bin o y z | _, _ => None end = Some x)
        by (rewrite !deval_0, D1, D2; exact Hx).
      assert (Rt : touched e2 -> o = ORotate \/ o = OTransform -> forall i, t1 <> Ident i).
      { intros Ha Ho i ->. exact (Hrot Ha Ho i eq_refl). }
      assert (Fin : forall q1 s1 q2 s2 r, tinv (fun s => deval eps (denv s) e1) (touched e1) q1 s1 ->
        tinv (fun s => deval eps (denv s) e2) (touched e2) q2 s2 -> ty_bin o s1 s2 = Some r ->
        (s1 = t1 \/ exists l', s1 = Plain l') ->
        tinv (fun s => match deval eps (denv s) e1, deval eps (denv s) e2 with
                   Some y, Some z => dsem_bin o y z | _, _ => None end)
          (touched (XBin o e1 e2)) (XBin o q1 q2) r).
      { intros q1 s1 q2 s2 r J1 J2 Tb Or.
        destruct (tinv_bin o _ _ _ _ q1 q2 s1 s2 r x J1 J2 Tb) as (v & T & I); [|exact H3|].
        - destruct Or as [-> |(l' & ->)]; [exact Rt|]. intros; discriminate.
        - exists v, T. destruct I. constructor; auto. rewrite i_in0. unfold touched. cbn. split.
          + intros [(q & Hq & Hin)|(q & Hq & Hin)]; exists q; rewrite in_app_iff; auto.
          + intros (q & Hq & Hin). apply in_app_iff in Hin as [Hin|Hin]; eauto. }
      destruct (choose_binary _ _ _ _ _ _) as [[|tr'|tl'|tl' tr']|] eqn:C; [| | | |discriminate].
      + destruct (ty_bin o t1 t2) eqn:T; [|discriminate]. injection Hp as <- <-.
        eapply Fin; eauto.
      + destruct (ty_bin o t1 tr') eqn:T; [|discriminate]. injection Hp as <- <-.
        eapply Fin; [exact IH1|eapply tinv_convert; [|exact IH2]|exact T|auto].
        unfold choose_binary in C. destruct (is_some _); [discriminate|].
        destruct (first_true _ (convert_to t2)) as [y|] eqn:F.
        * injection C as ->. apply first_true_some in F. destruct F as (F & _).
          apply andb_prop in F. tauto.
        * destruct (first_true _ (convert_to t1)); [discriminate|].
          destruct (first_true _ (cartesian _ _)); discriminate.
      + destruct (ty_bin o tl' t2) eqn:T; [|discriminate]. injection Hp as <- <-.
        assert (Cc : can_convert t1 tl' = true).
        { unfold choose_binary in C. destruct (is_some _); [discriminate|].
          destruct (first_true _ (convert_to t2)) as [y|]; [discriminate|].
          destruct (first_true _ (convert_to t1)) as [y|] eqn:F.
          - injection C as ->. apply first_true_some in F. destruct F as (F & _).
            apply andb_prop in F. tauto.
          - destruct (first_true _ (cartesian _ _)); discriminate. }
        eapply Fin; [eapply tinv_convert; [exact Cc|exact IH1]|exact IH2|exact T|].
        right. destruct (can_convert_inv _ _ Cc) as (l' & -> & _). eauto.
      + destruct (ty_bin o tl' tr') eqn:T; [|discriminate]. injection Hp as <- <-.
        unfold choose_binary in C. destruct (is_some _); [discriminate|].
        destruct (first_true _ (convert_to t2)) as [y|]; [discriminate|].
        destruct (first_true _ (convert_to t1)) as [y|]; [discriminate|].
        destruct (first_true _ (cartesian _ _)) as [[y z]|] eqn:F; [|discriminate].
        injection C as -> ->. apply first_true_some in F. destruct F as (F & _). cbn in F.
        apply andb_prop in F as (F & _). apply andb_prop in F as (F1 & F2).
        eapply Fin; [eapply tinv_convert; [exact F1|exact IH1]|eapply tinv_convert; [exact F2|exact IH2]|exact T|].
        right. destruct (can_convert_inv _ _ F1) as (l' & -> & _). eauto.
  Qed.
End Tree.
