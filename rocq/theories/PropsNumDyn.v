(** C09, C29: numerical Jacobians of expressions with Dynamics and proxies. *)

From Coq Require Import Reals Lra Lia List Bool Arith FunctionalExtensionality.
From Verif Require Import Mat ModelMeta ModelJac SpecJac V3 ModelLeaf SpecLeaf LeafProofs ModelExpr SpecExpr
  ExprProofs PropsExpr Calc SpecDeriv DerivProofs DerivTree PropsDeriv ModelCompound ModelNum SpecNum
  NumProofs NumLimit PropsNum NumLip NumVal NumTree NumStep PropsNumSmall ModelDyn SpecDyn DynProofs PropsDyn
  ModelNumDyn NumDyn.
Import ListNotations.
Local Open Scope R_scope.
Local Open Scope mat_scope.

Local Arguments mvec : simpl never.

Lemma plv_den eps m b : 0 <= eps -> den (plv eps m b) = den (m b).
Proof.
  intros He.
  assert (Dec : valid (m b) \/ den (plv eps m b) = den (m b)).
  { destruct (vty (m b)) as [l|l|l] eqn:T.
    - right. unfold plv. rewrite T. unfold evaluateTo, prepare_to. cbn [prepare plain_output ty_leaf].
      destruct l; reflexivity.
    - unfold plv. rewrite T. destruct (m b) eqn:M; try discriminate T. cbn in T. injection T as ->.
      destruct l; try (left; exact I); right; cbn; rewrite ?M; reflexivity.
    - unfold plv. rewrite T. destruct (m b) eqn:M; try discriminate T. cbn in T. injection T as ->.
      destruct l; try (left; exact I); right; cbn; rewrite ?M; reflexivity. }
  destruct Dec as [V|H]; [|exact H]. now apply (plv_ok eps He m b V).
Qed.

Section Conv.
  Variables (eps : R) (m : env) (e : expr) (k : kind) (a : nat) (l : lty) (x : dval) (J : mat).
  Hypothesis He : 0 < eps < 1.
  Hypothesis G : good eps m e k.
  Hypothesis Hx : means eps m e = Some x.
  Hypothesis V : valid (m a).
  Hypothesis Hl : vty (m a) = Plain l.
  Hypothesis HJ : has_shape (tsize k) (tsize (kind_of l)) J.
  Hypothesis DJ : is_derivative eps m e a J.
  Hypothesis Hs : smooth eps (fun b => den (m b)) a e.

  Variables (lt : lty) (q pq : expr) (v b1 : value).
  Hypothesis Klt : kind_of lt = k.
  Hypothesis Hq : cv e q.
  Hypothesis Hp : prepare q = Some (pq, Plain lt).
  Hypothesis Dv : den v = x.
  Hypothesis Tv : vty v = Plain lt.
  Hypothesis Vv : valid v.
  (** The value the displacement is added to. *)
  Hypothesis V1 : valid b1.
  Hypothesis T1 : vty b1 = Plain l.
  Hypothesis D1 : den b1 = den (m a).

  Let em := minus_expr (kind_of lt) (XLeaf 0 (Plain lt)) (XLeaf 1 (Plain lt)).

  Lemma dyn_column j tau : (j < tsize (kind_of l))%nat -> 0 < tau -> near (fun h => h <> 0 ->
    exists y w d, add_delta eps l b1 j h = Some y /\
      uw (evaluateTo eps) (upd (plv eps m) a y) q = Some (w, Plain lt) /\
      evaluateTo eps (Plain (tangent_leaf lt)) (two_leaves w v) em = Some d /\
      forall i, (i < tsize k)%nat -> Rabs (coord d i / h - mget J i j) < tau).
  Proof.
    intros Hj Ht. assert (He' : 0 <= eps < 1) by lra.
    pose proof (core_x _ _ _ _ _ He' G Hx) as Hx'.
    pose proof (good_deval eps m e k x (proj1 He') G Hx') as (Kx & _).
    destruct (step_curves eps He l b1 j V1 T1) as (b0 & c & c' & Vb & Tb & Db & Cc & N). rewrite D1 in Db.
    pose proof (dpert_0 (den (m a)) (dir j)) as C0.
    pose proof (dpert_moves _ (dir j) (valid_dvalid _ V)) as M0.
    (* the exact values and differences *)
    destruct (DJ (dpert (den (m a)) (dir j)) (dir j) C0 M0) as (y & Ny & My).
    pose proof (near_0 _ Ny) as Y0. cbv beta in Y0.
    rewrite (core_at0 eps m e k a x He' G Hx _ C0) in Y0. injection Y0 as Y0.
    destruct (ddiff_moves eps y _ (proj1 He') My) as (f & Nf & Df).
    rewrite <- Y0 in Nf, Df. rewrite Kx in Df.
    (* the displaced environments *)
    assert (Kq : ekind q = Some k) by (rewrite (cv_kind _ _ Hq); apply G).
    assert (Ke : ekind e <> None) by (rewrite (proj1 G); discriminate).
    set (mu := upd (plv eps m) a b0).
    assert (Dmu : (fun b => den (mu b)) = (fun b => den (m b))).
    { apply functional_extensionality. intros b. unfold mu, upd. destruct (Nat.eqb_spec b a) as [->|]; [exact Db|].
      apply plv_den. lra. }
    assert (Emu : mu a = b0) by (unfold mu, upd; now rewrite Nat.eqb_refl).
    assert (Umu : forall z, upd mu a z = upd (plv eps m) a z).
    { intros z. apply functional_extensionality. intros b. unfold mu, upd. now destruct (b =? a)%nat. }
    assert (Pa : plv eps m a = m a) by (exact (proj2 (proj2 (proj2 (proj2 (plv_ok eps (proj1 He') m a V)))) l Hl)).
    assert (Emq : env_ok m q) by (apply (cv_env m e q Hq), G).
    assert (Pmu : penv mu q).
    { unfold mu. apply upd_penv; [now rewrite Tb, Pa, Hl|exact Vb|]. apply plv_penv; [lra|exact Emq]. }
    assert (Tc : near (fun h => vty (c h) = Plain l)).
    { destruct Cc as (T & _). rewrite Tb in T. exact (near_impl _ _ (fun h a => proj1 a) T). }
    assert (NP : near (fun h => deval eps (fun b => den (upd mu a (c h) b)) q = Some (y h))).
    { apply (near_impl2 _ _ _) with (2 := near_and _ _ N Tc) (3 := Ny). intros h ((Vh & Dh & _) & Th) Eh.
      assert (Ok : env_ok (upd m a (c h)) e) by (eapply env_upd; eauto; apply G).
      assert (Dm : (fun b => den (upd mu a (c h) b)) = (fun b => den (upd m a (c h) b))).
      { apply functional_extensionality. intros b. unfold upd. destruct (b =? a)%nat; [reflexivity|].
        exact (f_equal (fun g => g b) Dmu). }
      rewrite Dm, (cv_deval eps (proj1 He) (upd m a (c h)) e q Hq Ke Ok). rewrite D1 in Dh.
      rewrite (dval_upd eps m a (c h) e _ _ Dh). exact Eh. }
    (* evaluation with the offset *)
    rewrite <- Emu in Cc.
    destruct (CR_uw eps (proj1 He) mu a c c' Cc (near_impl _ _ (fun h a => proj1 a) N) q pq (Plain lt) k x Hp Kq Pmu)
      as (w & Ew & Dw & Vw & Tw & u & u' & Nu & Nuv & Cu).
    { rewrite Dmu. apply (cv_exps eps (proj1 He) m e q Hq Ke); apply G. }
    { apply (near_impl _ _) with (2 := NP). intros h ->. discriminate. }
    { rewrite Dmu. apply (cv_conds eps (proj1 He) _ m e q Hq Ke); [apply G|].
      apply smooth_conds; [exact Hs|]. apply exact_regular; [apply G|exact Hs]. }
    { rewrite Dmu, (cv_deval eps (proj1 He) m e q Hq Ke); [exact Hx'|apply G]. }
    cbn [plain_output ty_leaf] in Tw.
    assert (Nw : near (fun h => valid (u h) /\ vty (u h) = Plain lt /\ den (u h) = y h)).
    { apply (near_impl2 _ _ _) with (2 := near_and _ _ (near_and _ _ N Tc) NP) (3 := Nu).
      intros h (((Vh & _) & Th) & Eh) (Uh & _).
      assert (Th' : vty (c h) = vty (mu a)) by (now rewrite Emu, Tb).
      destruct (uw_ok eps (proj1 He) (upd mu a (c h)) q pq (Plain lt) k (y h) Hp Kq (upd_penv mu a q (c h) Th' Vh Pmu) Eh)
        as (z & Ez & Dz & Vz & Tz).
      rewrite Uh in Ez. injection Ez as ->. auto. }
    (* the difference *)
    assert (Kem : ekind em = Some (kind_of (tangent_leaf lt))) by (unfold em; destruct lt; reflexivity).
    assert (Ok : forall w', valid w' -> vty w' = Plain lt -> env_ok (two_leaves w' v) em)
      by (intros w' V' T'; unfold em, minus_expr, XBoxMinus; destruct (kind_of lt); cbn; auto).
    assert (Xm : forall w', exps_exact eps (fun i => den (two_leaves w' v i)) em)
      by (intros w'; unfold em, minus_expr, XBoxMinus; destruct (kind_of lt); cbn; auto).
    assert (Db0 : exists d0, deval eps (fun b => den (two_leaves w v b)) em = Some d0).
    { pose proof (near_0 _ Nf) as F0. cbv beta in F0. rewrite <- Y0 in F0.
      destruct (minus_ok eps lt w v (f 0) (proj1 He') Vw Vv Tw Tv) as (d & Ed & _); [congruence|].
      pose proof (evaluateTo_sound eps (proj1 He') (two_leaves w v) em _ _ Kem eq_refl (Ok w Vw Tw) (Xm w)) as (S & _).
      fold em in Ed. rewrite Ed in S. cbn in S. eauto. }
    destruct Db0 as (d0 & Db0).
    destruct (CR_evaluateTo eps (proj1 He) (two_leaves w v) (fun h => two_leaves (u h) v) (fun h => two_leaves (u' h) v)
      em (tangent_leaf lt) d0 Kem (Ok w Vw Tw)) as (db & _ & _ & _ & Tdb & D & D' & ND & _ & CD).
    { apply (near_impl _ _) with (2 := Nw). intros h (Vh & Th & _). now apply Ok. }
    { assert (Lv : leaf_addrs em = [0%nat; 1%nat]) by (unfold em, minus_expr, XBoxMinus; destruct (kind_of lt); reflexivity).
      rewrite Lv. intros b [<-|[<-|[]]]; [exact Cu|exact (CR_const v)]. }
    { apply Xm. }
    { exact (minus_conds eps m e k x Hx lt v Klt Dv Tv Vv w Vw Tw Dw). }
    { exact Db0. }
    destruct CD as (TD & CDc & _).
    assert (L : forall i, (i < tsize k)%nat -> LR (coord db i) (fun h => f h i) (fun h => coord (D' h) i)).
    { intros i Hi. eapply LR_near; [|apply (CDc i)].
      apply (near_impl2 _ _ _) with (2 := near_and _ _ ND Nw) (3 := Nf). intros h ((Eh & _) & (Vh & Th & Dh)) Fh.
      split; [|reflexivity].
      rewrite (evaluateTo_x_exact eps (proj1 He) _ em _ Kem (Ok _ Vh Th) (Xm _)) in Eh.
      destruct (minus_ok eps lt (u h) v (f h) (proj1 He') Vh Vv Th Tv) as (d & Ed & Cd); [congruence|].
      fold em in Ed. rewrite Eh in Ed. injection Ed as ->. apply Cd. now rewrite Klt. }
    assert (Nq : near (fun h => forall i, (i < tsize k)%nat -> h <> 0 -> Rabs (coord (D' h) i / h - mget J i j) < tau)).
    { apply near_forall_lt. intros i Hi. destruct (Df i Hi) as (Di & F0).
      rewrite (mvec_dir J j i) in Di by (rewrite ?(proj1 HJ), ?(proj2 HJ); assumption).
      exact (LR_quotient (coord db i) (fun s => f s i) (fun s => coord (D' s) i) _ tau Di F0 (L i Hi) Ht). }
    apply (near_impl2 _ _ _) with (2 := near_and _ _ (near_and _ _ N Nu) ND) (3 := Nq).
    intros h (((_ & _ & Ah) & (_ & Uh)) & (_ & Eh)) Qh Nz.
    exists (c' h), (u' h), (D' h). split; [exact Ah|]. rewrite <- Umu. split; [exact Uh|]. split; [exact Eh|].
    intros i Hi. now apply Qh.
  Qed.
End Conv.

Section Mem.
  Variables (eps : R) (na t c : nat) (h : R).

  Lemma dwd_mem dd dd' s s' e : same_mem s s' -> (forall d, dd' d = dd d) ->
    dwith_delta eps na t c h dd' s' e = dwith_delta eps na t c h dd s e.
  Proof.
    intros M D. induction e as [b u|o e IH|o e1 IH1 e2 IH2]; cbn [dwith_delta].
    - now rewrite (is_dyn_mem _ _ _ M), D, (proj1 M).
    - now rewrite IH.
    - now rewrite IH1, IH2.
  Qed.

  Lemma dynWithDelta_mem f : forall s s' d, same_mem s s' ->
    dynWithDelta eps na t c h f s' d = dynWithDelta eps na t c h f s d.
  Proof.
    induction f as [|f IH]; intros s s' d M; [reflexivity|]. cbn [dynWithDelta]. rewrite (proj2 M).
    destruct (objs s d) as [[u|n|n l|? ?]|]; try reflexivity. rewrite (outline_mem _ _ _ _ M).
    destruct (outline f s n) as [e|]; [|reflexivity]. f_equal. apply dwd_mem; [exact M|]. intros b. now apply IH.
  Qed.
End Mem.

Lemma stands_det s stop n e e' : stands s stop n e -> stands s stop n e' -> e' = e.
Proof.
  intros H H'. destruct (stands_xp _ _ _ _ H) as (f & e0 & O & X). destruct (stands_xp _ _ _ _ H') as (f' & e0' & O' & X').
  pose proof (outline_det _ _ _ _ _ _ O O') as <-. exact (xp_det _ _ _ _ X _ X').
Qed.

Section Base.
  Variables (eps : R) (na : nat) (s : state) (m : env) (t : nat).
  Hypothesis He : 0 <= eps.

  (** Leaves of [e] and their values, without the target. *)
  Lemma fetched_vals c h m' e : (forall b, is_dyn s b = false -> m' b = vals s b) -> env_ok m' e ->
    (forall b, In b (leaf_addrs e) -> is_dyn s b = false) -> ~ In t (leaf_addrs e) ->
    fetched eps t c h (fun _ => None) s (plv eps m') e.
  Proof.
    intros Hm. induction e as [b u|o e IH|o e1 IH1 e2 IH2]; cbn [fetched env_ok leaf_addrs].
    - intros (Tb & Vb) Hd Hn. rewrite (Hd b) by (left; reflexivity).
      exists (plv eps m' b). split.
      + destruct (plv_ok eps He m' b Vb) as (E & _). rewrite Tb in E. rewrite <- E.
        unfold evaluateTo. destruct (prepare_to (plain_output u) (XLeaf b u)) as [[p w]|] eqn:P; [|reflexivity].
        symmetry. apply eval_p_ext. intros a Ha. apply Hm.
        pose proof (prepare_to_leaves _ _ _ _ P) as L. cbn in L.
        assert (Q : forall e, leaf_addrs e = map fst (PropsDeriv.xleaves e)).
        { induction e as [? ?|? ? IH|? ? IHl ? IHr]; cbn; auto. now rewrite IHl, IHr, map_app. }
        rewrite Q, L in Ha. cbn in Ha. destruct Ha as [<-|[]]. apply Hd. left. reflexivity.
      + unfold delta_if. destruct (Nat.eqb_spec b t) as [->|]; [|reflexivity]. elim Hn. left. reflexivity.
    - exact IH.
    - intros (E1 & E2) Hd Hn. split; [apply IH1|apply IH2]; auto;
        try (intros b Hb; apply Hd, in_app_iff; auto); intros Hb; apply Hn, in_app_iff; auto.
  Qed.

  (** With the target displaced to [y]. *)
  Lemma fetched_upd c h dd l b1 y m' e : (forall b, is_dyn s b = false -> m' b = vals s b) -> env_ok m' e ->
    (forall b, In b (leaf_addrs e) -> is_dyn s b = false \/ only t b = true) -> vty (m' t) = Plain l ->
    (if is_dyn s t then dd t else evaluateTo eps (Plain l) (vals s) (XLeaf t (Plain l))) = Some b1 ->
    add_delta eps l b1 c h = Some y ->
    fetched eps t c h dd s (upd (plv eps m') t y) e.
  Proof.
    intros Hm E Hd Hl Hb Hy. revert E Hd. induction e as [b u|o e IH|o e1 IH1 e2 IH2]; cbn [fetched env_ok leaf_addrs].
    - intros (Tb & Vb) Hd. unfold upd, delta_if. destruct (Nat.eqb_spec b t) as [->|Ne].
      + rewrite Hl in Tb. subst u. exists b1. split; [exact Hb|exact Hy].
      + assert (D : is_dyn s b = false).
        { destruct (Hd b) as [D|D]; [left; reflexivity|exact D|]. unfold only in D. apply Nat.eqb_eq in D. contradiction. }
        destruct (fetched_vals c h m' (XLeaf b u) Hm) as (v & Ev & Dv).
        * split; assumption.
        * intros b' [<-|[]]. exact D.
        * intros [->|[]]. now apply Ne.
        * rewrite D in Ev. rewrite D. exists v. split; [exact Ev|]. unfold delta_if in Dv.
          destruct (Nat.eqb_spec b t); [contradiction|]. exact Dv.
    - exact IH.
    - intros (E1 & E2) Hd. split; [apply IH1|apply IH2]; auto; intros b Hb'; apply Hd, in_app_iff; auto.
  Qed.

  (** The value the displacement is added to. *)
  Lemma base_ok l : 0 < eps -> reads eps s t m -> valid (m t) -> vty (m t) = Plain l -> na <> t ->
    (forall n l', objs s t = Some (ODyn n l') ->
       exists e' k', stands s no_stop (NProxy t l') e' /\ good eps (vals s) e' k') ->
    exists b1 F, valid b1 /\ vty b1 = Plain l /\ den b1 = den (m t) /\
      (if is_dyn s t then forall f c h, (F <= f)%nat -> dynWithDelta eps na t c h f s t = Some b1
       else evaluateTo eps (Plain l) (vals s) (XLeaf t (Plain l)) = Some b1).
  Proof.
    intros Hp (R1 & R2) V T Na Gd. unfold is_dyn at 1. destruct (objs s t) as [[u|n|n l'|? ?]|] eqn:O.
    1,2,4,5: exists (m t), 0%nat; split; [exact V|split; [exact T|split; [reflexivity|]]];
      rewrite (R1 t) by (unfold is_dyn; now rewrite O); destruct l; reflexivity.
    destruct (Gd n l' eq_refl) as (e & k' & St & G). destruct (R2 n l' eq_refl) as (e' & St' & Ev).
    rewrite (stands_det _ _ _ _ _ St St') in Ev. clear e' St'.
    destruct (dyn_value eps na t s n l' e O St) as (F & HF).
    assert (Lf : forall b, In b (leaf_addrs e) -> is_dyn s b = false).
    { destruct (stands_xp _ _ _ _ St) as (f & e0 & _ & X). intros b Hb.
      destruct (xp_leaves _ _ _ _ X b Hb) as [D|D]; [exact D|discriminate]. }
    assert (Nt : ~ In t (leaf_addrs e)).
    { intros Ht. pose proof (Lf t Ht) as D. unfold is_dyn in D. now rewrite O in D. }
    assert (P : exists p, prepare e = Some (p, Plain l')).
    { inversion St as [| | | | |d' n' l2 S' O'|d' n' l2 e2 S' O' St' (p & P)| |]; subst; [discriminate|]. eauto. }
    destruct P as (p & P).
    pose proof (good_means eps (vals s) e k' He G) as Gm.
    assert (Dx : deval eps (fun b => den (vals s b)) e = Some (den (m t)) /\ l = l').
    { unfold eval in Ev. rewrite P in Ev.
      destruct (prepare_to_total e l' k' (proj1 G)) as (p' & P').
      { exact (proj2 (prepare_kind _ _ _ _ P (proj1 G))). }
      destruct (prepare_to_sound eps He (vals s) e _ _ _ k' P' (proj1 G) (proj1 (proj2 G)) (proj2 (proj2 G))) as (_ & Sn).
      unfold evaluateTo in Ev. change (plain_output (Plain l')) with (Plain l') in Ev. rewrite P' in Ev.
      destruct (proj2 Sn (m t) Ev) as (Tv & _). split; [|congruence].
      rewrite <- (proj1 Sn), Ev. reflexivity. }
    destruct Dx as (Dx & <-).
    assert (Dp : (fun b => den (plv eps (vals s) b)) = (fun b => den (vals s b))).
    { apply functional_extensionality. intros b. now apply plv_den. }
    pose proof (plv_penv eps He (vals s) e (proj1 (proj2 G))) as Pe.
    rewrite <- Dp in Dx.
    destruct (uw_ok eps Hp (plv eps (vals s)) e p (Plain l) k' (den (m t)) P (proj1 G) Pe Dx) as (b1 & Ew & Db & Vb & Tb).
    exists b1, F. split; [exact Vb|]. split; [exact Tb|]. split; [exact Db|].
    intros f c h L. rewrite (HF f c h L).
    rewrite (dwd_uw eps na t c h (fun _ => None) s (plv eps (vals s)) e Na).
    - rewrite (uw_static eps Hp (plv eps (vals s)) e).
      + rewrite Ew. reflexivity.
      + rewrite (proj1 G). discriminate.
      + exact Pe.
      + rewrite Dp. apply G.
      + rewrite Dx. discriminate.
    - apply fetched_vals; auto. apply G.
  Qed.
End Base.

(** C09 through proxies: evaluateNumericalJacobian of an expression object with any
    number of proxies, references and Dynamics, with respect to a leaf object or to a
    Dynamic, converges to the Jacobian the dynamic evaluator returns, which is the
    derivative of the expression the object stands for.  Where [t] is a Dynamic, what it
    holds is displaced; the exponentials in it are assumed exact, as in [good]. *)
Theorem c09_through_proxies_converges : forall eps na s n e t l m k x, 0 < eps < 1 -> reads eps s t m ->
  stands s (only t) n e -> good eps m e k -> means eps m e = Some x ->
  In t (leaf_addrs e) -> vty (m t) = Plain l -> smooth eps (fun b => den (m b)) t e -> na <> t ->
  (forall n' l', objs s t = Some (ODyn n' l') ->
     exists e' k', stands s no_stop (NProxy t l') e' /\ good eps (vals s) e' k') ->
  exists F v J, den v = x /\ has_shape (tsize k) (tsize (kind_of l)) J /\ is_derivative eps m e t J /\
    (forall f, (F <= f)%nat -> exists s',
       node_withDynamic eps na f s n t (tsize (kind_of l)) = Some (v, J, s')) /\
    forall tau, 0 < tau -> near (fun h => h <> 0 ->
      exists N, has_shape (tsize k) (tsize (kind_of l)) N /\
        (forall f, (F <= f)%nat -> exists s', node_numerical eps h na f s n t l = Some (N, s') /\ same_mem s s') /\
        forall i j, (i < tsize k)%nat -> (j < tsize (kind_of l))%nat -> Rabs (mget N i j - mget J i j) < tau).
Proof.
  intros eps na s n e t l m k x He Rd St G Hx Ha Hl Hs Na Gd.
  assert (He' : 0 <= eps < 1) by lra.
  destruct (c29_forward_is_derivative eps na s n e t l m k x He' Rd St G Hx Ha Hl Hs Na) as (F1 & vd & J & Dvd & SJ & DJ & HJ).
  pose proof (core_m eps m e k t G Ha) as Vt.
  destruct (base_ok eps na s m t (proj1 He') l (proj1 He) Rd Vt Hl Na Gd) as (b1 & F2 & V1 & T1 & D1 & Hb).
  (* preparation *)
  destruct (stands_xp _ _ _ _ St) as (f0 & e0 & O & X).
  destruct (prepare_total e k (proj1 G)) as (pe & u & P & W & Ku).
  pose proof (prepare_xp _ _ _ _ X) as Rp. unfold rel_prep in Rp. rewrite P in Rp.
  destruct (prepare e0) as [[pe0 u0]|] eqn:P0; [|contradiction]. destruct Rp as (-> & _).
  set (lt := ty_leaf u) in *.
  assert (Klt : kind_of lt = k) by exact Ku.
  destruct (prepare_to_total e lt k (proj1 G) Klt) as (p & P').
  pose proof (prepare_to_xp _ _ (Plain lt) _ _ X) as Rp. unfold rel_prep in Rp. rewrite P' in Rp.
  destruct (prepare_to (Plain lt) e0) as [[p0 w0]|] eqn:P0'; [|contradiction]. destruct Rp as (-> & _).
  destruct (xp_prepared_to _ _ _ _ _ _ _ X P0' (proj1 G) Klt) as (q & pq & Xq & Cq & Pq).
  (* the value *)
  destruct (prepare_to_sound eps (proj1 He') m e _ _ _ k P' (proj1 G) (proj1 (proj2 G)) (proj2 (proj2 G))) as (_ & Sn).
  rewrite <- (good_means eps m e k (proj1 He') G), Hx in Sn.
  destruct (sound_value _ _ _ Sn) as (v & Hv & Dv & Tv & Vv).
  destruct (run_ev eps na s (only t) m n e (reads_env eps na _ _ _ Rd) St) as (F3 & HF3).
  assert (Ev : forall f, (f0 + F3 <= f)%nat -> outline f s n = Some e0 /\ exists T0 s',
    ev eps na (dynEvaluate eps na f) s p0 = Some (v, T0, s') /\ same_mem s s').
  { intros f L. split; [exact (outline_mono _ _ _ _ O f ltac:(lia))|].
    specialize (HF3 f ltac:(lia)). rewrite (prepared_out _ _ _ _ O f ltac:(lia)) in HF3. unfold out_expr in HF3.
    rewrite P, P0 in HF3. change (plain_output u) with (Plain lt) in HF3. rewrite P', P0' in HF3. cbn [option_map fst] in HF3.
    destruct HF3 as (_ & HF3). pose proof (tree_value eps na m p) as Tvl. rewrite Hv in Tvl.
    destruct (tree eps na m p) as [[v' T']|]; [|discriminate]. cbn in Tvl. injection Tvl as ->.
    destruct HF3 as (T0 & s' & E & (_ & M & _) & _). eauto. }
  (* the columns *)
  destruct (xp_xph _ _ _ _ Xq) as (kh & Xh).
  set (r := if is_dyn s t then Some b1 else None).
  destruct (dwd_xph eps na t s (only t) (fun _ _ => r) F2) with (k := kh) (e0 := p0) (e := q) as (F4 & HF4).
  { intros d f c h Sd L. unfold only in Sd. apply Nat.eqb_eq in Sd. subst d. unfold r.
    destruct (is_dyn s t) eqn:D; [now apply Hb|]. destruct f; [reflexivity|]. cbn [dynWithDelta].
    unfold is_dyn in D. destruct (objs s t) as [[?|?|? ?|? ?]|]; try reflexivity. discriminate. }
  { exact Xh. }
  { intros _ _ _ _ _ _. unfold only. apply Nat.eqb_refl. }
  assert (Eq : env_ok m q) by (apply (cv_env m e q Cq), G).
  assert (Col : forall f s' c h y, (F4 <= f)%nat -> same_mem s s' -> add_delta eps l b1 c h = Some y ->
    dwith_delta eps na t c h (dynWithDelta eps na t c h f s') s' p0 = uw (evaluateTo eps) (upd (plv eps m) t y) q).
  { intros f s' c h y L M Hy.
    rewrite (dwd_mem eps na t c h (dynWithDelta eps na t c h f s) _ s s' p0 M) by (intros d; now apply dynWithDelta_mem).
    rewrite (HF4 f c h L). apply dwd_uw; [exact Na|].
    apply (fetched_upd eps s t (proj1 He') c h (fun _ => r) l b1 y m q (proj1 Rd) Eq); auto.
    - exact (xp_leaves _ _ _ _ Xq).
    - unfold r. destruct (is_dyn s t); [reflexivity|exact Hb]. }
  exists (F1 + f0 + F3 + F4)%nat, vd, J. split; [exact Dvd|]. split; [exact SJ|]. split; [exact DJ|].
  split; [intros f L; apply HJ; lia|].
  intros tau Ht.
  set (em := minus_expr (kind_of lt) (XLeaf 0 (Plain lt)) (XLeaf 1 (Plain lt))).
  apply (near_impl (fun h => forall j, (j < tsize (kind_of l))%nat -> h <> 0 ->
    exists y w d, add_delta eps l b1 j h = Some y /\
      uw (evaluateTo eps) (upd (plv eps m) t y) q = Some (w, Plain lt) /\
      evaluateTo eps (Plain (tangent_leaf lt)) (two_leaves w v) em = Some d /\
      forall i, (i < tsize k)%nat -> Rabs (coord d i / h - mget J i j) < tau)).
  2:{ apply near_forall_lt. intros j Hj.
      exact (dyn_column eps m e k t l x J He G Hx Vt Hl SJ DJ Hs lt q pq v b1 Klt Cq Pq Dv Tv Vv V1 T1 D1 j tau Hj Ht). }
  intros h Cs Nz.
  assert (Cs' : forall j, (j < tsize (kind_of l))%nat -> exists c,
    (forall f s', (F4 <= f)%nat -> same_mem s s' -> dnum_column eps na t h f s' p0 v j = Some c) /\
    forall i, (i < tsize k)%nat -> Rabs (c i - mget J i j) < tau).
  { intros j Hj. destruct (Cs j Hj Nz) as (y & w & d & Ey & Ew & Ed & Bd).
    exists (fun i => coord d i / h). split; [|exact Bd]. intros f s' L M. unfold dnum_column.
    rewrite (Col f s' j h y L M Ey), Ew. cbn [ty_leaf]. fold em. now rewrite Ed. }
  destruct (all_some_choice (dnum_column eps na t h F4 s p0 v) (tsize (kind_of l))) as (cs & E & Lc & Nc).
  { intros j Hj. destruct (Cs' j Hj) as (c & Hc & _). exists c. apply Hc; [lia|apply same_mem_refl]. }
  exists (Mat (tsize k) (tsize (kind_of l)) (fun i j => nth j cs (fun _ => 0) i)).
  split; [split; reflexivity|]. split.
  - intros f L. destruct (Ev f ltac:(lia)) as (Of & T0 & s' & Ef & M). exists s'. split; [|exact M].
    unfold node_numerical. rewrite Of, P0. change (plain_output u) with (Plain lt). rewrite P0', Ef. cbv zeta.
    rewrite (map_ext_in _ (dnum_column eps na t h F4 s p0 v)).
    + rewrite E. cbn [option_map]. change (ty_kind u) with (kind_of lt). now rewrite Klt.
    + intros j Hj. apply in_seq in Hj. destruct (Cs' j ltac:(lia)) as (c & Hc & _).
      rewrite (Hc f s' ltac:(lia) M), (Hc F4 s (le_n _) (same_mem_refl s)). reflexivity.
  - intros i j Hi Hj. cbn [mget]. destruct (Cs' j Hj) as (c & Hc & Bc).
    specialize (Hc F4 s (le_n _) (same_mem_refl s)). rewrite (Nc j (fun _ => 0) Hj) in Hc. injection Hc as Hc.
    rewrite Hc. now apply Bc.
Qed.
Print Assumptions c09_through_proxies_converges.

(** The hypotheses are met with respect to the Dynamic d20 of the memory [dx]. *)
Example c09_through_proxies_example : exists m x,
  reads (1/4) dx 20 m /\ stands dx (only 20) (NRef 23) dx_e20 /\ good (1/4) m dx_e20 KTrans /\
  means (1/4) m dx_e20 = Some x /\ In 20%nat (leaf_addrs dx_e20) /\ vty (m 20%nat) = Plain LMat /\
  smooth (1/4) (fun b => den (m b)) 20 dx_e20 /\
  (forall n' l', objs dx 20 = Some (ODyn n' l') ->
     exists e' k', stands dx no_stop (NProxy 20 l') e' /\ good (1/4) (vals dx) e' k').
Proof.
  destruct c29_example as (m & x & R & S & G & Hx & Ha & Hl & Hs). exists m, x.
  split; [exact R|]. split; [exact S|]. split; [exact G|]. split; [exact Hx|]. split; [exact Ha|]. split; [exact Hl|].
  split; [exact Hs|]. intros n' l' H. cbn in H. injection H as <- <-. exists dx_rq, KRot. split; [|exact dx_rq_good].
  eapply st_proxy; [reflexivity|reflexivity| |eexists; vm_compute; reflexivity].
  constructor; constructor; reflexivity.
Qed.

(** And with respect to a leaf behind two proxies. *)
Example c09_through_proxies_leaf_example : exists x,
  reads (1/4) dx 1 (vals dx) /\ stands dx (only 1) (NRef 23) dx_e /\ good (1/4) (vals dx) dx_e KTrans /\
  means (1/4) (vals dx) dx_e = Some x /\ In 1%nat (leaf_addrs dx_e) /\ vty (vals dx 1%nat) = Plain LMat /\
  smooth (1/4) (fun b => den (vals dx b)) 1 dx_e.
Proof.
  assert (exists x, means (1/4) (vals dx) dx_e = Some x) as (x & Hx).
  { rewrite (good_means (1/4) _ dx_e KTrans ltac:(lra) dx_good). cbn. eexists; reflexivity. }
  exists x. split.
  { split; [reflexivity|]. intros n l H. discriminate H. }
  split.
  { assert (Q : stands dx (only 1) (NProxy 20 LMat) dx_rq).
    { eapply st_proxy; [reflexivity|reflexivity| |eexists; vm_compute; reflexivity].
      constructor; constructor; reflexivity. }
    eapply st_expr; [reflexivity|]. constructor.
    - eapply st_proxy; [reflexivity|reflexivity| |eexists; vm_compute; reflexivity].
      constructor; [|constructor; reflexivity]. eapply st_var; [reflexivity|exact Q].
    - constructor; [exact Q|constructor; reflexivity]. }
  split; [exact dx_good|]. split; [exact Hx|]. split; [cbn; tauto|]. split; [reflexivity|].
  cbn. repeat split; intros; try discriminate; try (intuition discriminate).
Qed.
