(** The displaced value x [+] (h e_j): the exact curve and the one the library computes
    with its small-angle exponential agree to second order. *)

From Coq Require Import Reals Lra Lia List Bool Arith.
From Verif Require Import Mat ModelMeta ModelJac V3 ModelLeaf SpecLeaf LeafProofs ModelExpr SpecExpr
  ExprProofs PropsExpr Calc SpecDeriv DerivProofs DerivTree PropsDeriv PropsLie PropsSmall ModelCompound ModelNum SpecNum
  NumProofs NumLimit PropsNum NumLip NumExp0 NumVal NumTree.
Import ListNotations.
Local Open Scope R_scope.

Lemma vnorm2_vscal h x : vnorm2 (vscal h x) = h * h * vnorm2 x.
Proof. destruct x. v3unf. ring. Qed.
Lemma vnorm_vscal h x : vnorm (vscal h x) = Rabs h * vnorm x.
Proof. unfold vnorm. rewrite vnorm2_vscal, sqrt_mult_alt, <- sqrt_Rsqr_abs; [reflexivity|nra]. Qed.
Lemma norm1_vscal h x : norm1 (vscal h x) = Rabs h * norm1 x.
Proof. destruct x. unfold norm1. v3unf. rewrite !Rabs_mult. ring. Qed.
Lemma norm1_pos x : 0 <= norm1 x.
Proof. unfold norm1. pose proof (Rabs_pos (vx x)). pose proof (Rabs_pos (vy x)). pose proof (Rabs_pos (vz x)). lra. Qed.

Lemma near_scal_small e x : 0 < e -> near (fun h => h * h * vnorm2 x < e).
Proof.
  intros He. pose proof (vnorm2_pos x) as P.
  assert (H : LR 0 (fun h => h * h * vnorm2 x) (fun h => h * h * vnorm2 x)).
  { eapply LR_val; [|exact (LR_mul _ _ _ _ _ _ (LR_mul _ _ _ _ _ _ LR_id LR_id) (LR_const (vnorm2 x)))]. ring. }
  apply (near_impl _ _) with (2 := LR_lt _ _ _ e H He). tauto.
Qed.

Section Eps.
  Variable eps : R.
  Hypothesis He : 0 < eps < 1.
  Let He' : 0 <= eps < 1 := conj (Rlt_le _ _ (proj1 He)) (proj2 He).

  Lemma LV_dir x : LV v0 (fun h => vscal h x) (fun h => vscal h x).
  Proof.
    destruct x as [a b c]. repeat split; cbn; (eapply LR_val; [|exact (LR_mul _ _ _ _ _ _ LR_id (LR_const _))]; ring).
  Qed.

  Lemma LQ_step x : LQ qone (fun h => exp_quat 0 (vscal h x)) (fun h => exp_quat eps (vscal h x)).
  Proof. exact (LQ_exp0 eps _ _ (proj1 He) (LV_dir x)). Qed.

  Lemma LM_step x y :
    LM i3 (fun h => so3_exp (vscal h x)) (fun h => fst (twist_exp eps (vscal h x) (vscal h y))) /\
    LV v0 (fun h => app3 (so3_V (vscal h x)) (vscal h y)) (fun h => snd (twist_exp eps (vscal h x) (vscal h y))).
  Proof.
    assert (Sm : near (fun h => vnorm2 (vscal h x) <= eps)).
    { apply (near_impl _ _) with (2 := near_scal_small eps x (proj1 He)). intros h A. rewrite vnorm2_vscal. lra. }
    assert (E : near (fun h => twist_exp eps (vscal h x) (vscal h y) = (add3 i3 (skew (vscal h x)), vscal h y))).
    { apply (near_impl _ _) with (2 := Sm). intros h A. now rewrite twist_exp_small. }
    assert (Cl : near (fun h =>
      (forall i j, (i < 3)%nat -> (j < 3)%nat ->
       Rabs (mnth (of_m3 (add3 i3 (skew (vscal h x)))) i j - mnth (of_m3 (so3_exp (vscal h x))) i j) <= 2/3 * vnorm2 x * (h * h)) /\
      (let t := vscal h y in let t0 := app3 (so3_V (vscal h x)) (vscal h y) in let b := 2/3 * vnorm x * norm1 y * (h * h) in
       Rabs (vx t - vx t0) <= b /\ Rabs (vy t - vy t0) <= b /\ Rabs (vz t - vz t0) <= b))).
    { apply (near_impl _ _) with (2 := Sm). intros h A.
      destruct (c20_small_exp_close_partial eps (fun _ => VTwist (vscal h x) (vscal h y)) 0%nat _ _
        (conj (proj1 He') (Rlt_le _ _ (proj2 He))) eq_refl A) as (M & t & Em & HM & Ht).
      unfold means in Em.
      change (eval eps (fun _ => VTwist (vscal h x) (vscal h y)) (XUn OExpMap (XLeaf 0 (Plain LTwist))))
        with (eval_p eps (fun _ => VTwist (vscal h x) (vscal h y)) (XUn OExpMap (XLeaf 0 (Plain LTwist)))) in Em.
      cbn [eval_p sem_un] in Em. rewrite twist_exp_small in Em by exact A. cbn in Em. injection Em as <- <-.
      split.
      - intros i j Hi Hj. eapply Rle_trans; [exact (HM i j Hi Hj)|]. rewrite vnorm2_vscal. lra.
      - cbv zeta. rewrite vnorm_vscal, norm1_vscal in Ht.
        assert (Q : 2/3 * (Rabs h * vnorm x) * (Rabs h * norm1 y) = 2/3 * vnorm x * norm1 y * (h * h)).
        { replace (h * h) with (Rabs h * Rabs h) by (unfold Rabs; destruct (Rcase_abs h); ring). ring. }
        rewrite Q in Ht. exact Ht. }
    split.
    - assert (LM i3 (fun h => so3_exp (vscal h x)) (fun h => add3 i3 (skew (vscal h x)))) as G.
      { destruct x as [x1 x2 x3].
        assert (B : forall c z, LR c (fun h => c + h * z) (fun h => c + h * z)).
        { intros c z. eapply LR_val; [|exact (LR_add _ _ _ _ _ _ (LR_const c) (LR_mul _ _ _ _ _ _ LR_id (LR_const z)))]. ring. }
        assert (F : forall (g : M3 -> R) c z i j, (i < 3)%nat -> (j < 3)%nat -> (forall m, mnth (of_m3 m) i j = g m) ->
          (forall h, g (add3 i3 (skew (vscal h (mkV x1 x2 x3)))) = c + h * z) ->
          LR c (fun h => g (so3_exp (vscal h (mkV x1 x2 x3)))) (fun h => g (add3 i3 (skew (vscal h (mkV x1 x2 x3)))))).
        { intros g c z i j Hi Hj Hg Hc. apply (LR_from _ _ _ (2/3 * vnorm2 (mkV x1 x2 x3))).
          - eapply LR_near; [|exact (B c z)]. apply near_all. intros h. rewrite Hc. auto.
          - apply (near_impl _ _) with (2 := Cl). intros h (A & _). rewrite <- !Hg. now apply A. }
        split; [split; [|split]|split; [split; [|split]|split; [|split]]].
        - apply (F m00 1 0 0%nat 0%nat); [lia|lia|reflexivity|intros; v3unf; ring].
        - apply (F m01 0 (- x3) 0%nat 1%nat); [lia|lia|reflexivity|intros; v3unf; ring].
        - apply (F m02 0 x2 0%nat 2%nat); [lia|lia|reflexivity|intros; v3unf; ring].
        - apply (F m10 0 x3 1%nat 0%nat); [lia|lia|reflexivity|intros; v3unf; ring].
        - apply (F m11 1 0 1%nat 1%nat); [lia|lia|reflexivity|intros; v3unf; ring].
        - apply (F m12 0 (- x1) 1%nat 2%nat); [lia|lia|reflexivity|intros; v3unf; ring].
        - apply (F m20 0 (- x2) 2%nat 0%nat); [lia|lia|reflexivity|intros; v3unf; ring].
        - apply (F m21 0 x1 2%nat 1%nat); [lia|lia|reflexivity|intros; v3unf; ring].
        - apply (F m22 1 0 2%nat 2%nat); [lia|lia|reflexivity|intros; v3unf; ring]. }
      eapply LM_near; [|exact G]. apply (near_impl _ _) with (2 := E). intros h ->. auto.
    - assert (LV v0 (fun h => app3 (so3_V (vscal h x)) (vscal h y)) (fun h => vscal h y)) as G.
      { destruct (LV_dir y) as (X & Y & Z).
        split; [|split]; (eapply (LR_from _ _ _ (2/3 * vnorm x * norm1 y)); [eassumption|]);
          (apply (near_impl _ _) with (2 := Cl); intros h (_ & A & B & C); assumption). }
      eapply LV_near; [|exact G]. apply (near_impl _ _) with (2 := E). intros h ->. auto.
  Qed.

  (** The exact and the computed exponential of h e_j. *)
  Definition step_leaf (k : kind) : lty := match k with KRT => LMatRT | _ => LQuat end.
  Definition step_exact (k : kind) (j : nat) (h : R) : value :=
    let w := vscal h (tv (dir j)) in let u := vscal h (tw (dir j)) in
    match k with
    | KRT => VMatRT (so3_exp w) (app3 (so3_V w) u) v0 1
    | _ => VQuat (exp_quat 0 w)
    end.
  Definition step_code (k : kind) (j : nat) (h : R) : value :=
    let w := vscal h (tv (dir j)) in let u := vscal h (tw (dir j)) in
    match k with
    | KRT => let p := twist_exp eps w u in VMatRT (fst p) (snd p) v0 1
    | _ => VQuat (exp_quat eps w)
    end.

  Lemma vscal_0 x : vscal 0 x = v0.
  Proof. destruct x. v3unf. f_equal; ring. Qed.

  Lemma step_exact_ok k j h : group_kind k = true -> valid (step_exact k j h) /\ vty (step_exact k j h) = Plain (step_leaf k).
  Proof.
    intros Gk. destruct k; try discriminate Gk; cbn.
    - split; [|reflexivity].
      exact (proj1 (exp_quat_correct 0 _ (Rle_refl 0) (exp_exact_0 (DRel (vscal h (tv (dir j))))))).
    - split; [|reflexivity]. split; [apply so3_exp_is_rot|auto].
  Qed.

  Lemma step_CR k j : group_kind k = true -> CR (step_exact k j 0) (step_exact k j) (step_code k j).
  Proof.
    intros Gk. destruct k; try discriminate Gk; unfold step_exact, step_code; cbv zeta; rewrite !vscal_0.
    - replace (exp_quat 0 v0) with qone.
      + apply CR_quat, LQ_step.
      + rewrite exp_quat_small by (replace (vnorm2 v0) with 0 by (v3unf; ring); lra).
        unfold qone. v3unf. f_equal; lra.
    - rewrite so3_exp_0, so3_V_0, app3_i. destruct (LM_step (tv (dir j)) (tw (dir j))) as (A & B).
      now apply CR_rt1.
  Qed.

  Lemma delta_vec j h : (fun i : nat => if (i =? j)%nat then h else 0) = (fun i => h * dir j i).
  Proof. apply FunctionalExtensionality.functional_extensionality. intros i. unfold dir. destruct (i =? j)%nat; ring. Qed.

  Lemma add_delta_group l v j h : group_kind (kind_of l) = true ->
    add_delta eps l v j h =
      evaluateTo eps (Plain l) (two_leaves v (step_code (kind_of l) j h))
        (XBin OComposeFlipped (XLeaf 0 (Plain l)) (XLeaf 1 (Plain (step_leaf (kind_of l))))).
  Proof.
    intros Gk. unfold add_delta. rewrite delta_vec. destruct l; try discriminate Gk; reflexivity.
  Qed.

  Lemma step_curves l v j : valid v -> vty v = Plain l ->
    exists b0 c c', valid b0 /\ vty b0 = Plain l /\ den b0 = den v /\ CR b0 c c' /\
      near (fun h => valid (c h) /\ den (c h) = dpert (den v) (dir j) h /\ add_delta eps l v j h = Some (c' h)).
  Proof.
    intros V T. destruct (group_kind (kind_of l)) eqn:Gk.
    - set (e := XBin OComposeFlipped (XLeaf 0 (Plain l)) (XLeaf 1 (Plain (step_leaf (kind_of l))))).
      set (nu := fun h => two_leaves v (step_exact (kind_of l) j h)).
      assert (Ok : forall h, env_ok (nu h) e).
      { intros h. destruct (step_exact_ok (kind_of l) j h Gk). repeat split; assumption. }
      assert (Dh : forall h, deval eps (fun b => den (nu h b)) e = Some (dpert (den v) (dir j) h)).
      { intros h. unfold e. cbn [deval nu two_leaves].
        destruct v; try discriminate T; cbn in T; injection T as <-; try discriminate Gk; cbn [kind_of step_exact den dpert];
          cbv zeta; cbn [dsem_bin kind_bin dkind dcompose];
          try (rewrite (proj2 (exp_quat_correct 0 _ (Rle_refl 0)
            (exp_exact_0 (DRel (vscal h (tv (dir j)))))))); reflexivity. }
      assert (Ke : ekind e = Some (kind_of l)) by (unfold e; destruct l; try discriminate Gk; reflexivity).
      destruct (CR_evaluateTo eps (proj1 He) (nu 0) nu (fun h => two_leaves v (step_code (kind_of l) j h)) e l
        (dpert (den v) (dir j) 0)) as (b0 & Eb & Db & Vb & Tb & c & c' & N & Nv & C); auto.
      + apply near_all. exact Ok.
      + intros b [<-|[<-|[]]]; [exact (CR_const v)|now apply step_CR].
      + split; exact I.
      + split; exact I.
      + exists b0, c, c'. split; [exact Vb|]. split; [exact Tb|]. split; [now rewrite Db, dpert_0|]. split; [exact C|].
        apply (near_impl2 _ _ _) with (2 := N) (3 := Nv). intros h (A & B) Vh. split; [exact Vh|]. split.
        * pose proof (evaluateTo_x_sound eps (proj1 He) (nu h) e l Ke (Ok h)) as S.
          rewrite (Dh h) in S. destruct (sound_value _ _ _ S) as (w & Ew & Dw & _). rewrite A in Ew. now injection Ew as ->.
        * now rewrite (add_delta_group l v j h Gk).
    - set (f := fun h (i : nat) => if (i =? j)%nat then h else 0).
      destruct (mkvec_tangent l (f 0)) as (d0 & Hd0).
      set (d := fun h => mkvec' (tangent_leaf l) (f h)).
      assert (Hd : forall h, mkvec (tangent_leaf l) (f h) = Some (d h)) by (intros h; eapply mkvec'_eq; eauto).
      assert (Cd : CR d0 d d).
      { apply (CR_mkvec _ (f 0) f f d0 Hd0). intros i. unfold f. destruct (i =? j)%nat; [apply LR_id|apply LR_const]. }
      set (e := plus_expr (kind_of l) (XLeaf 0 (Plain l)) (XLeaf 1 (Plain (tangent_leaf l)))).
      assert (Ee : e = XBin OSum (XLeaf 0 (Plain l)) (XLeaf 1 (Plain (tangent_leaf l))))
        by (unfold e; destruct l; try discriminate Gk; reflexivity).
      assert (Ke : ekind e = Some (kind_of l)) by (unfold e; destruct l; try discriminate Gk; reflexivity).
      assert (Td : forall h x, mkvec (tangent_leaf l) (f h) = Some x -> vty x = Plain (tangent_leaf l) /\ valid x)
        by (intros h x Hx; destruct l; cbn in Hx; injection Hx as <-; cbn; auto).
      assert (AD : forall h, exists w, add_delta eps l v j h = Some w /\ valid w /\ vty w = Plain l /\ den w = dpert (den v) (dir j) h).
      { intros h. apply add_delta_ok; auto; [lra|]. rewrite Gk. discriminate. }
      assert (AE : forall h, add_delta eps l v j h = evaluateTo eps (Plain l) (two_leaves v (d h)) e).
      { intros h. unfold add_delta. fold (f h). now rewrite Hd. }
      assert (D0 : deval eps (fun b => den (two_leaves v d0 b)) e = Some (dpert (den v) (dir j) 0)).
      { assert (Ok : env_ok (two_leaves v d0) e) by (rewrite Ee; destruct (Td 0 d0 Hd0); repeat split; assumption).
        assert (Xe : exps_exact eps (fun b => den (two_leaves v d0 b)) e) by (rewrite Ee; split; exact I).
        pose proof (evaluateTo_sound eps (proj1 He') (two_leaves v d0) e l (kind_of l) Ke eq_refl Ok Xe) as (S & _).
        rewrite <- S. destruct (AD 0) as (w & Ew & _ & _ & Dw). rewrite AE in Ew.
        rewrite Hd in Hd0. injection Hd0 as <-. rewrite Ew. cbn. now rewrite Dw. }
      destruct (CR_evaluateTo eps (proj1 He) (two_leaves v d0) (fun h => two_leaves v (d h)) (fun h => two_leaves v (d h)) e l
        (dpert (den v) (dir j) 0)) as (b0 & Eb & Db & Vb & Tb & c & c' & N & Nv & C); auto.
      + rewrite Ee. destruct (Td 0 d0 Hd0). repeat split; assumption.
      + apply near_all. intros h. rewrite Ee. destruct (Td h (d h) (Hd h)). repeat split; assumption.
      + rewrite Ee. intros b [<-|[<-|[]]]; [exact (CR_const v)|exact Cd].
      + rewrite Ee. split; exact I.
      + rewrite Ee. split; exact I.
      + exists b0, c, c'. split; [exact Vb|]. split; [exact Tb|]. split; [now rewrite Db, dpert_0|]. split; [exact C|].
        apply (near_impl2 _ _ _) with (2 := N) (3 := Nv). intros h (A & B) Vh. split; [exact Vh|].
        destruct (AD h) as (w & Ew & _ & _ & Dw). rewrite AE in *.
        rewrite (evaluateTo_x_exact eps (proj1 He) (two_leaves v (d h)) e l Ke) in A.
        2:{ rewrite Ee. destruct (Td h (d h) (Hd h)). repeat split; assumption. }
        2:{ rewrite Ee. split; exact I. }
        rewrite A in Ew. injection Ew as ->.
        split; [exact Dw|exact B].
  Qed.
End Eps.
