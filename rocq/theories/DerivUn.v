(** Calculus of the expression model, second part: unary operations. *)

From Coq Require Import Reals Lra Lia List Bool Arith.
From Verif Require Import Mat V3 ModelLeaf SpecLeaf LeafProofs ModelExpr SpecExpr ExprProofs
  Calc SpecDeriv DerivProofs.
Import ListNotations.
Local Open Scope R_scope.
Local Open Scope mat_scope.

Local Arguments mvec : simpl never.
Local Arguments of_m3 : simpl never.
Local Arguments of_wide : simpl never.
Local Arguments of_scalar : simpl never.
Local Arguments mid : simpl never.
Local Arguments mopp : simpl never.
Local Arguments mscal : simpl never.

(** ** Unary operations *)

Local Arguments of_blocks : simpl never.
Local Arguments adjoint : simpl never.

Lemma dpl_dnorm2 r d k : near (fun s => dkind (r s) = k) ->
  (forall i, (i < tsize k)%nat -> derivable_pt_lim (fun s => dcoord (r s) i) 0 (d i)) ->
  derivable_pt_lim (fun s => dnorm2 (r s)) 0
    (rsum (tsize k) (fun i => 2 * dcoord (r 0) i * d i)).
Proof.
  intros N D.
  apply (dpl_near (fun s => rsum (tsize k) (fun i => dcoord (r s) i * dcoord (r s) i))).
  - apply (near_impl _ _) with (2 := N). intros s K. unfold dnorm2. rewrite K. reflexivity.
  - apply (dpl_rsum _ (fun i s => dcoord (r s) i * dcoord (r s) i)). intros i Hi.
    eapply dpl_val; [apply dpl_mult; apply D, Hi|]. cbv beta. ring.
Qed.

Section UnJac.
  Variable eps : R.
  Hypothesis eps_lo : 0 <= eps.
  Hypothesis eps_hi : eps < 1.
  Variables (o : unop) (v val : value) (t : ty).
  Hypothesis Vv : valid v.
  Hypothesis Ht : ty_un o (vty v) = Some t.
  Hypothesis Hs : sem_un eps o v = Some val.
  Hypothesis Hx : o = OExpMap -> exp_exact eps (den v).

  Lemma uj_facts : dsem_un eps o (den v) = Some (den val) /\ vty val = t /\ valid val.
  Proof.
    destruct (un_sound eps eps_lo o v t Ht Vv Hx) as (S1 & S2). rewrite Hs in S1, S2. cbn in S1.
    destruct (S2 val eq_refl) as (T & V). symmetry in S1. auto.
  Qed.

  Lemma jac_un_shape :
    has_shape (vdim val) (vdim v) (orzero (jac_un eps o val v) (vdim val) (vdim v)).
  Proof.
    destruct uj_facts as (D & T & V).
    assert (X : forall A, has_shape (vdim val) (vdim v) A ->
       forall x, (x = None \/ x = Some A) -> has_shape (vdim val) (vdim v) (orzero x (vdim val) (vdim v))).
    { intros A HA x [-> | ->]; [split; reflexivity|exact HA]. }
    unfold vdim, vkind. rewrite T. clear X.
    destruct o.
    - destruct v as [| | | | | | | | | |l|l]; cbn in Ht; try discriminate Ht; injection Ht as <-;
        destruct val as [| | | | | | | | | |l'|l']; cbn in T; try discriminate T; try (split; reflexivity).
    - destruct v as [| | | | | | | | | |l|l]; cbn in Ht; try discriminate Ht; injection Ht as <-;
        destruct val as [| | | | | | | | | |l'|l']; cbn in T; try discriminate T; cbn [jac_un vkind vty ty_kind ty_leaf kind_of];
        try (split; reflexivity);
        destruct (log_rot_jac _); try (split; reflexivity); destruct (eade_B _ _); split; reflexivity.
    - destruct v as [| | | | | | | | | |l|l]; cbn in Ht; try discriminate Ht.
      + injection Ht as <-. destruct val; cbn in T; try discriminate T. split; reflexivity.
      + injection Ht as <-. destruct val; cbn in T; try discriminate T. cbn [jac_un].
        destruct (eade_B _ _); split; reflexivity.
      + destruct l; try discriminate Ht; injection Ht as <-;
          destruct val as [| | | | | | | | | |l'|l']; cbn in T; try discriminate T; split; reflexivity.
    - destruct v as [| | | | | | | | | |l|l]; cbn in Ht; try discriminate Ht; injection Ht as <-;
        try (split; reflexivity). cbn. destruct (vec_kind _); split; reflexivity.
    - destruct v as [| | | | | | | | | |l|l]; cbn in Ht; try discriminate Ht;
        try (injection Ht as <-; split; reflexivity).
      destruct l; cbn in Ht; try discriminate Ht; injection Ht as <-; split; reflexivity.
    - assert (E : exists n, val = VScalar n).
      { cbn [sem_un] in Hs. destruct (col_kind (vkind v)); [|discriminate Hs].
        injection Hs as <-. eauto. }
      destruct E as (n & ->). cbn in T. subst t. cbn. destruct (Req_EM_T n 0); split; reflexivity.
    - assert (E : t = Plain (ty_leaf (vty v))).
      { destruct (vty v); cbn in Ht; try discriminate Ht; destruct (col_kind _); try discriminate Ht;
          injection Ht as <-; reflexivity. }
      rewrite E. cbn [jac_un]. destruct (Req_EM_T _ 0); split; reflexivity.
    - destruct v; cbn in Ht; try discriminate Ht. injection Ht as <-. destruct val; try discriminate T.
      cbn [jac_un]. destruct (Rlt_dec _ _); split; reflexivity.
    - destruct v; cbn in Ht; try discriminate Ht; injection Ht as <-; split; reflexivity.
    - destruct v; cbn in Ht; try discriminate Ht; injection Ht as <-;
        destruct val; try discriminate T; split; reflexivity.
    - assert (E : t = Plain to /\ kind_of to = ty_kind (vty v)).
      { destruct (vty v) as [l|l|l]; cbn in Ht.
        - destruct (kind_eqb _ _) eqn:K; [|discriminate Ht]. injection Ht as <-.
          apply kind_eqb_eq in K. auto.
        - destruct (lty_eqb _ _) eqn:K; [|discriminate Ht]. injection Ht as <-.
          apply lty_eqb_eq in K. subst. auto.
        - destruct (lty_eqb _ _) eqn:K; [|discriminate Ht]. injection Ht as <-.
          apply lty_eqb_eq in K. subst. auto. }
      destruct E as (-> & E). cbn. rewrite <- E. split; reflexivity.
  Qed.

  Variables (r : R -> dval) (d : nat -> R).
  Hypothesis Pl : is_plain v.
  Hypothesis Sm : smooth_un eps o (den v).
  Hypothesis r0 : r 0 = den v.
  Hypothesis Mv : moves r d.

  Let Jd := mvec (orzero (jac_un eps o val v) (vdim val) (vdim v)) d.
  Let K0 : dkind (r 0) = vkind v. Proof. rewrite r0. now apply valid_dkind. Qed.

  Let m0 := drot (den v).
  Let t0 := dtr (den v).

  (* Inverse of a rotation: J = -R^T *)
  Let inv_rot_case : vkind v = KRot -> tv Jd = vopp (app3 (tr3 m0) (tv d)) ->
    moves_opt (fun s => dsem_un eps OInverse (r s)) Jd.
  Proof.
    intros K J. rewrite K in K0. destruct (moves_rot _ _ Mv K0) as (N & D).
    pose proof (near_0 _ N) as (E1 & R1).
    apply (mo_rot _ (fun s => tr3 (drot (r s))) _ (vopp (app3 (tr3 m0) (tv d)))); [| |exact J].
    - apply (near_impl _ _) with (2 := N). intros s (A & B). rewrite A. cbn. split; [reflexivity|].
      now apply is_rot_tr.
    - eapply m3d_val; [apply m3d_tr, D|]. cbv beta. fold m0. rewrite r0 in *. fold m0 in R1 |- *.
      rewrite tr3_mul, skew_tr, !skew_opp, mul3_opp_r, mul3_opp_l, rot_skew by now apply is_rot_tr.
      reflexivity.
  Qed.
  Let inv_rt_case : vkind v = KRT ->
    tv Jd = vopp (app3 (tr3 m0) (tv d)) ->
    tw Jd = vopp (vadd (vcross (vopp (app3 (tr3 m0) t0)) (app3 (tr3 m0) (tv d)))
                   (app3 (tr3 m0) (tw d))) ->
    moves_opt (fun s => dsem_un eps OInverse (r s)) Jd.
  Proof.
    intros K J J'. rewrite K in K0. destruct (moves_rt _ _ Mv K0) as (N & D & Dt).
    pose proof (near_0 _ N) as (E1 & R1).
    apply (mo_rt _ (fun s => tr3 (drot (r s))) (fun s => vopp (app3 (tr3 (drot (r s))) (dtr (r s))))
       _ (vopp (app3 (tr3 m0) (tv d))) (vopp (vadd (vcross (vopp (app3 (tr3 m0) t0)) (app3 (tr3 m0) (tv d)))
                   (app3 (tr3 m0) (tw d))))); [| | |exact J|exact J'].
    - apply (near_impl _ _) with (2 := N). intros s (A & B). rewrite A. cbn. split; [reflexivity|].
      now apply is_rot_tr.
    - eapply m3d_val; [apply m3d_tr, D|]. cbv beta. rewrite r0 in *. fold m0 in R1 |- *.
      rewrite tr3_mul, skew_tr, !skew_opp, mul3_opp_r, mul3_opp_l, rot_skew by now apply is_rot_tr.
      reflexivity.
    - eapply v3d_val; [apply v3d_opp, v3d_app; [apply m3d_tr, D|exact Dt]|]. cbv beta.
      rewrite r0 in *. fold m0 in R1 |- *. fold t0.
      rewrite tr3_mul, skew_tr, skew_opp, mul3_opp_r, rot_skew by now apply is_rot_tr.
      rewrite app3_opp_l, app3_mul, skew_app, app3_add_r, rot_cross by now apply is_rot_tr.
      generalize (app3 (tr3 m0) t0), (app3 (tr3 m0) (tv d)), (app3 (tr3 m0) (tw d)). clear. intros a b c. v3ring.
  Qed.

  Lemma un_moves : moves_opt (fun s => dsem_un eps o (r s)) Jd.
  Proof.
    destruct uj_facts as (Dz & T & V). unfold Jd in *.
    destruct o.
    - (* Inverse *)
      destruct v as [| | | | |q|m|an ax|m tt rr c|q tt|l|l]; cbn in Hs; try discriminate Hs;
        injection Hs as <-.
      + apply inv_rot_case; [reflexivity|]. unfold tv at 1. cbn [orzero jac_un].
        rewrite !mvec_m3 by lia. rewrite qrot_conj. unfold m0. cbn [den drot].
        rewrite app3_opp_l. reflexivity.
      + apply inv_rot_case; [reflexivity|]. unfold tv at 1. cbn [orzero jac_un].
        rewrite !mvec_m3 by lia. unfold m0. cbn [den drot]. rewrite app3_opp_l. reflexivity.
      + apply inv_rot_case; [reflexivity|]. unfold tv at 1. cbn [orzero jac_un].
        rewrite !mvec_m3 by lia. rewrite aa_rot_opp. unfold m0. cbn [den drot].
        rewrite app3_opp_l. reflexivity.
      + apply inv_rt_case; [reflexivity| |]; [unfold tv at 1|unfold tw at 1]; cbn [orzero jac_un];
          unfold adjoint; rewrite !mvec_mopp, !mvec_blocks by lia;
          rewrite app3_z, vadd_0_r, app3_mul, skew_app; reflexivity.
      + apply inv_rt_case; [reflexivity| |]; [unfold tv at 1|unfold tw at 1]; cbn [orzero jac_un];
          unfold adjoint; rewrite !mvec_mopp, !mvec_blocks by lia;
          rewrite app3_z, vadd_0_r, app3_mul, skew_app, ?qact_rot, qrot_conj; reflexivity.
      + destruct Pl as (x & Hpx). discriminate Hpx.
    - (* LogMap *)
      destruct Pl as (lv & Hlv).
      destruct (vkind v) eqn:K; unfold vkind in K; rewrite Hlv in K;
        try (rewrite Hlv in Ht; destruct lv; discriminate).
      + destruct (moves_rot _ _ Mv K0) as (N & D).
        assert (Sm' : eps < rot_angle (drot (r 0)) * rot_angle (drot (r 0)) /\ rot_angle (drot (r 0)) < PI).
        { pose proof (near_0 _ N) as (E1 & _). rewrite <- r0, E1 in Sm. exact Sm. }
        destruct Sm' as (Big & Small).
        pose proof (near_impl _ _ (fun s H => proj2 H) N) as NR.
        pose proof (log_curve_eq eps eps_lo _ _ NR D Big Small) as LE.
        pose proof (log_curve_deriv eps eps_lo _ _ NR D Big Small) as LD.
        pose proof (log_curve_0 eps eps_lo _ _ NR D Big Small) as (L0 & L1 & L2).
        set (lc := log_curve (fun s => drot (r s))) in *.
        apply (mo_v3 _ KRel DRel lc _ (app3 (so3_Vinv (lc 0)) (tv d)));
          [reflexivity|reflexivity|reflexivity| |exact LD|].
        * apply (near_impl2 _ _ _) with (2 := N) (3 := LE). intros s (A & _) (B & _).
          rewrite A. cbn [dsem_un]. rewrite B. reflexivity.
        * assert (Ev : val = VRel (lc 0)).
          { pose proof (near_0 _ N) as (A & _). pose proof (near_0 _ LE) as (B & _).
            rewrite <- r0, A in Dz. cbn [dsem_un] in Dz. rewrite B in Dz.
            assert (T' : t = Plain LRel).
            { rewrite Hlv in Ht. destruct lv; try discriminate K; cbn in Ht; try discriminate Ht; congruence. }
            rewrite T' in T. destruct val; try discriminate T. cbn in Dz. injection Dz as <-. reflexivity. }
          rewrite Ev. cbn [jac_un]. unfold vkind. rewrite Hlv, K.
          rewrite log_rot_jac_Vinv; [|exact L0|rewrite L1; pose proof PI_RGT_0; lra].
          cbn [option_map orzero]. unfold tv at 1. rewrite !mvec_m3 by lia. reflexivity.
      + destruct (moves_rt _ _ Mv K0) as (N & D & Dt).
        assert (Sm' : eps < rot_angle (drot (r 0)) * rot_angle (drot (r 0)) /\ rot_angle (drot (r 0)) < PI).
        { pose proof (near_0 _ N) as (E1 & _). rewrite <- r0, E1 in Sm. exact Sm. }
        destruct Sm' as (Big & Small).
        pose proof (near_impl _ _ (fun s H => proj2 H) N) as NR.
        pose proof (tlog_near eps eps_lo _ (fun s => dtr (r s)) _ NR D Big Small) as LE.
        pose proof (log_curve_deriv eps eps_lo _ _ NR D Big Small) as LD.
        pose proof (tlog_deriv eps eps_lo _ (fun s => dtr (r s)) _ (tw d) NR D Dt Big Small) as LT.
        pose proof (log_curve_0 eps eps_lo _ _ NR D Big Small) as (L0 & L1 & L2).
        cbv zeta in LT.
        set (lc := log_curve (fun s => drot (r s))) in *.
        set (tc := tlog_curve (fun s => drot (r s)) (fun s => dtr (r s))) in *.
        apply (mo_twist _ lc tc _ _ _) with (2 := LD) (3 := LT).
        * apply (near_impl2 _ _ _) with (2 := N) (3 := LE). intros s (A & _) (B & _).
          rewrite A. cbn [dsem_un]. rewrite B. reflexivity.
        * assert (Ev : val = VTwist (lc 0) (tc 0)).
          { pose proof (near_0 _ N) as (A & _). pose proof (near_0 _ LE) as (B & _).
            rewrite <- r0, A in Dz. cbn [dsem_un] in Dz. rewrite B in Dz.
            assert (T' : t = Plain LTwist).
            { rewrite Hlv in Ht. destruct lv; try discriminate K; cbn in Ht; congruence. }
            rewrite T' in T. destruct val; try discriminate T. cbn in Dz. injection Dz as <- <-. reflexivity. }
          rewrite Ev. cbn [jac_un]. unfold vkind. rewrite Hlv, K.
          rewrite log_rot_jac_Vinv; [|exact L0|rewrite L1; pose proof PI_RGT_0; lra].
          rewrite eade_B_EB by exact L0. cbn [orzero]. unfold tv at 1. rewrite !mvec_blocks by lia.
          rewrite app3_z, vadd_0_r. reflexivity.
        * assert (Ev : val = VTwist (lc 0) (tc 0)).
          { pose proof (near_0 _ N) as (A & _). pose proof (near_0 _ LE) as (B & _).
            rewrite <- r0, A in Dz. cbn [dsem_un] in Dz. rewrite B in Dz.
            assert (T' : t = Plain LTwist).
            { rewrite Hlv in Ht. destruct lv; try discriminate K; cbn in Ht; congruence. }
            rewrite T' in T. destruct val; try discriminate T. cbn in Dz. injection Dz as <- <-. reflexivity. }
          rewrite Ev. cbn [jac_un]. unfold vkind. rewrite Hlv, K.
          rewrite log_rot_jac_Vinv; [|exact L0|rewrite L1; pose proof PI_RGT_0; lra].
          rewrite eade_B_EB by exact L0. cbn [orzero]. unfold tw at 1. rewrite !mvec_blocks by lia.
          reflexivity.
    - (* ExpMap *)
      pose proof (Hx eq_refl) as Hxx.
      destruct v as [| |w| |w u| | | | | |l|l]; cbn in Hs; try discriminate Hs.
      + injection Hs as <-. cbn in Hxx.
        assert (HV : exp_rot_jac eps (qrot (exp_quat eps w)) w = so3_V w).
        { destruct (exp_quat_correct eps w eps_lo Hxx) as (_ & E). rewrite E.
          destruct Hxx as [->|Hxx].
          - unfold exp_rot_jac. replace (vnorm2 v0) with 0 by (v3unf; ring).
            destruct (Rlt_dec eps 0); [lra|]. rewrite so3_V_0. clear. v3ring.
          - apply exp_rot_jac_V; [exact eps_lo|].
            destruct (Rle_lt_dec 1 (vnorm2 w)); [lra|].
            pose proof (vnorm2_pos w). nra. }
        destruct (moves_vec _ _ KRel Mv K0 eq_refl) as (N & D).
        pose proof (vec_v3 _ _ _ (or_introl eq_refl : tsize KRel = 3%nat \/ _) D) as V3d.
        apply (mo_rot _ (fun s => so3_exp (dvec (r s))) _ (app3 (so3_V (dvec (r 0))) (tv d))).
        * apply (near_impl _ _) with (2 := N). intros s A. rewrite (k_rel _ A). cbn [dsem_un].
          split; [|apply so3_exp_is_rot]. reflexivity.
        * exact (so3_exp_deriv _ _ V3d).
        * cbn [jac_un rot_matrix orzero]. rewrite HV. unfold tv at 1. rewrite !mvec_m3 by lia.
          rewrite r0. cbn [den]. replace (dvec (DRel w)) with w by (destruct w; reflexivity). reflexivity.
      + cbn zeta in Hs. injection Hs as <-. cbn in Hxx, Sm.
        assert (Hg : eps < vnorm2 w) by (destruct Hxx as [E|E]; [contradiction|exact E]).
        assert (HT : twist_exp eps w u = (so3_exp w, app3 (so3_V w) u)) by (apply twist_exp_correct; auto).
        destruct (moves_vec _ _ KTwist Mv K0 eq_refl) as (N & D).
        pose proof (vec_v3 _ _ _ (or_intror eq_refl : _ \/ KTwist = KTwist) D) as V3d.
        pose proof (vec_v3' _ _ D) as V3d'.
        assert (E0 : dvec (r 0) = w) by (rewrite r0; destruct w; reflexivity).
        assert (E0' : dvec2 (r 0) = u) by (rewrite r0; destruct u; reflexivity).
        assert (NZ : dvec (r 0) <> v0) by (rewrite E0; exact Sm).
        pose proof (V_deriv _ _ _ _ V3d V3d' NZ) as VD.
        apply (mo_rt _ (fun s => so3_exp (dvec (r s))) (fun s => app3 (so3_V (dvec (r s))) (dvec2 (r s))) _
          (app3 (so3_V (dvec (r 0))) (tv d))
          (vadd (app3 (EB (dvec (r 0)) (dvec2 (r 0))) (tv d)) (app3 (so3_V (dvec (r 0))) (tw d)))).
        * apply (near_impl _ _) with (2 := N). intros s A. rewrite (k_twist _ A). cbn [dsem_un].
          split; [|apply so3_exp_is_rot]. reflexivity.
        * exact (so3_exp_deriv _ _ V3d).
        * exact VD.
        * rewrite HT. cbn [fst snd jac_un]. rewrite eade_B_EB by exact Sm.
          rewrite exp_rot_jac_V by assumption. cbn [orzero]. unfold tv at 1.
          rewrite !mvec_blocks by lia. rewrite app3_z, vadd_0_r, E0. reflexivity.
        * rewrite HT. cbn [fst snd jac_un]. rewrite eade_B_EB by exact Sm.
          rewrite exp_rot_jac_V by assumption. cbn [orzero]. unfold tw at 1.
          rewrite !mvec_blocks by lia. rewrite E0, E0'. reflexivity.
      + destruct Pl as (x & Hpx). discriminate Hpx.
    - (* Minus *)
      destruct Pl as (lv & Hlv). rewrite Hlv in Ht. cbn in Ht.
      destruct (vec_kind (kind_of lv)) eqn:VK; [|discriminate Ht].
      assert (Kv : vkind v = kind_of lv) by (unfold vkind; rewrite Hlv; reflexivity).
      rewrite Kv in K0.
      destruct (moves_vec _ _ _ Mv K0 (affine_of_vec _ VK)) as (N & D).
      apply (mo_vec _ (kind_of lv) (fun s i => - dcoord (r s) i)); [apply affine_of_vec, VK| |].
      + apply (near_impl _ _) with (2 := N). intros s A. unfold dsem_un.
        destruct (r s) eqn:Er; cbn [dkind] in A; rewrite <- A in VK; try discriminate VK;
          rewrite <- A; reflexivity.
      + intros i Hi. cbn [jac_un]. rewrite Kv, VK. cbn [orzero]. rewrite mvec_mopp, mvec_mid
          by (unfold vdim; rewrite Kv; exact Hi). apply dpl_opp, D, Hi.
    - (* SquaredNorm *)
      destruct Pl as (lv & Hlv). rewrite Hlv in Ht. cbn in Ht.
      destruct (col_kind (kind_of lv)) eqn:VK; [|discriminate Ht].
      assert (Kv : vkind v = kind_of lv) by (unfold vkind; rewrite Hlv; reflexivity).
      rewrite Kv in K0.
      destruct (moves_vec _ _ _ Mv K0 (affine_of_col _ VK)) as (N & D).
      apply (mo_vec _ KScalar (fun s _ => dnorm2 (r s))); [reflexivity| |].
      + apply (near_impl _ _) with (2 := N). intros s A. unfold dsem_un.
        destruct (r s) eqn:Er; cbn [dkind] in A; rewrite <- A in VK; try discriminate VK; reflexivity.
      + intros i Hi. cbn in Hi. cbn [jac_un]. rewrite Kv, VK. cbn [orzero].
        rewrite mvec_Mat by exact Hi. unfold vdim. rewrite Kv.
        eapply dpl_val; [apply (dpl_dnorm2 r d _ N D)|]. apply rsum_ext. intros j Hj.
        rewrite coord_den by exact Vv. rewrite r0. ring.
    - (* Norm *)
      destruct Pl as (lv & Hlv). rewrite Hlv in Ht. cbn in Ht.
      destruct (col_kind (kind_of lv)) eqn:VK; [|discriminate Ht].
      assert (Kv : vkind v = kind_of lv) by (unfold vkind; rewrite Hlv; reflexivity).
      rewrite Kv in K0.
      destruct (moves_vec _ _ _ Mv K0 (affine_of_col _ VK)) as (N & D).
      assert (P : 0 < dnorm2 (den v)) by (destruct (den v); exact Sm).
      assert (Hsq : 0 < sqrt (dnorm2 (den v))) by now apply sqrt_lt_R0.
      apply (mo_vec _ KScalar (fun s _ => sqrt (dnorm2 (r s)))); [reflexivity| |].
      + apply (near_impl _ _) with (2 := N). intros s A. unfold dsem_un.
        destruct (r s) eqn:Er; cbn [dkind] in A; rewrite <- A in VK; try discriminate VK; reflexivity.
      + intros i Hi. cbn in Hi.
        assert (Ev : val = VScalar (sqrt (dnorm2 (den v)))).
        { revert Hs. cbn [sem_un]. rewrite Kv, VK. rewrite norm2_den by exact Vv. intros [= <-]. reflexivity. }
        rewrite Ev. cbn [jac_un]. destruct (Req_EM_T _ 0) as [E|_]; [lra|]. cbn [orzero].
        rewrite mvec_Mat by exact Hi. unfold vdim. rewrite Kv.
        eapply dpl_val; [apply (dpl_sqrt _ 0 _ (dpl_dnorm2 r d _ N D))|]; [rewrite r0; exact P|].
        cbv beta. rewrite r0. unfold Rdiv. rewrite <- rsum_scal_r. apply rsum_ext. intros j Hj.
        rewrite coord_den by exact Vv. field. lra.
    - (* Normalize *)
      destruct Pl as (lv & Hlv). rewrite Hlv in Ht. cbn in Ht.
      destruct (col_kind (kind_of lv)) eqn:VK; [|discriminate Ht].
      assert (Kv : vkind v = kind_of lv) by (unfold vkind; rewrite Hlv; reflexivity).
      rewrite Kv in K0.
      destruct (moves_vec _ _ _ Mv K0 (affine_of_col _ VK)) as (N & D).
      assert (P : 0 < dnorm2 (den v)) by (destruct (den v); exact Sm).
      assert (Hsq : 0 < sqrt (dnorm2 (den v))) by now apply sqrt_lt_R0.
      assert (Hss : sqrt (dnorm2 (den v)) * sqrt (dnorm2 (den v)) = dnorm2 (den v)) by (apply sqrt_sqrt; lra).
      assert (DN := dpl_dnorm2 r d _ N D).
      assert (NP : near (fun s => 0 < dnorm2 (r s))) by (apply (dpl_near_gt _ _ _ DN); rewrite r0; exact P).
      apply (mo_vec _ (kind_of lv) (fun s i => dcoord (r s) i / sqrt (dnorm2 (r s))));
        [apply affine_of_col, VK| |].
      + apply (near_impl2 _ _ _) with (2 := N) (3 := NP). intros s A B. unfold dsem_un.
        assert (C : col_kind (dkind (r s)) = true) by (rewrite A; exact VK).
        destruct (r s) eqn:Er; rewrite <- Er, C in *; (destruct (Rlt_dec 0 (dnorm2 (r s))); [|contradiction]);
          rewrite A; reflexivity.
      + intros i Hi. cbn [jac_un]. rewrite norm2_den by exact Vv.
        destruct (Req_EM_T _ 0) as [E|_]; [lra|]. cbn [orzero].
        assert (Hc : forall j, (j < tsize (kind_of lv))%nat -> coord val j = dcoord (den v) j / sqrt (dnorm2 (den v))).
        { intros j Hj. revert Hs. cbn [sem_un]. rewrite Kv, VK, norm2_den by exact Vv.
          destruct (Rlt_dec _ _) as [_|]; [|contradiction]. rewrite Hlv. cbn [ty_leaf]. intros Hm.
          rewrite <- coord_den by exact Vv. revert Hj Hm. clear - VK.
          destruct lv; try discriminate VK; cbn; intros Hj Hm; injection Hm as <-; cbn;
            first [lt3 j; reflexivity|lt6 j; reflexivity]. }
        rewrite mvec_Mat by (unfold vdim; rewrite Kv; exact Hi). unfold vdim. rewrite Kv.
        eapply dpl_val; [apply dpl_div; [apply D, Hi|apply (dpl_sqrt _ 0 _ DN); rewrite r0; exact P|rewrite r0; lra]|].
        cbv beta. rewrite r0. unfold Rsqr. set (n := sqrt (dnorm2 (den v))) in *.
        transitivity (d i / n - dcoord (den v) i / (n * n * n) *
            rsum (tsize (kind_of lv)) (fun j => dcoord (den v) j * d j)).
        * rewrite (rsum_ext _ _ (fun j => 2 * (dcoord (den v) j * d j))) by (intros; ring).
          rewrite rsum_scal_l. field. lra.
        * rewrite (rsum_ext _ (fun j => ((if (i =? j)%nat then 1 else 0) - coord val i * coord val j) / n * d j)
             (fun j => (if (i =? j)%nat then 1 else 0) * d j / n
                 + (- dcoord (den v) i / (n * n * n)) * (dcoord (den v) j * d j))).
          2:{ intros j Hj. rewrite (Hc i Hi), (Hc j Hj). field. lra. }
          rewrite rsum_plus, rsum_scal_l.
          rewrite (rsum_single _ i (fun j => (if (i =? j)%nat then 1 else 0) * d j / n) Hi).
          -- rewrite Nat.eqb_refl. field. lra.
          -- intros j Hj Hne. destruct (Nat.eqb_spec i j); [congruence|]. field. lra.
    - (* ACos *)
      destruct v as [x| | | | | | | | | |l|l]; cbn in Ht; try discriminate Ht.
      destruct (moves_vec _ _ KScalar Mv K0 eq_refl) as (N & D). cbn in Sm.
      assert (D0 : derivable_pt_lim (fun s => dcoord (r s) 0) 0 (d 0%nat)) by (apply D; cbn; lia).
      assert (E0 : dcoord (r 0) 0 = x) by (rewrite r0; reflexivity).
      assert (L1 : near (fun s => dcoord (r s) 0 < 1)) by (apply (dpl_near_lt _ _ _ D0); lra).
      assert (L2 : near (fun s => -1 < dcoord (r s) 0)) by (apply (dpl_near_gt _ _ _ D0); lra).
      apply (mo_vec _ KScalar (fun s _ => acos (dcoord (r s) 0))); [reflexivity| |].
      + apply (near_impl2 _ _ _) with (2 := N) (3 := near_and _ _ L1 L2). intros s A (B & C).
        rewrite (k_scalar _ A). cbn [dsem_un]. destruct (Rle_dec _ _) as [_|X]; [|lra].
        destruct (Rle_dec _ 1) as [_|X]; [reflexivity|lra].
      + intros i Hi. cbn in Hi. destruct i; [|lia].
        cbn [jac_un]. destruct (Rlt_dec 0 _) as [_|X]; [|exfalso; apply X; nra].
        cbn [orzero]. rewrite mvec_scalar. eapply dpl_val; [apply (dpl_acos _ 0 _ D0); lra|].
        cbv beta. rewrite E0. unfold Rdiv. ring.
    - (* rotation() *)
      assert (K : vkind v = KRT) by (destruct v; cbn in Ht; try discriminate Ht; reflexivity).
      rewrite K in K0. destruct (moves_rt _ _ Mv K0) as (N & D & Dt).
      apply (mo_rot _ (fun s => drot (r s)) _ (tv d)); [|exact D|].
      + apply (near_impl _ _) with (2 := N). intros s (A & B). rewrite A. cbn. auto.
      + destruct v; cbn in Ht; try discriminate Ht; cbn [jac_un orzero]; unfold tv at 1;
          rewrite !mvec_wide by lia; rewrite app3_i, app3_z, vadd_0_r; reflexivity.
    - (* translation() *)
      assert (K : vkind v = KRT) by (destruct v; cbn in Ht; try discriminate Ht; reflexivity).
      rewrite K in K0. destruct (moves_rt _ _ Mv K0) as (N & D & Dt).
      apply (mo_v3 _ KTrans DTrans (fun s => dtr (r s)) _ (vadd (vcross (tv d) (dtr (r 0))) (tw d)));
        [reflexivity|reflexivity|reflexivity| |exact Dt|].
      + apply (near_impl _ _) with (2 := N). intros s (A & B). rewrite A. reflexivity.
      + assert (E : forall a b x, mkV (t3 (vadd (vcross (vopp x) a) b) 0)
            (t3 (vadd (vcross (vopp x) a) b) 1) (t3 (vadd (vcross (vopp x) a) b) 2)
            = vadd (vcross a x) b).
        { clear. intros a b x. apply v3_ext; cbn; ring. }
        rewrite r0. destruct v; cbn in Hs; try discriminate Hs; injection Hs as <-;
          cbn [jac_un orzero]; unfold tv at 1; rewrite !mvec_wide by lia;
          rewrite app3_i, skew_app; cbn [den dtr]; apply E.
    - (* Convert *)
      destruct Pl as (lv & Hlv). rewrite Hlv in Ht. cbn in Ht.
      destruct (kind_eqb _ _) eqn:K; [|discriminate Ht]. pose proof K as K'. apply kind_eqb_eq in K'.
      assert (Kv : vkind v = kind_of lv) by (unfold vkind; rewrite Hlv; reflexivity).
      assert (C : moves_opt (fun s => dsem_un eps (OConvert to) (r s)) d).
      { exists r. split; [|exact Mv]. apply (near_impl _ _) with (2 := moves_kind _ _ Mv). intros s A.
        unfold dsem_un. rewrite A, K0, Kv, K. destruct (r s); reflexivity. }
      apply (mo_ext _ _ _ (kind_of to) C).
      + rewrite r0. intros x E. rewrite E in Dz. injection Dz as ->. rewrite valid_dkind by exact V.
        unfold vkind. rewrite T. injection Ht as <-. reflexivity.
      + intros i Hi. cbn [jac_un orzero]. rewrite mvec_mid by exact Hi. reflexivity.
  Qed.
End UnJac.
