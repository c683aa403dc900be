(** How much the local Jacobians stretch. *)

From Coq Require Import ZArith Reals List Bool Arith Lra Lia Psatz.
From Flocq Require Import Core BinarySingleNaN.
From Verif Require Import Mat V3 ModelLeaf SpecLeaf ModelFloat SpecFlt FloatProofs FloatDrift FloatExp ModelFloatQ SpecFltQ FloatQuat FloatAct SpecFltLog.
From Verif Require Import ModelJac SpecJac JacProofs LeafProofs ModelExpr SpecExpr ExprProofs SpecDeriv DerivProofs.
From Verif Require Import ModelFloatExpr SpecFltExpr FloatNorm FloatStep FloatStep2 FloatTree ModelFloatJac SpecFltJac FloatJac FloatJacLoc.
From Verif Require Import ExpLip FloatJacExp SpecFltNorm NormLib NormStep.
Import ListNotations.
Local Open Scope R_scope.

Notation v3 f := (mkV (f 0%nat) (f 1%nat) (f 2%nat)).

Lemma euclid_3 f : euclid 3 f = vnorm (v3 f).
Proof. unfold euclid, vnorm, vnorm2, vdot. cbn [rsum vx vy vz]. f_equal. ring. Qed.
Lemma euclid_1 f : euclid 1 f = Rabs (f 0%nat).
Proof. unfold euclid. cbn [rsum]. rewrite Rplus_0_l. apply sqrt_Rsqr_abs. Qed.
Lemma euclid_6 f : euclid 6 f * euclid 6 f = euclid 3 f * euclid 3 f + euclid 3 (fun i => f (3 + i)%nat) * euclid 3 (fun i => f (3 + i)%nat).
Proof. rewrite !nrm_sq. cbn [rsum Nat.add]. ring. Qed.
Lemma euclid_6_l f : euclid 3 f <= euclid 6 f.
Proof. apply sq_le; [apply nrm_nonneg|]. rewrite euclid_6. pose proof (Rle_0_sqr (euclid 3 (fun i => f (3 + i)%nat))) as Q. unfold Rsqr in Q. lra. Qed.
Lemma euclid_6_r f : euclid 3 (fun i => f (3 + i)%nat) <= euclid 6 f.
Proof. apply sq_le; [apply nrm_nonneg|]. rewrite euclid_6. pose proof (Rle_0_sqr (euclid 3 f)) as Q. unfold Rsqr in Q. lra. Qed.

Lemma app_of_m3 n x : v3 (fun i => rsum 3 (fun j => mnth (of_m3 n) i j * x j)) = app3 n (v3 x).
Proof. unfold mnth. cbn. destruct n. unfold app3, vdot. cbn. f_equal; ring. Qed.

Lemma opn_m3 S n : (forall v, vnorm (app3 n v) <= S * vnorm v) -> stretches S 3 3 (mnth (of_m3 n)).
Proof. intros H x. rewrite !euclid_3, app_of_m3. apply H. Qed.
Lemma opn_rot n : is_rot n -> stretches 1 3 3 (mnth (of_m3 n)).
Proof. intros H. apply opn_m3. intros v. rewrite norm_rot by exact H. lra. Qed.
Lemma opn_skew S v : vnorm v <= S -> stretches S 3 3 (mnth (of_m3 (skew v))).
Proof.
  intros H. apply opn_m3. intros x. rewrite skew_app. eapply Rle_trans; [apply cross_norm|]. apply Rmult_le_compat_r; [apply vnorm_nonneg|exact H].
Qed.
Lemma opn_skew_rot S v n : vnorm v <= S -> is_rot n -> stretches S 3 3 (mnth (of_m3 (mul3 (skew v) n))).
Proof.
  intros H R. apply opn_m3. intros x. rewrite app3_mul, skew_app. eapply Rle_trans; [apply cross_norm|]. rewrite norm_rot by exact R.
  apply Rmult_le_compat_r; [apply vnorm_nonneg|exact H].
Qed.
Lemma opn_i3 : stretches 1 3 3 (mnth (of_m3 i3)).
Proof. apply opn_rot, is_rot_i. Qed.
Lemma opn_z3 : stretches 0 3 3 (mnth (of_m3 z3)).
Proof. apply opn_m3. intros v. replace (app3 z3 v) with v0 by (destruct v; unfold app3, vdot, v0; cbn; f_equal; ring). rewrite Rmult_0_l, vnorm_0. apply Rle_refl. Qed.

Lemma opn_id n : stretches 1 n n (mnth (mid n)).
Proof.
  intros x. rewrite Rmult_1_l. apply Req_le, nrm_ext. intros i Hi. rewrite (rsum_single n i _ Hi).
  - rewrite mnth_in by assumption. cbn. rewrite Nat.eqb_refl. ring.
  - intros j Hj N. rewrite mnth_in by assumption. cbn. rewrite (proj2 (Nat.eqb_neq i j)) by auto. ring.
Qed.
Lemma opn_mopp S r c J : stretches S r c (mnth J) -> stretches S r c (mnth (mopp J)).
Proof. intros H. eapply opn_ext; [|apply opn_opp; exact H]. intros. symmetry. apply mnth_mopp. Qed.
Lemma opn_scal S n y : Rabs y <= S -> stretches S n n (mnth (mscal y (mid n))).
Proof.
  intros H x. apply Rle_trans with (Rabs y * euclid n x); [|apply Rmult_le_compat_r; [apply nrm_nonneg|exact H]].
  rewrite <- nrm_scal by apply Rabs_pos. apply Req_le. unfold euclid. f_equal. apply rsum_ext. intros i Hi.
  rewrite (rsum_single n i _ Hi).
  - rewrite mnth_mscal, mnth_in by assumption. cbn. rewrite Nat.eqb_refl. replace (Rabs y * x i * (Rabs y * x i)) with (Rabs y * Rabs y * (x i * x i)) by ring.
    rewrite <- Rabs_mult, Rabs_pos_eq by apply Rle_0_sqr. ring.
  - intros j Hj N. rewrite mnth_mscal, mnth_in by assumption. cbn. rewrite (proj2 (Nat.eqb_neq i j)) by auto. ring.
Qed.
Lemma opn_wide SA SB a b : 0 <= SA -> 0 <= SB -> stretches SA 3 3 (mnth (of_m3 a)) -> stretches SB 3 3 (mnth (of_m3 b)) -> stretches (SA + SB) 3 6 (mnth (of_wide a b)).
Proof.
  intros S1 S2 HA HB x.
  rewrite (nrm_ext 3 _ (fun i => rsum 3 (fun j => mnth (of_m3 a) i j * x j) + rsum 3 (fun j => mnth (of_m3 b) i j * x (3 + j)%nat))).
  - eapply Rle_trans; [apply nrm_add|]. specialize (HA x). specialize (HB (fun j => x (3 + j)%nat)).
    pose proof (euclid_6_l x). pose proof (euclid_6_r x).
    assert (SA * euclid 3 x <= SA * euclid 6 x) by (apply Rmult_le_compat_l; lra).
    assert (SB * euclid 3 (fun j => x (3 + j)%nat) <= SB * euclid 6 x) by (apply Rmult_le_compat_l; lra). lra.
  - intros i Hi. unfold mnth. destruct i as [|[|[|i]]]; [| | |lia]; cbn; ring.
Qed.
Lemma opn_diag n : stretches 1 3 3 (mnth (of_m3 n)) -> stretches 1 6 6 (mnth (of_blocks n z3 z3 n)).
Proof.
  intros H x. rewrite Rmult_1_l. apply sq_le; [apply nrm_nonneg|]. rewrite !euclid_6.
  assert (E : forall y, euclid 3 (fun i => rsum 3 (fun j => mnth (of_m3 n) i j * y j)) * euclid 3 (fun i => rsum 3 (fun j => mnth (of_m3 n) i j * y j)) <= euclid 3 y * euclid 3 y).
  { intros y. specialize (H y). rewrite Rmult_1_l in H. apply Rmult_le_compat; try apply nrm_nonneg; exact H. }
  apply Rplus_le_compat; (eapply Rle_trans; [|apply E]); apply Req_le; f_equal; apply nrm_ext; intros i Hi; unfold mnth;
    destruct i as [|[|[|i]]]; try lia; cbn; ring.
Qed.
Lemma opn_low S n : 0 <= S -> stretches S 3 3 (mnth (of_m3 n)) -> stretches S 6 6 (mnth (of_blocks z3 z3 n z3)).
Proof.
  intros S0 H x. apply sq_le; [apply Rmult_le_pos; [exact S0|apply nrm_nonneg]|]. rewrite euclid_6.
  rewrite (nrm_zero 3).
  - rewrite Rmult_0_l, Rplus_0_l. rewrite (nrm_ext 3 _ (fun i => rsum 3 (fun j => mnth (of_m3 n) i j * x j))).
    + specialize (H x). pose proof (euclid_6_l x). assert (S * euclid 3 x <= S * euclid 6 x) by (apply Rmult_le_compat_l; lra).
      apply Rmult_le_compat; try apply nrm_nonneg; lra.
    + intros i Hi. unfold mnth. destruct i as [|[|[|i]]]; try lia; cbn; ring.
  - intros i Hi. unfold mnth. destruct i as [|[|[|i]]]; try lia; cbn; ring.
Qed.
Lemma opn_adjoint S n t : is_rot n -> vnorm t <= S -> stretches (1 + S) 6 6 (mnth (adjoint n t)).
Proof.
  intros R H. pose proof (vnorm_nonneg t).
  eapply opn_ext; [|apply opn_add; [apply (opn_diag n), opn_rot; exact R|apply (opn_low S (mul3 (skew t) n)); [lra|now apply opn_skew_rot]]].
  intros i j Hi Hj. unfold adjoint, mnth.
  destruct i as [|[|[|[|[|[|i]]]]]]; try lia; destruct j as [|[|[|[|[|[|j]]]]]]; try lia; cbn; ring.
Qed.
Lemma opn_colv S n f : euclid n f <= S -> stretches S n 1 (mnth (Mat n 1 (fun i _ => f i))).
Proof.
  intros H x. rewrite (nrm_ext n _ (fun i => f i * x 0%nat)).
  - rewrite euclid_1. apply Rle_trans with (euclid n f * Rabs (x 0%nat)); [|apply Rmult_le_compat_r; [apply Rabs_pos|exact H]].
    rewrite <- nrm_scal_r by apply Rabs_pos. apply Req_le. unfold euclid. f_equal. apply rsum_ext. intros i _.
    replace (f i * Rabs (x 0%nat) * (f i * Rabs (x 0%nat))) with (f i * f i * (Rabs (x 0%nat) * Rabs (x 0%nat))) by ring. rewrite <- Rabs_mult, Rabs_pos_eq by apply Rle_0_sqr. ring.
  - intros i Hi. cbn [rsum]. rewrite mnth_in by (cbn; lia). cbn [mget]. ring.
Qed.
Lemma opn_row S n f : euclid n f <= S -> stretches S 1 n (mnth (Mat 1 n (fun _ j => f j))).
Proof.
  intros H x. rewrite euclid_1. rewrite (rsum_ext n _ (fun j => f j * x j)).
  - eapply Rle_trans; [apply nrm_cs|]. apply Rmult_le_compat_r; [apply nrm_nonneg|exact H].
  - intros j Hj. rewrite mnth_in by (cbn; lia). reflexivity.
Qed.

Lemma coord_euclid v t : vty v = Plain t -> affine_kind (kind_of t) = true -> t <> LTwist -> euclid (vdim v) (coord v) <= length_of (den v).
Proof.
  intros T K N. destruct v; cbn [vty] in T; try discriminate T; injection T as <-; try discriminate K; try congruence; cbn [vdim vkind vty ty_kind kind_of tsize den length_of].
  - rewrite euclid_1. apply Rle_refl.
  - rewrite euclid_3. cbn [coord vget]. destruct v; apply Rle_refl.
  - rewrite euclid_3. cbn [coord vget]. destruct v; apply Rle_refl.
  - rewrite euclid_3. cbn [coord vget]. destruct v; apply Rle_refl.
Qed.

Lemma approx_length S er ev f v : 0 <= S -> approximates S er ev f (den v) -> length_of (den v) <= S.
Proof.
  intros HS H. destruct f, (den v); cbn [approximates length_of] in *; try contradiction; try exact HS; try apply H.
Qed.
Lemma length_nonneg d : 0 <= length_of d.
Proof. destruct d; cbn [length_of]; try lra; try apply vnorm_nonneg; try apply Rabs_pos. apply Rplus_le_le_0_compat; apply vnorm_nonneg. Qed.

(** The Jacobian of normalize: (I - z z') / |y| for a unit vector z. *)
Lemma unit_stretch y z B : tiny <= B -> B <= 2 * vnorm y -> vnorm z <= 1 ->
  stretches (Rmax tiny (2 * (5 / B))) 3 3 (mnth (Mat 3 3 (fun i j => ((if (i =? j)%nat then 1 else 0) - vget z i * vget z j) / vnorm y))).
Proof.
  intros H0 H1 H2. pose proof tiny_pos as T0. assert (Y : 0 < vnorm y) by lra.
  set (n := vnorm y) in *. destruct z as [a b d].
  eapply opn_ext with (A := mnth (of_m3 (mkM ((1 - a * a) / n) ((0 - a * b) / n) ((0 - a * d) / n)
    ((0 - b * a) / n) ((1 - b * b) / n) ((0 - b * d) / n) ((0 - d * a) / n) ((0 - d * b) / n) ((1 - d * d) / n)))).
  - intros i j Hi Hj. destruct i as [|[|[|i]]]; try lia; destruct j as [|[|[|j]]]; try lia; reflexivity.
  - apply opn_m3. intros x. set (z := mkV a b d) in *.
    replace (app3 _ x) with (vscal (/ n) (vsub x (vscal (vdot z x) z))).
    + rewrite vscal_norm, Rabs_pos_eq by (left; now apply Rinv_0_lt_compat).
      assert (N : vnorm (vsub x (vscal (vdot z x) z)) <= 2 * vnorm x).
      { replace (vsub x (vscal (vdot z x) z)) with (vadd x (vscal (- vdot z x) z)) by (destruct x; unfold vsub, vadd, vscal; cbn; f_equal; ring).
        eapply Rle_trans; [apply norm_triangle|]. rewrite vscal_norm, Rabs_Ropp. pose proof (vdot_abs z x) as D.
        pose proof (vnorm_nonneg z). pose proof (vnorm_nonneg x). pose proof (Rabs_pos (vdot z x)).
        assert (vnorm z * vnorm x <= 1 * vnorm x) by (apply Rmult_le_compat_r; lra).
        assert (Rabs (vdot z x) * vnorm z <= (1 * vnorm x) * 1) by (apply Rmult_le_compat; lra). lra. }
      assert (I : / n <= 2 * / B).
      { replace (2 * / B) with (/ (B / 2)) by (field; lra). apply Rinv_le_contravar; lra. }
      assert (IB : 0 < / B) by (apply Rinv_0_lt_compat; lra). assert (IN : 0 < / n) by now apply Rinv_0_lt_compat.
      pose proof (vnorm_nonneg x). pose proof (vnorm_nonneg (vsub x (vscal (vdot z x) z))).
      apply Rle_trans with ((2 * / B) * (2 * vnorm x)); [apply Rmult_le_compat; lra|].
      apply Rle_trans with ((2 * (5 / B)) * vnorm x).
      * replace (2 * / B * (2 * vnorm x)) with (4 * (/ B * vnorm x)) by ring. replace (2 * (5 / B) * vnorm x) with (10 * (/ B * vnorm x)) by (unfold Rdiv; ring).
        assert (0 <= / B * vnorm x) by (apply Rmult_le_pos; lra). lra.
      * apply Rmult_le_compat_r; [lra|apply Rmax_r].
    + unfold z. destruct x as [x1 x2 x3]. unfold app3, vscal, vsub, vdot. cbn. f_equal; field; lra.
Qed.

Lemma normalized_unit v w : vnorm v <> 0 ->
  sem_un 0 ONormalize (VTrans v) = Some (VTrans w) \/ sem_un 0 ONormalize (VRel v) = Some (VRel w) -> vnorm w <= 1.
Proof.
  intros C H. assert (P : 0 < vnorm v) by (pose proof (vnorm_nonneg v); lra).
  assert (NE : norm2_of (VTrans v) = vnorm2 v /\ norm2_of (VRel v) = vnorm2 v) by (unfold norm2_of; cbn; unfold vnorm2, vdot; split; ring).
  assert (P2 : 0 < vnorm2 v) by (rewrite <- vnorm_sq; now apply Rmult_lt_0_compat).
  assert (E : w = vscal (/ vnorm v) v).
  { cbn [sem_un vkind vty ty_kind kind_of col_kind ty_leaf] in H. rewrite (proj1 NE), (proj2 NE) in H.
    destruct (Rlt_dec 0 (vnorm2 v)) as [_|K]; [|contradiction]. cbn [mkvec] in H. change (sqrt (vnorm2 v)) with (vnorm v) in H.
    unfold vscal. destruct H as [H|H]; injection H as <-; cbn; f_equal; unfold Rdiv; apply Rmult_comm. }
  rewrite E, vscal_norm, Rabs_pos_eq by (left; now apply Rinv_0_lt_compat). rewrite Rinv_l by exact C. lra.
Qed.

Section S.
  Variable m : nat -> dval.

  (** The Jacobians of log and exp. *)
  Lemma un_turn c op p f f' v w : op = OLogMap \/ op = OExpMap -> fits c m (XUn op p) -> regular m op p -> deval 0 m p = Some (den v) ->
    ty_un op (Plain (flty f)) = Some (Plain (flty f')) -> vty v = Plain (flty f) -> valid v -> sem_un 0 op v = Some w -> vty w = Plain (flty f') ->
    exists X, jac_un 0 op w v = Some (of_m3 X) /\ forall u, vnorm (app3 X u) <= stretch_un m op p * vnorm u.
  Proof.
    intros Ho Hf Hop Ev Hty Tv Vv Hw Tw. destruct Ho as [-> | ->]; cbn [stretch_un regular] in *.
    - assert (FT : has_typ p LMat = true /\ forall r, deval 0 m p = Some (DRot r) -> rot_angle r <= 3) by (cbn [fits] in Hf; tauto). destruct FT as [_ RA].
      destruct f; try discriminate Hty; destruct f'; try discriminate Hty; destruct v; try discriminate Tv. destruct w; try discriminate Tw.
      cbn [sem_un den valid] in *. specialize (RA _ Ev). specialize (Hop _ Ev).
      match type of Hw with option_map _ (log_mat 0 ?n) = Some (VRel ?y) =>
        destruct (exact_log n Vv RA) as (u & Eu & Nu & Xu); rewrite Eu in Hw; injection Hw as Hw; subst u;
        assert (NV : / 16 <= vnorm y) by (rewrite <- Xu in Hop; pose proof PI_ge2; rewrite rot_angle_exp in Hop; lra);
        exists (so3_Vinv y); assert (Y0 : y <> V3.v0) by (intros ->; rewrite vnorm_0 in NV; lra) end.
      pose proof PI_ge2. split; [cbn [jac_un]; rewrite log_rot_jac_Vinv; [reflexivity|exact Y0|lra]|]. intros u. apply Vinv_stretch; [exact Y0|lra].
    - destruct f; try discriminate Hty; destruct f'; try discriminate Hty; destruct v; try discriminate Tv. destruct w; try discriminate Tw.
      cbn [sem_un] in Hw. injection Hw as Hw. 
      match type of Hw with exp_quat 0 ?y = _ => destruct (exp_quat_correct 0 y (Rle_refl 0) (exp_exact_zero (DRel y))) as [_ Q]; exists (so3_V y) end.
      rewrite Hw in Q. split; [cbn [jac_un rot_matrix]; rewrite Q, exp_jac_exact; reflexivity|]. intros u. rewrite Rmult_1_l. apply V_short.
  Qed.

  Lemma un_stretch op p f f' v w J : regular m op p -> deval 0 m p = Some (den v) -> sem_un 0 op v = Some w ->
    (op = OLogMap \/ op = OExpMap -> exists X, jac_un 0 op w v = Some (of_m3 X) /\ forall u, vnorm (app3 X u) <= stretch_un m op p * vnorm u) -> ty_un op (Plain (flty f)) = Some (Plain (flty f')) ->
    vty v = Plain (flty f) -> vty w = Plain (flty f') -> valid w ->
    length_of (den v) <= size m p -> (op = OInverse \/ op = OTranslation -> length_of (den w) <= size m p) ->
    jac_un 0 op w v = Some J -> stretches (stretch_un m op p) (vdim w) (vdim v) (mnth J).
  Proof.
    intros Hop Ev Hw LG Hty Tv Tw Vw Lv Lw HJ. pose proof (length_nonneg (den v)) as L0.
    assert (P0 : 0 <= size m p) by lra.
    destruct op; try contradiction Hop; unfold stretch_un.
    - specialize (Lw (or_introl eq_refl)). 
      destruct f; try discriminate Hty; destruct f'; try discriminate Hty; destruct v; try discriminate Tv; destruct w; try discriminate Tw;
        cbn [jac_un] in HJ; injection HJ as <-; cbn [vdim vkind vty ty_kind kind_of tsize valid den length_of] in *.
      + eapply opn_mono; [eapply opn_ext; [intros; apply opp_m3|]; apply opn_mopp, opn_rot, qrot_is_rot; exact Vw|lra].
      + eapply opn_mono; [eapply opn_ext; [intros; apply opp_m3|]; apply opn_mopp, opn_rot; exact Vw|lra].
      + apply opn_mopp, opn_adjoint; [apply Vw|exact Lw].
      + apply opn_mopp, opn_adjoint; [apply qrot_is_rot, Vw|exact Lw].
    - destruct (LG (or_introl eq_refl)) as (X & E & HX). rewrite E in HJ. injection HJ as <-.
      destruct f; try discriminate Hty; destruct f'; try discriminate Hty; destruct v; try discriminate Tv; destruct w; try discriminate Tw.
      apply opn_m3. exact HX.
    - destruct (LG (or_intror eq_refl)) as (X & E & HX). rewrite E in HJ. injection HJ as <-.
      destruct f; try discriminate Hty; destruct f'; try discriminate Hty; destruct v; try discriminate Tv; destruct w; try discriminate Tw.
      apply opn_m3. exact HX.
    - cbn [jac_un] in HJ. destruct (vec_kind (vkind v)); [|discriminate]. injection HJ as <-. 
      assert (E : vdim w = vdim v) by (unfold vdim, vkind; rewrite Tv, Tw; destruct f; try discriminate Hty; destruct f'; try discriminate Hty; reflexivity).
      rewrite E. apply opn_mopp, opn_id.
    - cbn [jac_un] in HJ. destruct (col_kind (vkind v)); [|discriminate]. injection HJ as <-. 
      assert (E : vdim w = 1%nat /\ affine_kind (kind_of (flty f)) = true /\ flty f <> LTwist)
        by (unfold vdim, vkind; rewrite Tw; destruct f; try discriminate Hty; destruct f'; try discriminate Hty; repeat split; discriminate).
      destruct E as (E & K & NT). rewrite E. apply opn_row. rewrite nrm_scal by lra.
      pose proof (coord_euclid v _ Tv K NT). change (fun i => coord v i) with (coord v). lra.
    - cbn [regular] in Hop. specialize (Hop _ Ev).
      destruct f; try discriminate Hty; destruct f'; try discriminate Hty; destruct v; try discriminate Tv; cbn [sem_un vkind vty ty_kind kind_of col_kind] in Hw; injection Hw as <-;
        cbn [jac_un] in HJ; match type of HJ with context [Req_EM_T ?n 0] => destruct (Req_EM_T n 0) as [C|C]; [discriminate|] end; injection HJ as <-;
        cbn [vdim vkind vty ty_kind kind_of tsize den length_of] in *;
        (match type of Hop with _ <= 2 * vnorm ?y => assert (NE : sqrt (norm2_of (VTrans y)) = vnorm y /\ sqrt (norm2_of (VRel y)) = vnorm y) by (unfold norm2_of; cbn; unfold vnorm, vnorm2, vdot; split; f_equal; ring) end);
        rewrite ?(proj1 NE), ?(proj2 NE) in *; apply opn_row;
        (match type of Hop with _ <= 2 * vnorm ?y => rewrite (nrm_ext 3 _ (fun i => / vnorm y * coord (VTrans y) i)) by (intros i _; unfold Rdiv; apply Rmult_comm);
          assert (IP : 0 < / vnorm y) by (apply Rinv_0_lt_compat; pose proof tiny_pos; pose proof (size_tiny m p); lra);
          rewrite nrm_scal by lra; assert (CE : euclid 3 (coord (VTrans y)) <= vnorm y) by (apply (coord_euclid (VTrans y) LTrans eq_refl eq_refl); discriminate);
          assert (/ vnorm y * euclid 3 (coord (VTrans y)) <= / vnorm y * vnorm y) by (apply Rmult_le_compat_l; [left; exact IP|exact CE]) end);
        rewrite Rinv_l in H by exact C; change (fun i => coord (VTrans v) i) with (coord (VTrans v)); lra.
    - cbn [regular] in Hop. specialize (Hop _ Ev).
      destruct f; try discriminate Hty; destruct f'; try discriminate Hty; destruct v; try discriminate Tv; destruct w; try discriminate Tw;
        cbn [jac_un] in HJ; match type of HJ with context [Req_EM_T ?n 0] => destruct (Req_EM_T n 0) as [C|C]; [discriminate|] end; injection HJ as <-;
        cbn [vdim vkind vty ty_kind kind_of tsize den length_of] in *;
        (match type of Hop with _ <= 2 * vnorm ?y => assert (NE : sqrt (norm2_of (VTrans y)) = vnorm y /\ sqrt (norm2_of (VRel y)) = vnorm y) by (unfold norm2_of; cbn; unfold vnorm, vnorm2, vdot; split; f_equal; ring) end);
        rewrite ?(proj1 NE), ?(proj2 NE) in *.
      + apply (unit_stretch _ _ _ (size_tiny m p) Hop), (normalized_unit _ _ C (or_introl Hw)).
      + apply (unit_stretch _ _ _ (size_tiny m p) Hop), (normalized_unit _ _ C (or_intror Hw)).
    - destruct f; try discriminate Hty; destruct f'; try discriminate Hty; destruct v; try discriminate Tv; destruct w; try discriminate Tw;
        cbn [jac_un] in HJ; injection HJ as <-; cbn [vdim vkind vty ty_kind kind_of tsize];
        (eapply opn_mono; [apply opn_wide; [| |apply opn_i3|apply opn_z3]; lra|lra]).
    - specialize (Lw (or_intror eq_refl)). 
      destruct f; try discriminate Hty; destruct f'; try discriminate Hty; destruct v; try discriminate Tv; destruct w; try discriminate Tw;
        cbn [jac_un] in HJ; injection HJ as <-; cbn [vdim vkind vty ty_kind kind_of tsize den length_of] in *;
        (eapply opn_mono; [apply (opn_wide (size m p) 1); [| |apply opn_skew; rewrite norm_opp; exact Lw|apply opn_i3]; lra|lra]).
    - cbn [jac_un] in HJ. injection HJ as <-.
      assert (K : vdim w = tsize (kind_of to) /\ vdim v = tsize (kind_of to)).
      { unfold vdim, vkind. rewrite Tv, Tw. cbn [ty_kind] in *. revert Hty. cbn [ty_un].
        destruct (kind_eqb (kind_of to) (kind_of (flty f))) eqn:K; [|discriminate]. intros E. injection E as E. rewrite <- E.
        split; [reflexivity|]. apply kind_eqb_eq in K. now rewrite K. }
      destruct K as [-> ->]. apply opn_id.
  Qed.

  Lemma compose_stretch B w v b J f : vty v = Plain (flty f) -> valid v -> group_kind (kind_of (flty f)) = true -> length_of (den v) <= B ->
    jacr_compose w v b = Some J -> stretches (1 + B) (vdim v) (vdim v) (mnth J).
  Proof.
    intros T V K L HJ. pose proof (length_nonneg (den v)).
    destruct f; try discriminate K; destruct v; try discriminate T; cbn [jacr_compose rot_matrix option_map] in HJ; injection HJ as <-;
      cbn [vdim vkind vty ty_kind kind_of tsize valid den length_of] in *.
    - eapply opn_mono; [apply opn_rot, qrot_is_rot; exact V|lra].
    - eapply opn_mono; [apply opn_rot; exact V|lra].
    - apply opn_adjoint; [apply V|exact L].
    - apply opn_adjoint; [apply qrot_is_rot, V|exact L].
  Qed.

  Lemma left_stretch op l r fa fb f' va vb w J : plain_bin op -> ty_bin op (Plain (flty fa)) (Plain (flty fb)) = Some (Plain (flty f')) ->
    vty va = Plain (flty fa) -> vty vb = Plain (flty fb) -> vty w = Plain (flty f') -> valid va -> valid vb ->
    length_of (den va) <= size m l -> length_of (den vb) <= size m r -> length_of (den w) <= size m (XBin op l r) ->
    jac_l op w va vb = Some J -> stretches (stretch_l m op l r) (vdim w) (vdim va) (mnth J).
  Proof.
    intros Hop Hty Ta Tb Tw Va Vb La Lb Lw HJ. pose proof (length_nonneg (den va)) as L0. pose proof (length_nonneg (den vb)) as L1.
    assert (AF : affine_kind (kind_of (flty fb)) = true -> euclid (vdim vb) (coord vb) <= size m r).
    { intros K. eapply Rle_trans; [apply (coord_euclid _ _ Tb K); destruct fb; discriminate|exact Lb]. }
    assert (ID : stretch_l m op l r = 1 -> vdim w = vdim va -> Some (mid (vdim w)) = Some J -> stretches (stretch_l m op l r) (vdim w) (vdim va) (mnth J)).
    { intros -> E X. injection X as <-. rewrite E. apply opn_id. }
    assert (P0 : 0 <= size m l /\ 0 <= size m r) by (split; lra).
    destruct op; try contradiction; unfold stretch_l.
    - apply ID; [reflexivity| |exact HJ]. unfold vdim, vkind. rewrite Ta, Tw. destruct fa, fb; try discriminate Hty; destruct f'; try discriminate Hty; reflexivity.
    - assert (K : group_kind (kind_of (flty fb)) = true /\ vdim w = vdim vb /\ vdim va = vdim vb).
      { unfold vdim, vkind. rewrite Ta, Tb, Tw. destruct fa, fb; try discriminate Hty; destruct f'; try discriminate Hty; auto. }
      destruct K as (K & E1 & E2). rewrite E1, E2. apply (compose_stretch _ w vb va J fb Tb Vb K Lb HJ).
    - assert (SZ : size m (XBin ORotate l r) = size m r) by reflexivity. rewrite SZ in Lw.
      destruct fa, fb; try discriminate Hty; destruct f'; try discriminate Hty; destruct w; try discriminate Tw; destruct va; try discriminate Ta;
      cbn [jac_l] in HJ; injection HJ as <-; cbn [vdim vkind vty ty_kind kind_of tsize den length_of] in *; (apply opn_skew; rewrite norm_opp; exact Lw).
    - assert (SZ : size m (XBin OTransform l r) = size m l + size m r) by reflexivity. rewrite SZ in Lw.
      destruct fa, fb; try discriminate Hty; destruct f'; try discriminate Hty; destruct w; try discriminate Tw; destruct va; try discriminate Ta;
      cbn [jac_l] in HJ; injection HJ as <-; cbn [vdim vkind vty ty_kind kind_of tsize den length_of] in *;
      (eapply opn_mono; [apply (opn_wide (size m l + size m r) 1); [| |apply opn_skew; rewrite norm_opp; exact Lw|apply opn_i3]; lra|lra]).
    - apply ID; [reflexivity| |exact HJ]. unfold vdim, vkind. rewrite Ta, Tw. destruct fa, fb; try discriminate Hty; destruct f'; try discriminate Hty; reflexivity.
    - apply ID; [reflexivity| |exact HJ]. unfold vdim, vkind. rewrite Ta, Tw. destruct fa, fb; try discriminate Hty; destruct f'; try discriminate Hty; reflexivity.
    - assert (K : affine_kind (kind_of (flty fb)) = true /\ vdim w = vdim vb /\ vdim va = 1%nat).
      { unfold vdim, vkind. rewrite Ta, Tb, Tw. destruct fa, fb; try discriminate Hty; destruct f'; try discriminate Hty; auto. }
      destruct K as (K & E1 & E2). rewrite E1, E2. assert (E : Mat (vdim vb) 1 (fun i _ => coord vb i) = J) by (destruct w, va; injection HJ as <-; reflexivity).
      rewrite <- E. apply opn_colv. now apply AF.
    - destruct fa, fb; try discriminate Hty; destruct f'; try discriminate Hty; destruct vb; try discriminate Tb; destruct va; try discriminate Ta; destruct w; try discriminate Tw;
      cbn [jac_l] in HJ; injection HJ as <-; (apply opn_scal; exact Lb).
    - destruct fa, fb; try discriminate Hty; destruct f'; try discriminate Hty; destruct vb; try discriminate Tb; destruct va; try discriminate Ta; destruct w; try discriminate Tw;
      cbn [jac_l] in HJ; injection HJ as <-. match goal with |- context[of_scalar ?y] => apply (opn_colv _ 1 (fun _ => y)) end. rewrite euclid_1. exact Lb.
    - assert (K : affine_kind (kind_of (flty fb)) = true /\ vdim w = 1%nat /\ vdim va = vdim vb).
      { unfold vdim, vkind. rewrite Ta, Tb, Tw. destruct fa, fb; try discriminate Hty; destruct f'; try discriminate Hty; auto. }
      destruct K as (K & E1 & E2). rewrite E1, E2. assert (E : Mat 1 (vdim vb) (fun _ j => coord vb j) = J) by (destruct w, va, vb; injection HJ as <-; reflexivity).
      rewrite <- E. apply opn_row. now apply AF.
  Qed.

  Lemma right_stretch op l r fa fb f' va vb w J : plain_bin op -> ty_bin op (Plain (flty fa)) (Plain (flty fb)) = Some (Plain (flty f')) ->
    vty va = Plain (flty fa) -> vty vb = Plain (flty fb) -> vty w = Plain (flty f') -> valid va -> valid vb ->
    length_of (den va) <= size m l -> length_of (den vb) <= size m r ->
    jac_r op w va vb = Some J -> stretches (stretch_r m op l r) (vdim w) (vdim vb) (mnth J).
  Proof.
    intros Hop Hty Ta Tb Tw Va Vb La Lb HJ. pose proof (length_nonneg (den va)) as L0. pose proof (length_nonneg (den vb)) as L1.
    assert (AF : affine_kind (kind_of (flty fa)) = true -> euclid (vdim va) (coord va) <= size m l).
    { intros K. eapply Rle_trans; [apply (coord_euclid _ _ Ta K); destruct fa; discriminate|exact La]. }
    assert (ID : stretch_r m op l r = 1 -> vdim w = vdim vb -> Some (mid (vdim w)) = Some J -> stretches (stretch_r m op l r) (vdim w) (vdim vb) (mnth J)).
    { intros -> E X. injection X as <-. rewrite E. apply opn_id. }
    destruct op; try contradiction; unfold stretch_r.
    - assert (K : group_kind (kind_of (flty fa)) = true /\ vdim w = vdim va /\ vdim vb = vdim va).
      { unfold vdim, vkind. rewrite Ta, Tb, Tw. destruct fa, fb; try discriminate Hty; destruct f'; try discriminate Hty; auto. }
      destruct K as (K & E1 & E2). rewrite E1, E2. apply (compose_stretch _ w va vb J fa Ta Va K La HJ).
    - apply ID; [reflexivity| |exact HJ]. unfold vdim, vkind. rewrite Tb, Tw. destruct fa, fb; try discriminate Hty; destruct f'; try discriminate Hty; reflexivity.
    - destruct fa, fb; try discriminate Hty; destruct f'; try discriminate Hty; destruct w; try discriminate Tw; destruct va; try discriminate Ta; destruct vb; try discriminate Tb;
      cbn [jac_r] in HJ; injection HJ as <-; apply opn_rot; [apply qrot_is_rot|]; exact Va.
    - destruct fa, fb; try discriminate Hty; destruct f'; try discriminate Hty; destruct w; try discriminate Tw; destruct va; try discriminate Ta; destruct vb; try discriminate Tb;
      cbn [jac_r] in HJ; injection HJ as <-; apply opn_rot; [|apply qrot_is_rot]; apply Va.
    - apply ID; [reflexivity| |exact HJ]. unfold vdim, vkind. rewrite Tb, Tw. destruct fa, fb; try discriminate Hty; destruct f'; try discriminate Hty; reflexivity.
    - cbn [jac_r] in HJ. injection HJ as <-. assert (E : vdim w = vdim vb).
      { unfold vdim, vkind. rewrite Tb, Tw. destruct fa, fb; try discriminate Hty; destruct f'; try discriminate Hty; reflexivity. }
      rewrite E. apply opn_mopp, opn_id.
    - destruct fa, fb; try discriminate Hty; destruct f'; try discriminate Hty; destruct vb; try discriminate Tb; destruct va; try discriminate Ta; destruct w; try discriminate Tw;
      cbn [jac_r] in HJ; injection HJ as <-; (apply opn_scal; exact La).
    - assert (K : affine_kind (kind_of (flty fa)) = true /\ vdim w = vdim va /\ vdim vb = 1%nat).
      { unfold vdim, vkind. rewrite Ta, Tb, Tw. destruct fa, fb; try discriminate Hty; destruct f'; try discriminate Hty; auto. }
      destruct K as (K & E1 & E2). rewrite E1, E2. assert (E : Mat (vdim va) 1 (fun i _ => coord va i) = J) by (destruct w, va, vb; injection HJ as <-; reflexivity).
      rewrite <- E. apply opn_colv. now apply AF.
    - destruct fa, fb; try discriminate Hty; destruct f'; try discriminate Hty; destruct vb; try discriminate Tb; destruct va; try discriminate Ta; destruct w; try discriminate Tw;
      cbn [jac_r] in HJ; injection HJ as <-. match goal with |- context[of_scalar ?y] => apply (opn_colv _ 1 (fun _ => y)) end. rewrite euclid_1. exact La.
    - assert (K : affine_kind (kind_of (flty fa)) = true /\ vdim w = 1%nat /\ vdim vb = vdim va).
      { unfold vdim, vkind. rewrite Ta, Tb, Tw. destruct fa, fb; try discriminate Hty; destruct f'; try discriminate Hty; auto. }
      destruct K as (K & E1 & E2). rewrite E1, E2. assert (E : Mat 1 (vdim va) (fun _ j => coord va j) = J) by (destruct w, va, vb; injection HJ as <-; reflexivity).
      rewrite <- E. apply opn_row. now apply AF.
  Qed.
End S.
