(** The Jacobians of exp and log on doubles, errors relative to how much they stretch. *)

From Coq Require Import ZArith Reals List Bool Arith Lra Lia Psatz.
From Flocq Require Import Core BinarySingleNaN.
From Verif Require Import Mat V3 ModelLeaf SpecLeaf ModelFloat SpecFlt FloatProofs FloatDrift FloatExp ModelFloatQ SpecFltQ FloatQuat FloatAct SpecFltLog.
From Verif Require Import LeafProofs Calc NumLip PropsLie PropsExpFlt FloatLog FloatCoef FloatLogJac PropsAway ExpLip.
From Verif Require Import ModelFloatExpr SpecFltExpr FloatNorm FloatStep FloatStep2 FloatTree ModelFloatJac.
Import ListNotations.
Local Open Scope R_scope.

Local Notation w53 := (/ 9007199254740992).

(** ** Entries *)
Lemma entry_le m n L : 0 <= L -> (forall u, vnorm (vsub (app3 m u) (app3 n u)) <= L * vnorm u) -> mwithin L m n.
Proof.
  intros HL H. pose proof (H (mkV 1 0 0)) as X. pose proof (H (mkV 0 1 0)) as Y. pose proof (H (mkV 0 0 1)) as Z.
  assert (N1 : vnorm (mkV 1 0 0) = 1) by (apply unit_norm; cbn; ring).
  assert (N2 : vnorm (mkV 0 1 0) = 1) by (apply unit_norm; cbn; ring).
  assert (N3 : vnorm (mkV 0 0 1) = 1) by (apply unit_norm; cbn; ring).
  rewrite N1 in X. rewrite N2 in Y. rewrite N3 in Z. rewrite Rmult_1_r in X, Y, Z.
  pose proof (comp_le_norm (vsub (app3 m (mkV 1 0 0)) (app3 n (mkV 1 0 0)))) as (X1 & X2 & X3).
  pose proof (comp_le_norm (vsub (app3 m (mkV 0 1 0)) (app3 n (mkV 0 1 0)))) as (Y1 & Y2 & Y3).
  pose proof (comp_le_norm (vsub (app3 m (mkV 0 0 1)) (app3 n (mkV 0 0 1)))) as (Z1 & Z2 & Z3).
  destruct m, n. unfold app3, vsub, vdot in *. cbn in *.
  rewrite ?Rmult_1_r, ?Rmult_0_r, ?Rplus_0_r, ?Rplus_0_l in *.
  unfold mwithin. cbn. repeat split; eapply Rle_trans; eassumption.
Qed.

Lemma entries_short m L : 0 <= L -> (forall u, vnorm (app3 m u) <= L * vnorm u) -> mwithin L m z3.
Proof.
  intros HL H. apply entry_le; [exact HL|]. intros u. eapply Rle_trans; [|apply H]. apply Req_le. f_equal.
  generalize (app3 m u). intros x. destruct x, u. unfold app3, z3, vsub, vdot. cbn. f_equal; ring.
Qed.

Lemma mwithin_triangle d e a b c : mwithin d a b -> mwithin e b c -> mwithin (d + e) a c.
Proof.
  unfold mwithin. intros H K. decompose [and] H. decompose [and] K.
  assert (T : forall x y z, Rabs (x - y) <= d -> Rabs (y - z) <= e -> Rabs (x - z) <= d + e).
  { intros x y z A B. replace (x - z) with ((x - y) + (y - z)) by ring. eapply Rle_trans; [apply Rabs_triang|lra]. }
  repeat split; eapply T; eassumption.
Qed.

Lemma PI_ge2 : 31 / 10 <= PI.
Proof. destruct (PI_2_3_7_ineq 1) as [H _]. unfold tg_alt, PI_2_3_7_tg, Ratan_seq in H. cbn in H. lra. Qed.

(** ** The Jacobian of log *)
Lemma log_jac_step M o g phi x : one_ulp M -> vapprox 4 g phi x -> 0 <= g <= / 1000 -> / 16 <= vnorm x <= 3 ->
  mfinite (dlog_rot_jac M o phi) /\ log_rot_jac x = Some (so3_Vinv x) /\
  mwithin 2 (so3_Vinv x) z3 /\ (forall u, vnorm (app3 (so3_Vinv x) u) <= 2 * vnorm u) /\
  mwithin (2 * (8 * g + 650 * / 2 ^ 44)) (mval (dlog_rot_jac M o phi)) (so3_Vinv x).
Proof.
  intros HM (F & _ & D) Hg [Lo Hi]. pose proof PI_ge2 as P.
  assert (D' : vnorm (vsub (vval phi) x) <= 4 / 1000) by lra.
  pose proof (norm_dist (vval phi) x) as ND. apply abs_between in ND.
  set (y := vval phi) in *.
  assert (YL : / 18 <= vnorm y) by lra. assert (YH : vnorm y <= PI) by lra.
  assert (X0 : x <> v0) by (intros ->; rewrite vnorm_0 in Lo; lra).
  assert (Y0 : y <> v0) by (intros E; rewrite E, vnorm_0 in YL; lra).
  destruct (c52_log_jacobian_away_partial M o phi y 0 HM F) as (J & _ & EJ & FJ & W); [rewrite pow20; lra|lra| |].
  { unfold vwithin. fold y. rewrite Rmult_0_l, !Rminus_diag_eq, Rabs_R0 by reflexivity. lra. }
  rewrite (log_rot_jac_Vinv y Y0 ltac:(lra)) in EJ. injection EJ as <-.
  split; [exact FJ|]. split; [apply log_rot_jac_Vinv; [exact X0|lra]|].
  assert (ST : forall u, vnorm (app3 (so3_Vinv x) u) <= 2 * vnorm u) by (intros u; apply Vinv_stretch; [exact X0|lra]).
  split; [apply entries_short; [lra|exact ST]|]. split; [exact ST|].
  eapply mwithin_weak; [eapply mwithin_triangle; [exact W|apply (entry_le _ _ (4 * (4 * g)))]|].
  - lra.
  - intros u. eapply Rle_trans; [apply Vinv_lip; auto; lra|]. apply Rmult_le_compat_r; [apply vnorm_nonneg|]. lra.
  - assert (I : / (vnorm y * vnorm y) <= 324).
    { replace 324 with (/ (/ 18 * / 18)) by field. apply Rinv_le_contravar; [lra|]. apply Rmult_le_compat; lra. }
    assert (U : / 2 ^ 42 = 4 * / 2 ^ 44) by field. rewrite U. assert (0 < / 2 ^ 44) by (apply Rinv_0_lt_compat, pow_lt; lra).
    assert (/ 2 ^ 44 * / (vnorm y * vnorm y) <= / 2 ^ 44 * 324) by (apply Rmult_le_compat_l; lra). lra.
Qed.

(** ** The Jacobian of exp *)
Lemma nine (m : DM) (X : M3) e : appr (dx (r0 m)) (m00 X) e -> appr (dy (r0 m)) (m01 X) e -> appr (dz (r0 m)) (m02 X) e ->
  appr (dx (r1 m)) (m10 X) e -> appr (dy (r1 m)) (m11 X) e -> appr (dz (r1 m)) (m12 X) e ->
  appr (dx (r2 m)) (m20 X) e -> appr (dy (r2 m)) (m21 X) e -> appr (dz (r2 m)) (m22 X) e -> mfinite m /\ mwithin e (mval m) X.
Proof. unfold appr, mfinite, vfinite, mwithin, mval. cbn. tauto. Qed.

Section ExpJac.
  Variable o : order.
  Variable C : DM.
  Variable phi : DV.
  Variable d : R.
  Notation x := (vval phi).
  Notation th := (vnorm x).
  Notation q := (th * th).
  Notation E := (so3_exp x).
  Hypothesis FC : mfinite C.
  Hypothesis FP : vfinite phi.
  Hypothesis HC : mwithin d (mval C) E.
  Hypothesis Hd : 0 <= d <= / 100.
  Hypothesis Lo : / 18 <= th.
  Hypothesis Hi : th <= 5.

  Lemma eta_w : 1000000 * eta <= w53.
  Proof. pose proof eta_tiny. assert (K : / 2 ^ 200 <= / 2 ^ 80) by (apply Rinv_le_contravar; [apply pow_lt; lra|apply Rle_pow; [lra|lia]]).
    replace (2 ^ 80) with 1208925819614629174706176 in K by ring. lra. Qed.

  Lemma q_facts : / 324 <= q <= 25 /\ th <= 18 * q /\ 0 <= d * th <= / 20 /\ d * th <= 18 * (d * q) /\ w53 * th <= 18 * (w53 * q) /\ 0 < w53 * th.
  Proof.
    assert (A : / 18 * th <= th * th) by (apply Rmult_le_compat_r; lra). assert (B : th * th <= 5 * 5) by (apply Rmult_le_compat; lra).
    assert (D : d * th <= / 100 * 5) by (apply Rmult_le_compat; lra). assert (D0 : 0 <= d * th) by (apply Rmult_le_pos; lra).
    assert (G : d * (/ 18 * th) <= d * (th * th)) by (apply Rmult_le_compat_l; lra). repeat split; lra.
  Qed.

  (** A component of [phi] or its opposite. *)
  Definition piece (s : double) (y : R) : Prop := appr s y 0 /\ Rabs y <= th.
  Lemma pieces : piece (dx phi) (vx x) /\ piece (dy phi) (vy x) /\ piece (dz phi) (vz x).
  Proof. destruct FP as (F1 & F2 & F3). destruct (comp_le_norm x) as (A & B & D). repeat split; try assumption; try (cbn; rewrite Rminus_diag_eq, Rabs_R0 by reflexivity; lra). Qed.

  Lemma less_id i I c e : appr i I 0 -> 0 <= I <= 1 -> appr c e d -> Rabs e <= 1 -> appr (fsub i c) (I - e) (d + 3 * w53) /\ Rabs (I - e) <= 2.
  Proof.
    intros Hi' HI Hc He. assert (A : Rabs (I - e) <= 2) by (apply abs_between in He || apply Rabs_le_inv in He; apply Rabs_le; lra).
    split; [|exact A]. pose proof eta_w. pose proof big_100. pose proof eta_pos. apply (appr_sub _ _ _ _ 0 d (21 / 10)); auto; lra.
  Qed.

  Lemma num_entry a A a' A' s y s' y' t z t' z' : appr a A (d + 3 * w53) -> Rabs A <= 2 -> appr a' A' (d + 3 * w53) -> Rabs A' <= 2 ->
    piece s y -> piece s' y' -> piece t z -> piece t' z' -> Rabs (A * y - A' * y' + z * z') <= q ->
    appr (fadd (fsub (fmul a s) (fmul a' s')) (fmul t t')) (A * y - A' * y' + z * z') (2 * (d * th) + 18 * (w53 * th) + 4 * (w53 * q)).
  Proof.
    intros Ha HA Ha' HA' [Hs Hy] [Hs' Hy'] [Ht Hz] [Ht' Hz'] HB.
    destruct q_facts as (Q & Q1 & Q2 & Q3 & Q4 & Q5). pose proof eta_w as ET. pose proof eta_pos. pose proof big_100 as BG.
    assert (P : forall a A s y, appr a A (d + 3 * w53) -> Rabs A <= 2 -> appr s y 0 -> Rabs y <= th ->
      appr (fmul a s) (A * y) (d * th + 6 * (w53 * th)) /\ Rabs (A * y) <= 2 * th).
    { clear - Hd Lo Hi Q2 Q5 ET BG. intros a A s y Ha HA Hs Hy. split.
      - apply (appr_mul _ _ _ _ (d + 3 * w53) 0 2 th); auto.
        + assert ((2 + (d + 3 * w53)) * (th + 0) <= 3 * 5) by (apply Rmult_le_compat; lra). lra.
        + assert ((d + 3 * w53) * th <= / 50 * th) by (apply Rmult_le_compat_r; lra). lra.
      - rewrite Rabs_mult. apply Rmult_le_compat; auto using Rabs_pos. }
    destruct (P a A s y Ha HA Hs Hy) as [P1 P2]. destruct (P a' A' s' y' Ha' HA' Hs' Hy') as [P3 P4]. clear P.
    assert (S1 : appr (fsub (fmul a s) (fmul a' s')) (A * y - A' * y') (2 * (d * th) + 17 * (w53 * th))).
    { apply (appr_sub _ _ _ _ (d * th + 6 * (w53 * th)) (d * th + 6 * (w53 * th)) (9 / 2 * th)); auto; try lra.
      assert (Rabs (A * y - A' * y') <= 4 * th) by (replace (A * y - A' * y') with (A * y + - (A' * y')) by ring; eapply Rle_trans; [apply Rabs_triang|]; rewrite Rabs_Ropp; lra).
      assert (d * th <= / 100 * th) by (apply Rmult_le_compat_r; lra). lra. }
    assert (S2 : appr (fmul t t') (z * z') (2 * (w53 * q))).
    { apply (appr_mul _ _ _ _ 0 0 th th); auto; [|]; rewrite ?Rplus_0_r; lra. }
    assert (d * th <= / 100 * th) by (apply Rmult_le_compat_r; lra).
    eapply (appr_add _ _ _ _ _ _ (q + (2 * (d * th) + 17 * (w53 * th)) + 2 * (w53 * q)) _ S1 S2); lra.
  Qed.

  Lemma n2_appr : appr (ddot o phi phi) q (5 * (w53 * q)).
  Proof.
    destruct q_facts as (Q & _). pose proof eta_w. pose proof eta_pos. pose proof big_100.
    destruct (dot_ok o phi phi q FP FP (Rle_refl _) ltac:(lra)) as [F B]. split; [exact F|].
    replace (vdot x x) with q in B by (rewrite vnorm_sq; reflexivity). rewrite u_val in B. lra.
  Qed.
  Lemma takes_quotient : fgt (ddot o phi phi) feps = true.
  Proof.
    destruct n2_appr as [F B]. destruct feps_ok as [Fe Ve]. apply fgt_ok; auto. rewrite Ve. destruct q_facts as (Q & _).
    apply abs_between in B. lra.
  Qed.

  Lemma quot_entry n p : appr n p (2 * (d * th) + 18 * (w53 * th) + 4 * (w53 * q)) -> Rabs (p / q) <= 1 -> appr (fdiv n (ddot o phi phi)) (p / q) (37 * d + 360 * w53).
  Proof.
    intros Hn HP. destruct q_facts as (Q & Q1 & Q2 & Q3 & Q4 & Q5). pose proof eta_w. pose proof eta_pos. pose proof big_100.
    assert (DQ : 0 <= d * q) by (apply Rmult_le_pos; lra).
    apply (appr_div _ _ _ _ _ _ 1 (999 / 1000 * q) (73 / 2 * d + 340 * w53) _ Hn n2_appr HP); lra.
  Qed.

  Definition numer : M3 := add3 (mul3 (sub3 i3 E) (skew x)) (outer3 x x).
  Lemma V_numer : so3_V x = scal3 (/ q) numer.
  Proof.
    destruct q_facts as (Q & _). rewrite <- (exp_rot_jac_V 0 x) by (rewrite <- ?vnorm_sq; lra). unfold exp_rot_jac.
    rewrite <- (vnorm_sq x). destruct (Rlt_dec 0 q) as [_|K]; [reflexivity|lra].
  Qed.

  Lemma E_entries : mwithin 1 E z3.
  Proof. apply entries_short; [lra|]. intros u. rewrite norm_rot by apply so3_exp_is_rot. lra. Qed.
  Lemma V_entries y : mwithin 1 (so3_V y) z3.
  Proof. apply entries_short; [lra|]. intros u. rewrite Rmult_1_l. apply V_short. Qed.

  Lemma one_entry a A a' A' s y s' y' t z t' z' V : appr a A (d + 3 * w53) /\ Rabs A <= 2 -> appr a' A' (d + 3 * w53) /\ Rabs A' <= 2 ->
    piece s y -> piece s' y' -> piece t z -> piece t' z' -> V = / q * (A * y - A' * y' + z * z') -> Rabs V <= 1 ->
    appr (fdiv (fadd (fsub (fmul a s) (fmul a' s')) (fmul t t')) (ddot o phi phi)) V (37 * d + 360 * w53).
  Proof.
    intros [Ha HA] [Ha' HA'] Hs Hs' Ht Ht' -> HV. destruct q_facts as (Q & _).
    eapply appr_eq; [apply quot_entry; [apply (num_entry a A a' A' s y s' y' t z t' z'); auto|]|].
    - rewrite Rabs_mult, (Rabs_pos_eq (/ q)) in HV by (left; apply Rinv_0_lt_compat; lra).
      apply (Rmult_le_reg_l (/ q)); [apply Rinv_0_lt_compat; lra|]. rewrite Rinv_l by lra. exact HV.
    - unfold Rdiv. rewrite Rmult_comm. exact HV.
    - unfold Rdiv. apply Rmult_comm.
  Qed.

  Lemma exp_jac_large : mfinite (dexp_rot_jac o C phi) /\ mwithin (37 * d + 360 * w53) (mval (dexp_rot_jac o C phi)) (so3_V x).
  Proof.
    unfold dexp_rot_jac. rewrite takes_quotient. destruct pieces as (PX & PY & PZ).
    pose proof (V_entries x) as VE. rewrite V_numer in VE |- *. unfold numer in *.
    pose proof E_entries as EE. destruct FC as ((F00 & F01 & F02) & (F10 & F11 & F12) & (F20 & F21 & F22)).
    destruct HC as (C00 & C01 & C02 & C10 & C11 & C12 & C20 & C21 & C22). cbn [mval m00 m01 m02 m10 m11 m12 m20 m21 m22] in C00, C01, C02, C10, C11, C12, C20, C21, C22.
    unfold mwithin in EE, VE. decompose [and] EE. clear EE. decompose [and] VE. clear VE. cbn [z3 m00 m01 m02 m10 m11 m12 m20 m21 m22] in *. rewrite ?Rminus_0_r in *.
    pose proof appr_0 as I0. pose proof appr_1 as I1. assert (R0 : 0 <= 0 <= 1) by lra. assert (R1 : 0 <= 1 <= 1) by lra.
    assert (G : forall i I c e, appr i I 0 -> 0 <= I <= 1 -> finite c -> Rabs (val c - e) <= d -> Rabs e <= 1 -> appr (fsub i c) (I - e) (d + 3 * w53) /\ Rabs (I - e) <= 2).
    { intros i I c e K1 K2 K3 K4 K5. apply less_id; auto. split; assumption. }
    cbn [r0 r1 r2 dx dy dz dmapm2 dmapv2 dmapm dmapv dmat_cross dcross did douter].
    set (EX := E) in *. clearbody EX. destruct EX as [e00 e01 e02 e10 e11 e12 e20 e21 e22].
    unfold add3, sub3, scal3, mul3, skew, outer3, i3 in *. cbn [m00 m01 m02 m10 m11 m12 m20 m21 m22] in *.
    repeat match goal with HF : finite ?c, K : Rabs (val ?c - ?e) <= d, A : Rabs ?e <= 1 |- _ =>
      pose proof (G f0 0 c e I0 R0 HF K A); pose proof (G f1 1 c e I1 R1 HF K A); clear HF end.
    apply nine; cbn [r0 r1 r2 dx dy dz m00 m01 m02 m10 m11 m12 m20 m21 m22 dmapm dmapv dmapm2 dmapv2 dmat_cross dcross did douter];
      eapply one_entry; try eassumption; ring.
  Qed.
End ExpJac.

(** Near 0: the code's first-order formula. *)
Lemma V_second v u : vnorm (vsub (app3 (so3_V v) u) (vadd u (vscal (1 / 2) (vcross v u)))) <= vnorm v * vnorm v * vnorm u.
Proof.
  destruct (se3_flow_exp v u) as (_ & Z & D). set (t := fun s => app3 (so3_V (vscal s v)) (vscal s u)) in *.
  set (f := fun s => vsub (t s) (vadd (vscal s u) (vscal (s * s * (1 / 2)) (vcross v u)))).
  pose proof (vnorm_nonneg v) as Nv. pose proof (vnorm_nonneg u) as Nu.
  replace (vsub (app3 (so3_V v) u) (vadd u (vscal (1 / 2) (vcross v u)))) with (vsub (f 1) (f 0)).
  - apply (v3_mean f (fun s => vcross v (vsub (t s) (vscal s u)))); [repeat apply Rmult_le_pos; assumption|]. intros s Hs. split.
    + eapply v3d_val.
      * apply v3d_sub; [apply D|]. apply v3d_add; [apply v3d_scal; [apply dpl_id|apply (v3d_const u)]|]. apply v3d_scal; [|apply (v3d_const (vcross v u))].
        apply dpl_mult; [apply dpl_mult; apply dpl_id|apply dpl_const].
      * unfold t. generalize (app3 (so3_V (vscal s v)) (vscal s u)). intros r. destruct r, v, u. v3unf. f_equal; field.
    + eapply Rle_trans; [apply cross_norm|]. rewrite Rmult_assoc. apply Rmult_le_compat_l; [exact Nv|].
      unfold t. assert (L := V_lip (vscal s v) v0 (vscal s u)). rewrite so3_V_0, app3_i in L.
      eapply Rle_trans; [exact L|]. replace (vsub (vscal s v) v0) with (vscal s v) by (destruct v; unfold vsub, vscal, v0; cbn; f_equal; ring).
      rewrite !norm_scal, Rabs_pos_eq by lra. apply Rmult_le_compat; try (apply Rmult_le_pos; lra).
      * rewrite <- (Rmult_1_l (vnorm v)) at 2. apply Rmult_le_compat_r; lra.
      * rewrite <- (Rmult_1_l (vnorm u)) at 2. apply Rmult_le_compat_r; lra.
  - change (t 0 = v0) in Z. unfold f. rewrite Z. unfold t. rewrite !vscal_1. destruct (app3 (so3_V v) u), v, u. v3unf. f_equal; field.
Qed.

Lemma exp_jac_small o C phi : vfinite phi -> vnorm (vval phi) * vnorm (vval phi) <= 51 / 100 * w53 ->
  mfinite (dexp_rot_jac o C phi) /\ mwithin (2 * w53) (mval (dexp_rot_jac o C phi)) (so3_V (vval phi)).
Proof.
  intros FP Hq. set (x := vval phi) in *. pose proof eta_w as EW. pose proof eta_pos. pose proof big_100 as BG.
  assert (W : w53 <= / 1000) by lra.
  assert (W0 : 0 < w53) by lra.
  pose proof (vnorm_nonneg x) as X0. assert (X1 : vnorm x <= 1 / 10) by nra.
  assert (BR : fgt (ddot o phi phi) feps = false).
  { destruct (dot_ok o phi phi (vnorm x * vnorm x) FP FP (Rle_refl _) ltac:(lra)) as [F B]. destruct feps_ok as [Fe Ve].
    replace (vdot (vval phi) (vval phi)) with (vnorm x * vnorm x) in B by (rewrite vnorm_sq; reflexivity). rewrite u_val in B.
    destruct (fgt _ _) eqn:G; [|reflexivity]. apply fgt_ok in G; auto. rewrite Ve in G. apply abs_between in B.
    assert (w53 * (vnorm x * vnorm x) <= / 1000 * (vnorm x * vnorm x)) by (apply Rmult_le_compat_r; [apply Rmult_le_pos; lra|lra]).
    match goal with K : ?e < _ |- _ => assert (e = 2 * w53) by field end. lra. }
  unfold dexp_rot_jac. rewrite BR.
  destruct (comp_le_norm x) as (A & B & D). destruct FP as (F1 & F2 & F3).
  assert (K : forall i I s y, appr i I 0 -> 0 <= I <= 1 -> appr s y 0 -> (I = 1 -> y = 0) -> (I = 0 \/ I = 1) -> Rabs y <= 1 / 10 -> appr (fadd i (fmul fhalf s)) (I + 1 / 2 * y) (6 / 5 * w53)).
  { intros i I s y Hi' HI Hs Z0 Z1 Hy. destruct fhalf_ok as [FH VH].
    assert (M : appr (fmul fhalf s) (1 / 2 * y) (w53 * / 10 + eta)).
    { apply (appr_mul _ _ _ _ 0 0 (1 / 2) (1 / 10)); auto; [|rewrite Rabs_pos_eq; lra|lra|lra]. rewrite <- VH. apply appr_val, FH. }
    apply (appr_add _ _ _ _ 0 (w53 * / 10 + eta) (101 / 100)); auto; [|lra|lra].
    destruct Z1 as [-> | ->]; [|rewrite (Z0 eq_refl)]; [rewrite Rplus_0_l, Rabs_mult, (Rabs_pos_eq (1 / 2)) by lra; lra|]. replace (1 + 1 / 2 * 0) with 1 by ring. rewrite Rabs_R1. lra. }
  assert (P : mfinite (dmapm2 fadd did (dmapm (fmul fhalf) (dskew phi))) /\ mwithin (6 / 5 * w53) (mval (dmapm2 fadd did (dmapm (fmul fhalf) (dskew phi)))) (add3 i3 (scal3 (1 / 2) (skew x)))).
  { pose proof appr_0 as I0. pose proof appr_1 as I1. pose proof (appr_val _ F1). pose proof (appr_val _ F2). pose proof (appr_val _ F3).
    pose proof (appr_opp _ _ _ (appr_val _ F1)). pose proof (appr_opp _ _ _ (appr_val _ F2)). pose proof (appr_opp _ _ _ (appr_val _ F3)).
    assert (A' : Rabs (val (dx phi)) <= 1 / 10) by (eapply Rle_trans; [exact A|exact X1]).
    assert (B' : Rabs (val (dy phi)) <= 1 / 10) by (eapply Rle_trans; [exact B|exact X1]).
    assert (D' : Rabs (val (dz phi)) <= 1 / 10) by (eapply Rle_trans; [exact D|exact X1]).
    apply nine; unfold add3, i3, scal3, skew, x, vval; cbn [r0 r1 r2 dx dy dz vx vy vz m00 m01 m02 m10 m11 m12 m20 m21 m22 dmapm dmapv dmapm2 dmapv2 did dskew];
      (apply K; [assumption|lra|assumption|intros; first [reflexivity|exfalso; lra]|first [left; reflexivity|right; reflexivity]|rewrite ?Rabs_Ropp, ?Rabs_R0; lra]). }
  destruct P as [P1 P2]. split; [exact P1|]. eapply mwithin_weak; [eapply mwithin_triangle; [exact P2|apply (entry_le _ _ (51 / 100 * w53))]|].
  - lra.
  - intros u. rewrite <- norm_opp. eapply Rle_trans; [|eapply Rle_trans; [apply (V_second x u)|]].
    + apply Req_le. f_equal. destruct (so3_V x), x, u. v3unf. f_equal; field.
    + apply Rmult_le_compat_r; [apply vnorm_nonneg|exact Hq].
  - lra.
Qed.

(** The whole step: from an approximate argument and an approximate value. *)
Lemma exp_jac_step o C phi w s g ec : vapprox s g phi w -> 0 <= g <= / 1000 -> s <= 4 -> 0 <= ec ->
  mfinite C -> fnorm (sub3 (mval C) (so3_exp w)) <= ec -> ec + 4 * g <= / 100 -> / 16 <= vnorm w \/ s <= / 2 ^ 27 ->
  mfinite (dexp_rot_jac o C phi) /\ mwithin (37 * ec + 152 * g + / 2 ^ 44) (mval (dexp_rot_jac o C phi)) (so3_V w).
Proof.
  intros (F & B & D) Hg Hs He FC DC Hd Hw. set (x := vval phi) in *.
  pose proof (vnorm_nonneg w) as W0. pose proof (vnorm_nonneg (vsub x w)) as XW0.
  assert (DX : vnorm (vsub x w) <= 4 * g) by (assert (g * s <= g * 4) by (apply Rmult_le_compat_l; lra); lra).
  assert (NX : vnorm x <= vnorm w + vnorm (vsub x w)).
  { replace x with (vadd w (vsub x w)) at 1 by (destruct x, w; unfold vadd, vsub; cbn; f_equal; ring). apply norm_triangle. }
  assert (NX' : vnorm w <= vnorm x + vnorm (vsub x w)).
  { replace w with (vadd x (vopp (vsub x w))) at 1 by (destruct x, w; unfold vadd, vsub, vopp; cbn; f_equal; ring).
    rewrite <- (norm_opp (vsub x w)). apply norm_triangle. }
  assert (U : / 2 ^ 44 = 512 * w53) by (replace (2 ^ 44) with 17592186044416 by ring; field).
  assert (KV : mwithin (4 * g) (so3_V x) (so3_V w)).
  { apply entry_le; [lra|]. intros u. eapply Rle_trans; [apply V_lip|]. apply Rmult_le_compat_r; [apply vnorm_nonneg|exact DX]. }
  rewrite U. destruct Hw as [Hw|Hw].
  - assert (KE : mwithin (ec + 4 * g) (mval C) (so3_exp x)).
    { eapply mwithin_triangle; [apply fnorm_mwithin; exact DC|]. apply entry_le; [lra|]. intros u. eapply Rle_trans; [apply exp_lip|].
      apply Rmult_le_compat_r; [apply vnorm_nonneg|]. replace (vsub w x) with (vopp (vsub x w)) by (destruct x, w; unfold vsub, vopp; cbn; f_equal; ring). rewrite norm_opp. exact DX. }
    destruct (exp_jac_large o C phi (ec + 4 * g) FC F KE) as [R1 R2]; [lra|unfold x in *; lra|unfold x in *; lra|].
    split; [exact R1|]. eapply mwithin_weak; [eapply mwithin_triangle; [exact R2|exact KV]|]. lra.
  - assert (SP : / 2 ^ 27 = / 134217728) by (f_equal; ring). rewrite SP in Hw.
    assert (g * s <= / 1000 * s) by (apply Rmult_le_compat_r; lra).
    destruct (exp_jac_small o C phi F) as [R1 R2].
    + fold x. pose proof (vnorm_nonneg x). assert (vnorm x <= 1001 / 1000 * / 134217728) by lra.
      assert (vnorm x * vnorm x <= (1001 / 1000 * / 134217728) * (1001 / 1000 * / 134217728)) by (apply Rmult_le_compat; lra). lra.
    + split; [exact R1|]. eapply mwithin_weak; [eapply mwithin_triangle; [exact R2|exact KV]|]. lra.
Qed.
