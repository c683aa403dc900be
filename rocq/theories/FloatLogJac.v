(** The Jacobian of the logarithm of a rotation computed on doubles: error analysis. *)

From Coq Require Import ZArith Reals Lra Lia Psatz List Bool.
From Flocq Require Import Core BinarySingleNaN.
From Verif Require Import V3 SpecLeaf LeafProofs ModelLeaf ModelFloat SpecFlt SpecFltQ FloatProofs FloatDrift FloatExp
  FloatLog FloatLog2 FloatAct PropsExpFlt FloatCoef.
Local Open Scope R_scope.

Local Notation w := (/ 9007199254740992).

(** (1-cos t)/t^2 - sin(t)/(2t) is between 0 and t^2/12. *)
Lemma numerator_nonneg t : 0 < t <= PI -> 0 <= (1 - cos t) / (t * t) - 1 / 2 * (sin t / t).
Proof.
  intros H. pose proof (slope_nonneg (t / 2) ltac:(lra)) as S.
  assert (S2 : 0 <= sin (t / 2)) by (apply sin_ge_0; lra).
  replace ((1 - cos t) / (t * t) - 1 / 2 * (sin t / t)) with ((2 * (1 - cos t) - t * sin t) / (2 * (t * t))) by (field; lra).
  apply Rmult_le_pos; [|left; apply Rinv_0_lt_compat; nra].
  rewrite (cos_half t). replace (sin t) with (2 * sin (t / 2) * cos (t / 2)).
  2:{ rewrite <- sin_2a. f_equal. field. }
  replace (2 * (1 - (1 - 2 * (sin (t / 2) * sin (t / 2)))) - t * (2 * sin (t / 2) * cos (t / 2))) with
    (4 * (sin (t / 2) * (sin (t / 2) - t / 2 * cos (t / 2)))) by field.
  apply Rmult_le_pos; [lra|]. now apply Rmult_le_pos.
Qed.

Section LogJac.
  Variables (M : libm) (o : order) (v : DV) (x : V3) (e : R).
  Hypothesis HM : one_ulp M.
  Hypothesis Fv : vfinite v.
  Hypothesis He : 0 <= e <= / 100000.
  Local Notation th := (vnorm x).
  Hypothesis Hv : vwithin (e * th) (vval v) x.
  Hypothesis Hlo : / 1048576 <= th.
  Hypothesis Hhi : th <= PI.
  Local Notation g := (gauge e).
  Local Notation q := (th * th).
  Local Notation h := (scale x e).
  Local Notation t2 := (ddot o v v).
  Local Notation t := (fsqrt t2).
  Local Notation D := (fsub f1 (fcos M t)).
  Local Notation A := (fdiv (fsin M t) t).
  Local Notation B := (fdiv D t2).
  Local Notation a := (sin th / th).
  Local Notation c := (1 - cos th).
  Local Notation b := (c / q).
  Local Notation n := (b - 1 / 2 * a).
  Local Notation K := (n / c).

  Lemma n_bounds : 0 <= n <= q / 12.
  Proof.
    split; [apply numerator_nonneg; lra|].
    destruct (a_bounds x Hlo Hhi) as (_ & A1 & A2). destruct (b_bounds x Hlo Hhi). lra.
  Qed.
  Lemma K_bounds : 0 <= K <= 1 / 2.
  Proof.
    pose proof n_bounds. pose proof (D_pos x Hlo Hhi). pose proof (q_bounds x Hlo Hhi).
    split; apply (Rmult_le_reg_r c); try lra; unfold Rdiv at 1; try rewrite (Rmult_assoc n), Rinv_l; lra.
  Qed.
  Lemma h_range : w <= h <= / 900 /\ g <= h /\ w / q <= h /\ h = g + w / q.
  Proof.
    destruct (g_bounds e He) as ((g0 & g1) & _). pose proof (q_bounds x Hlo Hhi).
    assert (W : 0 < w / q) by (apply Rdiv_lt_0_compat; lra).
    assert (W9 : w / q <= 1 / 1000).
    { apply (Rmult_le_reg_r q); [lra|]. unfold Rdiv at 1. rewrite Rmult_assoc, Rinv_l; lra. }
    unfold scale. lra.
  Qed.

  Lemma halfA : appr (fmul fhalf A) (1 / 2 * a) (11 * g).
  Proof.
    destruct (g_bounds e He) as ((g0 & g1) & _). pose proof (A_appr M o v x e HM Fv He Hv Hlo Hhi) as HA.
    destruct (a_bounds x Hlo Hhi) as (A1 & _). pose proof big_100. destruct (eta_q x Hlo Hhi) as (_ & _ & EQ). pose proof eta_pos.
    destruct half_ok as [Fh Vh].
    apply (appr_mul _ _ _ _ 0 (20 * g) (1 / 2) 1); auto; try lra.
    - split; [exact Fh|]. rewrite Vh. replace (/ 2 - 1 / 2) with 0 by field. rewrite Rabs_R0. lra.
    - rewrite Rabs_pos_eq; lra.
  Qed.

  Lemma N_appr : appr (fsub B (fmul fhalf A)) n (28 * h).
  Proof.
    destruct (g_bounds e He) as ((g0 & g1) & _). pose proof (q_bounds x Hlo Hhi). pose proof n_bounds.
    destruct h_range as (h1 & h2 & h3 & h4). pose proof big_100. destruct (eta_q x Hlo Hhi) as (_ & _ & EQ). pose proof eta_pos.
    apply (appr_sub _ _ _ _ (15 * g + 7 * (w / q)) (11 * g) 1); auto using halfA; try lra.
    - now apply B_appr.
    - rewrite Rabs_pos_eq; lra.
  Qed.

  (** h / t^2 *)
  Local Notation hq := (h / q).
  Lemma hq_range : h <= 10 * hq /\ hq * q = h /\ hq <= 10000000000.
  Proof.
    pose proof (q_bounds x Hlo Hhi). destruct h_range as (h1 & h2 & h3 & h4).
    assert (E : hq * q = h) by (field; lra).
    assert (0 < hq) by (apply Rdiv_lt_0_compat; lra).
    split; [|split]; [|exact E|].
    - rewrite <- E at 1. rewrite Rmult_comm. apply Rmult_le_compat_r; lra.
    - apply (Rmult_le_reg_r q); [lra|]. rewrite E. lra.
  Qed.

  Local Notation k := (fdiv (fsub B (fmul fhalf A)) D).
  Lemma k_appr : appr k K (680 * hq).
  Proof.
    destruct (g_bounds e He) as ((g0 & g1) & _). pose proof (q_bounds x Hlo Hhi). pose proof (D_pos x Hlo Hhi). pose proof K_bounds.
    destruct h_range as (h1 & h2 & h3 & h4). pose proof big_100. destruct (eta_q x Hlo Hhi) as (_ & _ & EQ). pose proof eta_pos.
    destruct (gq x e He Hlo Hhi) as (G1 & G2). destruct hq_range as (Q1 & Q2 & Q3).
    assert (GQ : g * q <= / 99999 * q) by (apply Rmult_le_compat_r; lra).
    assert (WQ : w / q * q = w) by (field; lra).
    assert (WQ2 : w <= 10 * (w / q)).
    { rewrite <- WQ at 1. rewrite Rmult_comm. apply Rmult_le_compat_r; lra. }
    apply (appr_div _ _ _ _ (28 * h) (11 * (g * q) + 6 * w) (1 / 2) (q / 8) (664 * hq)); auto using N_appr; try lra.
    - now apply D_appr.
    - rewrite Rabs_pos_eq; lra.
  Qed.

  (** A factor s of k s p. *)
  Definition comp (s : double) (y : R) : Prop := appr s y (e * th) /\ Rabs y <= th.

  Lemma comp_0 : comp f0 0.
  Proof.
    split; [|rewrite Rabs_R0; lra]. split; [reflexivity|]. change (val f0) with 0. rewrite Rminus_0_r, Rabs_R0.
    apply Rmult_le_pos; lra.
  Qed.
  Lemma comp_x : comp (dx v) (vx x) /\ comp (dy v) (vy x) /\ comp (dz v) (vz x).
  Proof.
    destruct (comp_le_norm x) as (C0 & C1 & C2). destruct Fv as (F0 & F1 & F2). destruct Hv as (V0 & V1 & V2).
    repeat split; auto.
  Qed.
  Lemma comp_opp s y : comp s y -> comp (fopp s) (- y).
  Proof. intros [P Q]. split; [now apply appr_opp|now rewrite Rabs_Ropp]. Qed.

  Lemma ks s y : comp s y -> appr (fmul k s) (K * y) (720 * (hq * th)) /\ Rabs (K * y) <= th / 2.
  Proof.
    intros [P Q]. destruct (g_bounds e He) as ((g0 & g1) & g2). destruct K_bounds as [K0 K1].
    destruct h_range as (h1 & h2 & h3 & h4). pose proof big_100. destruct (eta_q x Hlo Hhi) as (_ & EQ & _). pose proof eta_pos.
    destruct hq_range as (Q1 & Q2 & Q3). pose proof (th_hi x Hhi) as T. destruct (gth x e He Hlo Hhi) as (G1 & G2).
    assert (KQ : Rabs (K * y) <= th / 2).
    { rewrite Rabs_mult, (Rabs_pos_eq K) by exact K0.
      replace (th / 2) with (1 / 2 * th) by field. apply Rmult_le_compat; try apply Rabs_pos; lra. }
    split; [|exact KQ].
    assert (Z : g * th <= 10 * (hq * th)).
    { rewrite <- Rmult_assoc. apply Rmult_le_compat_r; lra. }
    assert (EG : e * th <= g * th) by (apply Rmult_le_compat_r; lra).
    assert (Hp : 0 < hq * th) by (apply Rmult_lt_0_compat; lra).
    assert (HT : hq * (e * th) <= / 100000 * (hq * th)).
    { replace (hq * (e * th)) with (e * (hq * th)) by ring. apply Rmult_le_compat_r; lra. }
    assert (BB : (1 / 2 + 680 * hq) * (th + e * th) <= 1000 * (hq * th) + 6 * (g * th) + 100).
    { replace ((1 / 2 + 680 * hq) * (th + e * th)) with (1 / 2 * th + 1 / 2 * (e * th) + 680 * (hq * th) + 680 * (hq * (e * th))) by ring.
      lra. }
    assert (HX : hq * th <= 10000000000 * (63 / 20)) by (apply Rmult_le_compat; lra).
    apply (appr_mul _ _ _ _ (680 * hq) (e * th) (1 / 2) th); auto using k_appr; try lra.
    rewrite Rabs_pos_eq; lra.
  Qed.

  Lemma ksp s y p z : comp s y -> comp p z ->
    appr (fmul (fmul k s) p) (K * y * z) (760 * h) /\ Rabs (K * y * z) <= q / 2.
  Proof.
    intros Cs [P Q]. destruct (ks s y Cs) as [S1 S2]. destruct (g_bounds e He) as ((g0 & g1) & g2).
    destruct h_range as (h1 & h2 & h3 & h4). pose proof big_100. destruct (eta_q x Hlo Hhi) as (EQ & _ & _). pose proof eta_pos.
    destruct hq_range as (Q1 & Q2 & Q3). pose proof (q_bounds x Hlo Hhi) as QB. destruct (gq x e He Hlo Hhi) as (G1 & G2).
    assert (EG : e * q <= g * q) by (apply Rmult_le_compat_r; lra).
    assert (KQ : Rabs (K * y * z) <= q / 2).
    { rewrite Rabs_mult. replace (q / 2) with (th / 2 * th) by field. apply Rmult_le_compat; try apply Rabs_pos; lra. }
    split; [|exact KQ].
    assert (HT : hq * q * e <= / 100000 * h).
    { rewrite Q2, Rmult_comm. apply Rmult_le_compat_r; lra. }
    assert (BB : (th / 2 + 720 * (hq * th)) * (th + e * th) = 1 / 2 * q + 1 / 2 * (e * q) + 720 * (hq * q) + 720 * (hq * q * e)) by (field; lra).
    apply (appr_mul _ _ _ _ (720 * (hq * th)) (e * th) (th / 2) th); auto.
    - rewrite BB, Q2. rewrite Q2 in HT. lra.
    - rewrite BB. 
      replace (720 * (hq * th) * (th + e * th) + th / 2 * (e * th)) with (720 * (hq * q) + 720 * (hq * q * e) + 1 / 2 * (e * q)) by (field; lra).
      rewrite Q2. rewrite Q2 in HT. lra.
  Qed.

  Lemma entry i I s y s1 y1 p1 z1 s2 y2 p2 z2 : appr i I 0 -> 0 <= I <= 1 -> comp s y ->
    comp s1 y1 -> comp p1 z1 -> comp s2 y2 -> comp p2 z2 ->
    appr (fadd (fsub i (fmul fhalf s)) (fsub (fmul (fmul k s1) p1) (fmul (fmul k s2) p2)))
      (I - 1 / 2 * y + (K * y1 * z1 - K * y2 * z2)) (1700 * h).
  Proof.
    intros Hi HI [Cs Cy] C1 P1 C2 P2. destruct (ksp _ _ _ _ C1 P1) as [A1 B1]. destruct (ksp _ _ _ _ C2 P2) as [A2 B2].
    destruct (g_bounds e He) as ((g0 & g1) & g2). destruct h_range as (h1 & h2 & h3 & h4). pose proof big_100.
    destruct (eta_q x Hlo Hhi) as (_ & EQT & EQ). pose proof eta_pos. pose proof (q_bounds x Hlo Hhi) as QB.
    pose proof (th_hi x Hhi) as T. destruct (gth x e He Hlo Hhi) as (G1 & G2).
    assert (EG : e * th <= g * th) by (apply Rmult_le_compat_r; lra).
    apply Rabs_le_inv in B1, B2. destruct half_ok as [Fh Vh].
    assert (X : appr (fmul fhalf s) (1 / 2 * y) (5 * g)).
    { apply (appr_mul _ _ _ _ 0 (e * th) (1 / 2) th); auto; try lra.
      - split; [exact Fh|]. rewrite Vh. replace (/ 2 - 1 / 2) with 0 by field. rewrite Rabs_R0. lra.
      - rewrite Rabs_pos_eq; lra. }
    assert (Y : Rabs (1 / 2 * y) <= 2). { rewrite Rabs_mult, (Rabs_pos_eq (1 / 2)) by lra. lra. }
    apply Rabs_le_inv in Y.
    assert (Z : appr (fsub i (fmul fhalf s)) (I - 1 / 2 * y) (10 * g)).
    { apply (appr_sub _ _ _ _ 0 (5 * g) 4); auto; try lra.
      assert (Rabs (I - 1 / 2 * y) <= 3) by (apply Rabs_le; lra). lra. }
    assert (W : appr (fsub (fmul (fmul k s1) p1) (fmul (fmul k s2) p2)) (K * y1 * z1 - K * y2 * z2) (1540 * h)).
    { apply (appr_sub _ _ _ _ (760 * h) (760 * h) 12); auto; try lra.
      assert (Rabs (K * y1 * z1 - K * y2 * z2) <= 10) by (apply Rabs_le; lra). lra. }
    apply (appr_add _ _ _ _ (10 * g) (1540 * h) 20); auto; try lra.
    assert (Rabs (I - 1 / 2 * y + (K * y1 * z1 - K * y2 * z2)) <= 13) by (apply Rabs_le; lra). lra.
  Qed.

  Definition exact_jac : M3 :=
    add3 (sub3 i3 (scal3 (1 / 2) (skew x))) (mul3 (scal3 K (skew x)) (skew x)).

  Lemma appr_1 : appr f1 1 0.
  Proof. destruct one_ok as [F V]. split; [exact F|]. rewrite V. rewrite Rminus_diag_eq, Rabs_R0 by reflexivity. lra. Qed.
  Lemma appr_0 : appr f0 0 0.
  Proof. split; [reflexivity|]. change (val f0) with 0. rewrite Rminus_0_r, Rabs_R0. lra. Qed.

  Theorem log_jac_close : mfinite (dlog_rot_jac M o v) /\
    mwithin (1700 * h) (mval (dlog_rot_jac M o v)) exact_jac.
  Proof.
    destruct comp_x as (X & Y & Z). pose proof (comp_opp _ _ X) as X'. pose proof (comp_opp _ _ Y) as Y'.
    pose proof (comp_opp _ _ Z) as Z'. pose proof comp_0 as O. pose proof appr_0 as I0. pose proof appr_1 as I1.
    assert (R0 : 0 <= 0 <= 1) by lra. assert (R1 : 0 <= 1 <= 1) by lra.
    pose proof (fun i I s y s1 y1 p1 z1 s2 y2 p2 z2 a1 a2 a3 a4 a5 a6 a7 V E =>
      appr_eq _ _ V _ (entry i I s y s1 y1 p1 z1 s2 y2 p2 z2 a1 a2 a3 a4 a5 a6 a7) E) as T.
    assert (E : appr (dx (r0 (dlog_rot_jac M o v))) (m00 exact_jac) (1700 * h) /\
                appr (dy (r0 (dlog_rot_jac M o v))) (m01 exact_jac) (1700 * h) /\
                appr (dz (r0 (dlog_rot_jac M o v))) (m02 exact_jac) (1700 * h) /\
                appr (dx (r1 (dlog_rot_jac M o v))) (m10 exact_jac) (1700 * h) /\
                appr (dy (r1 (dlog_rot_jac M o v))) (m11 exact_jac) (1700 * h) /\
                appr (dz (r1 (dlog_rot_jac M o v))) (m12 exact_jac) (1700 * h) /\
                appr (dx (r2 (dlog_rot_jac M o v))) (m20 exact_jac) (1700 * h) /\
                appr (dy (r2 (dlog_rot_jac M o v))) (m21 exact_jac) (1700 * h) /\
                appr (dz (r2 (dlog_rot_jac M o v))) (m22 exact_jac) (1700 * h)).
    { unfold exact_jac. set (KK := K) in *. clearbody KK.
      unfold dlog_rot_jac. cbv zeta. fold k.
      cbn [r0 r1 r2 dx dy dz dmapm2 dmapv2 dmapm dmapv dmat_cross dcross dskew did].
      repeat split.
      all: eapply T; eauto; unfold add3, sub3, scal3, mul3, skew, i3; cbn [m00 m01 m02 m10 m11 m12 m20 m21 m22]; try ring. }
    destruct E as ((? & ?) & (? & ?) & (? & ?) & (? & ?) & (? & ?) & (? & ?) & (? & ?) & (? & ?) & (? & ?)).
    split; repeat split; assumption.
  Qed.
End LogJac.
