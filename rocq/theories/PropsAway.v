(** C51, C52, C53: logarithms and Jacobians of rotations that are not small, computed on
    doubles: the errors of the closed forms grow like the inverse square of the angle. *)

From Coq Require Import ZArith Reals Lra Lia Psatz List Bool.
From Flocq Require Import Core BinarySingleNaN.
From Verif Require Import V3 SpecLeaf ModelLeaf LeafProofs ModelFloat SpecFlt SpecFltQ SpecFltLog FloatProofs FloatDrift
  FloatExp FloatLog FloatLog2 FloatAct PropsExpFlt PropsLogAcc PropsNear FloatCoef FloatLogJac FloatRtLog FloatExpJac.
Import ListNotations.
Local Open Scope R_scope.

Lemma pow20 : / 2 ^ 20 = / 1048576. Proof. f_equal. ring. Qed.
Lemma pow42 : / 2 ^ 42 = 2048 * / 9007199254740992.
Proof. replace (2 ^ 42) with 4398046511104 by ring. lra. Qed.
Lemma pow41 : / 2 ^ 41 = 4096 * / 9007199254740992.
Proof. replace (2 ^ 41) with 2199023255552 by ring. lra. Qed.
Lemma pow53 : / 2 ^ 53 = / 9007199254740992.
Proof. replace (2 ^ 53) with 9007199254740992 by ring. reflexivity. Qed.

Lemma nonzero v : / 1048576 <= vnorm v -> v <> v0.
Proof. intros H ->. rewrite vnorm_0 in H. lra. Qed.

Lemma unit_norm v : vx v * vx v + vy v * vy v + vz v * vz v = 1 -> vnorm v = 1.
Proof. intros H. unfold vnorm, vnorm2, vdot. rewrite H. apply sqrt_1. Qed.

Lemma inv_le_1 y : 1 <= y -> / y <= 1.
Proof. intros H. pose proof (Rinv_le_contravar 1 y ltac:(lra) H) as L. rewrite Rinv_1 in L. exact L. Qed.

Lemma mwithin_weak d e a b : mwithin d a b -> d <= e -> mwithin e a b.
Proof. unfold mwithin. intros H L. decompose [and] H. repeat split; eapply Rle_trans; eauto. Qed.
Lemma vwithin_weak d e a b : vwithin d a b -> d <= e -> vwithin e a b.
Proof. unfold vwithin. intros H L. decompose [and] H. repeat split; eapply Rle_trans; eauto. Qed.

Lemma exact_jac_Vinv x : / 1048576 <= vnorm x -> vnorm x <= PI -> exact_jac x = so3_Vinv x.
Proof.
  intros Hlo Hhi. pose proof PI_ge. assert (L : log_rot_jac x = Some (so3_Vinv x)).
  { apply log_rot_jac_Vinv; [now apply nonzero|lra]. }
  pose proof (q_bounds x Hlo Hhi). pose proof (D_pos x Hlo Hhi).
  unfold log_rot_jac in L. fold (vnorm x) in L. rewrite <- (vnorm_sq x) in L. unfold odiv in L.
  destruct (Req_EM_T (vnorm x) 0) as [K|_]; [lra|]. destruct (Req_EM_T (vnorm x * vnorm x) 0) as [K|_]; [lra|].
  destruct (Req_EM_T (1 - cos (vnorm x)) 0) as [K|_]; [lra|]. exact (f_equal (fun z => match z with Some a => a | None => i3 end) L).
Qed.

(** ** C52: the Jacobian of log *)

(** The rotation vector computed by log may itself be off, by at most e times its length:
    the entries of the Jacobian computed from it are within 2^-42 (1 + 1/|w|^2) + 2048 e of
    those of the exact Jacobian at the exact rotation vector w, which is the inverse of the
    Jacobian of exp.  (Missing: rotations by less than 2^-20, where the claim is false,
    c52_log_jacobian_refuted.) *)
Theorem c52_log_jacobian_away_partial M o phi w e :
  one_ulp M -> vfinite phi -> / 2 ^ 20 <= vnorm w <= PI -> 0 <= e <= / 100000 ->
  vwithin (e * vnorm w) (vval phi) w ->
  exists J, mul3 J (so3_V w) = i3 /\ log_rot_jac w = Some J /\
    mfinite (dlog_rot_jac M o phi) /\
    mwithin (/ 2 ^ 42 * (1 + / (vnorm w * vnorm w)) + 2048 * e) (mval (dlog_rot_jac M o phi)) J.
Proof.
  rewrite pow20, pow42. intros HM F [Hlo Hhi] He HW. pose proof PI_ge. exists (so3_Vinv w).
  split; [apply V_Vinv; [now apply nonzero|lra]|].
  split; [apply log_rot_jac_Vinv; [now apply nonzero|lra]|].
  rewrite <- exact_jac_Vinv by assumption.
  destruct (log_jac_close M o phi w e HM F He HW Hlo Hhi) as [G E]. split; [exact G|].
  eapply mwithin_weak; [exact E|]. destruct (h_range w e He Hlo Hhi) as (h1 & h2 & h3 & h4).
  pose proof (q_bounds w Hlo Hhi).
  assert (0 < / (vnorm w * vnorm w)) by (apply Rinv_0_lt_compat; lra).
  rewrite h4. unfold gauge, Rdiv. lra.
Qed.
Print Assumptions c52_log_jacobian_away_partial.

(** Not a small one-off: at a rotation by one radian all nine entries are within 2^-40. *)
Example c52_away_example o : let phi := mkDV f1 f0 f0 in
  exists J, log_rot_jac (vval phi) = Some J /\ mwithin (/ 2 ^ 40) (mval (dlog_rot_jac rounded_libm o phi)) J.
Proof.
  intros phi. destruct one_ok as [F1 V1]. 
  assert (EN : vnorm (vval phi) = 1).
  { unfold vval, phi; cbn [dx dy dz]. rewrite V1. change (val f0) with 0. apply unit_norm. cbn [vx vy vz]. ring. }
  destruct (c52_log_jacobian_away_partial rounded_libm o phi (vval phi) 0) as (J & _ & L & _ & W).
  - apply rounds_one_ulp, rounded_libm_ok.
  - unfold vfinite; cbn [dx dy dz]. repeat split; try exact F1; reflexivity.
  - rewrite EN, pow20. pose proof PI_ge. lra.
  - lra.
  - apply exact_within.
  - exists J. split; [exact L|]. eapply mwithin_weak; [exact W|]. rewrite EN, pow42.
    replace (/ (1 * 1)) with 1 by field. replace (2 ^ 40) with 1099511627776 by ring. lra.
Qed.

(** ** C51: the logarithm of a rigid transform *)

(** The rotation by w is stored with an error of at most d in each entry.  The rotation part
    of the computed logarithm is as accurate as C54 says; with e its relative error, each
    component of the translation part is within 4800 (e + 2^-53 + 2^-53/|w|^2) |t| of that
    of the exact logarithm u.  (Missing: rotations by less than 2^-20, where the claim is
    false just above the threshold, c51_rigid_log_refuted.) *)
Theorem c51_rigid_log_away_partial M o m t w u d :
  one_ulp M -> acos_ulp M -> mfinite m -> vfinite t ->
  / 2 ^ 20 <= vnorm w < PI -> 0 <= d -> mwithin d (mval m) (so3_exp w) ->
  app3 (so3_V w) u = vval t -> vnorm (vval t) <= 2 ^ 900 ->
  let C := 1 + cos (vnorm w) in let e := (20 * d + / 2 ^ 45) / (C * vnorm w) in
  e <= / 100000 ->
  let (w', u') := drt_log M o m t in
  vfinite w' /\ vfinite u' /\ vwithin (e * vnorm w) (vval w') w /\
  vwithin (4800 * (e + / 2 ^ 53 + / 2 ^ 53 / (vnorm w * vnorm w)) * (vnorm (vval t) + / 2 ^ 900)) (vval u') u.
Proof.
  rewrite pow20, pow53. intros HM HA Fm Ft [Hlo Hhi] Hd HW HU HT C e He.
  assert (N0 : 0 < vnorm w) by lra. pose proof PI_le. pose proof PI_ge.
  assert (C0 : 0 < C) by (apply cos_gt_m1; lra).
  assert (CN : 0 < C * vnorm w) by (apply Rmult_lt_0_compat; lra).
  assert (EE : e = (20 * d + 256 * / 9007199254740992) / (C * vnorm w)) by (unfold e; now rewrite pow45).
  clearbody e. subst e. set (e := (20 * d + 256 * / 9007199254740992) / (C * vnorm w)) in *.
  assert (NU : 0 < 20 * d + 256 * / 9007199254740992) by lra.
  assert (EN : e * vnorm w = (20 * d + 256 * / 9007199254740992) / C).
  { unfold e. field. split; lra. }
  assert (E0 : 0 <= e) by (left; apply Rdiv_lt_0_compat; lra).
  assert (EC : 20 * d + 256 * / 9007199254740992 = e * vnorm w * C) by (rewrite EN; field; lra).
  assert (ENB : e * vnorm w <= / 100000 * (63 / 20)) by (apply Rmult_le_compat; lra).
  assert (EB : e * vnorm w * C <= / 100000 * (63 / 20) * C) by (apply Rmult_le_compat_r; lra).
  destruct (c54_log_accurate M o m w d) as [Fl Wl]; auto.
  { rewrite pow50. fold C. lra. }
  fold C in Wl. rewrite pow45, <- EN in Wl.
  unfold drt_log. set (v := dlog_mat M o m) in *. cbv zeta.
  destruct (t2_appr o v w e Fl (conj E0 He) Wl Hlo ltac:(lra)) as [F2 E2].
  pose proof (q_bounds w Hlo ltac:(lra)) as QB. destruct (g_bounds e (conj E0 He)) as ((g0 & g1) & g2).
  assert (GQ : gauge e * (vnorm w * vnorm w) <= / 99999 * (vnorm w * vnorm w)) by (apply Rmult_le_compat_r; lra).
  destruct feps_ok as [Fe Ve].
  assert (BR : fgt (ddot o v v) feps = true).
  { apply fgt_ok; auto. rewrite Ve. apply abs_between in E2. lra. }
  rewrite BR. set (T := vnorm (vval t) + / 2 ^ 900).
  destruct (comp_le_norm (vval t)) as (T0 & T1 & T2). pose proof (vnorm_nonneg (vval t)) as TN.
  assert (P9 : 0 < / 2 ^ 900) by (apply Rinv_0_lt_compat, pow_lt; lra).
  assert (P9' : / 2 ^ 900 <= 1) by (apply inv_le_1, pow_R1_Rle; lra).
  assert (P91 : 1 <= 2 ^ 900) by (apply pow_R1_Rle; lra).
  assert (P92 : 2 ^ 900 * 2 ^ 100 = big) by (unfold big; rewrite <- pow_add; reflexivity).
  assert (P93 : 2 ^ 100 = 1267650600228229401496703205376) by ring.
  assert (P94 : 1000 * eta <= / 9007199254740992 * T).
  { unfold T. apply Rle_trans with (/ 9007199254740992 * / 2 ^ 900); [|apply Rmult_le_compat_l; lra].
    replace eta with (/ 2 ^ 175 * / 2 ^ 900).
    - rewrite <- Rmult_assoc. apply Rmult_le_compat_r; [lra|].
      replace (2 ^ 175) with 47890485652059026823698344598447161988085597568237568 by ring. lra.
    - unfold eta. rewrite <- Rinv_mult. f_equal. rewrite <- pow_add. reflexivity. }
  unfold vval in T0, T1, T2; cbn [vx vy vz] in T0, T1, T2. fold (vval t) in T0, T1, T2.
  destruct (Vinv_app_close M o v w e HM Fl (conj E0 He) Wl Hlo ltac:(lra) t T Ft) as [FV WV];
    try (unfold T; lra); auto.
  unfold dVinv in FV, WV.
  split; [exact Fl|]. split; [exact FV|]. split; [exact Wl|].
  replace (4800 * (e + / 9007199254740992 + / 9007199254740992 / (vnorm w * vnorm w)) * T) with (4800 * (scale w e * T)).
  2:{ unfold scale, gauge. ring. }
  replace u with (app3 (so3_Vinv w) (vval t)); [exact WV|].
  rewrite <- HU, <- app3_mul. destruct (V_Vinv w (nonzero w Hlo)) as (_ & ->); [lra|]. apply app3_i.
Qed.
Print Assumptions c51_rigid_log_away_partial.

(** A quarter turn about z, stored exactly, with translation y, meets the hypotheses. *)
Definition quarter : DM := mkDM (mkDV f0 (fopp f1) f0) (mkDV f1 f0 f0) (mkDV f0 f0 f1).
Example c51_away_example : let t := mkDV f0 f1 f0 in let w := mkV 0 0 (PI / 2) in
  let u := app3 (so3_Vinv w) (vval t) in
  one_ulp strict_libm /\ acos_ulp strict_libm /\ mfinite quarter /\ vfinite t /\
  / 2 ^ 20 <= vnorm w < PI /\ mwithin 0 (mval quarter) (so3_exp w) /\
  app3 (so3_V w) u = vval t /\ vnorm (vval t) <= 2 ^ 900 /\
  (20 * 0 + / 2 ^ 45) / ((1 + cos (vnorm w)) * vnorm w) <= / 100000.
Proof.
  intros t w u. destruct one_ok as [F1 V1]. destruct (fopp_ok f1 F1) as [F1' V1']. pose proof PI_ge. pose proof PI_le.
  assert (NW : vnorm w = PI / 2).
  { unfold vnorm, vnorm2, vdot, w; cbn [vx vy vz]. replace (0 * 0 + 0 * 0 + PI / 2 * (PI / 2)) with (PI / 2 * (PI / 2)) by ring.
    apply sqrt_square. lra. }
  assert (W0 : w <> v0) by (apply nonzero; rewrite NW; lra).
  split; [apply rounds_one_ulp, strict_libm_rounds|]. split; [exact strict_libm_acos|].
  split. { unfold mfinite, vfinite, quarter; cbn [r0 r1 r2 dx dy dz]. repeat split; assumption || reflexivity. }
  split. { unfold vfinite, t; cbn [dx dy dz]. repeat split; assumption || reflexivity. }
  split. { rewrite NW, pow20. lra. }
  split.
  { rewrite (so3_exp_nz w W0). rewrite <- (vnorm_sq w). unfold mwithin. rewrite NW, sin_PI2, cos_PI2.
    unfold rodrigues, w, mval, quarter; cbn [add3 scal3 mul3 skew i3 m00 m01 m02 m10 m11 m12 m20 m21 m22 vx vy vz r0 r1 r2 dx dy dz].
    rewrite V1', V1. change (val f0) with 0.
    repeat split; right; match goal with |- Rabs ?a = 0 => replace a with 0 by (field; lra) end; apply Rabs_R0. }
  split. { unfold u. rewrite <- app3_mul. destruct (V_Vinv w W0) as (E & _); [rewrite NW; lra|]. rewrite E. apply app3_i. }
  split. { rewrite unit_norm; [apply pow_R1_Rle; lra|]. unfold vval, t; cbn [dx dy dz vx vy vz]. rewrite V1. change (val f0) with 0. ring. }
  rewrite NW, cos_PI2, pow45. apply (Rmult_le_reg_r ((1 + 0) * (PI / 2))); [lra|].
  unfold Rdiv at 1. rewrite Rmult_assoc, Rinv_l by lra. lra.
Qed.

(** ** C53: the Jacobian of exp of a twist *)

(** The block of the Jacobian of exp of the twist (w,u) that mixes rotation and translation:
    each entry is within 2^-42 (1 + 1/|w|^2) |u| of the exact one.  (Missing: rotations by
    less than 2^-20, where the claim is false, c53_exp_jacobian_refuted, and by more than a
    half turn.) *)
Theorem c53_exp_jacobian_away_partial M o w u :
  one_ulp M -> vfinite w -> vfinite u -> / 2 ^ 20 <= vnorm (vval w) <= PI -> vnorm (vval u) <= 2 ^ 900 ->
  exists B, eade_B (vval w) (vval u) = Some B /\ mfinite (dexp_jac_block M o w u) /\
    mwithin (/ 2 ^ 42 * (1 + / (vnorm (vval w) * vnorm (vval w))) * (vnorm (vval u) + / 2 ^ 900))
      (mval (dexp_jac_block M o w u)) B.
Proof.
  rewrite pow20, pow42. intros HM Fw Fu [Hlo Hhi] HT. pose proof PI_ge.
  pose proof (q_bounds (vval w) Hlo Hhi) as QB.
  exists (exact_block w u). split.
  - unfold eade_B. fold (vnorm (vval w)). rewrite <- (vnorm_sq (vval w)). unfold odiv.
    destruct (Req_EM_T (vnorm (vval w)) 0) as [K|_]; [lra|].
    destruct (Req_EM_T (vnorm (vval w) * vnorm (vval w)) 0) as [K|_]; [lra|]. reflexivity.
  - set (T := vnorm (vval u) + / 2 ^ 900). pose proof (vnorm_nonneg (vval u)) as TN.
    assert (P9 : 0 < / 2 ^ 900) by (apply Rinv_0_lt_compat, pow_lt; lra).
    assert (P9' : / 2 ^ 900 <= 1) by (apply inv_le_1, pow_R1_Rle; lra).
    assert (P91 : 2 ^ 2 <= 2 ^ 900) by (apply Rle_pow; [lra|lia]).
    replace (2 ^ 2) with 4 in P91 by ring.
    assert (P92 : 2 ^ 900 * 2 ^ 100 = big) by (unfold big; rewrite <- pow_add; reflexivity).
    assert (P93 : 2 ^ 100 = 1267650600228229401496703205376) by ring. rewrite P93 in P92.
    assert (P94 : 1000000 * eta <= / 9007199254740992 * T * / 1048576).
    { unfold T. apply Rle_trans with (/ 9007199254740992 * / 2 ^ 900 * / 1048576);
        [|apply Rmult_le_compat_r; [lra|apply Rmult_le_compat_l; lra]].
      replace eta with (/ 2 ^ 175 * / 2 ^ 900).
      - replace (/ 9007199254740992 * / 2 ^ 900 * / 1048576) with (/ 9007199254740992 * / 1048576 * / 2 ^ 900) by ring.
        rewrite <- Rmult_assoc. apply Rmult_le_compat_r; [lra|].
        replace (2 ^ 175) with 47890485652059026823698344598447161988085597568237568 by ring. lra.
      - unfold eta. rewrite <- Rinv_mult. f_equal. rewrite <- pow_add. reflexivity. }
    destruct (block_close M o w HM Fw Hlo Hhi u T Fu) as [F W]; auto.
    { unfold T. lra. }
    { unfold T. lra. }
    split; [exact F|]. eapply mwithin_weak; [exact W|].
    assert (0 < / (vnorm (vval w) * vnorm (vval w))) by (apply Rinv_0_lt_compat; lra).
    assert (0 < T) by (unfold T; lra).
    unfold Rdiv. rewrite <- Rmult_assoc. apply Rmult_le_compat_r; lra.
Qed.
Print Assumptions c53_exp_jacobian_away_partial.

(** At a rotation by one radian about x and a translation along y the block is within 2^-40. *)
Example c53_away_example o : let w := mkDV f1 f0 f0 in let u := mkDV f0 f1 f0 in
  exists B, eade_B (vval w) (vval u) = Some B /\ mwithin (/ 2 ^ 40) (mval (dexp_jac_block rounded_libm o w u)) B.
Proof.
  intros w u. destruct one_ok as [F1 V1].
  assert (EN : vnorm (vval w) = 1).
  { unfold vval, w; cbn [dx dy dz]. rewrite V1. change (val f0) with 0. apply unit_norm. cbn [vx vy vz]. ring. }
  assert (EU : vnorm (vval u) = 1).
  { unfold vval, u; cbn [dx dy dz]. rewrite V1. change (val f0) with 0. apply unit_norm. cbn [vx vy vz]. ring. }
  assert (P9' : / 2 ^ 900 <= 1) by (apply inv_le_1, pow_R1_Rle; lra).
  destruct (c53_exp_jacobian_away_partial rounded_libm o w u) as (B & L & _ & W).
  - apply rounds_one_ulp, rounded_libm_ok.
  - unfold vfinite; cbn [dx dy dz]. repeat split; try exact F1; reflexivity.
  - unfold vfinite; cbn [dx dy dz]. repeat split; try exact F1; reflexivity.
  - rewrite EN, pow20. pose proof PI_ge. lra.
  - rewrite EU. apply pow_R1_Rle. lra.
  - exists B. split; [exact L|]. eapply mwithin_weak; [exact W|]. rewrite EN, EU, pow42.
    replace (/ (1 * 1)) with 1 by field. replace (2 ^ 40) with 1099511627776 by ring.
    apply Rle_trans with (2048 * / 9007199254740992 * (1 + 1) * 2); [|lra]. apply Rmult_le_compat_l; lra.
Qed.
