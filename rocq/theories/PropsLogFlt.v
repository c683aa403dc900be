(** C51: the logarithm of a rigid transform computed on doubles. *)

From Coq Require Import ZArith Reals Lra Lia Psatz List Bool.
From Flocq Require Import Core BinarySingleNaN.
From Verif Require Import V3 SpecLeaf ModelLeaf LeafProofs ModelFloat SpecFlt FloatProofs FloatDrift PropsLie
  PropsSmall FloatExp PropsExpFlt FloatNear PropsNear.
Import ListNotations.
Local Open Scope R_scope.

(** The angle 9 * 2^-29 (about 1.7e-8), the double nearest to its cosine, the matrix of
    doubles nearest to the rotation about x by the angle, and a unit displacement along y. *)
Definition th9 : double := lit 9 (-29).
Definition co9 : double := lit 9007199254740991 (-53).
Definition m9 : DM := mkDM (mkDV f1 f0 f0) (mkDV f0 co9 (fopp th9)) (mkDV f0 th9 co9).
Definition t9 : DV := mkDV f0 f1 f0.

Lemma th9_ok : finite th9 /\ val th9 = 9 / 536870912.
Proof.
  destruct (lit_ok 9 (-29)) as [F V]; [lia|lia|]. split; [exact F|]. unfold th9. rewrite V.
  rewrite (bpow_inv_pow 29 : bpow radix2 (-29) = _). replace (2 ^ 29) with 536870912 by ring. lra.
Qed.
Lemma co9_ok : finite co9 /\ val co9 = 1 - / 9007199254740992.
Proof.
  destruct (lit_ok 9007199254740991 (-53)) as [F V]; [lia|lia|]. split; [exact F|]. unfold co9. rewrite V.
  replace (bpow radix2 (-53)) with (/ 9007199254740992) by (rewrite <- u_val; symmetry; exact (bpow_inv_pow 53)). lra.
Qed.

Lemma cos9 : 1 - 127 / 100 * / 9007199254740992 < cos (val th9) < 1 - 126 / 100 * / 9007199254740992.
Proof.
  rewrite (proj2 th9_ok). destruct (cos_small_bounds (9 / 536870912)) as [L U]; [lra|]. lra.
Qed.
Lemma sin9 : val th9 - 8 / 10000000000000000000000000 < sin (val th9) < val th9.
Proof.
  rewrite (proj2 th9_ok). destruct (sin_small_bounds (9 / 536870912)) as [L U]; [lra|]. split; [|apply sin_lt_x]; lra.
Qed.

Lemma strict_fin (x : double) : finite x -> val x <> 0 -> is_finite_strict x = true.
Proof. destruct x; unfold finite, val; cbn; intros F H; try discriminate; auto. Qed.
Lemma double_eq x y : finite x -> finite y -> val x = val y -> val y <> 0 -> x = y.
Proof. intros Fx Fy E H. apply B2R_inj; [apply strict_fin; auto; now rewrite E|now apply strict_fin|exact E]. Qed.

Section Log.
  Variable M : libm.
  Hypothesis HM : rounds_correctly M.

  Lemma fsin9 : fsin M th9 = th9.
  Proof.
    destruct th9_ok as [F V]. destruct HM as (HS & _). destruct (HS th9 F) as [Fs Vs].
    apply double_eq; auto; [|rewrite V; lra]. rewrite Vs.
    pose proof sin9 as [L U]. apply nearest_below; [rewrite V; lra|lra|]. rewrite V in *. lra.
  Qed.
  Lemma fcos9 : fcos M th9 = co9.
  Proof.
    destruct th9_ok as [F V]. destruct co9_ok as [Fo Vo]. destruct HM as (_ & HC & _). destruct (HC th9 F) as [Fc Vc].
    apply double_eq; auto; [|rewrite Vo; lra]. rewrite Vc, Vo. apply nearest_pred_1. pose proof cos9. lra.
  Qed.
  Lemma facos9 : fgt (fmul (facos M f1) (facos M f1)) feps = false.
  Proof.
    destruct f1_val as [F1 V1]. destruct HM as (_ & _ & HA).
    destruct (HA f1 F1) as [Fa Va]; [rewrite V1, Rabs_R1; lra|]. rewrite V1, acos_1, nearest_0 in Va.
    destruct (z_mul_l (facos M f1) (facos M f1)) as [Fm Vm]; [split; assumption|exact Fa|].
    destruct feps_ok as [Fe Ve].
    destruct (fgt _ _) eqn:E; [|reflexivity]. apply fgt_ok in E; auto. rewrite Vm, Ve in E. lra.
  Qed.

  Lemma log9 o : dlog_mat M o m9 = mkDV th9 f0 f0.
  Proof.
    unfold dlog_mat. assert (E : fdiv (fsub (dtrace o m9) f1) f2 = f1).
    { apply B2SF_inj. destruct o; vm_compute; reflexivity. }
    rewrite E, facos9. unfold duncross. f_equal; apply B2SF_inj; vm_compute; reflexivity.
  Qed.

  Lemma rt_log9 o : let (w, u) := drt_log M o m9 t9 in w = mkDV th9 f0 f0 /\ dy u = lit 81 (-6).
  Proof.
    unfold drt_log. rewrite log9.
    assert (E2 : ddot o (mkDV th9 f0 f0) (mkDV th9 f0 f0) = lit 81 (-58)).
    { apply B2SF_inj. destruct o; vm_compute; reflexivity. }
    assert (E1 : fsqrt (lit 81 (-58)) = th9) by (apply B2SF_inj; vm_compute; reflexivity).
    rewrite E2, E1, fsin9, fcos9.
    replace (fgt (lit 81 (-58)) feps) with true by (vm_compute; reflexivity).
    split; [reflexivity|]. apply B2SF_inj. destruct o; vm_compute; reflexivity.
  Qed.
End Log.

(** The rotation about x by the angle [val th9]. *)
Definition rot9 : M3 := so3_exp (mkV (val th9) 0 0).

Lemma norm9 : vnorm (mkV (val th9) 0 0) = val th9.
Proof.
  unfold vnorm, vnorm2, vdot; cbn [vx vy vz].
  replace (val th9 * val th9 + 0 * 0 + 0 * 0) with (val th9 * val th9) by ring.
  apply sqrt_square. rewrite (proj2 th9_ok). lra.
Qed.

Lemma m9_rounds : mwithin (/ 2 ^ 53) (mval m9) rot9.
Proof.
  change (/ 2 ^ 53) with u. rewrite u_val. pose proof cos9 as C. pose proof sin9 as S.
  destruct th9_ok as [F V]. destruct co9_ok as [Fo Vo]. destruct f1_val as [F1 V1]. destruct (fopp_ok th9 F) as [_ Vm].
  assert (T0 : 0 < val th9) by (rewrite V; lra).
  unfold rot9, so3_exp. rewrite norm9. destruct (Req_EM_T (val th9) 0) as [K|_]; [lra|].
  unfold mval, m9; cbn [r0 r1 r2 dx dy dz]. rewrite Vm, V1, Vo. change (val f0) with 0.
  generalize dependent (val th9). intros t. intros. clear V Vm. clear - C S T0.
  assert (E : rodrigues (sin t / t) ((1 - cos t) / (t * t)) (mkV t 0 0) = mkM 1 0 0 0 (cos t) (- sin t) 0 (sin t) (cos t)).
  { unfold rodrigues. v3unf. f_equal; field; lra. }
  rewrite E. unfold mwithin. cbn [m00 m01 m02 m10 m11 m12 m20 m21 m22].
  repeat split; apply Rabs_le; lra.
Qed.

(** The exact logarithm. *)
Lemma exact9 : exists u, app3 (so3_V (mkV (val th9) 0 0)) u = mkV 0 1 0 /\ Rabs (vy u - 1) <= / 1000000.
Proof.
  destruct th9_ok as [F V].
  destruct (cA_bounds (val th9)) as [AL AU]; [rewrite V; lra|]. destruct (cB_bounds (val th9)) as [BL BU]; [rewrite V; lra|].
  assert (T0 : 0 < val th9 <= / 10000000) by (rewrite V; lra).
  unfold so3_V. rewrite norm9. destruct (Req_EM_T (val th9) 0) as [K|_]; [lra|].
  generalize dependent (val th9). intros t. intros. clear V.
  set (a := sin t / t) in *. set (b := (1 - cos t) / (t * t)) in *.
  assert (TT : 0 < t * t <= / 100000000000000) by nra.
  assert (BT : 0 <= b * t <= t) by nra.
  assert (D : 1 - / 10000000 <= a * a + b * t * (b * t) <= 1 + / 10000000) by nra.
  assert (D0 : a * a + b * t * (b * t) <> 0) by lra.
  exists (mkV 0 (a / (a * a + b * t * (b * t))) (- (b * t) / (a * a + b * t * (b * t)))).
  split.
  - unfold rodrigues. v3unf. f_equal; field; split; lra.
  - cbn [vy]. set (d := a * a + b * t * (b * t)) in *.
    replace (a / d - 1) with ((a - d) * / d) by (field; exact D0). rewrite Rabs_mult.
    assert (ID : 0 < / d <= 2).
    { split; [apply Rinv_0_lt_compat; lra|]. rewrite <- (Rinv_inv 2). apply Rinv_le_contravar; lra. }
    rewrite (Rabs_pos_eq (/ d)) by lra.
    apply Rle_trans with (/ 2000000 * 2); [|lra]. apply Rmult_le_compat; try apply Rabs_pos; try lra. apply Rabs_le. lra.
Qed.

(** A rigid transform whose every entry is the double nearest to that of an exact rigid
    transform (the entries of the rotation within 2^-53, the translation exactly), and the
    exact logarithm (w,u): the computed rotation part is exact but a component of the
    computed translation part is off by more than a quarter, whichever way sums are
    evaluated, with correctly rounded sin, cos and acos. *)
Theorem c51_rigid_log_refuted :
  exists m t R w u, mfinite m /\ vfinite t /\ is_rot R /\ mwithin (/ 2 ^ 53) (mval m) R /\
    vnorm w < PI /\ so3_exp w = R /\ app3 (so3_V w) u = vval t /\
    forall M o, rounds_correctly M -> let (w', u') := drt_log M o m t in
      vval w' = w /\ finite (dy u') /\ 1 / 4 < val (dy u') - vy u /\ vy u < 101 / 100.
Proof.
  destruct exact9 as (uu & EU & BU).
  destruct th9_ok as [F V]. destruct co9_ok as [Fo Vo]. destruct f1_val as [F1 V1]. destruct (fopp_ok th9 F) as [Fm Vm].
  exists m9, t9, rot9, (mkV (val th9) 0 0), uu.
  split; [|split; [|split; [|split; [|split; [|split; [|split]]]]]].
  - unfold mfinite, vfinite, m9; cbn [r0 r1 r2 dx dy dz]. repeat split; assumption.
  - unfold vfinite, t9; cbn [dx dy dz]. repeat split; assumption.
  - unfold rot9. apply so3_exp_is_rot.
  - exact m9_rounds.
  - rewrite norm9, V. pose proof PI2_3_2. unfold PI2 in *. lra.
  - reflexivity.
  - rewrite EU. unfold vval, t9; cbn [dx dy dz]. rewrite V1. reflexivity.
  - intros M o HM. pose proof (rt_log9 M HM o) as L. destruct (drt_log M o m9 t9) as [w' u']. destruct L as [-> E].
    split; [reflexivity|]. rewrite E. destruct (lit_ok 81 (-6)) as [FL VL]; [lia|lia|].
    rewrite (bpow_inv_pow 6 : bpow radix2 (-6) = _) in VL. replace (2 ^ 6) with 64 in VL by ring. rewrite VL.
    apply Rabs_le_inv in BU. split; [exact FL|]. lra.
Qed.
Print Assumptions c51_rigid_log_refuted.

Example c51_example : rounds_correctly rounded_libm.
Proof. exact rounded_libm_ok. Qed.
