(** C55: the logarithm of a rotation close to a half turn, computed on doubles. *)

From Coq Require Import ZArith Reals Lra Lia Psatz List Bool Machin Ratan.
From Flocq Require Import Core BinarySingleNaN.
From Verif Require Import V3 SpecLeaf ModelLeaf LeafProofs ModelFloat SpecFlt FloatProofs FloatDrift
  PropsLie PropsSmall FloatExp PropsExpFlt FloatNear PropsNear PropsLogFlt FloatLog FloatLog2 SpecFltLog PropsLogAcc.
Import ListNotations.
Local Open Scope R_scope.

(** Bounds of pi. *)
Lemma pi_bounds : 31415926535897932 / 10000000000000000 < PI < 31415926535897933 / 10000000000000000.
Proof.
  destruct (PI_2_3_7_ineq 8) as [L U].
  assert (T : forall n m k, m = IZR k -> (2 * Z.of_nat n + 1 = k)%Z -> INR (2 * n + 1) = m).
  { intros n m k -> E. rewrite INR_IZR_INZ. f_equal. lia. }
  unfold tg_alt, PI_2_3_7_tg, Ratan_seq in L, U.
  change (S (2 * 8)) with 17%nat in L. change (2 * 8)%nat with 16%nat in U.
  cbn [sum_f_R0] in L, U.
  repeat match type of L with context [INR (2 * ?n + 1)] =>
    let z := eval vm_compute in (2 * Z.of_nat n + 1)%Z in
    rewrite (T n (IZR z) z eq_refl eq_refl) in L; try rewrite (T n (IZR z) z eq_refl eq_refl) in U end.
  repeat match type of L with context [(2 * ?n + 1)%nat] =>
    let z := eval vm_compute in (2 * n + 1)%nat in change (2 * n + 1)%nat with z in L; change (2 * n + 1)%nat with z in U end.
  split; lra.
Qed.

(** The double nearest to pi. *)
Definition pi_d : double := lit 7074237752028440 (-51).
Lemma pow51 : bpow radix2 (-51) = / 2251799813685248.
Proof. rewrite (bpow_inv_pow 51 : bpow radix2 (-51) = _). replace (2 ^ 51) with 2251799813685248 by ring. reflexivity. Qed.
Lemma pi_d_ok : finite pi_d /\ val pi_d = 7074237752028440 / 2251799813685248.
Proof.
  destruct (lit_ok 7074237752028440 (-51)) as [F V]; [lia|lia|]. split; [exact F|]. unfold pi_d. rewrite V, pow51. lra.
Qed.
Lemma pi_d_near : 8 / 100000000000000000 < PI - val pi_d < 19 / 100000000000000000.
Proof. pose proof pi_bounds. rewrite (proj2 pi_d_ok). lra. Qed.

Lemma nearest_pi : nearest PI = val pi_d.
Proof.
  pose proof pi_d_near as D. destruct pi_d_ok as [F V].
  assert (FM : generic_format radix2 (FLT_exp (-1074) 53) (val pi_d)) by apply format_val.
  assert (S : succ radix2 (FLT_exp (-1074) 53) (val pi_d) = val pi_d + / 2251799813685248).
  { rewrite succ_eq_pos by (rewrite V; lra). f_equal. rewrite ulp_neq_0 by (rewrite V; lra).
    unfold cexp. replace (mag radix2 (val pi_d) : Z) with 2%Z; [exact pow51|].
    symmetry. apply mag_unique. rewrite V, Rabs_pos_eq by lra. change (bpow radix2 (2 - 1)) with 2. change (bpow radix2 2) with 4. lra. }
  apply Rle_antisym.
  - unfold nearest. apply round_N_le_midp; [typeclasses eauto|exact FM|]. rewrite S. lra.
  - rewrite <- (nearest_val pi_d) at 1. apply nearest_le. lra.
Qed.

(** The matrix of doubles nearest to the rotation about z by pi - 2^-30. *)
Definition gap : double := lit 1 (-30).
Definition fm1 : double := fopp f1.
Definition m30 : DM := mkDM (mkDV fm1 (fopp gap) f0) (mkDV gap fm1 f0) (mkDV f0 f0 f1).
Definition v30 : V3 := mkV 0 0 (PI - / 2 ^ 30).

Lemma p30 : / 2 ^ 30 = / 1073741824. Proof. f_equal. ring. Qed.
Lemma gap_ok : finite gap /\ val gap = / 1073741824.
Proof.
  destruct (lit_ok 1 (-30)) as [F V]; [lia|lia|]. split; [exact F|]. unfold gap. rewrite V.
  rewrite (bpow_inv_pow 30 : bpow radix2 (-30) = _), p30. lra.
Qed.
Lemma fm1_ok : finite fm1 /\ val fm1 = -1.
Proof. destruct f1_val as [F V]. destruct (fopp_ok f1 F) as [G W]. split; [exact G|]. unfold fm1. rewrite W, V. lra. Qed.

Lemma norm30 : vnorm v30 = PI - / 1073741824.
Proof.
  pose proof PI_ge. unfold vnorm, vnorm2, vdot, v30; cbn [vx vy vz]. rewrite p30.
  replace (0 * 0 + 0 * 0 + (PI - / 1073741824) * (PI - / 1073741824)) with ((PI - / 1073741824) * (PI - / 1073741824)) by ring.
  apply sqrt_square. lra.
Qed.

Lemma m30_rounds : mwithin (/ 2 ^ 53) (mval m30) (so3_exp v30).
Proof.
  pose proof PI_ge as P. destruct gap_ok as [Fg Vg]. destruct fm1_ok as [Fm Vm]. destruct f1_val as [F1 V1].
  destruct (fopp_ok gap Fg) as [_ Vo].
  pose proof (cos_small_bounds (/ 1073741824) ltac:(lra)) as [CL CU]. pose proof (sin_small_bounds (/ 1073741824) ltac:(lra)) as [SL SU].
  unfold so3_exp. rewrite norm30. destruct (Req_EM_T _ 0) as [K|_]; [lra|].
  rewrite Rtrigo_facts.cos_pi_minus, Rtrigo_facts.sin_pi_minus.
  unfold v30. rewrite p30. set (t := PI - / 1073741824) in *. assert (T : t <> 0) by (unfold t; lra).
  set (c := cos (/ 1073741824)) in *. set (s := sin (/ 1073741824)) in *.
  assert (E : rodrigues (s / t) ((1 - - c) / (t * t)) (mkV 0 0 t) = mkM (- c) (- s) 0 s (- c) 0 0 0 1).
  { unfold rodrigues. v3unf. f_equal; field; exact T. }
  rewrite E. unfold mval, m30; cbn [r0 r1 r2 dx dy dz]. rewrite Vo, Vg, Vm, V1. change (val f0) with 0.
  replace (2 ^ 53) with 9007199254740992 by ring.
  unfold mwithin. cbn [m00 m01 m02 m10 m11 m12 m20 m21 m22].
  repeat split; apply Rabs_le; lra.
Qed.

Lemma m30_log M o : rounds_correctly M ->
  finite (dz (dlog_mat M o m30)) /\ 10000000 < val (dz (dlog_mat M o m30)).
Proof.
  intros (HS & HC & HA). unfold dlog_mat.
  assert (E : fdiv (fsub (dtrace o m30) f1) f2 = fm1).
  { apply B2SF_inj. destruct o; vm_compute; reflexivity. }
  rewrite E. destruct fm1_ok as [Fm Vm]. destruct pi_d_ok as [Fp Vp]. pose proof pi_d_near as PN. pose proof PI_le as PL. pose proof PI_ge as PG.
  destruct (HA fm1 Fm) as [Fa Va]; [rewrite Vm; apply Rabs_le; lra|].
  rewrite Vm in Va. replace (acos (-1)) with PI in Va by (replace (-1) with (- (1)) by ring; rewrite acos_opp, acos_1; ring).
  rewrite nearest_pi in Va.
  rewrite (double_eq _ _ Fa Fp Va) by (rewrite Vp; lra).
  replace (fgt (fmul pi_d pi_d) feps) with true by (vm_compute; reflexivity).
  unfold duncross, dmapm, dmapv, dmapm2, dmapv2; cbn [r0 r1 r2 dx dy dz].
  assert (D : fsub gap (fopp gap) = lit 1 (-29)) by (apply B2SF_inj; vm_compute; reflexivity).
  unfold m30, dtr, dcol0, dcol1; cbn [r0 r1 r2 dx dy dz]. rewrite D.
  destruct (lit_ok 1 (-29)) as [Fd Vd]; [lia|lia|].
  rewrite (bpow_inv_pow 29 : bpow radix2 (-29) = _) in Vd. replace (2 ^ 29) with 536870912 in Vd by ring.
  set (g := lit 1 (-29)) in *. pose proof eta_le as He. pose proof big_ge as HB.
  (* the sine *)
  destruct (HS pi_d Fp) as [Fs Vs]. set (s := fsin M pi_d) in *.
  assert (Sb : 7 / 100000000000000000 < sin (val pi_d) < 19 / 100000000000000000).
  { rewrite <- Rtrigo_facts.sin_pi_minus. set (x := PI - val pi_d) in *.
    pose proof (sin_lt_x x ltac:(lra)). pose proof (sin_lower x ltac:(lra)) as SL.
    assert (x * (x * x) <= x * (1 / 100)) by (apply Rmult_le_compat_l; [lra|nra]). split; lra. }
  pose proof (nerr (sin (val pi_d))) as N1. rewrite <- Vs in N1. rewrite (Rabs_pos_eq (sin _)) in N1 by lra. apply abs_between in N1.
  destruct f2_ok as [F2 V2].
  destruct (fmul_ok f2 s F2 Fs) as [F3 V3]; [rewrite V2, Rabs_pos_eq; lra|]. rewrite V2 in V3.
  pose proof (nerr (2 * val s)) as N2. rewrite <- V3 in N2. rewrite (Rabs_pos_eq (2 * val s)) in N2 by lra. apply abs_between in N2.
  set (y := fmul f2 s) in *.
  assert (Y : 13 / 100000000000000000 < val y < 40 / 100000000000000000) by lra.
  assert (IY : 25 / 10 * 1000000000000000 < / val y < 77 / 10 * 1000000000000000).
  { split; apply (Rmult_lt_reg_r (val y)); try lra; rewrite Rinv_l by lra; lra. }
  assert (PI3 : 3 < val pi_d < 4) by (rewrite Vp; lra).
  assert (Q : 7 * 1000000000000000 < val pi_d / val y < 31 * 1000000000000000) by (unfold Rdiv; split; nra).
  pose proof big_1 as HB1. assert (BB : 31 * 1000000000000000 <= big).
  { eapply Rle_trans; [|exact HB1]. apply Rle_trans with (2 ^ 60); [|apply Rle_pow; [lra|lia]].
    replace (2 ^ 60) with 1152921504606846976 by ring. lra. }
  destruct (fdiv_ok pi_d y Fp) as [F4 V4]; [lra|rewrite Rabs_pos_eq by lra; lra|].
  pose proof (nerr (val pi_d / val y)) as N3. rewrite <- V4 in N3. rewrite (Rabs_pos_eq (val pi_d / val y)) in N3 by lra. apply abs_between in N3.
  set (k := fdiv pi_d y) in *.
  destruct (fmul_ok k g F4 Fd) as [F5 V5]; [rewrite Vd, Rabs_pos_eq by lra; lra|]. rewrite Vd in V5.
  split; [exact F5|].
  pose proof (nerr (val k * (1 * / 536870912))) as N4. rewrite <- V5 in N4. rewrite (Rabs_pos_eq (_ * _)) in N4 by lra. apply abs_between in N4.
  lra.
Qed.

(** A rotation about z by almost a half turn, every entry of which is stored as the nearest
    double: its logarithm is (0, 0, pi - 2^-30), but the third component of the computed one
    exceeds ten million, whichever way the trace is summed, with correctly rounded sin, cos
    and acos. *)
Theorem c55_half_turn_refuted : exists A v, mfinite A /\ vnorm v < PI /\ mwithin (/ 2 ^ 53) (mval A) (so3_exp v) /\
  forall M o, rounds_correctly M ->
    finite (dz (dlog_mat M o A)) /\ val (dz (dlog_mat M o A)) > 10000000 /\ vz v < 4.
Proof.
  destruct gap_ok as [Fg Vg]. destruct fm1_ok as [Fm Vm]. destruct f1_val as [F1 V1]. destruct (fopp_ok gap Fg) as [Fo _].
  assert (F0 : finite f0) by reflexivity. pose proof PI_le.
  exists m30, v30. split; [repeat split; assumption|]. split; [rewrite norm30; lra|]. split; [exact m30_rounds|].
  intros M o HM. destruct (m30_log M o HM) as [F G]. split; [exact F|]. split; [exact G|].
  unfold v30; cbn [vz]. rewrite p30. lra.
Qed.
Print Assumptions c55_half_turn_refuted.

Example c55_example : rounds_correctly strict_libm.
Proof. exact strict_libm_rounds. Qed.
