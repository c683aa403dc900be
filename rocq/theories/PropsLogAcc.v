(** C54: the logarithm of a rotation matrix computed on doubles. *)

From Coq Require Import ZArith Reals Lra Lia Psatz List Bool.
From Flocq Require Import Core BinarySingleNaN.
From Verif Require Import V3 SpecLeaf ModelLeaf LeafProofs ModelFloat ModelFloatQ SpecFlt SpecFltQ SpecFltLog
  FloatProofs FloatDrift FloatQuat PropsDrift FloatExp PropsExpFlt PropsQuatFlt FloatLog FloatLog2.
Import ListNotations.
Local Open Scope R_scope.

Lemma pow50 : / 2 ^ 50 = 8 * / 9007199254740992.
Proof. replace (2 ^ 50) with 1125899906842624 by ring. lra. Qed.
Lemma pow45 : / 2 ^ 45 = 256 * / 9007199254740992.
Proof. replace (2 ^ 45) with 35184372088832 by ring. lra. Qed.

(** The rotation by v, of an angle |v| below a half turn, is stored with an error of at most
    d in each entry.  If d + 2^-50 is at most 1/64 of 1 + cos |v|, then the computed
    logarithm is finite and within (20 d + 2^-45) / (1 + cos |v|) of v: whichever way the
    trace is summed, with sin and acos off by at most one unit in the last place. *)
Theorem c54_log_accurate M o A v d : one_ulp M -> acos_ulp M ->
  mfinite A -> vnorm v < PI -> 0 <= d -> mwithin d (mval A) (so3_exp v) ->
  d + / 2 ^ 50 <= (1 + cos (vnorm v)) / 64 ->
  vfinite (dlog_mat M o A) /\
  vwithin ((20 * d + / 2 ^ 45) / (1 + cos (vnorm v))) (vval (dlog_mat M o A)) v.
Proof.
  intros HM HA FA Hv Hd HW Hc. rewrite pow50 in Hc. rewrite pow45. now apply log_close.
Qed.
Print Assumptions c54_log_accurate.

(** log(exp(v)) on doubles: the exponential is a quaternion, converted to a matrix. *)
Theorem c54_log_exp M o v : one_ulp M -> acos_ulp M -> vfinite v -> vnorm (vval v) < PI ->
  / 2 ^ 32 <= 1 + cos (vnorm (vval v)) ->
  let back := dlog_mat M o (dqrot o (mkDQ (fst (dexp_quat M o v)) (snd (dexp_quat M o v)))) in
  vfinite back /\ vwithin (/ 2 ^ 35 / (1 + cos (vnorm (vval v)))) (vval back) (vval v).
Proof.
  intros HM HA Fv HN HC back. pose proof PI_le as HP. pose proof (vnorm_nonneg (vval v)) as N0.
  assert (HL : vnorm (vval v) <= 2 ^ 401).
  { apply Rle_trans with (2 ^ 2); [cbn; lra|]. apply Rle_pow; [lra|lia]. }
  pose proof (c50_exp_unit M o v HM Fv HL) as U. pose proof (c50_exp_accurate M o v HM Fv HL) as E.
  unfold back. destruct (dexp_quat M o v) as [w q]. cbn [fst snd].
  destruct U as (Fw & Fq & _). destruct E as (r & Ur & Er & E0 & E1 & E2 & E3).
  set (e := / 2 ^ 43 + / 2 ^ 49 * vnorm (vval v)) in *.
  assert (He : 0 <= e <= 17 * (/ 2 ^ 47)).
  { unfold e. replace (2 ^ 43) with 8796093022208 by ring. replace (2 ^ 49) with 562949953421312 by ring.
    replace (2 ^ 47) with 140737488355328 by ring. lra. }
  destruct (c49_quaternion_matrix o (17 * / 2 ^ 47) (mkDQ w q) r) as [FA WA]; auto.
  { replace (2 ^ 47) with 140737488355328 by ring. lra. }
  { split; assumption. }
  { unfold qwithin, qval; cbn [dw dv qw qx qy qz]. repeat split; eapply Rle_trans; eauto; lra. }
  rewrite Er in WA.
  destruct (c54_log_accurate M o _ (vval v) (9 * (17 * / 2 ^ 47) + / 2 ^ 47) HM HA FA HN) as [F W].
  { replace (2 ^ 47) with 140737488355328 by ring. lra. }
  { exact WA. }
  { revert HC. replace (2 ^ 47) with 140737488355328 by ring. replace (2 ^ 32) with 4294967296 by ring.
    replace (2 ^ 50) with 1125899906842624 by ring. lra. }
  split; [exact F|]. assert (C : 0 < 1 + cos (vnorm (vval v))).
  { eapply Rlt_le_trans; [|exact HC]. apply Rinv_0_lt_compat, pow_lt. lra. }
  assert (K : (20 * (9 * (17 * / 2 ^ 47) + / 2 ^ 47) + / 2 ^ 45) / (1 + cos (vnorm (vval v))) <= / 2 ^ 35 / (1 + cos (vnorm (vval v)))).
  { apply Rmult_le_compat_r; [left; now apply Rinv_0_lt_compat|].
    replace (2 ^ 47) with 140737488355328 by ring. replace (2 ^ 45) with 35184372088832 by ring.
    replace (2 ^ 35) with 34359738368 by ring. lra. }
  destruct W as (W0 & W1 & W2). repeat split; eapply Rle_trans; eauto.
Qed.
Print Assumptions c54_log_exp.

(** The logarithm of a chain of rotations, each stored with an error of at most d. *)
Theorem c54_log_chain M o d A R As Rs v : one_ulp M -> acos_ulp M -> 0 <= d <= / 1000 ->
  Forall2 (fun A R => mfinite A /\ is_rot R /\ mwithin d (mval A) R) (A :: As) (R :: Rs) ->
  vnorm v < PI -> so3_exp v = mproduct R Rs ->
  let n := INR (length (A :: As)) in let C := 1 + cos (vnorm v) in
  n * (6 * d + / 2 ^ 48) + / 2 ^ 50 <= C / 64 ->
  vfinite (dlog_mat M o (dprod o A As)) /\
  vwithin ((20 * (n * (6 * d + / 2 ^ 48)) + / 2 ^ 45) / C) (vval (dlog_mat M o (dprod o A As))) v.
Proof.
  intros HM HA Hd HF Hv E n C Hn. pose proof (COS_bound (vnorm v)) as CB.
  assert (E0 : 0 < / 2 ^ 48) by (apply Rinv_0_lt_compat, pow_lt; lra).
  assert (E1 : 0 < / 2 ^ 50) by (apply Rinv_0_lt_compat, pow_lt; lra).
  assert (N0 : 0 <= n) by apply pos_INR.
  destruct (c49_product_drift o d A R As Rs Hd HF) as [F W].
  { fold n. unfold C in Hn. lra. }
  fold n in W. rewrite <- E in W. apply c54_log_accurate; auto.
  apply Rmult_le_pos; lra.
Qed.
Print Assumptions c54_log_chain.

(** The boxminus of two rotation matrices, log(a * b^-1), stored with errors of at most d. *)
Theorem c54_box_minus M o d A B R S v : one_ulp M -> acos_ulp M -> 0 <= d <= / 1000 ->
  mfinite A -> is_rot R -> mwithin d (mval A) R -> mfinite B -> is_rot S -> mwithin d (mval B) S ->
  vnorm v < PI -> mul3 (so3_exp v) S = R ->
  let C := 1 + cos (vnorm v) in 12 * d + / 2 ^ 46 <= C / 64 ->
  vfinite (dlog_mat M o (dmul o A (dtr B))) /\
  vwithin ((240 * d + / 2 ^ 41) / C) (vval (dlog_mat M o (dmul o A (dtr B)))) v.
Proof.
  intros HM HA Hd FA HR WA FB HS WB Hv E C HC. pose proof (COS_bound (vnorm v)) as CB.
  assert (FT : mfinite (dtr B)).
  { destruct FB as ((f00 & f01 & f02) & (f10 & f11 & f12) & (f20 & f21 & f22)). repeat split; assumption. }
  assert (WT : mwithin d (mval (dtr B)) (tr3 S)).
  { destruct WB as (w00 & w01 & w02 & w10 & w11 & w12 & w20 & w21 & w22). repeat split; assumption. }
  destruct (c54_log_chain M o d A R [dtr B] [tr3 S] v) as [F W]; auto.
  - constructor; [auto|constructor; [|constructor]]. split; [exact FT|]. split; [now apply is_rot_tr|exact WT].
  - cbn. rewrite <- E. rewrite mul3_assoc. destruct (is_rot_tr S HS) as [T _]. replace (tr3 (tr3 S)) with S in T by (destruct S; reflexivity).
    rewrite T. now rewrite mul3_i_r.
  - change (INR (length [A; dtr B])) with (1 + 1). fold C.
    revert HC. replace (2 ^ 48) with 281474976710656 by ring. replace (2 ^ 46) with 70368744177664 by ring.
    replace (2 ^ 50) with 1125899906842624 by ring. lra.
  - change (INR (length [A; dtr B])) with (1 + 1) in W. fold C in W.
    change (dprod o A [dtr B]) with (dmul o A (dtr B)) in *. split; [exact F|].
    assert (CP : 0 < C) by (apply cos_gt_m1; split; [apply vnorm_nonneg|exact Hv]).
    assert (K : (20 * ((1 + 1) * (6 * d + / 2 ^ 48)) + / 2 ^ 45) / C <= (240 * d + / 2 ^ 41) / C).
    { apply Rmult_le_compat_r; [left; now apply Rinv_0_lt_compat|].
      replace (2 ^ 48) with 281474976710656 by ring. replace (2 ^ 45) with 35184372088832 by ring.
      replace (2 ^ 41) with 2199023255552 by ring. lra. }
    destruct W as (W0 & W1 & W2). repeat split; eapply Rle_trans; eauto.
Qed.
Print Assumptions c54_box_minus.

(** ** The hypotheses can be met *)

(** Correctly rounded sin, cos and acos, with NaN outside [-1, 1]. *)
Definition strict_libm : libm :=
  Libm (fsin rounded_libm) (fcos rounded_libm)
       (fun x => if Rle_dec (Rabs (val x)) 1 then facos rounded_libm x else B754_nan).
Lemma strict_libm_rounds : rounds_correctly strict_libm.
Proof.
  destruct rounded_libm_ok as (S & C & A). split; [exact S|]. split; [exact C|].
  intros x Fx Hx. cbn [facos strict_libm]. destruct (Rle_dec _ _) as [_|K]; [now apply A|contradiction].
Qed.
Lemma strict_libm_acos : acos_ulp strict_libm.
Proof.
  destruct ulp_num as [U1 U2]. pose proof eta_pos. split.
  - intros x Fx Hx. rewrite U1, U2. destruct strict_libm_rounds as (_ & _ & A). destruct (A x Fx Hx) as [F ->].
    split; [exact F|]. pose proof (nerr (acos (val x))) as N. pose proof (acos_bound (val x)) as [B _].
    rewrite (Rabs_pos_eq (acos _)) in N by exact B. lra.
  - intros x Fx Hx. cbn [facos strict_libm]. destruct (Rle_dec _ _) as [K|_]; [lra|reflexivity].
Qed.

(** The rotation about x of cosine 3/5 and sine 4/5, stored correctly rounded. *)
Definition tilt_v : V3 := mkV (acos (3 / 5)) 0 0.
Lemma tilt_v_norm : vnorm tilt_v = acos (3 / 5).
Proof.
  unfold vnorm, vnorm2, vdot, tilt_v; cbn [vx vy vz].
  replace (acos (3 / 5) * acos (3 / 5) + 0 * 0 + 0 * 0) with (acos (3 / 5) * acos (3 / 5)) by ring.
  apply sqrt_square. apply acos_bound.
Qed.
Lemma cos35 : cos (acos (3 / 5)) = 3 / 5. Proof. apply cos_acos. lra. Qed.
Lemma sin35 : sin (acos (3 / 5)) = 4 / 5.
Proof.
  rewrite sin_acos by lra. replace (1 - (3 / 5)²) with ((4 / 5) * (4 / 5)) by (unfold Rsqr; field).
  apply sqrt_square. lra.
Qed.
Lemma tilt_exp : so3_exp tilt_v = tilt.
Proof.
  pose proof cos35 as C. pose proof sin35 as S.
  unfold so3_exp. rewrite tilt_v_norm. destruct (Req_EM_T _ 0) as [K|K].
  - rewrite K, sin_0 in S. lra.
  - unfold tilt_v. generalize dependent (acos (3 / 5)). intros t. intros. rewrite C, S.
    unfold rodrigues, tilt. v3unf. f_equal; field; exact K.
Qed.

Example c54_example : one_ulp strict_libm /\ acos_ulp strict_libm /\
  mfinite tilt_d /\ vnorm tilt_v < PI /\ mwithin (/ 2 ^ 53) (mval tilt_d) (so3_exp tilt_v) /\
  / 2 ^ 53 + / 2 ^ 50 <= (1 + cos (vnorm tilt_v)) / 64 /\
  (20 * / 2 ^ 53 + / 2 ^ 45) / (1 + cos (vnorm tilt_v)) <= / 2 ^ 45.
Proof.
  destruct tilt_ok as (F & _ & W). rewrite tilt_v_norm, tilt_exp, cos35.
  split; [apply rounds_one_ulp, strict_libm_rounds|]. split; [apply strict_libm_acos|]. split; [exact F|].
  split; [apply acos_bound_lt; lra|]. split; [exact W|].
  replace (2 ^ 53) with 9007199254740992 by ring. replace (2 ^ 50) with 1125899906842624 by ring.
  replace (2 ^ 45) with 35184372088832 by ring. split; lra.
Qed.

(** log(exp(1, 2, 1/2)) *)
Example c54_log_exp_example : vfinite (mkDV f1 f2 fhalf) /\ vnorm (vval (mkDV f1 f2 fhalf)) < PI /\
  / 2 ^ 32 <= 1 + cos (vnorm (vval (mkDV f1 f2 fhalf))).
Proof.
  destruct (lit_small 1 1) as [F1 V1]; [lia|lra|]. fold f1 in F1, V1. destruct f2_ok as [F2 V2]. destruct fhalf_ok as [Fh Vh].
  split; [exact (conj F1 (conj F2 Fh))|]. unfold vval; cbn [dx dy dz]. rewrite V1, V2, Vh.
  assert (N : vnorm (mkV 1 2 (1 / 2)) <= 5 / 2) by (apply norm_le_sq; [lra|]; unfold vnorm2, vdot; cbn; lra).
  pose proof PI_ge as P. split; [lra|]. pose proof (vnorm_nonneg (mkV 1 2 (1 / 2))) as N0.
  set (n := vnorm _) in *. pose proof (cos_upper (PI - n)) as L. rewrite Rtrigo_facts.cos_pi_minus in L.
  assert ((PI - n) * (PI - n) <= 6 * (1 - - cos n)) by (apply L; lra).
  assert (/ 2 * / 2 <= (PI - n) * (PI - n)) by (apply Rmult_le_compat; lra).
  replace (2 ^ 32) with 4294967296 by ring. lra.
Qed.

(** The tilt above followed by a thousand quarter turns, which lead back to it. *)
Lemma quarter_four : mul3 (mul3 (mul3 quarter quarter) quarter) quarter = i3.
Proof. unfold quarter. v3unf. f_equal; ring. Qed.
Lemma quarters k : forall m, mproduct m (repeat quarter (4 * k)) = m.
Proof.
  unfold mproduct. induction k as [|k IH]; intros m; [reflexivity|].
  replace (4 * S k)%nat with (S (S (S (S (4 * k))))) by lia. cbn [repeat fold_left].
  rewrite IH, !mul3_assoc, <- (mul3_assoc quarter quarter (mul3 quarter quarter)).
  rewrite <- (mul3_assoc (mul3 quarter quarter)), quarter_four. apply mul3_i_r.
Qed.

Example c54_log_chain_example : exists As Rs, length As = 1000%nat /\
  Forall2 (fun A R => mfinite A /\ is_rot R /\ mwithin (/ 2 ^ 53) (mval A) R) (tilt_d :: As) (tilt :: Rs) /\
  so3_exp tilt_v = mproduct tilt Rs /\
  INR (length (tilt_d :: As)) * (6 * / 2 ^ 53 + / 2 ^ 48) + / 2 ^ 50 <= (1 + cos (vnorm tilt_v)) / 64.
Proof.
  exists (repeat quarter_d 1000), (repeat quarter 1000).
  assert (L : length (repeat quarter_d 1000) = 1000%nat) by apply repeat_length.
  split; [exact L|]. split; [|split].
  - constructor; [exact tilt_ok|]. clear L. generalize 1000%nat. induction n; cbn; constructor; auto. exact quarter_ok.
  - rewrite tilt_exp. symmetry. replace 1000%nat with (4 * 250)%nat by reflexivity. apply quarters.
  - rewrite tilt_v_norm, cos35. change (length (tilt_d :: repeat quarter_d 1000)) with (S (length (repeat quarter_d 1000))).
    rewrite L. replace (INR 1001) with 1001 by (rewrite INR_IZR_INZ; reflexivity).
    replace (2 ^ 53) with 9007199254740992 by ring. replace (2 ^ 50) with 1125899906842624 by ring.
    replace (2 ^ 48) with 281474976710656 by ring. lra.
Qed.

(** The tilted rotation minus a quarter turn, the difference being the tilt. *)
Example c54_box_minus_example : mfinite quarter_d /\ is_rot quarter /\ mwithin (/ 2 ^ 53) (mval quarter_d) quarter /\
  exists A, mfinite A /\ is_rot (mul3 tilt quarter) /\ mwithin (/ 2 ^ 40) (mval A) (mul3 tilt quarter) /\
  mul3 (so3_exp tilt_v) quarter = mul3 tilt quarter /\ 12 * / 2 ^ 40 + / 2 ^ 46 <= (1 + cos (vnorm tilt_v)) / 64.
Proof.
  destruct quarter_ok as (A & B & C). destruct tilt_ok as (A' & B' & C').
  split; [exact A|]. split; [exact B|]. split; [exact C|].
  destruct (c49_product_drift RightFirst (/ 2 ^ 53) tilt_d tilt [quarter_d] [quarter]) as [F W].
  - replace (2 ^ 53) with 9007199254740992 by ring. lra.
  - constructor; [exact tilt_ok|constructor; [exact quarter_ok|constructor]].
  - change (INR (length [tilt_d; quarter_d])) with (1 + 1).
    replace (2 ^ 53) with 9007199254740992 by ring. replace (2 ^ 48) with 281474976710656 by ring. lra.
  - exists (dmul RightFirst tilt_d quarter_d). split; [exact F|]. split; [now apply is_rot_mul|]. split; [|split].
    + change (INR (length [tilt_d; quarter_d])) with (1 + 1) in W.
      assert (K : (1 + 1) * (6 * / 2 ^ 53 + / 2 ^ 48) <= / 2 ^ 40).
      { replace (2 ^ 53) with 9007199254740992 by ring. replace (2 ^ 48) with 281474976710656 by ring.
        replace (2 ^ 40) with 1099511627776 by ring. lra. }
      destruct W as (w0 & w1 & w2 & w3 & w4 & w5 & w6 & w7 & w8). repeat split; eapply Rle_trans; eauto.
    + now rewrite tilt_exp.
    + rewrite tilt_v_norm, cos35. replace (2 ^ 40) with 1099511627776 by ring.
      replace (2 ^ 46) with 70368744177664 by ring. lra.
Qed.
