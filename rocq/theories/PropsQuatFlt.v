(** C49: products of quaternions and of rigid transforms, and vectors rotated by quaternions,
    computed on doubles. *)

From Coq Require Import ZArith Reals Lra Lia Psatz List Bool Permutation.
From Flocq Require Import Core BinarySingleNaN.
From Verif Require Import V3 ModelFloat SpecFlt FloatProofs FloatDrift PropsDrift ModelFloatQ SpecFltQ
  FloatQuat FloatAct.
Import ListNotations.
Local Open Scope R_scope.

(** A product of quaternions of finite doubles, each within [d] of a unit quaternion, is
    finite and within n * (4 d + 2^-47) of the product of the unit quaternions, in whatever
    order the terms of a product are added, as long as that bound is at most one. *)
Theorem c49_quaternion_drift o d A R As Rs :
  sums_four o -> 0 <= d <= / 1000 ->
  Forall2 (fun A R => qfinite A /\ unitq R /\ qwithin d (qval A) R) (A :: As) (R :: Rs) ->
  INR (length (A :: As)) * (4 * d + / 2 ^ 47) <= 1 ->
  qfinite (dqprod o A As) /\
  qwithin (INR (length (A :: As)) * (4 * d + / 2 ^ 47)) (qval (dqprod o A As)) (qproduct R Rs).
Proof.
  intros Ho Hd HF Hn. inversion_clear HF as [|? ? ? ? (FA & HR & W) HF'].
  change (length (A :: As)) with (S (length As)) in *. rewrite S_INR in *.
  assert (E0 : 0 < / 2 ^ 47) by (apply Rinv_0_lt_compat, pow_lt; lra).
  destruct (qprod_drift o d Ho Hd As Rs HF' A R (4 * d + / 2 ^ 47)) as (P1 & P2 & P3); auto; [lra|lra| |].
  - apply qwithin_norm in W. lra.
  - split; [exact P1|]. apply norm_qwithin.
    replace ((INR (length As) + 1) * (4 * d + / 2 ^ 47)) with
      (4 * d + / 2 ^ 47 + INR (length As) * (4 * d + / 2 ^ 47)) by ring. exact P3.
Qed.
Print Assumptions c49_quaternion_drift.

(** The squared norm (which nothing in the library restores) drifts from one by at most three
    times as much. *)
Theorem c49_quaternion_norm o d A R As Rs :
  sums_four o -> 0 <= d <= / 1000 ->
  Forall2 (fun A R => qfinite A /\ unitq R /\ qwithin d (qval A) R) (A :: As) (R :: Rs) ->
  INR (length (A :: As)) * (4 * d + / 2 ^ 47) <= 1 ->
  Rabs (qnorm2 (qval (dqprod o A As)) - 1) <= 3 * (INR (length (A :: As)) * (4 * d + / 2 ^ 47)).
Proof.
  intros Ho Hd HF Hn. inversion_clear HF as [|? ? ? ? (FA & HR & W) HF'].
  change (length (A :: As)) with (S (length As)) in *. rewrite S_INR in *.
  assert (E0 : 0 < / 2 ^ 47) by (apply Rinv_0_lt_compat, pow_lt; lra).
  destruct (qprod_drift o d Ho Hd As Rs HF' A R (4 * d + / 2 ^ 47)) as (P1 & P2 & P3); auto; [lra|lra| |].
  { apply qwithin_norm in W. lra. }
  replace (4 * d + / 2 ^ 47 + INR (length As) * (4 * d + / 2 ^ 47)) with
    ((INR (length As) + 1) * (4 * d + / 2 ^ 47)) in P3 by ring.
  set (D := (INR (length As) + 1) * (4 * d + / 2 ^ 47)) in *.
  set (xq := qval (dqprod o A As)) in *. set (r := qproduct R Rs) in *.
  pose proof (qnorm_unit r P2) as Nr. pose proof (qnorm_nonneg (qsub xq r)) as D0.
  assert (U : qnorm xq <= 1 + D).
  { replace xq with (qadd r (qsub xq r)) by (unfold qadd, qsub; destruct xq; cbn; f_equal; ring).
    eapply Rle_trans; [apply qnorm_triangle|]. lra. }
  assert (L : 1 <= qnorm xq + D).
  { rewrite <- Nr. replace r with (qadd xq (qsub r xq)) at 1 by (unfold qadd, qsub; destruct r; cbn; f_equal; ring).
    eapply Rle_trans; [apply qnorm_triangle|]. apply Rplus_le_compat_l.
    replace (qnorm (qsub r xq)) with (qnorm (qsub xq r)); [exact P3|].
    unfold qnorm. f_equal. unfold qnorm2, qsub; cbn; ring. }
  rewrite <- (qnorm_sq xq). pose proof (qnorm_nonneg xq).
  apply Rabs_le. nra.
Qed.
Print Assumptions c49_quaternion_norm.

Lemma pow900_big : 2 ^ 900 <= big / 1000.
Proof.
  unfold big. replace 1000%nat with (900 + 100)%nat by reflexivity. rewrite pow_add.
  assert (2 ^ 10 <= 2 ^ 100) by (apply Rle_pow; [lra|lia]). assert (0 < 2 ^ 900) by (apply pow_lt; lra).
  replace (2 ^ 10) with 1024 in * by ring. nra.
Qed.
Lemma eta_200 : 200 * eta <= / 2 ^ 1067.
Proof.
  unfold eta. replace 1075%nat with (8 + 1067)%nat by reflexivity. rewrite pow_add, Rinv_mult.
  assert (0 < / 2 ^ 1067) by (apply Rinv_0_lt_compat, pow_lt; lra). generalize dependent (/ 2 ^ 1067). intros z Hz.
  replace (2 ^ 8) with 256 by ring. lra.
Qed.

(** Rotating a vector by a quaternion. *)
Theorem c49_quaternion_rotate o d q r v :
  0 <= d <= / 1000 -> qfinite q -> unitq r -> qwithin d (qval q) r ->
  vfinite v -> vnorm (vval v) <= 2 ^ 900 ->
  vfinite (dqact o q v) /\
  vwithin ((17 * d + / 2 ^ 46) * vnorm (vval v) + / 2 ^ 1067) (vval (dqact o q v)) (app3 (qrot r) (vval v)).
Proof.
  intros Hd Fq Ur W Fv Hv. pose proof (qwithin_norm _ _ _ W) as N. pose proof pow900_big as HB.
  assert (Hv' : vnorm (vval v) <= big / 1000) by (eapply Rle_trans; eauto).
  assert (Q : qnorm (qval q) <= 11 / 10).
  { replace (qval q) with (qadd r (qsub (qval q) r)) by (unfold qadd, qsub, qval; cbn; f_equal; ring).
    eapply Rle_trans; [apply qnorm_triangle|]. rewrite (qnorm_unit r Ur). lra. }
  destruct (act_round o q v Fq Fv Q Hv') as [F (E0 & E1 & E2)]. split; [exact F|].
  assert (M : vnorm (vsub (act (qval q) (vval v)) (act r (vval v))) <= 17 * d * vnorm (vval v)).
  { eapply Rle_trans; [apply (act_near _ _ _ (2 * d) Ur N); lra|]. right. field. }
  destruct (norm_vwithin _ _ _ M) as (M0 & M1 & M2). rewrite <- act_rot. pose proof eta_200 as Ht.
  clear - E0 E1 E2 M0 M1 M2 Ht. generalize dependent (/ 2 ^ 1067). generalize dependent (/ 2 ^ 46). intros a E0 E1 E2 b Ht.
  apply abs_between in E0, E1, E2, M0, M1, M2.
  repeat split; apply Rabs_le; lra.
Qed.
Print Assumptions c49_quaternion_rotate.

(** Converting a quaternion to a matrix. *)
Theorem c49_quaternion_matrix o d q r :
  0 <= d <= / 1000 -> qfinite q -> unitq r -> qwithin d (qval q) r ->
  mfinite (dqrot o q) /\ mwithin (9 * d + / 2 ^ 47) (mval (dqrot o q)) (qrot r).
Proof.
  intros Hd Fq Ur W. pose proof (qwithin_norm _ _ _ W) as N.
  assert (Q : qnorm (qval q) <= 11 / 10).
  { replace (qval q) with (qadd r (qsub (qval q) r)) by (unfold qadd, qsub, qval; cbn; f_equal; ring).
    eapply Rle_trans; [apply qnorm_triangle|]. rewrite (qnorm_unit r Ur). lra. }
  destruct (rot_round o q Fq Q) as [F E]. split; [exact F|].
  pose proof (rot_near d _ _ Hd Ur W) as M.
  assert (U : 64 * u = / 2 ^ 47) by (rewrite u_val; replace (2 ^ 47) with 140737488355328 by ring; lra).
  rewrite U in E. generalize dependent (/ 2 ^ 47). intros a E _.
  destruct E as (e0 & e1 & e2 & e3 & e4 & e5 & e6 & e7 & e8). destruct M as (a0 & a1 & a2 & a3 & a4 & a5 & a6 & a7 & a8).
  assert (T : forall x y z, Rabs (x - y) <= a -> Rabs (y - z) <= 9 * d -> Rabs (x - z) <= 9 * d + a).
  { intros x y z H1 H2. apply abs_between in H1, H2. apply Rabs_le. lra. }
  unfold mwithin. repeat split; (eapply T; eassumption).
Qed.
Print Assumptions c49_quaternion_matrix.

(** ** Rigid transforms *)

Lemma row_dot o a p t D : vfinite a -> vfinite t -> vnorm p = 1 -> 0 <= D <= 1 -> vnorm (vsub (vval a) p) <= D ->
  vnorm (vval t) <= big / 1000 ->
  finite (ddot o a t) /\
  Rabs (val (ddot o a t) - vdot p (vval t)) <= D * vnorm (vval t) + 8 * u * vnorm (vval t) + 8 * eta.
Proof.
  intros Fa Ft Hp HD HN HT. pose proof (norm_vsub_le (vval a) p) as Na. pose proof (vnorm_nonneg (vval t)) as T0.
  pose proof (vnorm_nonneg (vval a)) as A0. pose proof u_val as Hu.
  assert (S : Rabs (val (dx a) * val (dx t)) + Rabs (val (dy a) * val (dy t)) + Rabs (val (dz a) * val (dz t)) <= 2 * vnorm (vval t)).
  { pose proof (cauchy (vabs (vval a)) (vabs (vval t))) as C. rewrite !norm_abs in C.
    unfold vdot, vabs, vval in C; cbn [vx vy vz] in C. fold (vval a) (vval t) in C.
    rewrite !Rabs_mult. eapply Rle_trans; [exact C|]. apply Rmult_le_compat_r; lra. }
  pose proof (Rabs_pos (val (dx a) * val (dx t))). pose proof (Rabs_pos (val (dy a) * val (dy t))).
  pose proof (Rabs_pos (val (dz a) * val (dz t))).
  destruct (ddot_ok o a t Fa Ft) as [F E]; try lra.
  split; [exact F|].
  assert (P : Rabs (vdot (vval a) (vval t) - vdot p (vval t)) <= D * vnorm (vval t)).
  { replace (vdot (vval a) (vval t) - vdot p (vval t)) with (vdot (vsub (vval a) p) (vval t))
      by (destruct p, (vval a), (vval t); unfold vdot, vsub; cbn; ring).
    assert (C1 : vdot (vsub (vval a) p) (vval t) <= D * vnorm (vval t)).
    { eapply Rle_trans; [apply cauchy|]. apply Rmult_le_compat_r; assumption. }
    assert (C2 : vdot (vopp (vsub (vval a) p)) (vval t) <= D * vnorm (vval t)).
    { eapply Rle_trans; [apply cauchy|]. rewrite norm_opp. apply Rmult_le_compat_r; assumption. }
    replace (vdot (vopp (vsub (vval a) p)) (vval t)) with (- vdot (vsub (vval a) p) (vval t)) in C2
      by (destruct p, (vval a), (vval t); unfold vdot, vsub, vopp; cbn; ring).
    apply Rabs_le. lra. }
  assert (US : u * (Rabs (val (dx a) * val (dx t)) + Rabs (val (dy a) * val (dy t)) + Rabs (val (dz a) * val (dz t)))
    <= u * (2 * vnorm (vval t))) by (apply Rmult_le_compat_l; lra).
  apply abs_between in E, P. apply Rabs_le. lra.
Qed.

(** One composition: the translation. *)
Lemma trans_step o a P s S t L D K E : mfinite a -> vfinite s -> vfinite t -> is_rot P -> rnear D a P ->
  0 <= D <= 1 -> vnorm (vval t) <= L -> vnorm S <= K * L -> 1 <= K -> K * L <= big / 1000 -> 0 <= L ->
  vnorm (vsub (vval s) S) <= E -> E <= K * L + big / 1000 ->
  vfinite (dmapv2 fadd (dapp o a t) s) /\
  vnorm (vsub (vval (dmapv2 fadd (dapp o a t) s)) (vadd (app3 P (vval t)) S))
    <= E + 2 * (D * L + 8 * u * L + 8 * eta + (u * (3 * L + K * L + E) + 2 * eta)).
Proof.
  intros (Fa0 & Fa1 & Fa2) (Fs0 & Fs1 & Fs2) Ft HP (N0 & N1 & N2) HD HT HS HK HB HL HE HE1.
  pose proof (vnorm_nonneg (vsub (vval s) S)) as E0.
  destruct (rot_row_norm P HP) as (p0 & p1 & p2). pose proof (vnorm_nonneg (vval t)) as T0.
  pose proof u_val as Hu. pose proof eta_le as He. pose proof big_ge as Hg.
  assert (LB : L <= big / 1000).
  { eapply Rle_trans; [|exact HB]. rewrite <- (Rmult_1_l L) at 1. apply Rmult_le_compat_r; lra. }
  assert (HTB : vnorm (vval t) <= big / 1000) by lra.
  destruct (row_dot o (r0 a) (mrow0 P) t D Fa0 Ft p0 HD N0 HTB) as [F0 G0].
  destruct (row_dot o (r1 a) (mrow1 P) t D Fa1 Ft p1 HD N1 HTB) as [F1 G1].
  destruct (row_dot o (r2 a) (mrow2 P) t D Fa2 Ft p2 HD N2 HTB) as [F2 G2].
  set (T := vnorm (vval t)) in *.
  assert (DT : D * T <= D * L) by (apply Rmult_le_compat_l; lra). assert (UT : u * T <= u * L) by (apply Rmult_le_compat_l; lra).
  assert (DL : D * L <= 1 * L) by (apply Rmult_le_compat_r; lra).
  assert (UL : 0 <= u * L) by (apply Rmult_le_pos; lra).
  set (e := D * L + 8 * u * L + 8 * eta).
  assert (Ns : vnorm (vval s) <= K * L + E).
  { pose proof (norm_vsub_le (vval s) S). lra. }
  destruct (comp_le_norm (vval s)) as (s0 & s1 & s2). unfold vval in s0, s1, s2; cbn [vx vy vz] in s0, s1, s2.
  fold (vval s) in s0, s1, s2.
  assert (Nt : vnorm (app3 P (vval t)) <= L) by (rewrite norm_rot by assumption; exact HT).
  destruct (comp_le_norm (app3 P (vval t))) as (q0 & q1 & q2).
  assert (C : forall x y z, finite x -> finite y -> Rabs (val x - z) <= e -> Rabs z <= L -> Rabs (val y) <= K * L + E ->
     finite (fadd x y) /\ Rabs (val (fadd x y) - (z + val y)) <= e + (u * (3 * L + K * L + E) + 2 * eta)).
  { intros x y z Fx Fy Hx Hz Hy. pose proof (abs_le_dist _ _ _ Hx) as Ax. unfold e in *.
    pose proof (Rabs_triang (val x) (val y)) as Tr.
    assert (Ux : Rabs (val x) <= 3 * L + 8 * eta) by (rewrite Hu in *; lra).
    destruct (fadd_ok x y Fx Fy) as [F V]; [lra|]. split; [exact F|].
    pose proof (nearest_err (val x + val y)) as N. rewrite <- V in N.
    assert (u * Rabs (val x + val y) <= u * (3 * L + 8 * eta + (K * L + E))) by (apply Rmult_le_compat_l; lra).
    assert (u * (8 * eta) <= eta) by (rewrite Hu; lra).
    apply abs_between in N, Hx. apply Rabs_le. lra. }
  assert (R0 : vx (app3 P (vval t)) = vdot (mrow0 P) (vval t)) by (destruct P, (vval t); unfold app3, vdot, mrow0; cbn; ring).
  assert (R1 : vy (app3 P (vval t)) = vdot (mrow1 P) (vval t)) by (destruct P, (vval t); unfold app3, vdot, mrow1; cbn; ring).
  assert (R2 : vz (app3 P (vval t)) = vdot (mrow2 P) (vval t)) by (destruct P, (vval t); unfold app3, vdot, mrow2; cbn; ring).
  destruct (C (ddot o (r0 a) t) (dx s) (vx (app3 P (vval t)))) as [K0 J0]; auto; [rewrite R0; unfold e; lra|lra|lra|].
  destruct (C (ddot o (r1 a) t) (dy s) (vy (app3 P (vval t)))) as [K1 J1]; auto; [rewrite R1; unfold e; lra|lra|lra|].
  destruct (C (ddot o (r2 a) t) (dz s) (vz (app3 P (vval t)))) as [K2 J2]; auto; [rewrite R2; unfold e; lra|lra|lra|].
  split; [exact (conj K0 (conj K1 K2))|].
  set (y := vval (dmapv2 fadd (dapp o a t) s)).
  replace (vsub y (vadd (app3 P (vval t)) S)) with (vadd (vsub (vval s) S) (vsub y (vadd (app3 P (vval t)) (vval s))))
    by (generalize y (app3 P (vval t)) (vval s); clear; intros y a b; destruct y, a, b, S; unfold vadd, vsub; cbn; f_equal; ring).
  eapply Rle_trans; [apply norm_triangle|]. apply Rplus_le_compat; [exact HE|].
  fold e. apply vcomp_norm; [exact J0|exact J1|exact J2].
Qed.

Lemma eta_48 : 2 ^ 48 * (40 * eta) <= 1.
Proof.
  assert (H : eta <= / 2 ^ 54).
  { apply Rinv_le_contravar; [apply pow_lt; lra|]. apply Rle_pow; [lra|lia]. }
  replace (2 ^ 48) with 281474976710656 by ring. replace (2 ^ 54) with 18014398509481984 in H by ring. lra.
Qed.
Lemma inv48 : / 2 ^ 48 = 32 * u.
Proof. rewrite u_val. replace (2 ^ 48) with 281474976710656 by ring. lra. Qed.

(** The bound on the translation of a chain of [k] transforms: e per product, translations of
    length at most L. *)
Definition slip (e L k : R) : R := 2 * (k * k) * e * L + 40 * k * eta.

Lemma slip_next e L k E : 1 <= k -> 32 * u <= e -> k * e <= 1 -> 0 <= L -> E <= slip e L k ->
  E + 2 * (k * e * L + 8 * u * L + 8 * eta + (u * (3 * L + k * L + E) + 2 * eta)) <= slip e L (k + 1).
Proof.
  intros Hk He Hke HL HE. pose proof u_val as Hu. pose proof eta_pos as Hn.
  assert (U0 : 0 < u) by (rewrite Hu; lra).
  assert (uE : u * E <= u * slip e L k) by (apply Rmult_le_compat_l; lra).
  assert (ku : 0 <= k * u <= / 32).
  { assert (k * (32 * u) <= k * e) by (apply Rmult_le_compat_l; lra). assert (0 <= k * u) by (apply Rmult_le_pos; lra). lra. }
  assert (eL : 0 <= e * L) by (apply Rmult_le_pos; lra).
  assert (uL : 32 * (u * L) <= e * L) by (replace (32 * (u * L)) with ((32 * u) * L) by ring; apply Rmult_le_compat_r; lra).
  assert (kuL : 32 * (k * (u * L)) <= k * (e * L)) by (replace (32 * (k * (u * L))) with (k * (32 * (u * L))) by ring; apply Rmult_le_compat_l; lra).
  assert (keL : 0 <= k * (e * L)) by (apply Rmult_le_pos; lra).
  assert (A : k * u * (k * (e * L)) <= / 32 * (k * (e * L))) by (apply Rmult_le_compat_r; lra).
  assert (B : k * u * eta <= / 32 * eta) by (apply Rmult_le_compat_r; lra).
  unfold slip in *.
  replace (u * (2 * (k * k) * e * L + 40 * k * eta)) with (2 * (k * u * (k * (e * L))) + 40 * (k * u * eta)) in uE by ring.
  replace (2 * (k * k) * e * L) with (2 * (k * (k * (e * L)))) in * by ring.
  replace (2 * ((k + 1) * (k + 1)) * e * L) with (2 * (k * (k * (e * L))) + 4 * (k * (e * L)) + 2 * (e * L)) by ring.
  replace (u * (3 * L + k * L + E)) with (3 * (u * L) + k * (u * L) + u * E) by ring.
  replace (8 * u * L) with (8 * (u * L)) by ring. replace (k * e * L) with (k * (e * L)) by ring.
  generalize dependent (k * u * (k * (e * L))). generalize dependent (k * u * eta). generalize dependent (u * E).
  generalize dependent (k * (k * (e * L))). generalize dependent (k * (e * L)). generalize dependent (e * L).
  generalize dependent (k * (u * L)). generalize dependent (u * L). intros. lra.
Qed.

Lemma rigid_drift o d L : 0 <= d <= / 1000 -> 0 <= L -> forall As Rs,
  Forall2 (fun A R => rfinite A /\ is_rot (fst R) /\ mwithin d (mval (drm A)) (fst R) /\
                      snd R = vval (drt A) /\ vnorm (snd R) <= L) As Rs ->
  forall a P S k, 1 <= k -> (k + INR (length As)) * (6 * d + / 2 ^ 48) <= 1 -> (k + INR (length As)) * L <= big / 2000 ->
  rfinite a -> is_rot P -> rnear (k * (6 * d + / 2 ^ 48)) (drm a) P -> vnorm S <= k * L ->
  vnorm (vsub (vval (drt a)) S) <= slip (6 * d + / 2 ^ 48) L k ->
  rfinite (drtprod o a As) /\ is_rot (fst (rproduct (P, S) Rs)) /\
  rnear ((k + INR (length As)) * (6 * d + / 2 ^ 48)) (drm (drtprod o a As)) (fst (rproduct (P, S) Rs)) /\
  vnorm (vsub (vval (drt (drtprod o a As))) (snd (rproduct (P, S) Rs)))
    <= slip (6 * d + / 2 ^ 48) L (k + INR (length As)).
Proof.
  intros Hd HL. pose proof eta_48 as Hn. pose proof u_val as Hu. pose proof big_ge as Hg.
  assert (E0 : 32 * u <= 6 * d + / 2 ^ 48) by (rewrite inv48; lra).
  assert (E1 : forall k, 0 <= k -> k * (6 * d + / 2 ^ 48) <= 1 -> k * (40 * eta) <= 1).
  { intros k Hk H. eapply Rle_trans; [|exact Hn]. apply Rmult_le_compat_r; [pose proof eta_pos; lra|].
    replace (2 ^ 48) with 281474976710656 by ring.
    assert (k * (32 * u) <= k * (6 * d + / 2 ^ 48)) by (apply Rmult_le_compat_l; lra). rewrite Hu in *. lra. }
  set (e := 6 * d + / 2 ^ 48) in *.
  induction 1 as [|A R As Rs (FA & HR & W & Ht & HT) HF IH]; intros a P S k Hk He HkL [Fm Ft] HP N HS HE.
  - cbn [length INR drtprod rproduct fold_left fst snd]. rewrite Rplus_0_r.
    exact (conj (conj Fm Ft) (conj HP (conj N HE))).
  - change (length (A :: As)) with (Datatypes.S (length As)) in *. rewrite S_INR in *.
    pose proof (pos_INR (length As)) as Hl.
    assert (e0 : 0 <= e) by (rewrite Hu in *; lra).
    assert (ke : k * e <= 1).
    { eapply Rle_trans; [|exact He]. apply Rmult_le_compat_r; lra. }
    assert (kL : k * L <= big / 2000).
    { eapply Rle_trans; [|exact HkL]. apply Rmult_le_compat_r; lra. }
    assert (k0 : 0 <= k * e) by (apply Rmult_le_pos; lra).
    assert (kL0 : 0 <= k * L) by (apply Rmult_le_pos; lra).
    destruct FA as [FA1 FA2].
    assert (e48 : 6 * d + / 2 ^ 48 = e) by reflexivity.
    destruct (mul_step o (drm a) P (drm A) (fst R) d (k * e)) as [G M]; auto. rewrite e48 in M.
    assert (HE' : vnorm (vsub (vval (drt a)) S) <= k * L + big / 1000).
    { eapply Rle_trans; [exact HE|]. unfold slip. pose proof (E1 k ltac:(lra) ke).
      replace (2 * (k * k) * e * L) with (2 * ((k * e) * (k * L))) by ring.
      assert ((k * e) * (k * L) <= 1 * (k * L)) by (apply Rmult_le_compat_r; lra). lra. }
    destruct (trans_step o (drm a) P (drt a) S (drt A) L (k * e) k (vnorm (vsub (vval (drt a)) S)))
      as [F T]; auto; try lra; [now rewrite <- Ht|].
    destruct (IH (drtmul o a A) (mul3 P (fst R)) (vadd (app3 P (snd R)) S) (k + 1)) as (I1 & I2 & I3 & I4).
    + lra.
    + eapply Rle_trans; [|exact He]. right; ring.
    + eapply Rle_trans; [|exact HkL]. right; ring.
    + split; [exact G|exact F].
    + now apply is_rot_mul.
    + unfold drtmul; cbn [drm]. replace ((k + 1) * e) with (k * e + e) by ring. exact M.
    + eapply Rle_trans; [apply norm_triangle|]. rewrite norm_rot by assumption. lra.
    + unfold drtmul; cbn [drt]. rewrite Ht. eapply Rle_trans; [exact T|]. now apply slip_next.
    + cbn [drtprod rproduct fold_left]. unfold rcompose at 1 3 5; cbn [fst snd].
      replace (k + (INR (length As) + 1)) with (k + 1 + INR (length As)) by ring.
      unfold rproduct in *. auto.
Qed.

(** A product of n rigid transforms whose rotations are within [d] of exact ones and whose
    translations are no longer than [L]: the rotation is within n * (6 d + 2^-48) of the exact
    product of the rotations, as before, and the translation is within
    2 n^2 (6 d + 2^-48) L of that of the exact composition (and n * 2^-1069, for translations
    near the least double). *)
Theorem c49_rigid_drift o d L A R As Rs :
  0 <= d <= / 1000 -> 0 <= L ->
  Forall2 (fun A R => rfinite A /\ is_rot (fst R) /\ mwithin d (mval (drm A)) (fst R) /\
                      snd R = vval (drt A) /\ vnorm (snd R) <= L) (A :: As) (R :: Rs) ->
  let n := INR (length (A :: As)) in
  n * (6 * d + / 2 ^ 48) <= 1 -> n * L <= 2 ^ 900 ->
  rfinite (drtprod o A As) /\
  mwithin (n * (6 * d + / 2 ^ 48)) (mval (drm (drtprod o A As))) (fst (rproduct R Rs)) /\
  vwithin (2 * n ^ 2 * (6 * d + / 2 ^ 48) * L + n * / 2 ^ 1069)
    (vval (drt (drtprod o A As))) (snd (rproduct R Rs)).
Proof.
  intros Hd HL HF n Hn HnL. inversion_clear HF as [|? ? ? ? (FA & HR & W & Ht & HT) HF'].
  assert (Hn1 : n = 1 + INR (length As)) by (unfold n; change (length (A :: As)) with (S (length As)); rewrite S_INR; ring).
  clearbody n. subst n.
  assert (HB : 2 ^ 900 <= big / 2000).
  { unfold big. replace 1000%nat with (900 + 100)%nat by reflexivity. rewrite pow_add.
    assert (2 ^ 11 <= 2 ^ 100) by (apply Rle_pow; [lra|lia]). assert (0 < 2 ^ 900) by (apply pow_lt; lra).
    replace (2 ^ 11) with 2048 in * by ring. nra. }
  assert (HE : 40 * eta <= / 2 ^ 1069).
  { unfold eta. replace 1075%nat with (6 + 1069)%nat by reflexivity. rewrite pow_add, Rinv_mult.
    assert (0 < / 2 ^ 1069) by (apply Rinv_0_lt_compat, pow_lt; lra). generalize dependent (/ 2 ^ 1069). intros z Hz.
    replace (2 ^ 6) with 64 by ring. lra. }
  pose proof (pos_INR (length As)) as Hl. pose proof u_val as Hu.
  assert (E0 : 32 * u <= 6 * d + / 2 ^ 48) by (rewrite inv48; lra).
  assert (E1 : 2 * d <= 6 * d + / 2 ^ 48) by (rewrite inv48, Hu; lra).
  destruct (rigid_drift o d L Hd HL As Rs HF' A (fst R) (snd R) 1) as (I1 & I2 & I3 & I4); auto; try lra.
  - rewrite Rmult_1_l. destruct (mwithin_rnear d _ _ (proj1 Hd) W) as (N0 & N1 & N2).
    repeat split; lra.
  - rewrite Ht. replace (vsub (vval (drt A)) (vval (drt A))) with (mkV 0 0 0).
    2:{ generalize (vval (drt A)). intros [a b c]; unfold vsub; cbn; f_equal; ring. }
    replace (vnorm (mkV 0 0 0)) with 0.
    2:{ unfold vnorm, vnorm2, vdot; cbn. replace (0 * 0 + 0 * 0 + 0 * 0) with 0 by ring. now rewrite sqrt_0. }
    unfold slip. pose proof eta_pos. assert (0 <= (6 * d + / 2 ^ 48) * L) by (apply Rmult_le_pos; rewrite Hu in *; lra). lra.
  - rewrite <- surjective_pairing in I2, I3, I4.
    split; [exact I1|]. split; [now apply rnear_mwithin|].
    apply norm_vwithin. eapply Rle_trans; [exact I4|]. unfold slip.
    replace ((1 + INR (length As)) ^ 2) with ((1 + INR (length As)) * (1 + INR (length As))) by ring.
    apply Rplus_le_compat_l. rewrite (Rmult_comm 40), Rmult_assoc. apply Rmult_le_compat_l; [lra|exact HE].
Qed.
Print Assumptions c49_rigid_drift.

(** A point carried by one rigid transform. *)
Theorem c49_transform o d A R v :
  0 <= d <= / 1000 -> rfinite A -> is_rot R -> mwithin d (mval (drm A)) R ->
  vfinite v -> vnorm (vval v) + vnorm (vval (drt A)) <= 2 ^ 900 ->
  vfinite (dtransform o A v) /\
  vwithin ((4 * d + / 2 ^ 48) * (vnorm (vval v) + vnorm (vval (drt A))) + / 2 ^ 1070)
    (vval (dtransform o A v)) (vadd (app3 R (vval v)) (vval (drt A))).
Proof.
  intros Hd [FA Ft] HR W Fv Hv. pose proof pow900_big as HB. pose proof u_val as Hu.
  assert (HE : 20 * eta <= / 2 ^ 1070).
  { unfold eta. replace 1075%nat with (5 + 1070)%nat by reflexivity. rewrite pow_add, Rinv_mult.
    assert (0 < / 2 ^ 1070) by (apply Rinv_0_lt_compat, pow_lt; lra). generalize dependent (/ 2 ^ 1070). intros z Hz.
    replace (2 ^ 5) with 32 by ring. lra. }
  pose proof (vnorm_nonneg (vval v)). pose proof (vnorm_nonneg (vval (drt A))).
  assert (Z : vnorm (vsub (vval (drt A)) (vval (drt A))) <= 0).
  { replace (vsub (vval (drt A)) (vval (drt A))) with (mkV 0 0 0).
    2:{ generalize (vval (drt A)). intros [a b c]; unfold vsub; cbn; f_equal; ring. }
    unfold vnorm, vnorm2, vdot; cbn. replace (0 * 0 + 0 * 0 + 0 * 0) with 0 by ring. rewrite sqrt_0. lra. }
  set (L := vnorm (vval v) + vnorm (vval (drt A))) in *.
  destruct (trans_step o (drm A) R (drt A) (vval (drt A)) v L (2 * d) 1 0) as [F T];
    [assumption|assumption|assumption|assumption|now apply mwithin_rnear|lra|unfold L; lra|unfold L; lra|lra|lra|unfold L; lra|exact Z|
     pose proof big_ge; unfold L; lra|].
  split; [exact F|]. apply norm_vwithin. eapply Rle_trans; [exact T|].
  assert (UL : 0 <= u * L) by (apply Rmult_le_pos; [rewrite Hu; lra|unfold L; lra]).
  rewrite inv48. clear - HE Hu UL. generalize dependent (/ 2 ^ 1070). intros z Hz.
  replace ((4 * d + 32 * u) * L) with (4 * (d * L) + 32 * (u * L)) by ring.
  replace (2 * d * L) with (2 * (d * L)) by ring. replace (8 * u * L) with (8 * (u * L)) by ring.
  replace (u * (3 * L + 1 * L + 0)) with (4 * (u * L)) by ring. lra.
Qed.
Print Assumptions c49_transform.

(** Inverses: the components of a quaternion and of a rotation matrix are only negated or
    moved, so they stay within [d] of the inverse rotation; the translation of an inverse rigid
    transform is within (2 d + 2^-50) times its length of the exact one. *)
Theorem c49_inverse_quaternion d q r : qfinite q -> qwithin d (qval q) r ->
  qfinite (dqconj q) /\ qwithin d (qval (dqconj q)) (qconj r).
Proof.
  intros (Fw & Fx & Fy & Fz) (W0 & W1 & W2 & W3).
  destruct (fopp_ok _ Fx) as [Gx Vx]. destruct (fopp_ok _ Fy) as [Gy Vy]. destruct (fopp_ok _ Fz) as [Gz Vz].
  split; [exact (conj Fw (conj Gx (conj Gy Gz)))|].
  unfold qwithin, qval, dqconj, dmapv, qconj in *; cbn [dw dv dx dy dz qw qx qy qz] in *. rewrite Vx, Vy, Vz.
  apply abs_between in W1, W2, W3. split; [exact W0|]. repeat split; apply Rabs_le; lra.
Qed.
Print Assumptions c49_inverse_quaternion.

Theorem c49_inverse_rigid o d A R : 0 <= d <= / 1000 -> rfinite A -> is_rot R -> mwithin d (mval (drm A)) R ->
  vnorm (vval (drt A)) <= 2 ^ 900 ->
  rfinite (drtinv o A) /\ mwithin d (mval (drm (drtinv o A))) (tr3 R) /\
  vwithin ((2 * d + / 2 ^ 50) * vnorm (vval (drt A)) + / 2 ^ 1070)
    (vval (drt (drtinv o A))) (vopp (app3 (tr3 R) (vval (drt A)))).
Proof.
  intros Hd [FA Ft] HR W Hv.
  assert (FT : mfinite (dtr (drm A))).
  { destruct FA as ((f00 & f01 & f02) & (f10 & f11 & f12) & (f20 & f21 & f22)).
    split; [|split]; (split; [|split]); assumption. }
  assert (WT : mwithin d (mval (dtr (drm A))) (tr3 R)).
  { destruct W as (w00 & w01 & w02 & w10 & w11 & w12 & w20 & w21 & w22). unfold mwithin, mval, dtr, tr3 in *; cbn in *.
    repeat split; assumption. }
  destruct (c49_rotate o d _ _ (drt A) Hd FT (is_rot_tr R HR) WT Ft Hv) as (F & E0 & E1 & E2).
  destruct F as (F0 & F1 & F2).
  destruct (fopp_ok _ F0) as [Gx Vx]. destruct (fopp_ok _ F1) as [Gy Vy]. destruct (fopp_ok _ F2) as [Gz Vz].
  split; [exact (conj FT (conj Gx (conj Gy Gz)))|]. split; [exact WT|].
  unfold drtinv; cbn [drt]. set (y := dapp o (dtr (drm A)) (drt A)) in *.
  replace (vval (dmapv fopp y)) with (mkV (- val (dx y)) (- val (dy y)) (- val (dz y)))
    by (unfold vval, dmapv; cbn [dx dy dz]; now rewrite Vx, Vy, Vz).
  unfold vwithin, vopp; cbn [vx vy vz].
  apply abs_between in E0, E1, E2. repeat split; apply Rabs_le; lra.
Qed.
Print Assumptions c49_inverse_rigid.

(** ** Concrete cases *)

(** The quaternion 3/5 + 4/5 i with its components rounded, and two orders of summation: one
    after the other, and by pairs with a fused multiply-add. *)
Definition roll_d : DQ := mkDQ f35 (mkDV f45 f0 f0).
Definition roll : Q4 := mkQ (3 / 5) (4 / 5) 0 0.
Definition chained : sumtree := Plus (Plus (Plus (Prod 0) (Prod 1)) (Prod 2)) (Prod 3).
Definition paired : sumtree := Plus (Fma 0 (Prod 2)) (Fma 3 (Prod 1)).
Definition mixed_order : qorder := mkO chained paired chained paired.

Lemma roll_ok : qfinite roll_d /\ unitq roll /\ qwithin (/ 2 ^ 53) (qval roll_d) roll.
Proof.
  destruct f0_ok as [F0 V0].
  destruct (lit_ok 5404319552844595 (-53)) as [F3 V3]; [lia|lia|].
  destruct (lit_ok 7205759403792794 (-53)) as [F4 V4]; [lia|lia|].
  fold f35 in F3, V3. fold f45 in F4, V4. rewrite bpow_m53 in V3, V4.
  split; [exact (conj F3 (conj F4 (conj F0 F0)))|]. split; [unfold unitq, qnorm2, roll; cbn; field|].
  change (/ 2 ^ 53) with u. rewrite u_val.
  unfold qwithin, qval, roll_d, roll; cbn [dw dv dx dy dz qw qx qy qz]. rewrite V0, V3, V4.
  repeat split; apply Rabs_le; lra.
Qed.

Lemma mixed_sums_four : sums_four mixed_order.
Proof.
  assert (P : Permutation [0; 2; 3; 1]%nat [0; 1; 2; 3]%nat).
  { apply perm_skip. apply Permutation_trans with [2; 1; 3]%nat; [apply perm_skip, perm_swap|apply perm_swap]. }
  split; [|split; [|split]]; try apply Permutation_refl; exact P.
Qed.

Example c49_quaternion_example : exists As Rs, length As = 1000%nat /\ sums_four mixed_order /\
  Forall2 (fun A R => qfinite A /\ unitq R /\ qwithin (/ 2 ^ 53) (qval A) R) (roll_d :: As) (roll :: Rs) /\
  INR (length (roll_d :: As)) * (4 * / 2 ^ 53 + / 2 ^ 47) <= / 2 ^ 36.
Proof.
  exists (repeat roll_d 1000), (repeat roll 1000).
  assert (L : length (repeat roll_d 1000) = 1000%nat) by apply repeat_length.
  split; [exact L|]. split; [exact mixed_sums_four|]. split.
  - constructor; [exact roll_ok|]. clear L. generalize 1000%nat. induction n; cbn; constructor; auto. exact roll_ok.
  - change (length (roll_d :: repeat roll_d 1000)) with (S (length (repeat roll_d 1000))). rewrite L.
    replace (INR 1001) with 1001 by (rewrite INR_IZR_INZ; reflexivity).
    change (/ 2 ^ 53) with u. rewrite u_val.
    replace (2 ^ 47) with 140737488355328 by ring. replace (2 ^ 36) with 68719476736 by ring. lra.
Qed.

(** A thousand steps of one metre and a quarter turn, starting tilted. *)
Definition step_d : DRTd := mkRTd quarter_d (mkDV f1 f0 f0).
Definition start_d : DRTd := mkRTd tilt_d (mkDV f0 f0 f1).

Example c49_rigid_example : exists As Rs, length As = 999%nat /\
  Forall2 (fun A R => rfinite A /\ is_rot (fst R) /\ mwithin (/ 2 ^ 53) (mval (drm A)) (fst R) /\
                      snd R = vval (drt A) /\ vnorm (snd R) <= 1) (start_d :: As) ((tilt, mkV 0 0 1) :: Rs) /\
  2 * INR (length (start_d :: As)) ^ 2 * (6 * / 2 ^ 53 + / 2 ^ 48) * 1 <= / 2 ^ 26.
Proof.
  exists (repeat step_d 999), (repeat (quarter, mkV 1 0 0) 999).
  destruct f1_ok as [F1 V1]. destruct f0_ok as [F0 V0].
  assert (L : length (repeat step_d 999) = 999%nat) by apply repeat_length.
  split; [exact L|]. split.
  - clear L. destruct tilt_ok as (A & B & C). destruct quarter_ok as (A' & B' & C').
    constructor.
    + cbn [fst snd]. split; [exact (conj A (conj F0 (conj F0 F1)))|]. split; [exact B|]. split; [exact C|].
      split; [unfold start_d, vval; cbn [drt dx dy dz]; now rewrite V0, V1|].
      apply norm_le_sq; [lra|]. unfold vnorm2, vdot; cbn; lra.
    + generalize 999%nat. induction n; cbn [repeat]; constructor; auto.
      cbn [fst snd]. split; [exact (conj A' (conj F1 (conj F0 F0)))|]. split; [exact B'|]. split; [exact C'|].
      split; [unfold step_d, vval; cbn [drt dx dy dz]; now rewrite V0, V1|].
      apply norm_le_sq; [lra|]. unfold vnorm2, vdot; cbn; lra.
  - change (length (start_d :: repeat step_d 999)) with (S (length (repeat step_d 999))). rewrite L.
    replace (INR 1000) with 1000 by (rewrite INR_IZR_INZ; reflexivity).
    change (/ 2 ^ 53) with u. rewrite u_val.
    replace (2 ^ 48) with 281474976710656 by ring. replace (2 ^ 26) with 67108864 by ring. lra.
Qed.
