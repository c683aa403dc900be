(** Rotating a vector by a quaternion of doubles, and the matrix of a quaternion (support). *)

From Coq Require Import ZArith Reals Lra Lia Psatz List Bool Permutation.
From Flocq Require Import Core BinarySingleNaN.
From Verif Require Import V3 ModelFloat SpecFlt FloatProofs FloatDrift ModelFloatQ SpecFltQ FloatQuat.
Import ListNotations.
Local Open Scope R_scope.

Lemma cross_norm a b : vnorm (vcross a b) <= vnorm a * vnorm b.
Proof.
  pose proof (vnorm_nonneg a) as Ha. pose proof (vnorm_nonneg b) as Hb.
  apply norm_le_sq; [now apply Rmult_le_pos|].
  replace (vnorm a * vnorm b * (vnorm a * vnorm b)) with (vnorm2 a * vnorm2 b) by (rewrite <- !vnorm_sq; ring).
  pose proof (sq_nonneg (vdot a b)).
  replace (vnorm2 (vcross a b)) with (vnorm2 a * vnorm2 b - vdot a b * vdot a b)
    by (destruct a, b; unfold vnorm2, vdot, vcross; cbn; ring). lra.
Qed.

Lemma vcomp_norm v t : Rabs (vx v) <= t -> Rabs (vy v) <= t -> Rabs (vz v) <= t -> vnorm v <= 2 * t.
Proof.
  intros A B C. pose proof (Rabs_pos (vx v)) as P. apply norm_le_sq; [lra|].
  pose proof (norm_comp v t A B C) as H. assert (0 <= t * t) by (apply Rmult_le_pos; lra). lra.
Qed.
Lemma vwithin_norm d a b : vwithin d a b -> vnorm (vsub a b) <= 2 * d.
Proof. intros (A & B & C). apply vcomp_norm; assumption. Qed.
Lemma norm_vwithin d a b : vnorm (vsub a b) <= d -> vwithin d a b.
Proof.
  intros H. destruct (comp_le_norm (vsub a b)) as (A & B & C). unfold vsub in *; cbn [vx vy vz] in *.
  repeat split; (eapply Rle_trans; eauto).
Qed.
Lemma norm_vsub_le a b : vnorm a <= vnorm b + vnorm (vsub a b).
Proof.
  replace a with (vadd b (vsub a b)) at 1 by (destruct a, b; unfold vadd, vsub; cbn; f_equal; ring).
  apply norm_triangle.
Qed.

(** x * y + z *)
Lemma dmadd_ok o x y z B : finite x -> finite y -> finite z ->
  Rabs (val x * val y) + Rabs (val z) <= B -> B <= big / 4 ->
  finite (dmadd o x y z) /\
  Rabs (val (dmadd o x y z) - (val x * val y + val z)) <= 3 * u * B + 3 * eta.
Proof.
  intros Fx Fy Fz HB Hb. pose proof eta_le as He. pose proof big_ge as Hg. pose proof u_val as Hu.
  pose proof (Rabs_pos (val x * val y)) as P0. pose proof (Rabs_pos (val z)) as P1.
  assert (UB : 0 <= u * B) by (apply Rmult_le_pos; lra).
  assert (F2 : finite (ffma x y z) /\ Rabs (val (ffma x y z) - (val x * val y + val z)) <= 3 * u * B + 3 * eta).
  { pose proof (Rabs_triang (val x * val y) (val z)) as T.
    destruct (ffma_ok x y z Fx Fy Fz) as [F V]; [lra|]. split; [exact F|]. rewrite V.
    eapply Rle_trans; [apply nearest_err|].
    assert (u * Rabs (val x * val y + val z) <= u * B) by (apply Rmult_le_compat_l; lra). lra. }
  assert (F1 : finite (fadd (fmul x y) z) /\ Rabs (val (fadd (fmul x y) z) - (val x * val y + val z)) <= 3 * u * B + 3 * eta).
  { destruct (fmul_ok x y Fx Fy) as [Fm Vm]; [lra|].
    pose proof (nerr (val x * val y)) as E. rewrite <- Vm in E.
    pose proof (abs_le_dist _ _ _ E) as A. pose proof (Rabs_triang (val (fmul x y)) (val z)) as T.
    destruct (fadd_ok (fmul x y) z Fm Fz) as [F V]; [lra|]. split; [exact F|].
    pose proof (nerr (val (fmul x y) + val z)) as E2. rewrite <- V in E2.
    rewrite Hu in *. apply abs_between in E, E2. apply Rabs_le. lra. }
  destruct o; assumption.
Qed.

Lemma dmsub_ok o a b c d B : finite a -> finite b -> finite c -> finite d ->
  Rabs (val a * val b) + Rabs (val c * val d) <= B -> B <= big / 8 ->
  finite (dmsub o a b c d) /\
  Rabs (val (dmsub o a b c d) - (val a * val b - val c * val d)) <= 5 * u * B + 5 * eta.
Proof.
  intros Fa Fb Fc Fd HB Hb. pose proof eta_le as He. pose proof big_ge as Hg. pose proof u_val as Hu.
  pose proof (Rabs_pos (val a * val b)) as P0. pose proof (Rabs_pos (val c * val d)) as P1.
  assert (UB : 0 <= u * B) by (apply Rmult_le_pos; lra).
  destruct (fmul_ok c d Fc Fd) as [Fm Vm]; [lra|].
  pose proof (nerr (val c * val d)) as E. rewrite <- Vm in E.
  pose proof (abs_le_dist _ _ _ E) as A.
  destruct (fopp_ok _ Fm) as [Fo Vo].
  destruct (dmadd_ok o a b (fopp (fmul c d)) (B * (1 + / 9007199254740992) + eta) Fa Fb Fo) as [F E2].
  { rewrite Vo, Rabs_Ropp. lra. }
  { lra. }
  split; [exact F|]. unfold dmsub. rewrite Vo in E2. rewrite Hu in *.
  apply abs_between in E, E2. apply Rabs_le. lra.
Qed.

Lemma abs2 a0 a1 b0 b1 N : qnorm (mkQ a0 a1 0 0) * qnorm (mkQ b0 b1 0 0) <= N ->
  Rabs (a0 * b0) + Rabs (a1 * b1) <= N.
Proof.
  intros H. pose proof (cauchy4_abs a0 a1 0 0 b0 b1 0 0) as C. rewrite !Rmult_0_l, !Rabs_R0 in C. lra.
Qed.
Lemma qnorm_part a0 a1 v : a0 * a0 + a1 * a1 <= vnorm2 v -> qnorm (mkQ a0 a1 0 0) <= vnorm v.
Proof.
  intros H. unfold qnorm, vnorm. apply sqrt_le_1_alt. unfold qnorm2; cbn. lra.
Qed.

Lemma cross_ok o a b : vfinite a -> vfinite b -> vnorm (vval a) * vnorm (vval b) <= big / 8 ->
  vfinite (dcross_o o a b) /\
  vwithin (5 * u * (vnorm (vval a) * vnorm (vval b)) + 5 * eta) (vval (dcross_o o a b)) (vcross (vval a) (vval b)).
Proof.
  intros (a0 & a1 & a2) (b0 & b1 & b2) HB. set (N := vnorm (vval a) * vnorm (vval b)) in *.
  assert (X : forall p q r s, p * p + q * q <= vnorm2 (vval a) -> r * r + s * s <= vnorm2 (vval b) ->
     Rabs (p * r) + Rabs (q * s) <= N).
  { intros p q r s H1 H2. apply abs2. apply Rmult_le_compat; try apply qnorm_nonneg; now apply qnorm_part. }
  pose proof (sq_nonneg (val (dx a))). pose proof (sq_nonneg (val (dy a))). pose proof (sq_nonneg (val (dz a))).
  pose proof (sq_nonneg (val (dx b))). pose proof (sq_nonneg (val (dy b))). pose proof (sq_nonneg (val (dz b))).
  destruct (dmsub_ok o (dy a) (dz b) (dz a) (dy b) N) as [F0 E0]; auto.
  { apply X; unfold vnorm2, vdot, vval; cbn [vx vy vz]; lra. }
  destruct (dmsub_ok o (dz a) (dx b) (dx a) (dz b) N) as [F1 E1]; auto.
  { apply X; unfold vnorm2, vdot, vval; cbn [vx vy vz]; lra. }
  destruct (dmsub_ok o (dx a) (dy b) (dy a) (dx b) N) as [F2 E2]; auto.
  { apply X; unfold vnorm2, vdot, vval; cbn [vx vy vz]; lra. }
  split; [repeat split; assumption|].
  unfold vwithin, dcross_o, vval, vcross; cbn [vx vy vz dx dy dz].
  repeat split; assumption.
Qed.

(** ** Rotating a vector *)

Lemma qvec_norm q : vnorm (qvec q) <= qnorm q.
Proof.
  unfold vnorm, qnorm. apply sqrt_le_1_alt. unfold vnorm2, vdot, qnorm2, qvec; cbn. pose proof (sq_nonneg (qw q)). lra.
Qed.

Definition act (q : Q4) (v : V3) : V3 :=
  vadd (vadd v (vscal (2 * qw q) (vcross (qvec q) v))) (vscal 2 (vcross (qvec q) (vcross (qvec q) v))).

Lemma vscal_norm k v : vnorm (vscal k v) = Rabs k * vnorm v.
Proof.
  unfold vnorm. replace (vnorm2 (vscal k v)) with (Rsqr k * vnorm2 v)
    by (destruct v; unfold vnorm2, vdot, vscal, Rsqr; cbn; ring).
  rewrite sqrt_mult, sqrt_Rsqr_abs; [reflexivity|apply Rle_0_sqr|].
  rewrite <- vnorm_sq. apply Rmult_le_pos; apply vnorm_nonneg.
Qed.

Lemma act_round o q v : qfinite q -> vfinite v -> qnorm (qval q) <= 11 / 10 -> vnorm (vval v) <= big / 1000 ->
  vfinite (dqact o q v) /\
  vwithin (/ 2 ^ 46 * vnorm (vval v) + 200 * eta) (vval (dqact o q v)) (act (qval q) (vval v)).
Proof.
  intros (Fw & Fq) Fv Hq HV.
  pose proof eta_le as He. pose proof big_ge as Hg. pose proof u_val as Hu.
  pose proof (vnorm_nonneg (vval v)) as V0.
  pose proof (qvec_norm (qval q)) as Hx. change (qvec (qval q)) with (vval (dv q)) in Hx.
  destruct (qcomp_le_norm (qval q)) as (Hw & _). change (qw (qval q)) with (val (dw q)) in Hw.
  pose proof (vnorm_nonneg (vval (dv q))) as X0.
  set (V := vnorm (vval v)) in *. set (X := vnorm (vval (dv q))) in *.
  assert (XV : 0 <= X * V <= 11 / 10 * V) by (split; [apply Rmult_le_pos; lra|apply Rmult_le_compat_r; lra]).
  (* the first product *)
  destruct (cross_ok o (dv q) v Fq Fv) as [Fc Ec]; [fold X V; lra|]. fold X V in Ec.
  set (c := dcross_o o (dv q) v) in *.
  assert (Uc : u * (X * V) <= u * (11 / 10 * V)) by (apply Rmult_le_compat_l; lra).
  assert (UV : 0 <= u * V) by (apply Rmult_le_pos; lra).
  assert (Nc : vnorm (vsub (vval c) (vcross (vval (dv q)) (vval v))) <= 11 * (u * V) + 10 * eta).
  { eapply Rle_trans; [apply vwithin_norm; exact Ec|]. lra. }
  pose proof (cross_norm (vval (dv q)) (vval v)) as CN. fold X V in CN.
  assert (C : vnorm (vval c) <= 12 / 10 * V + 10 * eta).
  { pose proof (norm_vsub_le (vval c) (vcross (vval (dv q)) (vval v))). rewrite Hu in *. lra. }
  (* doubled *)
  destruct (comp_le_norm (vval c)) as (c0 & c1 & c2). unfold vval in c0, c1, c2; cbn [vx vy vz] in c0, c1, c2.
  fold (vval c) in c0, c1, c2.
  destruct Fc as (Fc0 & Fc1 & Fc2).
  assert (Dbl : forall x, finite x -> Rabs (val x) <= 12 / 10 * V + 10 * eta ->
     finite (fadd x x) /\ Rabs (val (fadd x x) - 2 * val x) <= 3 * (u * V) + 2 * eta).
  { intros x Fx Hx2. pose proof (Rabs_triang (val x) (val x)) as T.
    destruct (fadd_ok x x Fx Fx) as [F E]; [lra|]. split; [exact F|]. rewrite E.
    replace (2 * val x) with (val x + val x) by ring. eapply Rle_trans; [apply nearest_err|].
    assert (u * Rabs (val x + val x) <= u * (2 * (12 / 10 * V + 10 * eta))) by (apply Rmult_le_compat_l; lra).
    rewrite Hu in *. lra. }
  destruct (Dbl (dx c) Fc0) as [Fu0 Eu0]; [lra|]. destruct (Dbl (dy c) Fc1) as [Fu1 Eu1]; [lra|].
  destruct (Dbl (dz c) Fc2) as [Fu2 Eu2]; [lra|].
  set (uv := dmapv2 fadd c c).
  assert (Fuv : vfinite uv) by (repeat split; assumption).
  set (z := vscal 2 (vcross (vval (dv q)) (vval v))).
  assert (Nu : vnorm (vsub (vval uv) z) <= 28 * (u * V) + 24 * eta).
  { replace (vsub (vval uv) z) with (vadd (vsub (vval uv) (vscal 2 (vval c)))
       (vscal 2 (vsub (vval c) (vcross (vval (dv q)) (vval v)))))
      by (unfold z; generalize (vcross (vval (dv q)) (vval v)) (vval uv) (vval c); intros p1 p2 p3; clear;
          destruct p1, p2, p3; unfold vadd, vsub, vscal; cbn; f_equal; ring).
    eapply Rle_trans; [apply norm_triangle|]. rewrite vscal_norm, (Rabs_pos_eq 2) by lra.
    assert (vnorm (vsub (vval uv) (vscal 2 (vval c))) <= 2 * (3 * (u * V) + 2 * eta)).
    { apply vcomp_norm; [exact Eu0|exact Eu1|exact Eu2]. }
    lra. }
  assert (Z : vnorm z <= 22 / 10 * V).
  { unfold z. rewrite vscal_norm, (Rabs_pos_eq 2) by lra. lra. }
  assert (NU : vnorm (vval uv) <= 23 / 10 * V + 24 * eta).
  { pose proof (norm_vsub_le (vval uv) z). rewrite Hu in *. lra. }
  pose proof (vnorm_nonneg (vval uv)) as NU0.
  (* the second product *)
  assert (XU : 0 <= X * vnorm (vval uv) <= 11 / 10 * (23 / 10 * V + 24 * eta)).
  { split; [apply Rmult_le_pos; lra|apply Rmult_le_compat; lra]. }
  destruct (cross_ok o (dv q) uv Fq Fuv) as [Fd Ed]; [fold X; lra|]. fold X in Ed.
  set (c2' := dcross_o o (dv q) uv) in *.
  assert (Ud : u * (X * vnorm (vval uv)) <= u * (11 / 10 * (23 / 10 * V + 24 * eta))) by (apply Rmult_le_compat_l; lra).
  assert (Nd : vnorm (vsub (vval c2') (vcross (vval (dv q)) z)) <= 60 * (u * V) + 40 * eta).
  { replace (vsub (vval c2') (vcross (vval (dv q)) z)) with
      (vadd (vsub (vval c2') (vcross (vval (dv q)) (vval uv))) (vcross (vval (dv q)) (vsub (vval uv) z)))
      by (generalize (vval c2') (vval (dv q)) (vval uv) z; intros p1 p2 p3 p4; clear;
          destruct p1, p2, p3, p4; unfold vadd, vsub, vcross; cbn; f_equal; ring).
    eapply Rle_trans; [apply norm_triangle|].
    pose proof (vwithin_norm _ _ _ Ed) as N1.
    pose proof (cross_norm (vval (dv q)) (vsub (vval uv) z)) as N2. fold X in N2.
    pose proof (vnorm_nonneg (vsub (vval uv) z)) as N3.
    assert (X * vnorm (vsub (vval uv) z) <= 11 / 10 * (28 * (u * V) + 24 * eta)) by (apply Rmult_le_compat; lra).
    rewrite Hu in *. lra. }
  assert (D2 : vnorm (vval c2') <= 26 / 10 * V + 40 * eta).
  { pose proof (norm_vsub_le (vval c2') (vcross (vval (dv q)) z)) as N1.
    pose proof (cross_norm (vval (dv q)) z) as N2. fold X in N2. pose proof (vnorm_nonneg z).
    assert (X * vnorm z <= 11 / 10 * (22 / 10 * V)) by (apply Rmult_le_compat; lra). rewrite Hu in *. lra. }
  (* sums *)
  destruct (comp_le_norm (vval c2')) as (d0 & d1 & d2).
  destruct (comp_le_norm (vval uv)) as (u0 & u1 & u2).
  destruct (comp_le_norm (vval v)) as (v0' & v1' & v2'). fold V in v0', v1', v2'.
  destruct (comp_le_norm (vsub (vval uv) z)) as (g0 & g1 & g2).
  destruct (comp_le_norm (vsub (vval c2') (vcross (vval (dv q)) z))) as (h0 & h1 & h2).
  destruct Fd as (Fd0 & Fd1 & Fd2). destruct Fv as (Fv0 & Fv1 & Fv2). destruct Fuv as (Fu0' & Fu1' & Fu2').
  assert (Sum : forall a b d zz t, finite a -> finite b -> finite d ->
     Rabs (val a) <= 23 / 10 * V + 24 * eta -> Rabs (val b) <= V -> Rabs (val d) <= 26 / 10 * V + 40 * eta ->
     Rabs (val a - zz) <= 28 * (u * V) + 24 * eta -> Rabs (val d - t) <= 60 * (u * V) + 40 * eta ->
     finite (fadd (dmadd o (dw q) a b) d) /\
     Rabs (val (fadd (dmadd o (dw q) a b) d) - (val b + val (dw q) * zz + t)) <= / 2 ^ 46 * V + 200 * eta).
  { intros a b d zz t Fa Fb Fdd Ha Hb Hd Hz Ht.
    pose proof (Rabs_pos (val a)) as A0. pose proof (Rabs_pos (val (dw q))) as W0.
    assert (WA : Rabs (val (dw q) * val a) <= 11 / 10 * (23 / 10 * V + 24 * eta)).
    { rewrite Rabs_mult. apply Rmult_le_compat; lra. }
    destruct (dmadd_ok o (dw q) a b (36 / 10 * V + 30 * eta) Fw Fa Fb) as [F1 E1]; [lra|lra|].
    assert (M1 : Rabs (val (dmadd o (dw q) a b)) <= 37 / 10 * V + 31 * eta).
    { apply abs_le_dist in E1. pose proof (Rabs_triang (val (dw q) * val a) (val b)). rewrite Hu in *. lra. }
    pose proof (Rabs_triang (val (dmadd o (dw q) a b)) (val d)) as T.
    destruct (fadd_ok _ d F1 Fdd) as [F2 E2]; [lra|].
    split; [exact F2|].
    pose proof (nerr (val (dmadd o (dw q) a b) + val d)) as E3. rewrite <- E2 in E3.
    assert (W : Rabs (val (dw q) * (val a - zz)) <= 11 / 10 * (28 * (u * V) + 24 * eta)).
    { rewrite Rabs_mult. apply Rmult_le_compat; try apply Rabs_pos; lra. }
    replace (2 ^ 46) with 70368744177664 by ring. rewrite Hu in *.
    apply abs_between in E1, E3, Ht. apply Rabs_le_inv in W. apply Rabs_le. lra. }
  unfold vval in d0, d1, d2, u0, u1, u2, v0', v1', v2'; cbn [vx vy vz] in d0, d1, d2, u0, u1, u2, v0', v1', v2'.
  fold (vval c2') in d0, d1, d2. fold (vval uv) in u0, u1, u2. fold (vval v) in v0', v1', v2'.
  assert (G0 : Rabs (val (dx uv) - vx z) <= 28 * (u * V) + 24 * eta) by (eapply Rle_trans; [exact g0|exact Nu]).
  assert (G1 : Rabs (val (dy uv) - vy z) <= 28 * (u * V) + 24 * eta) by (eapply Rle_trans; [exact g1|exact Nu]).
  assert (G2 : Rabs (val (dz uv) - vz z) <= 28 * (u * V) + 24 * eta) by (eapply Rle_trans; [exact g2|exact Nu]).
  assert (H0 : Rabs (val (dx c2') - vx (vcross (vval (dv q)) z)) <= 60 * (u * V) + 40 * eta) by (eapply Rle_trans; [exact h0|exact Nd]).
  assert (H1 : Rabs (val (dy c2') - vy (vcross (vval (dv q)) z)) <= 60 * (u * V) + 40 * eta) by (eapply Rle_trans; [exact h1|exact Nd]).
  assert (H2 : Rabs (val (dz c2') - vz (vcross (vval (dv q)) z)) <= 60 * (u * V) + 40 * eta) by (eapply Rle_trans; [exact h2|exact Nd]).
  destruct (Sum (dx uv) (dx v) (dx c2') _ _ Fu0' Fv0 Fd0 ltac:(lra) v0' ltac:(lra) G0 H0) as [S0 T0].
  destruct (Sum (dy uv) (dy v) (dy c2') _ _ Fu1' Fv1 Fd1 ltac:(lra) v1' ltac:(lra) G1 H1) as [S1 T1].
  destruct (Sum (dz uv) (dz v) (dz c2') _ _ Fu2' Fv2 Fd2 ltac:(lra) v2' ltac:(lra) G2 H2) as [S2 T2].
  split; [repeat split; assumption|].
  unfold vwithin. split; [|split].
  - eapply Rle_trans; [right|exact T0]. apply (f_equal Rabs). unfold act, z, dqact, vval, qvec, vadd, vscal, vcross, qval; cbn [vx vy vz qw qx qy qz dx dy dz]. fold c uv c2'. ring.
  - eapply Rle_trans; [right|exact T1]. apply (f_equal Rabs). unfold act, z, dqact, vval, qvec, vadd, vscal, vcross, qval; cbn [vx vy vz qw qx qy qz dx dy dz]. fold c uv c2'. ring.
  - eapply Rle_trans; [right|exact T2]. apply (f_equal Rabs). unfold act, z, dqact, vval, qvec, vadd, vscal, vcross, qval; cbn [vx vy vz qw qx qy qz dx dy dz]. fold c uv c2'. ring.
Qed.

Lemma act_rot q v : act q v = app3 (qrot q) v.
Proof. destruct q, v. unfold act, app3, qrot, qvec, vadd, vscal, vcross; cbn. f_equal; ring. Qed.

Lemma act_near q r v D : unitq r -> qnorm (qsub q r) <= D -> D <= / 10 ->
  vnorm (vsub (act q v) (act r v)) <= 85 / 10 * D * vnorm v.
Proof.
  intros Ur HD HD1. pose proof (vnorm_nonneg v) as V0. set (V := vnorm v) in *.
  pose proof (qnorm_nonneg (qsub q r)) as D0.
  destruct (qcomp_le_norm (qsub q r)) as (Hw & _). change (qw (qsub q r)) with (qw q - qw r) in Hw.
  destruct (qcomp_le_norm r) as (Rw & _). rewrite (qnorm_unit r Ur) in Rw.
  pose proof (qvec_norm r) as Rv. rewrite (qnorm_unit r Ur) in Rv.
  pose proof (qvec_norm (qsub q r)) as Dv.
  replace (qvec (qsub q r)) with (vsub (qvec q) (qvec r)) in Dv by (unfold vsub, qvec, qsub; reflexivity).
  pose proof (norm_vsub_le (qvec q) (qvec r)) as Qv.
  set (x := qvec q) in *. set (y := qvec r) in *. set (dl := vsub x y) in *.
  pose proof (vnorm_nonneg x) as X0. pose proof (vnorm_nonneg y) as Y0. pose proof (vnorm_nonneg dl) as L0.
  assert (E : vsub (act q v) (act r v) =
    vadd (vadd (vscal (2 * (qw q - qw r)) (vcross x v)) (vscal (2 * qw r) (vcross dl v)))
         (vadd (vscal 2 (vcross dl (vcross x v))) (vscal 2 (vcross y (vcross dl v))))).
  { unfold dl, x, y. clear. destruct q, r, v. unfold act, qvec, vadd, vsub, vscal, vcross; cbn. f_equal; ring. }
  rewrite E.
  eapply Rle_trans; [apply norm_triangle|]. eapply Rle_trans; [apply Rplus_le_compat; apply norm_triangle|].
  rewrite !vscal_norm, !Rabs_mult, (Rabs_pos_eq 2) by lra.
  pose proof (cross_norm x v) as N1. pose proof (cross_norm dl v) as N2.
  pose proof (cross_norm dl (vcross x v)) as N3. pose proof (cross_norm y (vcross dl v)) as N4. fold V in N1, N2.
  pose proof (vnorm_nonneg (vcross x v)) as P1. pose proof (vnorm_nonneg (vcross dl v)) as P2.
  pose proof (Rabs_pos (qw q - qw r)) as P3. pose proof (Rabs_pos (qw r)) as P4.
  assert (DV0 : 0 <= D * V) by (apply Rmult_le_pos; lra).
  assert (M1 : vnorm (vcross x v) <= 11 / 10 * V) by (eapply Rle_trans; [exact N1|apply Rmult_le_compat_r; lra]).
  assert (M2 : vnorm (vcross dl v) <= D * V) by (eapply Rle_trans; [exact N2|apply Rmult_le_compat_r; lra]).
  assert (T1 : Rabs (qw q - qw r) * vnorm (vcross x v) <= D * (11 / 10 * V)) by (apply Rmult_le_compat; lra).
  assert (T2 : Rabs (qw r) * vnorm (vcross dl v) <= 1 * (D * V)) by (apply Rmult_le_compat; lra).
  assert (T3 : vnorm dl * vnorm (vcross x v) <= D * (11 / 10 * V)) by (apply Rmult_le_compat; lra).
  assert (T4 : vnorm y * vnorm (vcross dl v) <= 1 * (D * V)) by (apply Rmult_le_compat; lra).
  lra.
Qed.

(** ** The matrix of a quaternion *)

Lemma f2_val : finite f2 /\ val f2 = 2.
Proof.
  destruct (lit_ok 2 0) as [F V]; [reflexivity|lia|]. split; [exact F|]. unfold f2. rewrite V. cbn. ring.
Qed.

Lemma twice_ok x : finite x -> Rabs (val x) <= 11 / 10 -> finite (fmul f2 x) /\ Rabs (val (fmul f2 x) - 2 * val x) <= 3 * u.
Proof.
  intros F H. destruct f2_val as [G V]. pose proof big_ge. pose proof eta_le. pose proof u_val as Hu.
  assert (A : Rabs (2 * val x) <= 22 / 10) by (rewrite Rabs_mult, (Rabs_pos_eq 2) by lra; lra).
  destruct (fmul_ok f2 x G F) as [K W]; [rewrite V; lra|]. split; [exact K|]. rewrite W, V.
  eapply Rle_trans; [apply nearest_err|].
  assert (u * Rabs (2 * val x) <= u * (22 / 10)) by (apply Rmult_le_compat_l; lra). rewrite Hu in *. lra.
Qed.

Lemma near_mul t a b e : Rabs (t - 2 * a) <= e -> Rabs b <= 11 / 10 -> Rabs (t * b - 2 * a * b) <= 11 / 10 * e.
Proof.
  intros H B. replace (t * b - 2 * a * b) with ((t - 2 * a) * b) by ring. rewrite Rabs_mult.
  rewrite (Rmult_comm (11 / 10)). apply Rmult_le_compat; try apply Rabs_pos; assumption.
Qed.
Lemma abs_mul2 a b : Rabs a <= 11 / 10 -> Rabs b <= 11 / 10 -> Rabs (2 * a * b) <= 25 / 10.
Proof.
  intros A B. rewrite Rmult_assoc, Rabs_mult, Rabs_mult, (Rabs_pos_eq 2) by lra.
  assert (Rabs a * Rabs b <= 11 / 10 * (11 / 10)) by (apply Rmult_le_compat; try apply Rabs_pos; assumption). lra.
Qed.

Lemma entry_add o ta b tc d a c : finite ta -> finite b -> finite tc -> finite d ->
  Rabs (val ta - 2 * a) <= 3 * u -> Rabs (val tc - 2 * c) <= 3 * u ->
  Rabs a <= 11 / 10 -> Rabs c <= 11 / 10 -> Rabs (val b) <= 11 / 10 -> Rabs (val d) <= 11 / 10 ->
  (finite (dmadd o ta b (fmul tc d)) /\ Rabs (val (dmadd o ta b (fmul tc d)) - (2 * a * val b + 2 * c * val d)) <= 40 * u) /\
  (finite (dmsub o ta b tc d) /\ Rabs (val (dmsub o ta b tc d) - (2 * a * val b - 2 * c * val d)) <= 40 * u).
Proof.
  intros Fa Fb Fc Fd Ea Ec Ba Bc Bb Bd. pose proof big_ge as Hg. pose proof eta_le as He. pose proof u_val as Hu.
  pose proof (near_mul _ _ _ _ Ea Bb) as Pa. pose proof (near_mul _ _ _ _ Ec Bd) as Pc.
  pose proof (abs_le_dist _ _ _ Pa) as Aa. pose proof (abs_le_dist _ _ _ Pc) as Ac.
  pose proof (abs_mul2 _ _ Ba Bb) as Ma. pose proof (abs_mul2 _ _ Bc Bd) as Mc.
  split.
  - destruct (fmul_ok tc d Fc Fd) as [Fm Vm]; [lra|].
    pose proof (nerr (val tc * val d)) as E. rewrite <- Vm in E. pose proof (abs_le_dist _ _ _ E) as A.
    destruct (dmadd_ok o ta b (fmul tc d) 6 Fa Fb Fm) as [F E2]; [lra|lra|]. split; [exact F|].
    rewrite Hu in *. apply abs_between in Pa, Pc, E, E2. apply Rabs_le. lra.
  - destruct (dmsub_ok o ta b tc d 6 Fa Fb Fc Fd) as [F E2]; [lra|lra|]. split; [exact F|].
    rewrite Hu in *. apply abs_between in Pa, Pc, E2. apply Rabs_le. lra.
Qed.

Lemma f1_val' : finite f1 /\ val f1 = 1.
Proof.
  destruct (lit_ok 1 0) as [F V]; [reflexivity|lia|]. split; [exact F|]. unfold f1. rewrite V. cbn. ring.
Qed.
Lemma one_minus x s : finite x -> Rabs (val x - s) <= 40 * u -> Rabs s <= 5 ->
  finite (fsub f1 x) /\ Rabs (val (fsub f1 x) - (1 - s)) <= 64 * u.
Proof.
  intros F E S. destruct f1_val' as [G V]. pose proof big_ge as Hg. pose proof eta_le as He. pose proof u_val as Hu.
  pose proof (abs_le_dist _ _ _ E) as A.
  assert (B : Rabs (1 - val x) <= 7).
  { apply Rabs_le_inv in A. apply Rabs_le. rewrite Hu in A. lra. }
  destruct (fsub_ok f1 x G F) as [K W]; [rewrite V; lra|]. split; [exact K|].
  pose proof (nerr (1 - val x)) as N. rewrite V in W. rewrite <- W in N.
  rewrite Hu in *. apply abs_between in E, N. apply Rabs_le. lra.
Qed.

Lemma rot_round o q : qfinite q -> qnorm (qval q) <= 11 / 10 ->
  mfinite (dqrot o q) /\ mwithin (64 * u) (mval (dqrot o q)) (qrot (qval q)).
Proof.
  intros (Fw & Fx & Fy & Fz) Hq. destruct (qcomp_le_norm (qval q)) as (Bw & Bx & By & Bz).
  unfold qval in Bw, Bx, By, Bz; cbn [qw qx qy qz] in Bw, Bx, By, Bz. fold (qval q) in Bw, Bx, By, Bz.
  assert (B : Rabs (val (dw q)) <= 11 / 10 /\ Rabs (val (dx (dv q))) <= 11 / 10 /\
              Rabs (val (dy (dv q))) <= 11 / 10 /\ Rabs (val (dz (dv q))) <= 11 / 10) by lra.
  clear Hq Bw Bx By Bz. destruct B as (Bw & Bx & By & Bz).
  destruct (twice_ok _ Fx Bx) as [Gx Ex]. destruct (twice_ok _ Fy By) as [Gy Ey]. destruct (twice_ok _ Fz Bz) as [Gz Ez].
  unfold dqrot. cbv zeta.
  set (w := dw q) in *. set (x := dx (dv q)) in *. set (y := dy (dv q)) in *. set (z := dz (dv q)) in *.
  set (tx := fmul f2 x) in *. set (ty := fmul f2 y) in *. set (tz := fmul f2 z) in *.
  assert (Dg : forall a b, Rabs (val a) <= 11 / 10 -> Rabs (val b) <= 11 / 10 -> Rabs (2 * val a * val a + 2 * val b * val b) <= 5).
  { intros a b A B. eapply Rle_trans; [apply Rabs_triang|]. pose proof (abs_mul2 _ _ A A). pose proof (abs_mul2 _ _ B B). lra. }
  destruct (entry_add o ty y tz z _ _ Gy Fy Gz Fz Ey Ez By Bz By Bz) as [[A1 A2] _].
  destruct (entry_add o ty x tz w _ _ Gy Fx Gz Fw Ey Ez By Bz Bx Bw) as [[B1 B2] [C1 C2]].
  destruct (entry_add o tz x ty w _ _ Gz Fx Gy Fw Ez Ey Bz By Bx Bw) as [[D1 D2] [E1 E2]].
  destruct (entry_add o tx x tz z _ _ Gx Fx Gz Fz Ex Ez Bx Bz Bx Bz) as [[G1 G2] _].
  destruct (entry_add o tz y tx w _ _ Gz Fy Gx Fw Ez Ex Bz Bx By Bw) as [[H1 H2] [I1 I2]].
  destruct (entry_add o tx x ty y _ _ Gx Fx Gy Fy Ex Ey Bx By Bx By) as [[J1 J2] _].
  destruct (one_minus _ _ A1 A2 (Dg _ _ By Bz)) as [K1 K2]. destruct (one_minus _ _ G1 G2 (Dg _ _ Bx Bz)) as [L1 L2].
  destruct (one_minus _ _ J1 J2 (Dg _ _ Bx By)) as [M1 M2].
  split; [unfold mfinite, vfinite; cbn [r0 r1 r2 dx dy dz]; repeat split; assumption|].
  assert (U : 0 <= u) by (rewrite u_val; lra).
  assert (R : forall a b c, Rabs (a - b) <= 40 * u -> b = c -> Rabs (a - c) <= 64 * u) by (intros a b c H <-; lra).
  assert (R' : forall a b c, Rabs (a - b) <= 64 * u -> b = c -> Rabs (a - c) <= 64 * u) by (intros a b c H <-; lra).
  unfold mwithin, mval, qrot, qval; cbn [r0 r1 r2 dx dy dz m00 m01 m02 m10 m11 m12 m20 m21 m22 qw qx qy qz].
  fold w x y z.
  split; [|split; [|split; [|split; [|split; [|split; [|split; [|split]]]]]]];
    first [eapply R; [eassumption|ring] | eapply R'; [eassumption|ring]].
Qed.

Lemma prod_near a b p q d : 0 <= d <= / 1000 -> Rabs (a - p) <= d -> Rabs (b - q) <= d -> Rabs p <= 1 -> Rabs q <= 1 ->
  Rabs (2 * a * b - 2 * p * q) <= 4.01 * d.
Proof.
  intros Hd A B P Q. replace (2 * a * b - 2 * p * q) with (2 * ((a - p) * q + p * (b - q) + (a - p) * (b - q))) by ring.
  rewrite Rabs_mult, (Rabs_pos_eq 2) by lra.
  assert (Rabs ((a - p) * q + p * (b - q) + (a - p) * (b - q)) <= d * 1 + 1 * d + d * d).
  { eapply Rle_trans; [apply Rabs_triang|]. apply Rplus_le_compat; [eapply Rle_trans; [apply Rabs_triang|]; apply Rplus_le_compat|];
      rewrite Rabs_mult; apply Rmult_le_compat; try apply Rabs_pos; assumption. }
  assert (d * d <= d * / 1000) by (apply Rmult_le_compat_l; lra). lra.
Qed.

Lemma rot_near d q r : 0 <= d <= / 1000 -> unitq r -> qwithin d q r -> mwithin (9 * d) (qrot q) (qrot r).
Proof.
  intros Hd Ur (A & B & C & D). destruct (qcomp_le_norm r) as (Rw & Rx & Ry & Rz). rewrite (qnorm_unit r Ur) in *.
  assert (P : forall a b p q c e f g, Rabs (a - p) <= d -> Rabs (b - q) <= d -> Rabs p <= 1 -> Rabs q <= 1 ->
     Rabs (c - f) <= d -> Rabs (e - g) <= d -> Rabs f <= 1 -> Rabs g <= 1 ->
     Rabs ((2 * a * b + 2 * c * e) - (2 * p * q + 2 * f * g)) <= 9 * d /\
     Rabs ((2 * a * b - 2 * c * e) - (2 * p * q - 2 * f * g)) <= 9 * d).
  { intros a b p q0 c e f g; intros.
    pose proof (prod_near a b p q0 d) as X. pose proof (prod_near c e f g d) as Y.
    assert (X' : Rabs (2 * a * b - 2 * p * q0) <= 4.01 * d) by auto. assert (Y' : Rabs (2 * c * e - 2 * f * g) <= 4.01 * d) by auto.
    apply abs_between in X', Y'. split; apply Rabs_le; lra. }
  assert (Q : forall s t, Rabs (s - t) <= 9 * d -> Rabs (1 - s - (1 - t)) <= 9 * d).
  { intros s t H. replace (1 - s - (1 - t)) with (- (s - t)) by ring. now rewrite Rabs_Ropp. }
  unfold mwithin, qrot; cbn [m00 m01 m02 m10 m11 m12 m20 m21 m22].
  split; [|split; [|split; [|split; [|split; [|split; [|split; [|split]]]]]]];
    try apply Q; (eapply P; eassumption).
Qed.
