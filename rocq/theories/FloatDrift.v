(** Accumulation of rounding errors in products of rotation matrices (support). *)

From Coq Require Import ZArith Reals Lra Lia Psatz List Bool.
From Flocq Require Import Core BinarySingleNaN.
From Verif Require Import V3 ModelFloat SpecFlt FloatProofs.
Import ListNotations.
Local Open Scope R_scope.

(** ** Norms *)

Lemma cauchy a b : vdot a b <= vnorm a * vnorm b.
Proof.
  pose proof (vnorm_nonneg a) as Ha. pose proof (vnorm_nonneg b) as Hb.
  pose proof (Rmult_le_pos _ _ Ha Hb) as Hab.
  destruct (Rle_dec (vdot a b) 0) as [H|H]; [lra|].
  apply Rsqr_incr_0_var; [|exact Hab]. unfold Rsqr.
  replace (vnorm a * vnorm b * (vnorm a * vnorm b)) with (vnorm2 a * vnorm2 b)
    by (rewrite <- !vnorm_sq; ring).
  clear. destruct a as [a0 a1 a2], b as [b0 b1 b2]. unfold vnorm2, vdot; cbn.
  assert (0 <= (a0*b1-a1*b0)*(a0*b1-a1*b0) + (a0*b2-a2*b0)*(a0*b2-a2*b0) + (a1*b2-a2*b1)*(a1*b2-a2*b1)).
  { pose proof (sq_nonneg (a0*b1-a1*b0)). pose proof (sq_nonneg (a0*b2-a2*b0)). pose proof (sq_nonneg (a1*b2-a2*b1)). lra. }
  lra.
Qed.

Lemma norm_le_sq a t : 0 <= t -> vnorm2 a <= t * t -> vnorm a <= t.
Proof. intros Ht H. unfold vnorm. rewrite <- (sqrt_square t Ht). now apply sqrt_le_1_alt. Qed.

Lemma norm_triangle a b : vnorm (vadd a b) <= vnorm a + vnorm b.
Proof.
  pose proof (vnorm_nonneg a). pose proof (vnorm_nonneg b).
  apply norm_le_sq; [lra|]. pose proof (cauchy a b).
  replace (vnorm2 (vadd a b)) with (vnorm2 a + 2 * vdot a b + vnorm2 b)
    by (destruct a, b; unfold vnorm2, vdot, vadd; cbn; ring).
  rewrite <- !vnorm_sq. nra.
Qed.

Lemma norm_opp a : vnorm (vopp a) = vnorm a.
Proof. unfold vnorm. f_equal. destruct a; unfold vnorm2, vdot, vopp; cbn; ring. Qed.

Lemma norm_rot m v : is_rot m -> vnorm (app3 m v) = vnorm v.
Proof. intros H. unfold vnorm. now rewrite rot_norm2. Qed.

Definition vabs (a : V3) : V3 := mkV (Rabs (vx a)) (Rabs (vy a)) (Rabs (vz a)).
Definition sumabs (a : V3) : R := Rabs (vx a) + Rabs (vy a) + Rabs (vz a).

Lemma abs_sq x : Rabs x * Rabs x = x * x.
Proof. unfold Rabs. destruct (Rcase_abs x); ring. Qed.

Lemma norm_abs a : vnorm (vabs a) = vnorm a.
Proof. unfold vnorm. f_equal. destruct a; unfold vnorm2, vdot, vabs; cbn. now rewrite !abs_sq. Qed.

Lemma sumabs_sq a : sumabs a * sumabs a <= 3 * vnorm2 a.
Proof.
  unfold sumabs. destruct a as [a b c]; unfold vnorm2, vdot; cbn.
  rewrite <- (abs_sq a), <- (abs_sq b), <- (abs_sq c).
  generalize (Rabs a) (Rabs b) (Rabs c); intros x y z.
  pose proof (sq_nonneg (x-y)). pose proof (sq_nonneg (x-z)). pose proof (sq_nonneg (y-z)). lra.
Qed.

Lemma comp_le_norm a : Rabs (vx a) <= vnorm a /\ Rabs (vy a) <= vnorm a /\ Rabs (vz a) <= vnorm a.
Proof.
  pose proof (vnorm_nonneg a) as H. pose proof (vnorm_sq a) as E.
  destruct a as [a b c]; unfold vnorm2, vdot in E; cbn [vx vy vz] in *.
  pose proof (sq_nonneg a). pose proof (sq_nonneg b). pose proof (sq_nonneg c).
  repeat split; (apply Rsqr_incr_0_var; [|exact H]; unfold Rsqr; rewrite abs_sq, E; lra).
Qed.

Lemma norm_comp a t : Rabs (vx a) <= t -> Rabs (vy a) <= t -> Rabs (vz a) <= t ->
  vnorm2 a <= 3 * (t * t).
Proof.
  destruct a as [a b c]; unfold vnorm2, vdot; cbn. intros A B C.
  pose proof (Rabs_pos a). pose proof (Rabs_pos b). pose proof (Rabs_pos c).
  rewrite <- (abs_sq a), <- (abs_sq b), <- (abs_sq c).
  assert (Rabs a * Rabs a <= t * t) by (apply Rmult_le_compat; lra).
  assert (Rabs b * Rabs b <= t * t) by (apply Rmult_le_compat; lra).
  assert (Rabs c * Rabs c <= t * t) by (apply Rmult_le_compat; lra). lra.
Qed.

(** ** A sum of three products *)

(** Error of one operation, ready for linear arithmetic. *)
Lemma nerr x : Rabs (nearest x - x) <= / 9007199254740992 * Rabs x + eta.
Proof. rewrite <- u_val. apply nearest_err. Qed.

Lemma eta_le : 0 < eta <= / 1606938044258990275541962092341162602522202993782792835301376.
Proof.
  split; [exact eta_pos|]. eapply Rle_trans; [exact eta_tiny|]. right. f_equal.
  replace 200%nat with (10 * 20)%nat by reflexivity. rewrite pow_mult.
  replace (2 ^ 10) with 1024 by (cbn; ring). cbn. ring.
Qed.
Lemma big_ge : 1000000 <= big.
Proof.
  eapply Rle_trans; [|exact big_1]. apply Rle_trans with (2 ^ 20); [cbn; lra|]. apply Rle_pow; [lra|lia].
Qed.

Ltac rabs := repeat match goal with
  | |- context[Rabs ?x] => first [is_var x; fail 1 | revert dependent x]
  end.

Lemma abs_between x y e : Rabs (x - y) <= e -> y - e <= x <= y + e.
Proof. intros H. apply Rabs_le_inv in H. lra. Qed.
Lemma abs_le_dist x y e : Rabs (x - y) <= e -> Rabs x <= Rabs y + e.
Proof. intros H. replace x with (y + (x - y)) by ring. eapply Rle_trans; [apply Rabs_triang|]. lra. Qed.

Lemma ddot_ok o a b : vfinite a -> vfinite b ->
  Rabs (val (dx a) * val (dx b)) <= big / 8 -> Rabs (val (dy a) * val (dy b)) <= big / 8 ->
  Rabs (val (dz a) * val (dz b)) <= big / 8 ->
  finite (ddot o a b) /\
  Rabs (val (ddot o a b) - vdot (vval a) (vval b))
    <= 4 * u * (Rabs (val (dx a) * val (dx b)) + Rabs (val (dy a) * val (dy b)) +
                Rabs (val (dz a) * val (dz b))) + 8 * eta.
Proof.
  intros (Fa0 & Fa1 & Fa2) (Fb0 & Fb1 & Fb2) P0 P1 P2.
  unfold vdot, vval; cbn [vx vy vz]. rewrite u_val.
  pose proof eta_le as He. pose proof big_ge as Hb.
  destruct o; cbn [ddot].
  - destruct (fmul_ok (dx a) (dx b) Fa0 Fb0) as [F0 V0]; [lra|].
    destruct (fmul_ok (dy a) (dy b) Fa1 Fb1) as [F1 V1]; [lra|].
    destruct (fmul_ok (dz a) (dz b) Fa2 Fb2) as [F2 V2]; [lra|].
    pose proof (nerr (val (dx a) * val (dx b))) as E0. rewrite <- V0 in E0.
    pose proof (nerr (val (dy a) * val (dy b))) as E1. rewrite <- V1 in E1.
    pose proof (nerr (val (dz a) * val (dz b))) as E2. rewrite <- V2 in E2.
    set (p0 := val (dx a) * val (dx b)) in *. set (p1 := val (dy a) * val (dy b)) in *.
    set (p2 := val (dz a) * val (dz b)) in *.
    set (m0 := fmul (dx a) (dx b)) in *. set (m1 := fmul (dy a) (dy b)) in *. set (m2 := fmul (dz a) (dz b)) in *.
    pose proof (abs_le_dist _ _ _ E0) as A0. pose proof (abs_le_dist _ _ _ E1) as A1. pose proof (abs_le_dist _ _ _ E2) as A2.
    pose proof (Rabs_triang (val m0) (val m1)) as T1.
    destruct (fadd_ok m0 m1 F0 F1) as [G1 W1]; [lra|].
    pose proof (nerr (val m0 + val m1)) as N1. rewrite <- W1 in N1.
    pose proof (abs_le_dist _ _ _ N1) as B1.
    pose proof (Rabs_triang (val (fadd m0 m1)) (val m2)) as T2.
    destruct (fadd_ok (fadd m0 m1) m2 G1 F2) as [G2 W2]; [lra|].
    pose proof (nerr (val (fadd m0 m1) + val m2)) as N2. rewrite <- W2 in N2.
    split; [exact G2|].
    apply abs_between in E0, E1, E2, N1, N2. apply Rabs_le. lra.
  - destruct (fmul_ok (dx a) (dx b) Fa0 Fb0) as [F0 V0]; [lra|].
    destruct (fmul_ok (dy a) (dy b) Fa1 Fb1) as [F1 V1]; [lra|].
    destruct (fmul_ok (dz a) (dz b) Fa2 Fb2) as [F2 V2]; [lra|].
    pose proof (nerr (val (dx a) * val (dx b))) as E0. rewrite <- V0 in E0.
    pose proof (nerr (val (dy a) * val (dy b))) as E1. rewrite <- V1 in E1.
    pose proof (nerr (val (dz a) * val (dz b))) as E2. rewrite <- V2 in E2.
    set (p0 := val (dx a) * val (dx b)) in *. set (p1 := val (dy a) * val (dy b)) in *.
    set (p2 := val (dz a) * val (dz b)) in *.
    set (m0 := fmul (dx a) (dx b)) in *. set (m1 := fmul (dy a) (dy b)) in *. set (m2 := fmul (dz a) (dz b)) in *.
    pose proof (abs_le_dist _ _ _ E0) as A0. pose proof (abs_le_dist _ _ _ E1) as A1. pose proof (abs_le_dist _ _ _ E2) as A2.
    pose proof (Rabs_triang (val m1) (val m2)) as T1.
    destruct (fadd_ok m1 m2 F1 F2) as [G1 W1]; [lra|].
    pose proof (nerr (val m1 + val m2)) as N1. rewrite <- W1 in N1.
    pose proof (abs_le_dist _ _ _ N1) as B1.
    pose proof (Rabs_triang (val m0) (val (fadd m1 m2))) as T2.
    destruct (fadd_ok m0 (fadd m1 m2) F0 G1) as [G2 W2]; [lra|].
    pose proof (nerr (val m0 + val (fadd m1 m2))) as N2. rewrite <- W2 in N2.
    split; [exact G2|].
    apply abs_between in E0, E1, E2, N1, N2. apply Rabs_le. lra.
  - destruct (fmul_ok (dx a) (dx b) Fa0 Fb0) as [F0 V0]; [lra|].
    pose proof (nerr (val (dx a) * val (dx b))) as E0. rewrite <- V0 in E0.
    set (p0 := val (dx a) * val (dx b)) in *.
    set (m0 := fmul (dx a) (dx b)) in *.
    pose proof (abs_le_dist _ _ _ E0) as A0.
    pose proof (Rabs_triang (val (dy a) * val (dy b)) (val m0)) as T1.
    destruct (ffma_ok (dy a) (dy b) m0 Fa1 Fb1 F0) as [G1 W1]; [lra|].
    pose proof (nerr (val (dy a) * val (dy b) + val m0)) as N1. rewrite <- W1 in N1.
    set (s1 := ffma (dy a) (dy b) m0) in *. set (p1 := val (dy a) * val (dy b)) in *.
    pose proof (abs_le_dist _ _ _ N1) as B1.
    pose proof (Rabs_triang (val (dz a) * val (dz b)) (val s1)) as T2.
    destruct (ffma_ok (dz a) (dz b) s1 Fa2 Fb2 G1) as [G2 W2]; [lra|].
    pose proof (nerr (val (dz a) * val (dz b) + val s1)) as N2. rewrite <- W2 in N2.
    set (s2 := ffma (dz a) (dz b) s1) in *. set (p2 := val (dz a) * val (dz b)) in *.
    split; [exact G2|].
    pose proof (Rabs_pos p0). pose proof (Rabs_pos p1). pose proof (Rabs_pos p2).
    apply abs_between in E0, N1, N2. apply Rabs_le. lra.
Qed.

(** ** One step *)

Definition mrow0 (m : M3) := mkV (m00 m) (m01 m) (m02 m).
Definition mrow1 (m : M3) := mkV (m10 m) (m11 m) (m12 m).
Definition mrow2 (m : M3) := mkV (m20 m) (m21 m) (m22 m).

Lemma rot_col_norm m : is_rot m ->
  vnorm (mkV (m00 m) (m10 m) (m20 m)) = 1 /\ vnorm (mkV (m01 m) (m11 m) (m21 m)) = 1 /\
  vnorm (mkV (m02 m) (m12 m) (m22 m)) = 1.
Proof.
  intros [H _]. destruct m. unfold mul3, tr3, i3 in H; cbn in H. injection H; intros.
  unfold vnorm, vnorm2, vdot; cbn.
  repeat split; (rewrite <- sqrt_1; f_equal; assumption).
Qed.

(** Column of nearly a rotation times a row of nearly a rotation. *)
Lemma col_step o (c a : DV) (r : V3) d : 0 <= d <= / 1000 ->
  vfinite c -> vfinite a -> vnorm r = 1 -> vnorm (vval a) <= 2 ->
  Rabs (val (dx c) - vx r) <= d -> Rabs (val (dy c) - vy r) <= d -> Rabs (val (dz c) - vz r) <= d ->
  finite (ddot o c a) /\
  Rabs (val (ddot o c a) - vdot r (vval a)) <= d * sumabs (vval a) + 9 * u.
Proof.
  intros Hd Fc Fa Hr Ha C0 C1 C2.
  pose proof (comp_le_norm (vval a)) as (N0 & N1 & N2).
  pose proof (comp_le_norm r) as (R0 & R1 & R2). rewrite Hr in R0, R1, R2.
  pose proof (cauchy (vabs r) (vabs (vval a))) as CS. rewrite !norm_abs, Hr in CS.
  pose proof (ddot_ok o c a Fc Fa) as K.
  unfold vdot, vabs, sumabs in *. cbn [vx vy vz] in *. unfold vval in *. cbn [vx vy vz] in *.
  pose proof (abs_le_dist _ _ _ C0) as B0. pose proof (abs_le_dist _ _ _ C1) as B1. pose proof (abs_le_dist _ _ _ C2) as B2.
  set (a0 := val (dx a)) in *. set (a1 := val (dy a)) in *. set (a2 := val (dz a)) in *.
  set (c0 := val (dx c)) in *. set (c1 := val (dy c)) in *. set (c2 := val (dz c)) in *.
  set (q0 := vx r) in *. set (q1 := vy r) in *. set (q2 := vz r) in *.
  assert (Pr : forall x y z, Rabs x <= Rabs y + d -> Rabs (x * z) <= Rabs y * Rabs z + d * Rabs z).
  { intros x y z H. rewrite Rabs_mult. pose proof (Rabs_pos z). nra. }
  pose proof (Pr c0 q0 a0 B0) as P0. pose proof (Pr c1 q1 a1 B1) as P1. pose proof (Pr c2 q2 a2 B2) as P2.
  assert (Dz : forall z, Rabs z <= 2 -> 0 <= d * Rabs z <= 2 / 1000).
  { intros z Hz. pose proof (Rabs_pos z). split; [apply Rmult_le_pos; lra|].
    replace (2 / 1000) with (/ 1000 * 2) by field. apply Rmult_le_compat; lra. }
  assert (X0 : Rabs a0 <= 2) by lra. assert (X1 : Rabs a1 <= 2) by lra. assert (X2 : Rabs a2 <= 2) by lra.
  pose proof (Dz a0 X0) as D0. pose proof (Dz a1 X1) as D1. pose proof (Dz a2 X2) as D2.
  assert (Q : forall x z, 0 <= Rabs x * Rabs z) by (intros; apply Rmult_le_pos; apply Rabs_pos).
  pose proof (Q q0 a0) as Q0. pose proof (Q q1 a1) as Q1. pose proof (Q q2 a2) as Q2.
  pose proof big_ge as HB.
  destruct K as [F E]; try lra.
  split; [exact F|].
  pose proof eta_le as He.
  assert (X : forall x y z, Rabs (x - y) <= d -> - (d * Rabs z) <= (x - y) * z <= d * Rabs z).
  { intros x y z H. apply Rabs_le_inv. rewrite Rabs_mult. apply Rmult_le_compat_r; [apply Rabs_pos|exact H]. }
  pose proof (X c0 q0 a0 C0) as Y0. pose proof (X c1 q1 a1 C1) as Y1. pose proof (X c2 q2 a2 C2) as Y2.
  rewrite u_val in *. apply abs_between in E. apply Rabs_le. lra.
Qed.

Lemma row_step o (A : DM) (R : M3) (a : DV) (p : V3) d D :
  0 <= d <= / 1000 -> mfinite A -> vfinite a -> is_rot R -> vnorm p = 1 -> D <= 1 ->
  mwithin d (mval A) R -> vnorm (vsub (vval a) p) <= D ->
  vfinite (dapp o (dtr A) a) /\
  vnorm (vsub (vval (dapp o (dtr A) a)) (app3 (tr3 R) p)) <= D + (6 * d + / 2 ^ 48).
Proof.
  intros Hd FA Fa HR Hp HD1 W HD.
  assert (Ha : vnorm (vval a) <= 2).
  { replace (vval a) with (vadd p (vsub (vval a) p)) by (destruct p; unfold vval, vadd, vsub; cbn; f_equal; ring).
    eapply Rle_trans; [apply norm_triangle|]. lra. }
  destruct FA as ((f00 & f01 & f02) & (f10 & f11 & f12) & (f20 & f21 & f22)).
  destruct W as (w00 & w01 & w02 & w10 & w11 & w12 & w20 & w21 & w22).
  destruct (rot_col_norm R HR) as (n0 & n1 & n2).
  destruct (col_step o (dcol0 A) a _ d Hd (conj f00 (conj f10 f20)) Fa n0 Ha w00 w10 w20) as [F0 E0].
  destruct (col_step o (dcol1 A) a _ d Hd (conj f01 (conj f11 f21)) Fa n1 Ha w01 w11 w21) as [F1 E1].
  destruct (col_step o (dcol2 A) a _ d Hd (conj f02 (conj f12 f22)) Fa n2 Ha w02 w12 w22) as [F2 E2].
  split; [exact (conj F0 (conj F1 F2))|].
  set (y := vval (dapp o (dtr A) a)).
  replace (vsub y (app3 (tr3 R) p)) with
    (vadd (app3 (tr3 R) (vsub (vval a) p)) (vsub y (app3 (tr3 R) (vval a))))
    by (clear; destruct R, p, y, (vval a); unfold vadd, vsub, app3, tr3; cbn; f_equal; ring).
  eapply Rle_trans; [apply norm_triangle|]. rewrite norm_rot by now apply is_rot_tr.
  apply Rplus_le_compat; [exact HD|].
  pose proof (sumabs_sq (vval a)) as SS.
  assert (S : sumabs (vval a) * sumabs (vval a) <= 12).
  { rewrite <- vnorm_sq in SS. pose proof (vnorm_nonneg (vval a)). nra. }
  assert (S0 : 0 <= sumabs (vval a)).
  { unfold sumabs. pose proof (Rabs_pos (vx (vval a))). pose proof (Rabs_pos (vy (vval a))). pose proof (Rabs_pos (vz (vval a))). lra. }
  set (s := sumabs (vval a)) in *.
  assert (HS : s <= 3465 / 1000) by nra.
  assert (U0 : 0 < u) by (rewrite u_val; lra).
  assert (U : / 2 ^ 48 = 32 * u).
  { rewrite u_val. replace (2 ^ 48) with 281474976710656 by ring. lra. }
  assert (N : vnorm2 (vsub y (app3 (tr3 R) (vval a))) <= 3 * ((d * s + 9 * u) * (d * s + 9 * u))).
  { apply norm_comp.
    - eapply Rle_trans; [right|exact E0]. apply (f_equal Rabs). unfold y, vsub, app3, tr3, vval, dapp, dtr, vdot; cbn; ring.
    - eapply Rle_trans; [right|exact E1]. apply (f_equal Rabs). unfold y, vsub, app3, tr3, vval, dapp, dtr, vdot; cbn; ring.
    - eapply Rle_trans; [right|exact E2]. apply (f_equal Rabs). unfold y, vsub, app3, tr3, vval, dapp, dtr, vdot; cbn; ring. }
  apply norm_le_sq; [lra|]. eapply Rle_trans; [exact N|]. rewrite U.
  clear - Hd S S0 HS U0.
  assert (d * d * (s * s) <= 12 * (d * d)) by nra.
  assert (d * s * u <= d * u * (3465 / 1000)).
  { replace (d * s * u) with (d * u * s) by ring. apply Rmult_le_compat_l; [apply Rmult_le_pos; lra|lra]. }
  assert (0 <= d * u) by (apply Rmult_le_pos; lra). assert (0 <= u * u) by (apply Rmult_le_pos; lra).
  replace (3 * ((d * s + 9 * u) * (d * s + 9 * u))) with (3 * (d * d * (s * s)) + 54 * (d * s * u) + 243 * (u * u)) by ring.
  replace ((6 * d + 32 * u) * (6 * d + 32 * u)) with (36 * (d * d) + 384 * (d * u) + 1024 * (u * u)) by ring.
  lra.
Qed.

(** ** Products *)

Lemma rot_row_norm m : is_rot m -> vnorm (mrow0 m) = 1 /\ vnorm (mrow1 m) = 1 /\ vnorm (mrow2 m) = 1.
Proof. intros H. apply (rot_col_norm (tr3 m)). now apply is_rot_tr. Qed.

(** All rows near. *)
Definition rnear (D : R) (a : DM) (p : M3) : Prop :=
  vnorm (vsub (vval (r0 a)) (mrow0 p)) <= D /\ vnorm (vsub (vval (r1 a)) (mrow1 p)) <= D /\
  vnorm (vsub (vval (r2 a)) (mrow2 p)) <= D.

Lemma mul_step o a p A R d D : 0 <= d <= / 1000 -> mfinite a -> mfinite A -> is_rot p -> is_rot R ->
  D <= 1 -> mwithin d (mval A) R -> rnear D a p ->
  mfinite (dmul o a A) /\ rnear (D + (6 * d + / 2 ^ 48)) (dmul o a A) (mul3 p R).
Proof.
  intros Hd (Fa0 & Fa1 & Fa2) FA Hp HR HD W (N0 & N1 & N2).
  destruct (rot_row_norm p Hp) as (P0 & P1 & P2).
  destruct (row_step o A R (r0 a) _ d D Hd FA Fa0 HR P0 HD W N0) as [G0 M0].
  destruct (row_step o A R (r1 a) _ d D Hd FA Fa1 HR P1 HD W N1) as [G1 M1].
  destruct (row_step o A R (r2 a) _ d D Hd FA Fa2 HR P2 HD W N2) as [G2 M2].
  split; [exact (conj G0 (conj G1 G2))|].
  assert (Q : mrow0 (mul3 p R) = app3 (tr3 R) (mrow0 p) /\ mrow1 (mul3 p R) = app3 (tr3 R) (mrow1 p) /\
              mrow2 (mul3 p R) = app3 (tr3 R) (mrow2 p)).
  { clear. destruct p, R; unfold mrow0, mrow1, mrow2, mul3, app3, tr3; cbn. repeat split; f_equal; ring. }
  destruct Q as (Q0 & Q1 & Q2). unfold rnear. rewrite Q0, Q1, Q2. exact (conj M0 (conj M1 M2)).
Qed.

Lemma prod_drift o d : 0 <= d <= / 1000 -> forall As Rs,
  Forall2 (fun A R => mfinite A /\ is_rot R /\ mwithin d (mval A) R) As Rs ->
  forall a p D, 0 <= D -> D + INR (length As) * (6 * d + / 2 ^ 48) <= 1 -> mfinite a -> is_rot p -> rnear D a p ->
  mfinite (dprod o a As) /\ is_rot (mproduct p Rs) /\
  rnear (D + INR (length As) * (6 * d + / 2 ^ 48)) (dprod o a As) (mproduct p Rs).
Proof.
  intros Hd. induction 1 as [|A R As Rs (FA & HR & W) HF IH]; intros a p D D0 HD Fa Hp N.
  - cbn. rewrite Rmult_0_l, Rplus_0_r in *. auto.
  - change (length (A :: As)) with (S (length As)) in *. rewrite S_INR in *.
    pose proof (pos_INR (length As)) as Hn.
    assert (E0 : 0 <= 6 * d + / 2 ^ 48).
    { assert (0 < / 2 ^ 48) by (apply Rinv_0_lt_compat, pow_lt; lra). lra. }
    pose proof (Rmult_le_pos _ _ Hn E0) as Hm.
    set (e := 6 * d + / 2 ^ 48) in *.
    destruct (mul_step o a p A R d D) as [G M]; auto; [lra|].
    fold e in M.
    destruct (IH (dmul o a A) (mul3 p R) (D + e)) as (I1 & I2 & I3); auto; [lra|lra|now apply is_rot_mul|].
    split; [exact I1|]. split; [exact I2|].
    replace (D + (INR (length As) + 1) * e) with (D + e + INR (length As) * e) by ring. exact I3.
Qed.

Lemma rnear_mwithin D a p : rnear D a p -> mwithin D (mval a) p.
Proof.
  intros (N0 & N1 & N2).
  pose proof (comp_le_norm (vsub (vval (r0 a)) (mrow0 p))) as (a0 & a1 & a2).
  pose proof (comp_le_norm (vsub (vval (r1 a)) (mrow1 p))) as (b0 & b1 & b2).
  pose proof (comp_le_norm (vsub (vval (r2 a)) (mrow2 p))) as (c0 & c1 & c2).
  unfold mwithin, mval, vsub, vval, mrow0, mrow1, mrow2 in *. cbn in *.
  exact (conj (Rle_trans _ _ _ a0 N0) (conj (Rle_trans _ _ _ a1 N0) (conj (Rle_trans _ _ _ a2 N0)
        (conj (Rle_trans _ _ _ b0 N1) (conj (Rle_trans _ _ _ b1 N1) (conj (Rle_trans _ _ _ b2 N1)
        (conj (Rle_trans _ _ _ c0 N2) (conj (Rle_trans _ _ _ c1 N2) (Rle_trans _ _ _ c2 N2))))))))).
Qed.

Lemma mwithin_rnear d a p : 0 <= d -> mwithin d (mval a) p -> rnear (2 * d) a p.
Proof.
  intros H (w00 & w01 & w02 & w10 & w11 & w12 & w20 & w21 & w22). unfold rnear.
  assert (X : forall v, Rabs (vx v) <= d -> Rabs (vy v) <= d -> Rabs (vz v) <= d -> vnorm v <= 2 * d).
  { intros v A B C. apply norm_le_sq; [lra|]. pose proof (norm_comp v d A B C). nra. }
  split; [|split]; (apply X; assumption).
Qed.
