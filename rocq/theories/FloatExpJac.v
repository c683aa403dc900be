(** The Jacobian of the exponential of a twist computed on doubles: error analysis. *)

From Coq Require Import ZArith Reals Lra Lia Psatz List Bool.
From Flocq Require Import Core BinarySingleNaN.
From Verif Require Import V3 SpecLeaf LeafProofs ModelLeaf ModelFloat SpecFlt SpecFltQ FloatProofs FloatDrift FloatExp
  FloatLog FloatLog2 FloatAct PropsExpFlt FloatCoef FloatLogJac FloatRtLog.
Local Open Scope R_scope.

Local Notation w := (/ 9007199254740992).

Lemma sin_upper5 t : 0 <= t <= PI -> sin t <= t - t * t * t / 6 + t * t * t * t * t / 120.
Proof.
  intros H. destruct (sin_bound t 0 (proj1 H) (proj2 H)) as [_ U].
  unfold sin_approx, sin_term in U. cbn -[pow IZR] in U. 
  replace (INR 1) with 1 in U by reflexivity.
  eapply Rle_trans; [exact U|]. right. field.
Qed.
Lemma cos_upper4 t : 0 <= t <= PI -> cos t <= 1 - t * t / 2 + t * t * t * t / 24.
Proof.
  intros H. rewrite cos_half. pose proof (sin_lower (t / 2) ltac:(lra)) as L. pose proof PI_le.
  set (z := t / 2) in *. replace t with (2 * z) by (unfold z; field).
  assert (Hz : 0 <= z <= 63 / 40) by (unfold z; lra).
  assert (P : 0 <= z - z * z * z / 6).
  { replace (z - z * z * z / 6) with (z * (1 - z * z / 6)) by field. apply Rmult_le_pos; [lra|].
    assert (z * z <= 63 / 40 * (63 / 40)) by (apply Rmult_le_compat; lra). lra. }
  assert (Q : (z - z * z * z / 6) * (z - z * z * z / 6) <= sin z * sin z) by (apply Rmult_le_compat; lra).
  replace ((z - z * z * z / 6) * (z - z * z * z / 6)) with (z * z - z * z * z * z / 3 + z * z * z * (z * z * z) / 36) in Q by field.
  assert (0 <= z * z * z * (z * z * z)) by apply sq_nonneg.
  lra.
Qed.

Lemma quot_le n q k : Rabs n <= k * q -> 0 < q -> Rabs (n / q) <= k.
Proof.
  intros N Q. unfold Rdiv. rewrite Rabs_mult, (Rabs_pos_eq (/ q)) by (left; apply Rinv_0_lt_compat; lra).
  apply (Rmult_le_reg_r q); [lra|]. rewrite Rmult_assoc, Rinv_l by lra. lra.
Qed.

Section ExpJac.
  Variables (M : libm) (o : order) (v : DV).
  Hypothesis HM : one_ulp M.
  Hypothesis Fv : vfinite v.
  Local Notation x := (vval v).
  Local Notation th := (vnorm x).
  Hypothesis Hlo : / 1048576 <= th.
  Hypothesis Hhi : th <= PI.
  Local Notation q := (th * th).
  Local Notation W := (w / q).
  Local Notation h := (w + W).
  Local Notation hq := (h / q).
  Local Notation t2 := (ddot o v v).
  Local Notation t := (fsqrt t2).
  Local Notation D := (fsub f1 (fcos M t)).
  Local Notation A := (fdiv (fsin M t) t).
  Local Notation B := (fdiv D t2).
  Local Notation C := (fdiv (fsub f1 A) t2).
  Local Notation a := (sin th / th).
  Local Notation b := ((1 - cos th) / q).
  Local Notation c := ((1 - a) / q).

  Lemma e0 : 0 <= 0 <= / 100000. Proof. lra. Qed.
  Lemma exact_within : vwithin (0 * th) x x.
  Proof. unfold vwithin. rewrite !Rminus_diag_eq, Rabs_R0 by reflexivity. lra. Qed.
  Lemma g0 : gauge 0 = w. Proof. unfold gauge. ring. Qed.
  Lemma h_eq : scale x 0 = h. Proof. unfold scale. rewrite g0. reflexivity. Qed.

  (** The facts used throughout. *)
  Lemma facts : (/ 1099511627776 <= q <= 10) /\ (0 < th <= 63 / 20) /\ (0 < W <= 1 / 1000) /\ W * q = w /\ w <= 10 * W /\
    (0 < hq <= 10000000000) /\ hq * q = h /\ h <= 10 * hq /\ 1000000 * eta <= w * th /\ 1000000 * eta <= w * q /\
    1000000 * eta <= w /\ 0 < eta /\ 1000000000000000000000000000000 <= big.
  Proof.
    pose proof (q_bounds x Hlo Hhi) as QB. pose proof (th_hi x Hhi). destruct (eta_q x Hlo Hhi) as (E1 & E2 & E3).
    pose proof eta_pos. pose proof big_100.
    destruct (hq_range x 0 e0 Hlo Hhi) as (J1 & J2 & J3). rewrite h_eq in J1, J2, J3.
    destruct (h_range x 0 e0 Hlo Hhi) as (J4 & J5 & J6 & J7). rewrite h_eq in J4, J5, J6, J7.
    assert (WQ : W * q = w) by (field; lra). assert (W0 : 0 < W) by (apply Rdiv_lt_0_compat; lra).
    assert (W1 : W <= 1 / 1000) by (apply (Rmult_le_reg_r q); lra).
    assert (w <= 10 * W). { rewrite <- WQ at 1. rewrite Rmult_comm. apply Rmult_le_compat_r; lra. }
    assert (0 < hq) by (apply Rdiv_lt_0_compat; lra).
    repeat split; try assumption; lra.
  Qed.
  Ltac facts := pose proof facts as ((q0 & q1) & (th0 & th1) & (W0 & W1) & WQ & wW & (hq0 & hq1) & HQ & hhq & et1 & et2 & et3 & et4 & BIG).

  Lemma a_app : appr A a (20 * w).
  Proof. rewrite <- g0. apply A_appr; auto using e0, exact_within. Qed.
  Lemma b_app : appr B b (15 * w + 7 * W).
  Proof. rewrite <- g0 at 1. apply B_appr; auto using e0, exact_within. Qed.
  Lemma t2_app : appr t2 q (5 * (w * q)).
  Proof. rewrite <- g0. apply t2_appr; auto using e0, exact_within. Qed.
  Lemma ab_bounds : Rabs a <= 1 /\ 1 - q / 6 <= a <= 1 /\ 1 / 6 <= b <= 1 / 2.
  Proof. destruct (a_bounds x Hlo Hhi). destruct (b_bounds x Hlo Hhi). repeat split; lra. Qed.
  Lemma c_bounds : 0 <= c <= 1 / 6 /\ 1 / 6 - q / 120 <= c.
  Proof.
    facts. destruct ab_bounds as (_ & (A1 & A2) & _). assert (E : c * q = 1 - a) by (field; lra).
    assert (A3 : a <= 1 - q / 6 + q * q / 120).
    { pose proof (sin_upper5 th ltac:(lra)) as S. apply (Rmult_le_reg_r th); [lra|].
      replace (a * th) with (sin th) by (field; lra). lra. }
    repeat split; apply (Rmult_le_reg_r q); try lra.
  Qed.
  Lemma b_low : 1 / 2 - q / 24 <= b.
  Proof.
    facts. pose proof (cos_upper4 th ltac:(lra)) as S. apply (Rmult_le_reg_r q); [lra|].
    replace (b * q) with (1 - cos th) by (field; lra). lra.
  Qed.


  Lemma div_t2 y p e R g : appr y p e -> Rabs (p / q) <= R -> 0 <= R <= 1 -> 0 <= e <= 1000000000000 ->
    101 / 100 * (e / q) + 7 * (w * R) + eta <= g -> appr (fdiv y t2) (p / q) g.
  Proof.
    intros Y P [R0 R1] E1 G. facts.
    assert (EQ : e / q * q = e) by (field; lra).
    assert (EP : 0 <= e / q) by (apply Rmult_le_pos; [lra|left; apply Rinv_0_lt_compat; lra]).
    assert (e / q <= 1000000000000 * 1099511627776).
    { apply (Rmult_le_reg_r q); [lra|]. rewrite EQ. lra. }
    assert (Rq : 0 <= R * q <= 10). { split; [apply Rmult_le_pos; lra|]. replace 10 with (1 * 10) by ring. apply Rmult_le_compat; lra. }
    apply (appr_div _ _ _ _ e (5 * (w * q)) R (q * (1 - 5 * w)) (1001 / 1000 * (e / q) + 501 / 100 * (w * R))); auto using t2_app; try lra.
  Qed.

  Lemma c_app : appr C c (36 * W).
  Proof.
    facts. destruct ab_bounds as (_ & (A1 & A2) & _). destruct c_bounds as ((c0 & c1) & _).
    assert (S : appr (fsub f1 A) (1 - a) (24 * w)).
    { apply (appr_sub _ _ _ _ 0 (20 * w) 3); auto using appr_1, a_app; try lra. rewrite Rabs_pos_eq; lra. }
    apply (div_t2 _ _ (24 * w) (1 / 6)); auto; try lra.
    rewrite Rabs_pos_eq; lra.
  Qed.

  Lemma cb_app : appr (fsub C B) (c - b) (45 * h) /\ Rabs (c - b) <= 1 / 2.
  Proof.
    facts. destruct ab_bounds as (_ & _ & B1 & B2). destruct c_bounds as ((c0 & c1) & _).
    assert (X : Rabs (c - b) <= 1 / 2) by (apply Rabs_le; lra). split; [|exact X].
    apply (appr_sub _ _ _ _ (36 * W) (15 * w + 7 * W) 1); auto using c_app, b_app; lra.
  Qed.

  Local Notation K1 := ((a - 2 * b) / q).
  Lemma k1_app : appr (fdiv (fsub A (fmul f2 B)) t2) K1 (70 * hq) /\ Rabs K1 <= 1 / 6.
  Proof.
    facts. destruct ab_bounds as (_ & A0 & B1 & B2). pose proof (n_bounds x Hlo Hhi) as N.
    assert (X2 : appr (fmul f2 B) (2 * b) (32 * w + 14 * W)).
    { apply (appr_mul _ _ _ _ 0 (15 * w + 7 * W) 2 (1 / 2)); auto using appr_2, b_app; try lra;
        rewrite Rabs_pos_eq; lra. }
    assert (R : Rabs (a - 2 * b) <= 1 / 6 * q) by (apply Rabs_le; lra).
    assert (X3 : appr (fsub A (fmul f2 B)) (a - 2 * b) (55 * h)).
    { apply (appr_sub _ _ _ _ (20 * w) (32 * w + 14 * W) 2); auto using a_app; try lra. }
    assert (RK : Rabs K1 <= 1 / 6) by (apply quot_le; lra). split; [|exact RK].
    apply (div_t2 _ _ (55 * h) (1 / 6)); auto; try lra.
  Qed.

  Local Notation K2 := ((b - 3 * c) / q).
  Lemma appr_3 : appr f3 3 0.
  Proof.
    destruct (lit_small 3 3) as [F V]; [lia|reflexivity|]. split; [exact F|]. change (val f3) with (val (lit 3 0)). rewrite V.
    rewrite Rminus_diag_eq, Rabs_R0 by reflexivity. lra.
  Qed.
  Lemma k2_app : appr (fdiv (fsub B (fmul f3 C)) t2) K2 (130 * hq) /\ Rabs K2 <= 1 / 24.
  Proof.
    facts. destruct ab_bounds as (_ & A0 & B1 & B2). destruct c_bounds as ((c0 & c1) & c2). pose proof b_low as BL.
    assert (X2 : appr (fmul f3 C) (3 * c) (w + 109 * W)).
    { apply (appr_mul _ _ _ _ 0 (36 * W) 3 (1 / 6)); auto using appr_3, c_app; try lra;
        rewrite Rabs_pos_eq; lra. }
    assert (R : Rabs (b - 3 * c) <= 1 / 24 * q) by (apply Rabs_le; lra).
    assert (X3 : appr (fsub B (fmul f3 C)) (b - 3 * c) (118 * h)).
    { apply (appr_sub _ _ _ _ (15 * w + 7 * W) (w + 109 * W) 1); auto using b_app; try lra. }
    assert (RK : Rabs K2 <= 1 / 24) by (apply quot_le; lra). split; [|exact RK].
    apply (div_t2 _ _ (118 * h) (1 / 24)); auto; try lra.
  Qed.

  (** A component of w. *)
  Definition part (T : R) (s : double) (y : R) : Prop := appr s y 0 /\ Rabs y <= T.

  Local Notation cb := (fsub C B).
  Local Notation k1 := (fdiv (fsub A (fmul f2 B)) t2).
  Local Notation k2 := (fdiv (fsub B (fmul f3 C)) t2).
  Local Notation r := (hq * th).

  Lemma W_entry i I s y p y1 p' y2 : appr i I 0 -> 0 <= I <= 1 -> part th s y -> part th p y1 -> part th p' y2 ->
    appr (fadd (fadd (fmul cb i) (fmul k1 s)) (fmul (fmul k2 p) p'))
      ((c - b) * I + K1 * y + K2 * y1 * y2) (200 * h + 80 * r) /\
    Rabs ((c - b) * I + K1 * y + K2 * y1 * y2) <= 2.
  Proof.
    intros Hi HI [S1 S2] [P1 P2] [Q1 Q2]. facts.
    destruct cb_app as [X1 X2]. destruct k1_app as [Y1 Y2]. destruct k2_app as [Z1 Z2].
    assert (R0 : 0 < r) by (apply Rmult_lt_0_compat; lra).
    assert (R1 : r <= 10000000000 * (63 / 20)) by (apply Rmult_le_compat; lra).
    assert (RT : r * th = h) by (rewrite <- HQ at 2; field; lra).
    assert (wth : w * th <= 10 * r).
    { apply Rle_trans with (h * th); [apply Rmult_le_compat_r; lra|]. rewrite <- Rmult_assoc. apply Rmult_le_compat_r; lra. }
    assert (M1 : Rabs ((c - b) * I) <= 1 / 2).
    { rewrite Rabs_mult, (Rabs_pos_eq I) by lra. replace (1 / 2) with (1 / 2 * 1) by ring. apply Rmult_le_compat; try apply Rabs_pos; lra. }
    assert (M2 : Rabs (K1 * y) <= 1 / 6 * th) by (rewrite Rabs_mult; apply Rmult_le_compat; try apply Rabs_pos; lra).
    assert (M3 : Rabs (K2 * y1) <= 1 / 24 * th) by (rewrite Rabs_mult; apply Rmult_le_compat; try apply Rabs_pos; lra).
    assert (M4 : Rabs (K2 * y1 * y2) <= 1 / 24 * q).
    { rewrite Rabs_mult, <- Rmult_assoc. apply Rmult_le_compat; try apply Rabs_pos; lra. }
    assert (E1 : appr (fmul cb i) ((c - b) * I) (46 * h)).
    { apply (appr_mul _ _ _ _ (45 * h) 0 (1 / 2) 1); auto; try lra. rewrite Rabs_pos_eq; lra. }
    assert (E2 : appr (fmul k1 s) (K1 * y) (74 * r)).
    { apply (appr_mul _ _ _ _ (70 * hq) 0 (1 / 6) th); auto; try lra. }
    assert (E3 : appr (fmul k2 p) (K2 * y1) (134 * r)).
    { apply (appr_mul _ _ _ _ (130 * hq) 0 (1 / 24) th); auto; try lra. }
    assert (E4 : appr (fmul (fmul k2 p) p') (K2 * y1 * y2) (136 * h)).
    { apply (appr_mul _ _ _ _ (134 * r) 0 (1 / 24 * th) th); auto.
      - replace ((1 / 24 * th + 134 * r) * (th + 0)) with (1 / 24 * q + 134 * (r * th)) by (field; lra). rewrite RT. lra.
      - replace ((1 / 24 * th + 134 * r) * (th + 0)) with (1 / 24 * q + 134 * (r * th)) by (field; lra).
        replace (134 * r * (th + 0)) with (134 * (r * th)) by (field; lra). rewrite RT. lra. }
    apply Rabs_le_inv in M1, M2, M4.
    assert (E5 : appr (fadd (fmul cb i) (fmul k1 s)) ((c - b) * I + K1 * y) (48 * h + 76 * r)).
    { apply (appr_add _ _ _ _ (46 * h) (74 * r) (2 + 46 * h + 74 * r)); auto; try lra.
      assert (Rabs ((c - b) * I + K1 * y) <= 2) by (apply Rabs_le; lra). lra. }
    assert (TB : Rabs ((c - b) * I + K1 * y + K2 * y1 * y2) <= 2) by (apply Rabs_le; lra).
    split; [|exact TB].
    apply (appr_add _ _ _ _ (48 * h + 76 * r) (136 * h) (2 + 184 * h + 76 * r)); auto; lra.
  Qed.

  Variables (u : DV) (T : R).
  Hypothesis Fu : vfinite u.
  Hypothesis HT : vnorm (vval u) <= T.
  Hypothesis T1 : T <= big / 1000000000000000000000000000000.
  Hypothesis T2 : 1000000 * eta <= w * T * / 1048576.
  Local Notation dt := (ddot o v u).
  Local Notation d := (vdot x (vval u)).

  Lemma T_pos : 0 < T.
  Proof. pose proof eta_pos. destruct (Rlt_dec 0 T) as [K|K]; [exact K|]. lra. Qed.

  Lemma dot_bound : Rabs d <= th * T.
  Proof.
    facts. pose proof (cauchy x (vval u)) as C1. pose proof (cauchy (vopp x) (vval u)) as C2. rewrite norm_opp in C2.
    replace (vdot (vopp x) (vval u)) with (- d) in C2 by (unfold vdot, vopp; cbn [vx vy vz]; ring).
    assert (vnorm x * vnorm (vval u) <= th * T) by (apply Rmult_le_compat_l; lra). apply Rabs_le. lra.
  Qed.
  Lemma u_parts : part T (dx u) (vx (vval u)) /\ part T (dy u) (vy (vval u)) /\ part T (dz u) (vz (vval u)).
  Proof.
    destruct (comp_le_norm (vval u)) as (C0 & C1 & C2). destruct Fu as (F0 & F1 & F2).
    repeat split; try (apply appr_val; assumption); lra.
  Qed.
  Lemma v_parts : part th (dx v) (vx x) /\ part th (dy v) (vy x) /\ part th (dz v) (vz x).
  Proof.
    destruct (comp_le_norm x) as (C0 & C1 & C2). destruct Fv as (F0 & F1 & F2).
    repeat split; try (apply appr_val; assumption); lra.
  Qed.
  Lemma part_opp S s y : part S s y -> part S (fopp s) (- y).
  Proof. intros [P Q]. split; [now apply appr_opp|now rewrite Rabs_Ropp]. Qed.
  Lemma part_0 S : 0 <= S -> part S f0 0.
  Proof. intros HS. split; [apply appr_0|rewrite Rabs_R0; lra]. Qed.

  Lemma dt_app : appr dt d (14 * (w * (th * T))).
  Proof.
    facts. pose proof T_pos as TP. destruct u_parts as ([[U0 _] U1] & [[V0 _] V1] & [[X0 _] X1]).
    destruct v_parts as ([_ Y1] & [_ Z1] & [_ S1]).
    unfold vval in U1, V1, X1, Y1, Z1, S1; cbn [vx vy vz] in U1, V1, X1, Y1, Z1, S1. fold x in Y1, Z1, S1.
    assert (TT : 0 < th * T) by (apply Rmult_lt_0_compat; lra).
    assert (TT1 : th * T <= 63 / 20 * T) by (apply Rmult_le_compat_r; lra).
    assert (TT2 : / 1048576 * T <= th * T) by (apply Rmult_le_compat_r; lra).
    assert (P : forall y z, Rabs y <= th -> Rabs z <= T -> Rabs (y * z) <= th * T).
    { intros. rewrite Rabs_mult. apply Rmult_le_compat; try apply Rabs_pos; assumption. }
    pose proof (P _ _ Y1 U1) as P1. pose proof (P _ _ Z1 V1) as P2. pose proof (P _ _ S1 X1) as P3.
    destruct (ddot_ok o v u) as [F E]; auto; try lra.
    split; [exact F|]. rewrite u_val in E. lra.
  Qed.

  Lemma B_entry su sy wi wy uj uz ui uy wj wz Wd Wx : part T su sy -> part th wi wy -> part T uj uz -> part T ui uy -> part th wj wz ->
    appr Wd Wx (200 * h + 80 * r) /\ Rabs Wx <= 2 ->
    appr (fadd (fadd (fmul B su) (fmul C (fadd (fmul wi uj) (fmul ui wj)))) (fmul dt Wd))
      (b * sy + c * (wy * uz + uy * wz) + d * Wx) (1200 * (h * T)).
  Proof.
    intros [S1 S2] [P1 P2] [Q1 Q2] [X1 X2] [Y1 Y2] [Z1 Z2]. facts. pose proof T_pos as TP. pose proof dot_bound as DB.
    destruct ab_bounds as (_ & _ & B1 & B2). destruct c_bounds as ((c0 & c1) & _).
    assert (TT : 0 < th * T) by (apply Rmult_lt_0_compat; lra).
    assert (TT1 : th * T <= 63 / 20 * T) by (apply Rmult_le_compat_r; lra).
    assert (TT2 : / 1048576 * T <= th * T) by (apply Rmult_le_compat_r; lra).
    assert (HT0 : 0 < h * T) by (apply Rmult_lt_0_compat; lra).
    assert (wT : w * T <= h * T) by (apply Rmult_le_compat_r; lra).
    assert (hT1 : h * T <= / 900 * T) by (apply Rmult_le_compat_r; lra).
    assert (hTT : h * (th * T) <= 63 / 20 * (h * T)).
    { replace (63 / 20 * (h * T)) with (h * (63 / 20 * T)) by (field; lra). apply Rmult_le_compat_l; lra. }
    assert (WT : W * (th * T) <= h * (th * T)) by (apply Rmult_le_compat_r; lra).
    assert (wTT : w * (th * T) <= h * (th * T)) by (apply Rmult_le_compat_r; lra).
    assert (W0T : 0 < W * (th * T)) by (apply Rmult_lt_0_compat; lra).
    assert (W0T' : 0 < W * T) by (apply Rmult_lt_0_compat; lra).
    assert (E1 : appr (fmul B su) (b * sy) (16 * (h * T))).
    { apply (appr_mul _ _ _ _ (15 * w + 7 * W) 0 (1 / 2) T); auto using b_app; try lra.
      rewrite Rabs_pos_eq; lra. }
    assert (M1 : Rabs (b * sy) <= 1 / 2 * T).
    { rewrite Rabs_mult, (Rabs_pos_eq b) by lra. apply Rmult_le_compat; try apply Rabs_pos; lra. }
    assert (M2 : Rabs (wy * uz) <= th * T) by (rewrite Rabs_mult; apply Rmult_le_compat; try apply Rabs_pos; lra).
    assert (M3 : Rabs (uy * wz) <= th * T) by (rewrite Rabs_mult, Rmult_comm; apply Rmult_le_compat; try apply Rabs_pos; lra).
    assert (E2 : appr (fmul wi uj) (wy * uz) (11 / 10 * (w * (th * T)))).
    { apply (appr_mul _ _ _ _ 0 0 th T); auto; try lra. }
    assert (E3 : appr (fmul ui wj) (uy * wz) (11 / 10 * (w * (th * T)))).
    { apply (appr_mul _ _ _ _ 0 0 T th); auto; try lra. }
    apply Rabs_le_inv in M2, M3.
    assert (M4 : Rabs (wy * uz + uy * wz) <= 2 * (th * T)) by (apply Rabs_le; lra).
    assert (E4 : appr (fadd (fmul wi uj) (fmul ui wj)) (wy * uz + uy * wz) (5 * (w * (th * T)))).
    { apply (appr_add _ _ _ _ (11 / 10 * (w * (th * T))) (11 / 10 * (w * (th * T))) (21 / 10 * (th * T))); auto; lra. }
    assert (M5 : Rabs (c * (wy * uz + uy * wz)) <= 1 / 3 * (th * T)).
    { rewrite Rabs_mult, (Rabs_pos_eq c) by lra. replace (1 / 3 * (th * T)) with (1 / 6 * (2 * (th * T))) by field.
      apply Rmult_le_compat; try apply Rabs_pos; lra. }
    assert (WwT : w * (W * (th * T)) <= / 1000 * (w * (th * T))).
    { replace (w * (W * (th * T))) with (W * (w * (th * T))) by (field; lra). apply Rmult_le_compat_r; lra. }
    assert (E5 : appr (fmul C (fadd (fmul wi uj) (fmul ui wj))) (c * (wy * uz + uy * wz)) (76 * (h * (th * T)))).
    { apply (appr_mul _ _ _ _ (36 * W) (5 * (w * (th * T))) (1 / 6) (2 * (th * T))); auto using c_app; try lra.
      rewrite Rabs_pos_eq; lra. }
    assert (R0 : 0 < r) by (apply Rmult_lt_0_compat; lra).
    assert (R1 : r <= 10000000000 * (63 / 20)) by (apply Rmult_le_compat; lra).
    assert (RT : r * (th * T) = h * T) by (rewrite <- HQ at 2; field; lra).
    assert (M6 : Rabs (d * Wx) <= 2 * (th * T)).
    { rewrite Rabs_mult, (Rmult_comm 2). apply Rmult_le_compat; try apply Rabs_pos; lra. }
    assert (E6 : appr (fmul dt Wd) (d * Wx) (830 * (h * T))).
    { apply (appr_mul _ _ _ _ (14 * (w * (th * T))) (200 * h + 80 * r) (th * T) 2); auto using dt_app; try lra. }
    apply Rabs_le_inv in M1, M5, M6.
    assert (E7 : appr (fadd (fmul B su) (fmul C (fadd (fmul wi uj) (fmul ui wj)))) (b * sy + c * (wy * uz + uy * wz)) (260 * (h * T))).
    { apply (appr_add _ _ _ _ (16 * (h * T)) (76 * (h * (th * T))) (3 * T)); auto; try lra.
      assert (Rabs (b * sy + c * (wy * uz + uy * wz)) <= 2 * T) by (apply Rabs_le; lra). lra. }
    apply (appr_add _ _ _ _ (260 * (h * T)) (830 * (h * T)) (20 * T)); auto; try lra.
    assert (Rabs (b * sy + c * (wy * uz + uy * wz) + d * Wx) <= 10 * T) by (apply Rabs_le; lra). lra.
  Qed.

  Definition exact_block : M3 :=
    add3 (add3 (scal3 b (skew (vval u))) (scal3 c (add3 (outer3 x (vval u)) (outer3 (vval u) x))))
         (scal3 d (add3 (add3 (scal3 (c - b) i3) (scal3 K1 (skew x))) (scal3 K2 (outer3 x x)))).

  Theorem block_close : mfinite (dexp_jac_block M o v u) /\
    mwithin (1200 * (h * T)) (mval (dexp_jac_block M o v u)) exact_block.
  Proof.
    facts. pose proof T_pos as TP.
    destruct v_parts as (X & Y & Z). pose proof (part_opp _ _ _ X) as X'. pose proof (part_opp _ _ _ Y) as Y'.
    pose proof (part_opp _ _ _ Z) as Z'. destruct u_parts as (P & Q & S). pose proof (part_opp _ _ _ P) as P'.
    pose proof (part_opp _ _ _ Q) as Q'. pose proof (part_opp _ _ _ S) as S'.
    pose proof (part_0 T ltac:(lra)) as OT. pose proof (part_0 th ltac:(lra)) as Ot.
    pose proof appr_0 as I0. pose proof appr_1 as I1. assert (R0 : 0 <= 0 <= 1) by lra. assert (R1 : 0 <= 1 <= 1) by lra.
    pose proof W_entry as WE.
    pose proof (fun su sy wi wy uj uz ui uy wj wz Wd Wx a1 a2 a3 a4 a5 a6 V E =>
      appr_eq _ _ V _ (B_entry su sy wi wy uj uz ui uy wj wz Wd Wx a1 a2 a3 a4 a5 a6) E) as BE.
    assert (E : appr (dx (r0 (dexp_jac_block M o v u))) (m00 exact_block) (1200 * (h * T)) /\
                appr (dy (r0 (dexp_jac_block M o v u))) (m01 exact_block) (1200 * (h * T)) /\
                appr (dz (r0 (dexp_jac_block M o v u))) (m02 exact_block) (1200 * (h * T)) /\
                appr (dx (r1 (dexp_jac_block M o v u))) (m10 exact_block) (1200 * (h * T)) /\
                appr (dy (r1 (dexp_jac_block M o v u))) (m11 exact_block) (1200 * (h * T)) /\
                appr (dz (r1 (dexp_jac_block M o v u))) (m12 exact_block) (1200 * (h * T)) /\
                appr (dx (r2 (dexp_jac_block M o v u))) (m20 exact_block) (1200 * (h * T)) /\
                appr (dy (r2 (dexp_jac_block M o v u))) (m21 exact_block) (1200 * (h * T)) /\
                appr (dz (r2 (dexp_jac_block M o v u))) (m22 exact_block) (1200 * (h * T))).
    { unfold exact_block, dexp_jac_block. cbv zeta.
      revert WE BE. set (k1' := k1). set (k2' := k2). set (c' := C). set (b' := B). set (dd := dt).
      set (kk1 := K1). set (kk2 := K2). set (cc := c). set (bb := b). set (dr := d).
      clearbody kk1 kk2 cc bb dr k1' k2' dd c' b'. intros WE BE.
      cbn [douter dmapm2 dmapm dmapv2 dmapv dskew did r0 r1 r2 dx dy dz].
      refine (conj _ (conj _ (conj _ (conj _ (conj _ (conj _ (conj _ (conj _ _)))))))).
      all: eapply BE; [eassumption|eassumption|eassumption|eassumption|eassumption|eapply WE; eassumption|].
      all: cbn [add3 scal3 outer3 skew i3 m00 m01 m02 m10 m11 m12 m20 m21 m22]; ring. }
    destruct E as ((? & ?) & (? & ?) & (? & ?) & (? & ?) & (? & ?) & (? & ?) & (? & ?) & (? & ?) & (? & ?)).
    split; repeat split; assumption.
  Qed.
End ExpJac.
