(** The coefficients sin(t)/t and (1-cos(t))/t^2 computed on doubles from an approximate
    vector: error analysis. *)

From Coq Require Import ZArith Reals Lra Lia Psatz List Bool.
From Flocq Require Import Core BinarySingleNaN.
From Verif Require Import V3 SpecLeaf LeafProofs ModelLeaf ModelFloat SpecFlt SpecFltQ FloatProofs FloatDrift FloatExp
  FloatLog FloatLog2 FloatAct PropsExpFlt.
Local Open Scope R_scope.

Local Notation w := (/ 9007199254740992).

(** A finite double within [e] of a real number. *)
Definition appr (x : double) (p e : R) : Prop := finite x /\ Rabs (val x - p) <= e.

Lemma appr_weak x p e f : appr x p e -> e <= f -> appr x p f.
Proof. intros [F H] L. split; [exact F|lra]. Qed.
Lemma appr_val x : finite x -> appr x (val x) 0.
Proof. intros F. split; [exact F|]. rewrite Rminus_diag_eq by reflexivity. rewrite Rabs_R0. lra. Qed.
Lemma appr_eq x p q e : appr x p e -> p = q -> appr x q e.
Proof. now intros H <-. Qed.
Lemma appr_opp x p e : appr x p e -> appr (fopp x) (- p) e.
Proof.
  intros [F H]. destruct (fopp_ok x F) as [F' V]. split; [exact F'|]. rewrite V.
  replace (- val x - - p) with (- (val x - p)) by ring. now rewrite Rabs_Ropp.
Qed.

Lemma appr_add x y p q e f B g : appr x p e -> appr y q f -> Rabs (p + q) + e + f <= B -> B <= big ->
  e + f + w * B + eta <= g -> appr (fadd x y) (p + q) g.
Proof.
  intros [Fx Hx] [Fy Hy] HB B10 HG.
  assert (D : Rabs ((val x + val y) - (p + q)) <= e + f).
  { apply abs_between in Hx, Hy. apply Rabs_le. lra. }
  pose proof (abs_le_dist _ _ _ D).
  destruct (fadd_ok x y Fx Fy) as [F V]; [lra|]. split; [exact F|].
  pose proof (nerr (val x + val y)) as N. rewrite <- V in N.
  apply abs_between in N, D. apply Rabs_le. lra.
Qed.
Lemma appr_sub x y p q e f B g : appr x p e -> appr y q f -> Rabs (p - q) + e + f <= B -> B <= big ->
  e + f + w * B + eta <= g -> appr (fsub x y) (p - q) g.
Proof.
  intros [Fx Hx] [Fy Hy] HB B10 HG.
  assert (D : Rabs ((val x - val y) - (p - q)) <= e + f).
  { apply abs_between in Hx, Hy. apply Rabs_le. lra. }
  pose proof (abs_le_dist _ _ _ D).
  destruct (fsub_ok x y Fx Fy) as [F V]; [lra|]. split; [exact F|].
  pose proof (nerr (val x - val y)) as N. rewrite <- V in N.
  apply abs_between in N, D. apply Rabs_le. lra.
Qed.

Lemma appr_mul x y p q e f P Q g : appr x p e -> appr y q f -> Rabs p <= P -> Rabs q <= Q ->
  (P + e) * (Q + f) <= big ->
  e * (Q + f) + P * f + w * ((P + e) * (Q + f)) + eta <= g -> appr (fmul x y) (p * q) g.
Proof.
  intros [Fx Hx] [Fy Hy] HP HQ HB HG.
  pose proof (Rabs_pos (val x - p)). pose proof (Rabs_pos (val y - q)). pose proof (Rabs_pos p). pose proof (Rabs_pos q).
  assert (Ay : Rabs (val y) <= Q + f) by (pose proof (abs_le_dist _ _ _ Hy); lra).
  assert (Ax : Rabs (val x) <= P + e) by (pose proof (abs_le_dist _ _ _ Hx); lra).
  assert (AM : Rabs (val x * val y) <= (P + e) * (Q + f)).
  { rewrite Rabs_mult. apply Rmult_le_compat; auto; apply Rabs_pos. }
  assert (D : Rabs (val x * val y - p * q) <= e * (Q + f) + P * f).
  { replace (val x * val y - p * q) with ((val x - p) * val y + p * (val y - q)) by ring.
    eapply Rle_trans; [apply Rabs_triang|]. rewrite !Rabs_mult.
    apply Rplus_le_compat; apply Rmult_le_compat; auto; apply Rabs_pos. }
  destruct (fmul_ok x y Fx Fy) as [F V]; [lra|]. split; [exact F|].
  pose proof (nerr (val x * val y)) as N. rewrite <- V in N.
  apply abs_between in N, D. apply Rabs_le. lra.
Qed.

Lemma appr_div x y p q e f R m E g : appr x p e -> appr y q f -> Rabs (p / q) <= R -> 0 < m -> m <= q - f ->
  e + R * f <= E * m -> R + E <= big -> E + w * (R + E) + eta <= g -> appr (fdiv x y) (p / q) g.
Proof.
  intros [Fx Hx] [Fy Hy] HR Hm Hq HE HB HG.
  pose proof (Rabs_pos (val x - p)). pose proof (Rabs_pos (val y - q)). pose proof (Rabs_pos (p / q)).
  pose proof (abs_between _ _ _ Hy) as By. assert (Ly : m <= val y) by lra.
  assert (Y0 : val y <> 0) by lra. assert (Q0 : q <> 0) by lra.
  assert (D : Rabs (val x / val y - p / q) <= E).
  { replace (val x / val y - p / q) with (((val x - p) - p / q * (val y - q)) * / val y) by (field; auto).
    rewrite Rabs_mult, (Rabs_pos_eq (/ val y)) by (left; apply Rinv_0_lt_compat; lra).
    apply (Rmult_le_reg_r (val y)); [lra|]. rewrite Rmult_assoc, Rinv_l, Rmult_1_r by exact Y0.
    assert (E0 : 0 <= E).
    { apply (Rmult_le_reg_r m); [exact Hm|]. rewrite Rmult_0_l. eapply Rle_trans; [|exact HE].
      apply Rplus_le_le_0_compat; [lra|]. apply Rmult_le_pos; lra. }
    apply Rle_trans with (E * m); [|apply Rmult_le_compat_l; assumption].
    eapply Rle_trans; [apply Rabs_triang|]. rewrite Rabs_Ropp, Rabs_mult.
    eapply Rle_trans; [|exact HE]. apply Rplus_le_compat; [exact Hx|].
    apply Rmult_le_compat; auto; apply Rabs_pos. }
  pose proof (abs_le_dist _ _ _ D).
  destruct (fdiv_ok x y Fx Y0) as [F V]; [lra|]. split; [exact F|].
  pose proof (nerr (val x / val y)) as N. rewrite <- V in N.
  apply abs_between in N, D. apply Rabs_le. lra.
Qed.

Lemma PI_sq : PI * PI <= 10.
Proof. pose proof PI_le. pose proof PI_ge. apply Rle_trans with (63 / 20 * (63 / 20)); [apply Rmult_le_compat; lra|lra]. Qed.

Section Coef.
  Variables (M : libm) (o : order) (v : DV) (x : V3) (e : R).
  Hypothesis HM : one_ulp M.
  Hypothesis Fv : vfinite v.
  Hypothesis He : 0 <= e <= / 100000.
  Local Notation th := (vnorm x).
  Hypothesis Hv : vwithin (e * th) (vval v) x.
  Hypothesis Hlo : / 1048576 <= th.
  Hypothesis Hhi : th <= PI.

  Definition gauge : R := e + w.
  Local Notation g := gauge.
  Local Notation q := (th * th).
  (** The scale of the errors. *)
  Definition scale : R := g + w / q.
  Local Notation h := scale.

  Lemma g_bounds : w <= g <= / 99999 /\ e <= g. Proof. unfold gauge. lra. Qed.
  Lemma q_bounds : / 1099511627776 <= q <= 10.
  Proof.
    pose proof PI_sq. pose proof PI_ge. split.
    - replace (/ 1099511627776) with (/ 1048576 * / 1048576) by field. apply Rmult_le_compat; lra.
    - apply Rle_trans with (PI * PI); [apply Rmult_le_compat; lra|lra].
  Qed.
  Lemma th_hi : th <= 63 / 20. Proof. pose proof PI_le. lra. Qed.
  Lemma h_bounds : g <= h /\ w <= h * q.
  Proof.
    pose proof q_bounds. unfold scale. assert (0 < w / q) by (apply Rdiv_lt_0_compat; lra). split; [lra|].
    pose proof g_bounds. assert (0 <= g * q) by (apply Rmult_le_pos; lra).
    replace ((g + w / q) * q) with (g * q + w) by (field; lra). lra.
  Qed.
  Lemma gq : 0 <= g * q <= 10 * g /\ w * q <= g * q.
  Proof.
    pose proof q_bounds. pose proof g_bounds as ((a & b) & _). split; [split; [apply Rmult_le_pos; lra|]|].
    - rewrite (Rmult_comm 10). apply Rmult_le_compat_l; lra.
    - apply Rmult_le_compat_r; lra.
  Qed.
  Lemma gth : 0 <= g * th <= 63 / 20 * g /\ w * th <= g * th.
  Proof.
    pose proof th_hi. pose proof g_bounds as ((a & b) & _). split; [split; [apply Rmult_le_pos; lra|]|].
    - rewrite (Rmult_comm (63 / 20)). apply Rmult_le_compat_l; lra.
    - apply Rmult_le_compat_r; lra.
  Qed.
  (** The least double is of no account. *)
  Lemma eta_q : 1000000 * eta <= w * q /\ 1000000 * eta <= w * th /\ 1000000 * eta <= w.
  Proof. pose proof eta_le. pose proof q_bounds. lra. Qed.

  Local Notation N := (vnorm (vval v)).
  Lemma N_near : th * (1 - 2 * e) <= N <= th * (1 + 2 * e).
  Proof.
    pose proof (norm_dist (vval v) x) as D. pose proof (vwithin_norm _ _ _ Hv) as W. apply abs_between in D. lra.
  Qed.
  Lemma N_huge : N <= huge.
  Proof. pose proof N_near as [_ B]. destruct huge_ok as [H _]. pose proof th_hi. 
    assert (th * (1 + 2 * e) <= 63 / 20 * 2) by (apply Rmult_le_compat; lra). lra. Qed.

  Lemma N2_near : Rabs (N * N - q) <= 41 / 10 * (e * q).
  Proof.
    pose proof N_near as [A B]. pose proof q_bounds as [Q _].
    assert (0 <= th * (1 - 2 * e)) by (apply Rmult_le_pos; lra).
    assert (U : N * N <= th * (1 + 2 * e) * (th * (1 + 2 * e))) by (apply Rmult_le_compat; lra).
    assert (L : th * (1 - 2 * e) * (th * (1 - 2 * e)) <= N * N) by (apply Rmult_le_compat; lra).
    replace (th * (1 + 2 * e) * (th * (1 + 2 * e))) with (q + 4 * (e * q) + 4 * e * (e * q)) in U by ring.
    replace (th * (1 - 2 * e) * (th * (1 - 2 * e))) with (q - 4 * (e * q) + 4 * e * (e * q)) in L by ring.
    assert (P : 0 <= e * q) by (apply Rmult_le_pos; lra).
    assert (0 <= 4 * e * (e * q) <= 4 * / 100000 * (e * q)).
    { split; [apply Rmult_le_pos; lra|apply Rmult_le_compat_r; lra]. }
    apply Rabs_le. lra.
  Qed.

  Local Notation t2 := (ddot o v v).
  Lemma t2_appr : appr t2 q (5 * (g * q)).
  Proof.
    destruct (a2_ok o v Fv N_huge) as [F E]. split; [exact F|]. rewrite u_val in E.
    pose proof N2_near as D. pose proof (gq) as (G1 & G2). pose proof eta_q as (EQ & _).
    assert (EW : g * q = e * q + w * q) by (unfold gauge; ring).
    assert (e * q <= / 100000 * q) by (apply Rmult_le_compat_r; pose proof q_bounds; lra).
    apply abs_between in D, E. apply Rabs_le. lra.
  Qed.

  Local Notation t := (fsqrt t2).
  Lemma t_appr : appr t th (7 * (g * th)).
  Proof.
    destruct t2_appr as [F E]. apply abs_between in E. pose proof q_bounds as [Q0 Q1]. pose proof g_bounds as ((g0 & g1) & _).
    pose proof gth as (G1 & G2). pose proof eta_q as (_ & EQ & _). 
    assert (P : 0 <= val t2).
    { assert (5 * (g * q) <= 5 * (/ 99999 * q)) by (apply Rmult_le_compat_l; [lra|apply Rmult_le_compat_r; lra]). lra. }
    destruct (fsqrt_ok _ F P) as [Fs Vs]. split; [exact Fs|]. rewrite Vs.
    assert (U : sqrt (val t2) <= th * (1 + 5 * g)).
    { rewrite <- (sqrt_square (th * (1 + 5 * g))) by (apply Rmult_le_pos; lra). apply sqrt_le_1_alt.
      replace (th * (1 + 5 * g) * (th * (1 + 5 * g))) with (q + 10 * (g * q) + 25 * g * (g * q)) by ring.
      pose proof gq as ((G & _) & _). assert (0 <= 25 * g * (g * q)) by (apply Rmult_le_pos; lra). lra. }
    assert (L : th * (1 - 5 * g) <= sqrt (val t2)).
    { rewrite <- (sqrt_square (th * (1 - 5 * g))) by (apply Rmult_le_pos; lra). apply sqrt_le_1_alt.
      replace (th * (1 - 5 * g) * (th * (1 - 5 * g))) with (q - 10 * (g * q) + 25 * g * (g * q)) by ring.
      pose proof gq as ((G & _) & _). assert (25 * g * (g * q) <= 1 * (g * q)) by (apply Rmult_le_compat_r; lra). lra. }
    pose proof (nerr (sqrt (val t2))) as Er. apply abs_between in Er. rewrite Rabs_pos_eq in Er by apply sqrt_pos.
    assert (g * th <= / 99999 * th) by (apply Rmult_le_compat_r; lra).
    apply Rabs_le. lra.
  Qed.

  Lemma sin_appr : appr (fsin M t) (sin th) (11 * (g * th)).
  Proof.
    destruct t_appr as [F E]. destruct HM as [HS _]. destruct (HS _ F) as [Fs Es]. split; [exact Fs|].
    destruct ulp_num as [U1 U2]. rewrite U1, U2 in Es.
    pose proof (sin_lip (val t) th) as L. pose proof (abs_sin_le (val t)) as A. pose proof (abs_le_dist _ _ _ E) as B.
    rewrite (Rabs_pos_eq th) in B by lra. pose proof gth as (G1 & G2). pose proof eta_q as (_ & EQ & _). pose proof eta_pos.
    assert (g * th <= / 99999 * th) by (apply Rmult_le_compat_r; pose proof g_bounds; lra).
    pose proof (abs_between _ _ _ Es). pose proof (abs_between _ _ _ (Rle_trans _ _ _ L E)). apply Rabs_le. lra.
  Qed.

  Lemma cos_close a b d : 0 <= a -> Rabs (b - a) <= d -> d <= a -> Rabs (cos b - cos a) <= 3 / 2 * (d * a).
  Proof.
    intros Ha Hd Hda. rewrite form2. 
    pose proof (abs_sin_le ((b - a) / 2)) as S1. pose proof (abs_sin_le ((b + a) / 2)) as S2.
    pose proof (abs_between _ _ _ Hd) as B.
    rewrite (Rabs_pos_eq ((b + a) / 2)) in S2 by lra.
    assert (S3 : Rabs ((b - a) / 2) <= d / 2).
    { unfold Rdiv. rewrite Rabs_mult, (Rabs_pos_eq (/ 2)) by lra. lra. }
    rewrite !Rabs_mult. replace (Rabs (-2)) with 2 by (rewrite Rabs_left; lra).
    apply Rle_trans with (2 * (d / 2) * (3 / 2 * a)); [|lra].
    apply Rmult_le_compat; try apply Rabs_pos; try lra. apply Rmult_le_pos; [lra|apply Rabs_pos].
  Qed.

  Local Notation D := (fsub f1 (fcos M t)).
  Lemma D_appr : appr D (1 - cos th) (11 * (g * q) + 6 * w).
  Proof.
    destruct t_appr as [F E]. destruct HM as [_ HC]. destruct (HC _ F) as [Fc Ec].
    destruct ulp_num as [U1 U2]. rewrite U1, U2 in Ec.
    pose proof g_bounds as ((g0 & g1) & _). pose proof gq as (G1 & G2). pose proof eta_q as (_ & _ & EQ). pose proof eta_pos.
    assert (K : 7 * (g * th) <= th).
    { replace th with (1 * th) at 2 by ring. rewrite <- Rmult_assoc. apply Rmult_le_compat_r; lra. }
    pose proof (cos_close th (val t) _ ltac:(lra) E K) as L.
    assert (LE : 3 / 2 * (7 * (g * th) * th) = 21 / 2 * (g * q)) by field.
    rewrite LE in L.
    pose proof (COS_bound (val t)) as CB. assert (CA : Rabs (cos (val t)) <= 1) by (apply Rabs_le; lra).
    assert (appr (fcos M t) (cos th) (21 / 2 * (g * q) + 2 * w + 2 * eta)).
    { split; [exact Fc|]. pose proof (abs_between _ _ _ L). pose proof (abs_between _ _ _ Ec). apply Rabs_le. lra. }
    pose proof (COS_bound th). pose proof big_ge.
    apply (appr_sub _ _ _ _ 0 (21 / 2 * (g * q) + 2 * w + 2 * eta) (3)); auto; try lra.
    - destruct one_ok as [F1 V1]. rewrite <- V1. now apply appr_val.
    - rewrite Rabs_pos_eq by lra; lra.
  Qed.

  Local Notation a := (sin th / th).
  Local Notation c := (1 - cos th).
  Local Notation b := (c / q).
  Lemma D_pos : q / 6 <= c <= q / 2.
  Proof. pose proof (cos_upper th ltac:(lra)). pose proof (cos_lower th). lra. Qed.
  Lemma b_bounds : 1 / 6 <= b <= 1 / 2.
  Proof.
    pose proof D_pos. pose proof q_bounds. split; apply (Rmult_le_reg_r q); try lra; unfold Rdiv; rewrite (Rmult_assoc c), Rinv_l; lra.
  Qed.
  Lemma a_bounds : Rabs a <= 1 /\ 1 - q / 6 <= a <= 1.
  Proof.
    assert (0 < th) by lra. pose proof (sin_lower th ltac:(lra)) as L. pose proof (sin_lt_x th ltac:(lra)) as U.
    pose proof (abs_sin_le th) as S. rewrite (Rabs_pos_eq th) in S by lra. split; [|split].
    - unfold Rdiv. rewrite Rabs_mult, (Rabs_pos_eq (/ th)) by (left; apply Rinv_0_lt_compat; lra).
      apply (Rmult_le_reg_r th); [lra|]. rewrite Rmult_assoc, Rinv_l; lra.
    - apply (Rmult_le_reg_r th); [lra|]. unfold Rdiv at 2. rewrite (Rmult_assoc (sin th)), Rinv_l by lra. lra.
    - apply (Rmult_le_reg_r th); [lra|]. unfold Rdiv. rewrite (Rmult_assoc (sin th)), Rinv_l by lra. lra.
  Qed.
  Lemma big_100 : 1000000000000000000000000000000 <= big.
  Proof. pose proof big_1. replace (2 ^ 200) with 1606938044258990275541962092341162602522202993782792835301376 in H by ring. lra. Qed.

  Lemma A_appr : appr (fdiv (fsin M t) t) a (20 * g).
  Proof.
    pose proof g_bounds as ((g0 & g1) & _). pose proof a_bounds as (A1 & _). pose proof big_100. pose proof eta_q as (_ & _ & EQ).
    pose proof eta_pos.
    apply (appr_div _ _ _ _ (11 * (g * th)) (7 * (g * th)) 1 (th * (1 - 7 * g)) (37 / 2 * g)); auto using sin_appr, t_appr; try lra.
    - apply Rmult_lt_0_compat; lra.
    - replace (37 / 2 * g * (th * (1 - 7 * g))) with (37 / 2 * (1 - 7 * g) * (g * th)) by ring.
      replace (11 * (g * th) + 1 * (7 * (g * th))) with (18 * (g * th)) by ring.
      apply Rmult_le_compat_r; [apply gth|]. lra.
  Qed.

  Lemma B_appr : appr (fdiv D t2) b (15 * g + 7 * (w / q)).
  Proof.
    pose proof g_bounds as ((g0 & g1) & _). pose proof b_bounds as Bb. pose proof big_100. pose proof eta_q as (_ & _ & EQ).
    pose proof eta_pos. pose proof q_bounds. pose proof gq as (G1 & G2).
    assert (W : 0 < w / q) by (apply Rdiv_lt_0_compat; lra).
    assert (WQ : w / q * q = w) by (field; lra).
    assert (W9 : w / q <= 1 / 1000).
    { apply (Rmult_le_reg_r q); lra. }
    apply (appr_div _ _ _ _ (11 * (g * q) + 6 * w) (5 * (g * q)) (1 / 2) (q * (1 - 5 * g)) (14 * g + 13 / 2 * (w / q))); auto using D_appr, t2_appr; try lra.
    - rewrite Rabs_pos_eq; lra.
    - apply Rmult_lt_0_compat; lra.
    - replace ((14 * g + 13 / 2 * (w / q)) * (q * (1 - 5 * g))) with
        (14 * (1 - 5 * g) * (g * q) + 13 / 2 * (1 - 5 * g) * (w / q * q)) by ring. rewrite WQ.
      assert (27 / 2 * (g * q) <= 14 * (1 - 5 * g) * (g * q)) by (apply Rmult_le_compat_r; lra).
      assert (6 * w <= 13 / 2 * (1 - 5 * g) * w) by (apply Rmult_le_compat_r; lra). lra.
  Qed.
End Coef.
