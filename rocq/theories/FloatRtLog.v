(** The logarithm of a rigid transform computed on doubles: error analysis. *)

From Coq Require Import ZArith Reals Lra Lia Psatz List Bool.
From Flocq Require Import Core BinarySingleNaN.
From Verif Require Import V3 SpecLeaf LeafProofs ModelLeaf ModelFloat SpecFlt SpecFltQ FloatProofs FloatDrift FloatExp
  FloatLog FloatLog2 FloatAct PropsExpFlt FloatCoef FloatLogJac.
Local Open Scope R_scope.

Local Notation w := (/ 9007199254740992).


Lemma quot_bounds n r q : 0 <= n <= q / 12 -> 1 / 6 <= r -> 0 <= q -> 0 <= n / r <= q / 2.
Proof.
  intros N R Q. assert (E : n / r * r = n) by (field; lra).
  split; apply (Rmult_le_reg_r r); try lra. rewrite E.
  assert (q / 2 * (1 / 6) <= q / 2 * r) by (apply Rmult_le_compat_l; lra). lra.
Qed.

Section RtLog.
  Variables (M : libm) (o : order) (v : DV) (x : V3) (e : R).
  Hypothesis HM : one_ulp M.
  Hypothesis Fv : vfinite v.
  Hypothesis He : 0 <= e <= / 100000.
  Local Notation th := (vnorm x).
  Hypothesis Hv : vwithin (e * th) (vval v) x.
  Hypothesis Hlo : / 1048576 <= th.
  Hypothesis Hhi : th <= PI.
  Local Notation g := (gauge e).
  Local Notation q := (th * th).
  Local Notation h := (scale x e).
  Local Notation hq := (h / q).
  Local Notation t2 := (ddot o v v).
  Local Notation t := (fsqrt t2).
  Local Notation D := (fsub f1 (fcos M t)).
  Local Notation A := (fdiv (fsin M t) t).
  Local Notation B := (fdiv D t2).
  Local Notation a := (sin th / th).
  Local Notation c := (1 - cos th).
  Local Notation b := (c / q).

  Lemma appr_2 : appr f2 2 0.
  Proof. destruct f2_val as [F V]. split; [exact F|]. rewrite V. rewrite Rminus_diag_eq, Rabs_R0 by reflexivity. lra. Qed.

  Lemma A2_appr : appr (fdiv A f2) (a / 2) (11 * g).
  Proof.
    destruct (g_bounds e He) as ((g0 & g1) & _). destruct (a_bounds x Hlo Hhi) as (A1 & _). pose proof big_100.
    destruct (eta_q x Hlo Hhi) as (_ & _ & EQ). pose proof eta_pos.
    apply (appr_div _ _ _ _ (20 * g) 0 (1 / 2) 2 (10 * g)); auto using appr_2; try lra.
    - now apply A_appr.
    - unfold Rdiv at 1. rewrite Rabs_mult, (Rabs_pos_eq (/ 2)) by lra. lra.
  Qed.

  Lemma ratio_bound : Rabs (a / 2 / b) <= 3.
  Proof.
    destruct (a_bounds x Hlo Hhi) as (A1 & _). destruct (b_bounds x Hlo Hhi) as [B1 B2].
    unfold Rdiv at 1. rewrite Rabs_mult, (Rabs_pos_eq (/ b)) by (left; apply Rinv_0_lt_compat; lra).
    apply (Rmult_le_reg_r b); [lra|]. rewrite Rmult_assoc, Rinv_l, Rmult_1_r by lra.
    unfold Rdiv at 1. rewrite Rabs_mult, (Rabs_pos_eq (/ 2)) by lra. lra.
  Qed.
  Lemma ratio_appr : appr (fdiv (fdiv A f2) B) (a / 2 / b) (400 * h).
  Proof.
    destruct (g_bounds e He) as ((g0 & g1) & _). destruct (b_bounds x Hlo Hhi) as [B1 B2]. pose proof big_100.
    destruct (eta_q x Hlo Hhi) as (_ & _ & EQ). pose proof eta_pos. destruct (h_range x e He Hlo Hhi) as (h1 & h2 & h3 & h4).
    apply (appr_div _ _ _ _ (11 * g) (15 * g + 7 * (w / q)) 3 (1 / 7) (392 * h)); auto using A2_appr, ratio_bound; try lra.
    now apply B_appr.
  Qed.

  Local Notation Z := (1 - a / 2 / b).
  Lemma Z_bounds : 0 <= Z <= q / 2.
  Proof.
    pose proof (n_bounds x Hlo Hhi) as N. destruct (b_bounds x Hlo Hhi) as [B1 B2]. pose proof (q_bounds x Hlo Hhi).
    pose proof (D_pos x Hlo Hhi).
    assert (EZ : forall p r, r <> 0 -> 1 - p / 2 / r = (r - 1 / 2 * p) / r) by (intros; field; assumption).
    rewrite EZ by lra. clear EZ.
    apply quot_bounds; lra.
  Qed.
  Lemma Z_appr : appr (fsub f1 (fdiv (fdiv A f2) B)) Z (407 * h).
  Proof.
    destruct (g_bounds e He) as ((g0 & g1) & _). pose proof big_100. pose proof Z_bounds as ZB. pose proof (q_bounds x Hlo Hhi).
    destruct (eta_q x Hlo Hhi) as (_ & _ & EQ). pose proof eta_pos. destruct (h_range x e He Hlo Hhi) as (h1 & h2 & h3 & h4).
    apply (appr_sub _ _ _ _ 0 (400 * h) 6); auto using appr_1, ratio_appr; try lra.
    rewrite Rabs_pos_eq; lra.
  Qed.

  Local Notation K := (Z / q).
  Lemma KB : 0 <= K <= 1 / 2.
  Proof.
    pose proof Z_bounds. pose proof (q_bounds x Hlo Hhi).
    split; apply (Rmult_le_reg_r q); try lra; unfold Rdiv at 1; try rewrite (Rmult_assoc Z), Rinv_l by lra; lra.
  Qed.
  Local Notation k := (fdiv (fsub f1 (fdiv (fdiv A f2) B)) t2).
  Lemma kk_appr : appr k K (440 * hq).
  Proof.
    destruct (g_bounds e He) as ((g0 & g1) & _). pose proof big_100. pose proof Z_bounds as ZB. pose proof (q_bounds x Hlo Hhi).
    destruct (eta_q x Hlo Hhi) as (_ & _ & EQ). pose proof eta_pos. destruct (h_range x e He Hlo Hhi) as (h1 & h2 & h3 & h4).
    destruct (hq_range x e He Hlo Hhi) as (Q1 & Q2 & Q3). destruct (gq x e He Hlo Hhi) as (G1 & G2). pose proof KB.
    apply (appr_div _ _ _ _ (407 * h) (5 * (g * q)) (1 / 2) (q * (1 - 5 * g)) (434 * hq)); auto using Z_appr; try lra.
    - now apply t2_appr.
    - rewrite Rabs_pos_eq; lra.
    - apply Rmult_lt_0_compat; lra.
    - replace (434 * hq * (q * (1 - 5 * g))) with (434 * (1 - 5 * g) * (hq * q)) by ring. rewrite Q2.
      assert (433 * h <= 434 * (1 - 5 * g) * h) by (apply Rmult_le_compat_r; lra). lra.
  Qed.

  (** A product of two components. *)
  Lemma comp_prod s y p z : comp x e s y -> comp x e p z ->
    Rabs (val s * val p - y * z) <= 21 / 10 * (g * q) /\ Rabs (y * z) <= q /\ Rabs (val s * val p) <= 11 / 10 * q.
  Proof.
    intros [[F1 E1] B1] [[F2 E2] B2]. destruct (g_bounds e He) as ((g0 & g1) & g2). pose proof (q_bounds x Hlo Hhi) as QB.
    assert (EQ : e * q <= g * q) by (apply Rmult_le_compat_r; lra).
    assert (EQ0 : 0 <= e * q) by (apply Rmult_le_pos; lra).
    assert (EQ1 : e * q <= / 100000 * q) by (apply Rmult_le_compat_r; lra).
    assert (YZ : Rabs (y * z) <= q) by (rewrite Rabs_mult; apply Rmult_le_compat; auto; apply Rabs_pos).
    assert (AP : Rabs (val p) <= th * (1 + e)) by (pose proof (abs_le_dist _ _ _ E2); lra).
    assert (DD : Rabs (val s * val p - y * z) <= e * th * (th * (1 + e)) + th * (e * th)).
    { replace (val s * val p - y * z) with ((val s - y) * val p + y * (val p - z)) by ring.
      eapply Rle_trans; [apply Rabs_triang|]. rewrite !Rabs_mult.
      apply Rplus_le_compat; apply Rmult_le_compat; auto; apply Rabs_pos. }
    replace (e * th * (th * (1 + e)) + th * (e * th)) with (2 * (e * q) + e * (e * q)) in DD by ring.
    assert (e * (e * q) <= / 100000 * (e * q)) by (apply Rmult_le_compat_r; lra).
    split; [lra|]. split; [exact YZ|]. pose proof (abs_le_dist _ _ _ DD). lra.
  Qed.

  Lemma dot_appr s1 y1 p1 z1 s2 y2 p2 z2 s3 y3 p3 z3 :
    comp x e s1 y1 -> comp x e p1 z1 -> comp x e s2 y2 -> comp x e p2 z2 -> comp x e s3 y3 -> comp x e p3 z3 ->
    appr (ddot o (mkDV s1 s2 s3) (mkDV p1 p2 p3)) (y1 * z1 + y2 * z2 + y3 * z3) (21 * (g * q)) /\
    Rabs (y1 * z1 + y2 * z2 + y3 * z3) <= 3 * q.
  Proof.
    intros a1 a2 a3 a4 a5 a6.
    destruct (comp_prod _ _ _ _ a1 a2) as (X1 & X2 & X3). destruct (comp_prod _ _ _ _ a3 a4) as (Y1 & Y2 & Y3).
    destruct (comp_prod _ _ _ _ a5 a6) as (Z1 & Z2 & Z3). pose proof big_100. pose proof (q_bounds x Hlo Hhi) as QB.
    destruct (eta_q x Hlo Hhi) as (EQ & _ & _). pose proof eta_pos. destruct (gq x e He Hlo Hhi) as (G1 & G2).
    destruct (ddot_ok o (mkDV s1 s2 s3) (mkDV p1 p2 p3)) as [F E]; cbn [dx dy dz]; try lra.
    { destruct a1 as [[F1 _] _], a3 as [[F2 _] _], a5 as [[F3 _] _]. repeat split; assumption. }
    { destruct a2 as [[F1 _] _], a4 as [[F2 _] _], a6 as [[F3 _] _]. repeat split; assumption. }
    cbn [dx dy dz] in E. unfold vdot, vval in E; cbn [vx vy vz dx dy dz] in E. rewrite u_val in E.
    split.
    - split; [exact F|]. apply abs_between in E, X1, Y1, Z1. apply Rabs_le. lra.
    - apply Rabs_le_inv in X2, Y2, Z2. apply Rabs_le. lra.
  Qed.

  Lemma Vinv_entry i I s y C (cc : double) : appr i I 0 -> 0 <= I <= 1 -> comp x e s y ->
    appr cc C (21 * (g * q)) /\ Rabs C <= 3 * q ->
    appr (fadd (fsub i (fdiv s f2)) (fmul k cc)) (I - y / 2 + K * C) (1480 * h) /\ Rabs (I - y / 2 + K * C) <= 18.
  Proof.
    intros Hi HI [Cs Cy] [Cc CC].
    destruct (g_bounds e He) as ((g0 & g1) & g2). destruct (h_range x e He Hlo Hhi) as (h1 & h2 & h3 & h4). pose proof big_100.
    destruct (eta_q x Hlo Hhi) as (_ & EQT & EQ). pose proof eta_pos. pose proof (q_bounds x Hlo Hhi) as QB.
    destruct (hq_range x e He Hlo Hhi) as (Q1 & Q2 & Q3). destruct (gq x e He Hlo Hhi) as (G3 & G4).
    pose proof (th_hi x Hhi) as T. destruct (gth x e He Hlo Hhi) as (G1 & G2). pose proof KB as KB0.
    assert (EG : e * th <= g * th) by (apply Rmult_le_compat_r; lra).
    assert (Y : Rabs (y / 2) <= 8 / 5). { unfold Rdiv. rewrite Rabs_mult, (Rabs_pos_eq (/ 2)) by lra. lra. }
    assert (X : appr (fdiv s f2) (y / 2) (5 * g)).
    { apply (appr_div _ _ _ _ (e * th) 0 (8 / 5) 2 (e * th / 2)); auto using appr_2; lra. }
    apply Rabs_le_inv in Y.
    assert (Zz : appr (fsub i (fdiv s f2)) (I - y / 2) (10 * g)).
    { apply (appr_sub _ _ _ _ 0 (5 * g) 4); auto; try lra.
      assert (Rabs (I - y / 2) <= 3) by (apply Rabs_le; lra). lra. }
    assert (KC : Rabs (K * C) <= 15).
    { rewrite Rabs_mult, (Rabs_pos_eq K) by lra. replace 15 with (1 / 2 * 30) by field.
      apply Rmult_le_compat; try apply Rabs_pos; lra. }
    assert (GE : hq * (g * q) <= / 99999 * h).
    { replace (hq * (g * q)) with (g * (hq * q)) by ring. rewrite Q2. apply Rmult_le_compat_r; lra. }
    assert (W : appr (fmul k cc) (K * C) (1445 * h)).
    { apply (appr_mul _ _ _ _ (440 * hq) (21 * (g * q)) (1 / 2) (3 * q)); auto using kk_appr; try lra.
      rewrite Rabs_pos_eq; lra. }
    apply Rabs_le_inv in KC.
    assert (TB : Rabs (I - y / 2 + K * C) <= 18) by (apply Rabs_le; lra). split; [|exact TB].
    apply (appr_add _ _ _ _ (10 * g) (1445 * h) 20); auto; lra.
  Qed.

  (** A row of the matrix times the translation. *)
  Lemma row_dot y1 y2 y3 T s (u : DV) : vfinite u -> appr (dx s) y1 (1480 * h) -> appr (dy s) y2 (1480 * h) -> appr (dz s) y3 (1480 * h) ->
    Rabs y1 <= 18 -> Rabs y2 <= 18 -> Rabs y3 <= 18 ->
    Rabs (val (dx u)) <= T -> Rabs (val (dy u)) <= T -> Rabs (val (dz u)) <= T -> T <= big / 1000 -> 1000 * eta <= w * T ->
    appr (ddot o s u) (y1 * val (dx u) + y2 * val (dy u) + y3 * val (dz u)) (4800 * (h * T)).
  Proof.
    intros Fu [F1 E1] [F2 E2] [F3 E3] B1 B2 B3 T1 T2 T3 TB TE. pose proof eta_pos as ETA.
    destruct (h_range x e He Hlo Hhi) as (h1 & h2 & h3 & h4).
    assert (T0 : 0 <= T) by (pose proof (Rabs_pos (val (dx u))); lra).
    assert (P : forall r y z, Rabs (val r - y) <= 1480 * h -> Rabs y <= 18 -> Rabs z <= T ->
      Rabs (val r * z) <= 20 * T /\ Rabs (val r * z - y * z) <= 1480 * (h * T)).
    { intros r y z Hr Hy Hz. pose proof (abs_le_dist _ _ _ Hr). split.
      - rewrite Rabs_mult. apply Rmult_le_compat; try apply Rabs_pos; lra.
      - replace (val r * z - y * z) with ((val r - y) * z) by ring. rewrite Rabs_mult.
        rewrite <- Rmult_assoc. apply Rmult_le_compat; try apply Rabs_pos; lra. }
    destruct (P _ _ _ E1 B1 T1) as [P1 Q1]. destruct (P _ _ _ E2 B2 T2) as [P2 Q2]. destruct (P _ _ _ E3 B3 T3) as [P3 Q3].
    destruct (ddot_ok o s u) as [F E]; auto; try lra.
    { repeat split; assumption. }
    split; [exact F|]. rewrite u_val in E. unfold vdot, vval in E; cbn [vx vy vz] in E.
    assert (w * T <= h * T) by (apply Rmult_le_compat_r; lra).
    apply abs_between in E, Q1, Q2, Q3. apply Rabs_le. lra.
  Qed.

  Definition dVinv : DM :=
    dmapm2 fadd (dmapm2 fsub did (dmapm (fun z => fdiv z f2) (dskew v))) (dmapm (fmul k) (dmul o (dskew v) (dskew v))).

  Theorem Vinv_app_close (u : DV) T : vfinite u ->
    Rabs (val (dx u)) <= T -> Rabs (val (dy u)) <= T -> Rabs (val (dz u)) <= T -> T <= big / 1000 -> 1000 * eta <= w * T ->
    vfinite (dapp o dVinv u) /\ vwithin (4800 * (h * T)) (vval (dapp o dVinv u)) (app3 (so3_Vinv x) (vval u)).
  Proof.
    intros Fu T1 T2 T3 TB TE.
    destruct (comp_x v x e Fv Hv) as (X & Y & Zz). pose proof (comp_opp x e _ _ X) as X'. pose proof (comp_opp x e _ _ Y) as Y'.
    pose proof (comp_opp x e _ _ Zz) as Z'. pose proof (comp_0 x e He Hlo) as O. pose proof appr_0 as I0. pose proof appr_1 as I1.
    assert (R0 : 0 <= 0 <= 1) by lra. assert (R1 : 0 <= 1 <= 1) by lra.
    set (KK := K) in *. set (kd := k) in *.
    assert (Row : forall i1 J1 i2 J2 i3 J3 s1 y1 s2 y2 s3 y3 c1 C1 c2 C2 c3 C3,
      appr i1 J1 0 -> 0 <= J1 <= 1 -> appr i2 J2 0 -> 0 <= J2 <= 1 -> appr i3 J3 0 -> 0 <= J3 <= 1 ->
      comp x e s1 y1 -> comp x e s2 y2 -> comp x e s3 y3 ->
      appr c1 C1 (21 * (g * q)) /\ Rabs C1 <= 3 * q -> appr c2 C2 (21 * (g * q)) /\ Rabs C2 <= 3 * q -> appr c3 C3 (21 * (g * q)) /\ Rabs C3 <= 3 * q ->
      forall V, (J1 - y1 / 2 + KK * C1) * val (dx u) + (J2 - y2 / 2 + KK * C2) * val (dy u) + (J3 - y3 / 2 + KK * C3) * val (dz u) = V ->
      appr (ddot o (mkDV (fadd (fsub i1 (fdiv s1 f2)) (fmul kd c1)) (fadd (fsub i2 (fdiv s2 f2)) (fmul kd c2)) (fadd (fsub i3 (fdiv s3 f2)) (fmul kd c3))) u)
        V (4800 * (h * T))).
    { intros i1 J1 i2 J2 i3 J3 s1 y1 s2 y2 s3 y3 c1 C1 c2 C2 c3 C3 a1 a2 a3 a4 a5 a6 a7 a8 a9 a10 a11 a12 V <-.
      destruct (Vinv_entry _ _ _ _ _ _ a1 a2 a7 a10). destruct (Vinv_entry _ _ _ _ _ _ a3 a4 a8 a11).
      destruct (Vinv_entry _ _ _ _ _ _ a5 a6 a9 a12). apply row_dot; auto. }
    pose proof dot_appr as Dot.
    assert (EV : so3_Vinv x = add3 i3 (add3 (scal3 (- (1 / 2)) (skew x)) (scal3 KK (mul3 (skew x) (skew x))))).
    { unfold so3_Vinv, rodrigues. rewrite <- (vnorm_sq x). reflexivity. }
    rewrite EV. clear EV. unfold dVinv. fold kd.
    assert (E : appr (dx (dapp o (dmapm2 fadd (dmapm2 fsub did (dmapm (fun z => fdiv z f2) (dskew v))) (dmapm (fmul kd) (dmul o (dskew v) (dskew v)))) u))
                  (vx (app3 (add3 i3 (add3 (scal3 (- (1 / 2)) (skew x)) (scal3 KK (mul3 (skew x) (skew x))))) (vval u))) (4800 * (h * T)) /\
                appr (dy (dapp o (dmapm2 fadd (dmapm2 fsub did (dmapm (fun z => fdiv z f2) (dskew v))) (dmapm (fmul kd) (dmul o (dskew v) (dskew v)))) u))
                  (vy (app3 (add3 i3 (add3 (scal3 (- (1 / 2)) (skew x)) (scal3 KK (mul3 (skew x) (skew x))))) (vval u))) (4800 * (h * T)) /\
                appr (dz (dapp o (dmapm2 fadd (dmapm2 fsub did (dmapm (fun z => fdiv z f2) (dskew v))) (dmapm (fmul kd) (dmul o (dskew v) (dskew v)))) u))
                  (vz (app3 (add3 i3 (add3 (scal3 (- (1 / 2)) (skew x)) (scal3 KK (mul3 (skew x) (skew x))))) (vval u))) (4800 * (h * T))).
    { clearbody KK kd.
      unfold dapp, dmul, dapp, dmapm2, dmapm, dmapv2, dmapv, dtr, dcol0, dcol1, dcol2, dskew, did.
      cbn [r0 r1 r2 dx dy dz].
      repeat split.
      all: eapply Row; eauto; unfold app3, vval, add3, scal3, mul3, skew, i3; cbn [vx vy vz dx dy dz m00 m01 m02 m10 m11 m12 m20 m21 m22]; try field. }
    destruct E as ((? & ?) & (? & ?) & (? & ?)). repeat split; assumption.
  Qed.
End RtLog.
