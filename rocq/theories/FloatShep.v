(** Conversion of a rotation matrix to a quaternion computed on doubles: error analysis.  The
    branch taken on the stored entries may differ from the one the exact entries would take;
    every branch is accurate wherever it can be taken. *)

From Coq Require Import ZArith Reals Lra Lia Psatz List Bool.
From Flocq Require Import Core BinarySingleNaN.
From Verif Require Import V3 SpecLeaf LeafProofs ModelLeaf ModelFloat ModelFloatQ ModelFloatExpr SpecFlt SpecFltQ SpecFltExpr FloatProofs FloatDrift FloatExp
  FloatLog FloatLog2 FloatAct FloatNorm FloatStep2 FloatCoef.
Local Open Scope R_scope.
Local Notation w := (/ 9007199254740992).

Lemma eta_below : 1000000 * eta <= w /\ 0 < eta /\ 1000000 <= big.
Proof.
  pose proof eta_le as [A B]. split; [lra|]. split; [exact A|]. unfold big. apply Rle_trans with (2 ^ 20); [lra|]. apply Rle_pow; [lra|lia].
Qed.

(** The root of four times the square of the largest coefficient, and what is made of it. *)
Lemma main_step T c e : 0 <= e <= / 1000 -> 0 <= c <= 1 -> 9 / 10 <= 4 * (c * c) -> appr T (4 * (c * c)) (3 * e + 20 * w) ->
  appr (fmul fhalf (fsqrt T)) c (2 * e + 20 * w) /\ appr (fdiv fhalf (fsqrt T)) (/ 2 / (2 * c)) (22 / 10 * e + 40 * w) /\
  0 <= / 2 / (2 * c) <= 54 / 100 /\ 94 / 100 <= 2 * c.
Proof.
  intros He Hc Hm [FT HT]. destruct eta_below as (E1 & E0 & BG). destruct half_ok as [Fh Vh].
  assert (C9 : 94 / 100 <= 2 * c) by nra. apply abs_between in HT.
  destruct (fsqrt_ok T FT ltac:(lra)) as [Fs Vs].
  assert (S0 : 0 <= sqrt (val T)) by apply sqrt_pos. assert (SS : sqrt (val T) * sqrt (val T) = val T) by (apply sqrt_sqrt; lra).
  assert (D : Rabs (sqrt (val T) - 2 * c) <= 32 / 10 * e + 22 * w).
  { apply Rabs_le. split.
    - destruct (Rle_lt_dec (- (32 / 10 * e + 22 * w)) (sqrt (val T) - 2 * c)) as [K|K]; [exact K|exfalso]. nra.
    - destruct (Rle_lt_dec (sqrt (val T) - 2 * c) (32 / 10 * e + 22 * w)) as [K|K]; [exact K|exfalso]. nra. }
  assert (A : appr (fsqrt T) (2 * c) (32 / 10 * e + 25 * w)).
  { split; [exact Fs|]. rewrite Vs. pose proof (nerr (sqrt (val T))) as N. rewrite (Rabs_pos_eq (sqrt (val T))) in N by exact S0.
    apply abs_between in N, D. apply Rabs_le. lra. }
  assert (H : appr fhalf (/ 2) 0) by (rewrite <- Vh; now apply appr_val).
  assert (B : 0 <= / 2 / (2 * c) <= 54 / 100).
  { split; [apply Rmult_le_pos; [lra|left; apply Rinv_0_lt_compat; lra]|]. apply (Rmult_le_reg_r (2 * c)); [lra|]. unfold Rdiv at 1. rewrite Rmult_assoc, Rinv_l by lra. lra. }
  split; [|split; [|split; [exact B|exact C9]]].
  - apply (appr_eq _ (/ 2 * (2 * c))); [|field]. apply (appr_mul _ _ _ _ _ _ (/ 2) 2 _ H A); rewrite ?Rabs_pos_eq; lra.
  - apply (appr_div _ _ _ _ _ _ (54 / 100) (93 / 100) (21 / 10 * e + 20 * w) _ H A); rewrite ?Rabs_pos_eq; lra.
Qed.

Lemma other_step N h c d e : 0 <= e <= / 1000 -> appr N (4 * (c * d)) (2 * e + 5 * w) -> appr h (/ 2 / (2 * c)) (22 / 10 * e + 40 * w) ->
  0 <= / 2 / (2 * c) <= 54 / 100 -> 94 / 100 <= 2 * c -> c * c + d * d <= 1 -> appr (fmul N h) d (7 * e + 200 * w).
Proof.
  intros He HN Hh B C9 Hd. destruct eta_below as (E1 & E0 & BG).
  apply (appr_eq _ (4 * (c * d) * (/ 2 / (2 * c)))); [|field; lra].
  apply (appr_mul _ _ _ _ _ _ 2 (54 / 100) _ HN Hh).
  - pose proof (Rle_0_sqr (c - d)) as K1. pose proof (Rle_0_sqr (c + d)) as K2. unfold Rsqr in *. apply Rabs_le. lra.
  - rewrite Rabs_pos_eq; lra.
  - apply Rle_trans with (3 * 1); [apply Rmult_le_compat; lra|lra].
  - assert (X : (2 + (2 * e + 5 * w)) * (54 / 100 + (22 / 10 * e + 40 * w)) <= 3 * 1) by (apply Rmult_le_compat; lra).
    assert (Y : (2 * e + 5 * w) * (54 / 100 + (22 / 10 * e + 40 * w)) <= (2 * e + 5 * w) * (6 / 10)) by (apply Rmult_le_compat_l; lra). lra.
Qed.

(** Entries of the matrix of a unit quaternion. *)
Lemma rot_sums q : unitq q -> let m := qrot q in
  (trace3 m + 1 = 4 * (qw q * qw q) /\ m00 m - m11 m - m22 m + 1 = 4 * (qx q * qx q) /\
   m11 m - m22 m - m00 m + 1 = 4 * (qy q * qy q) /\ m22 m - m00 m - m11 m + 1 = 4 * (qz q * qz q)) /\
  (m21 m - m12 m = 4 * (qw q * qx q) /\ m02 m - m20 m = 4 * (qw q * qy q) /\ m10 m - m01 m = 4 * (qw q * qz q)) /\
  (m10 m + m01 m = 4 * (qx q * qy q) /\ m20 m + m02 m = 4 * (qx q * qz q) /\ m21 m + m12 m = 4 * (qy q * qz q)).
Proof.
  intros U m. unfold m. rewrite (qrot_h q U). unfold unitq in U. destruct q as [a b c d]. unfold qnorm2 in U. cbn in U. unfold qroth, trace3. cbn.
  repeat split; lra.
Qed.

Lemma qsign q : unitq q -> unitq (mkQ (- qw q) (- qx q) (- qy q) (- qz q)) /\ qrot (mkQ (- qw q) (- qx q) (- qy q) (- qz q)) = qrot q.
Proof. intros U. split; [unfold unitq, qnorm2 in *; cbn in *; lra|]. unfold qrot; cbn. f_equal; ring. Qed.

Lemma rot_some_quat (pick : Q4 -> R) m : (forall q, pick (mkQ (- qw q) (- qx q) (- qy q) (- qz q)) = - pick q) -> is_rot m ->
  exists q, unitq q /\ qrot q = m /\ 0 <= pick q.
Proof.
  intros P H. destruct (q_of_mat_correct m H) as [U E]. destruct (Rle_lt_dec 0 (pick (q_of_mat m))) as [K|K]; [now exists (q_of_mat m)|].
  destruct (qsign _ U) as [U' E']. eexists. split; [exact U'|]. split; [rewrite E'; exact E|]. rewrite P. lra.
Qed.

Lemma entries_close A m e : mapprox e A m -> 
  (appr (dx (r0 A)) (m00 m) e /\ appr (dy (r0 A)) (m01 m) e /\ appr (dz (r0 A)) (m02 m) e) /\
  (appr (dx (r1 A)) (m10 m) e /\ appr (dy (r1 A)) (m11 m) e /\ appr (dz (r1 A)) (m12 m) e) /\
  (appr (dx (r2 A)) (m20 m) e /\ appr (dy (r2 A)) (m21 m) e /\ appr (dz (r2 A)) (m22 m) e).
Proof.
  intros (F & R & D). assert (X : mwithin e (mval A) m).
  { pose proof (row_le_fnorm (sub3 (mval A) m)) as (X0 & X1 & X2).
    assert (Y : forall v, vnorm v <= e -> Rabs (vx v) <= e /\ Rabs (vy v) <= e /\ Rabs (vz v) <= e).
    { intros v Hv. repeat split; (eapply Rle_trans; [|exact Hv]); unfold vnorm; rewrite <- sqrt_Rsqr_abs; apply sqrt_le_1_alt; unfold Rsqr, vnorm2, vdot; nra. }
    destruct (Y _ (Rle_trans _ _ _ X0 D)) as (a0 & a1 & a2), (Y _ (Rle_trans _ _ _ X1 D)) as (b0 & b1 & b2), (Y _ (Rle_trans _ _ _ X2 D)) as (c0 & c1 & c2).
    unfold mwithin. cbn in *. tauto. }
  destruct F as ((F1 & F2 & F3) & (F4 & F5 & F6) & (F7 & F8 & F9)). unfold mwithin, mval in X. cbn in X. unfold appr. tauto.
Qed.

Lemma pair_sub x y p q e : 0 <= e <= / 1000 -> appr x p e -> appr y q e -> Rabs (p - q) <= 2 -> appr (fsub x y) (p - q) (2 * e + 5 * w).
Proof. intros He A B H. destruct eta_below as (E1 & E0 & BG). apply (appr_sub _ _ _ _ _ _ 3 _ A B); lra. Qed.
Lemma pair_add x y p q e : 0 <= e <= / 1000 -> appr x p e -> appr y q e -> Rabs (p + q) <= 2 -> appr (fadd x y) (p + q) (2 * e + 5 * w).
Proof. intros He A B H. destruct eta_below as (E1 & E0 & BG). apply (appr_add _ _ _ _ _ _ 3 _ A B); lra. Qed.
Lemma diag_step x y z p q r e : 0 <= e <= / 1000 -> appr x p e -> appr y q e -> appr z r e -> -1 <= p <= 1 -> -1 <= q <= 1 -> -1 <= r <= 1 ->
  appr (fadd (fsub (fsub x y) z) f1) (p - q - r + 1) (3 * e + 20 * w).
Proof.
  intros He A B C H1 H2 H3. destruct eta_below as (E1 & E0 & BG).  destruct one_ok as [F1 V1].
  assert (O : appr f1 1 0) by (rewrite <- V1; now apply appr_val).
  assert (S1 : appr (fsub x y) (p - q) (2 * e + 4 * w)) by (apply (appr_sub _ _ _ _ _ _ 3 _ A B); try lra; assert (Rabs (p - q) <= 2) by (apply Rabs_le; lra); lra).
  assert (S2 : appr (fsub (fsub x y) z) (p - q - r) (3 * e + 9 * w)) by (apply (appr_sub _ _ _ _ _ _ 4 _ S1 C); try lra; assert (Rabs (p - q - r) <= 3) by (apply Rabs_le; lra); lra).
  apply (appr_add _ _ _ _ _ _ 5 _ S2 O); try lra. assert (Rabs (p - q - r + 1) <= 4) by (apply Rabs_le; lra). lra.
Qed.
Lemma trace_step o A m e : 0 <= e <= / 1000 -> appr (dx (r0 A)) (m00 m) e -> appr (dy (r1 A)) (m11 m) e -> appr (dz (r2 A)) (m22 m) e ->
  -1 <= m00 m <= 1 -> -1 <= m11 m <= 1 -> -1 <= m22 m <= 1 ->
  appr (dtrace o A) (trace3 m) (3 * e + 9 * w).
Proof.
  intros He A0 A1 A2 H1 H2 H3. destruct eta_below as (E1 & E0 & BG).  unfold dtrace, trace3.
  assert (L : appr (fadd (fadd (dx (r0 A)) (dy (r1 A))) (dz (r2 A))) (m00 m + m11 m + m22 m) (3 * e + 9 * w)).
  { assert (S1 : appr (fadd (dx (r0 A)) (dy (r1 A))) (m00 m + m11 m) (2 * e + 4 * w)) by (apply (appr_add _ _ _ _ _ _ 3 _ A0 A1); try lra; assert (Rabs (m00 m + m11 m) <= 2) by (apply Rabs_le; lra); lra).
    apply (appr_add _ _ _ _ _ _ 4 _ S1 A2); try lra. assert (Rabs (m00 m + m11 m + m22 m) <= 3) by (apply Rabs_le; lra). lra. }
  destruct o; try exact L.
  assert (S1 : appr (fadd (dy (r1 A)) (dz (r2 A))) (m11 m + m22 m) (2 * e + 4 * w)) by (apply (appr_add _ _ _ _ _ _ 3 _ A1 A2); try lra; assert (Rabs (m11 m + m22 m) <= 2) by (apply Rabs_le; lra); lra).
  apply (appr_eq _ (m00 m + (m11 m + m22 m))); [|ring].
  apply (appr_add _ _ _ _ _ _ 4 _ A0 S1); try lra. assert (Rabs (m00 m + (m11 m + m22 m)) <= 3) by (apply Rabs_le; lra). lra.
Qed.

Lemma qdist_coords a b c d q e : 0 <= e ->
  Rabs (a - qw q) <= e -> Rabs (b - qx q) <= e -> Rabs (c - qy q) <= e -> Rabs (d - qz q) <= e -> qdist (mkQ a b c d) q <= 2 * e.
Proof.
  intros He A B C D. unfold qdist; cbn [qw qx qy qz].
  assert (S : forall x, Rabs x <= e -> x * x <= e * e).
  { intros x H. replace (x * x) with (Rabs x * Rabs x) by (rewrite <- Rabs_mult; apply Rabs_pos_eq, Rle_0_sqr). apply Rmult_le_compat; auto; apply Rabs_pos. }
  apply S in A, B, C, D. rewrite <- (sqrt_square (2 * e)) by lra. apply sqrt_le_1_alt. lra.
Qed.

(** Conversion to a quaternion: whichever branch is taken, the result stands for the same
    rotation. *)
Lemma sq_le_1 t : t * t <= 1 -> t <= 1.
Proof. intros H. destruct (Rle_lt_dec t 1) as [L|L]; [exact L|]. assert (1 * 1 < t * t) by (apply Rmult_gt_0_lt_compat; lra). lra. Qed.

Lemma mconvert_step o e A m : mapprox e A m -> e <= / 1000 -> qapprox ((1 + 15 * e) * (1 + / 2 ^ 44) - 1) (dq_of_mat o A) m.
Proof.
  intros HA He. assert (E0 : 0 <= e) by (destruct HA as (_ & _ & D); pose proof (fnorm_nonneg (sub3 (mval A) m)); lra).
  destruct (entries_close _ _ _ HA) as ((A00 & A01 & A02) & (A10 & A11 & A12) & (A20 & A21 & A22)). destruct HA as (_ & HR & _).
  assert (HE : 0 <= e <= / 1000) by lra. destruct eta_below as (EW & ET & _).
  assert (FIN : forall q r, unitq r -> qrot r = m -> appr (dw q) (qw r) (7 * e + 200 * w) -> appr (dx (dv q)) (qx r) (7 * e + 200 * w) ->
    appr (dy (dv q)) (qy r) (7 * e + 200 * w) -> appr (dz (dv q)) (qz r) (7 * e + 200 * w) -> qapprox ((1 + 15 * e) * (1 + / 2 ^ 44) - 1) q m).
  { intros q r Ur Er [F0 D0] [F1 D1] [F2 D2] [F3 D3]. split; [repeat split; assumption|]. exists r. split; [exact Ur|]. split; [exact Er|].
    eapply Rle_trans; [apply qdist_coords; [|exact D0|exact D1|exact D2|exact D3]; lra|]. rewrite unit_44, u_val. nra. }
  assert (WK : forall x p, appr x p (2 * e + 20 * w) -> appr x p (7 * e + 200 * w)) by (intros x p H; eapply appr_weak; [exact H|lra]).
  assert (DIAG : -1 <= m00 m <= 1 /\ -1 <= m11 m <= 1 /\ -1 <= m22 m <= 1).
  { destruct (q_of_mat_correct m HR) as [U E]. pose proof (rot_sums _ U) as S. rewrite E in S. destruct S as ((S0 & S1 & S2 & S3) & _). unfold trace3 in S0.
    unfold unitq, qnorm2 in U. set (r := q_of_mat m) in *.
    pose proof (Rle_0_sqr (qw r)). pose proof (Rle_0_sqr (qx r)). pose proof (Rle_0_sqr (qy r)). pose proof (Rle_0_sqr (qz r)). unfold Rsqr in *. lra. }
  destruct DIAG as (B0 & B1 & B2).
  pose proof (trace_step o A m e HE A00 A11 A22 B0 B1 B2) as [FT DT].
  assert (GT : forall x y, finite x -> finite y -> (if fgt x y then val y < val x else val x <= val y)).
  { intros x y Fx Fy. destruct (fgt x y) eqn:G; [now apply fgt_ok in G|]. destruct (Rle_lt_dec (val x) (val y)) as [K|K]; [exact K|]. apply fgt_ok in K; auto. congruence. }
  assert (PR : forall c d r, unitq r -> c * c + d * d <= qnorm2 r -> Rabs (4 * (c * d)) <= 2).
  { intros c d r U H. rewrite U in H. pose proof (Rle_0_sqr (c - d)) as K1. pose proof (Rle_0_sqr (c + d)) as K2. unfold Rsqr in *. apply Rabs_le. lra. }
  unfold dq_of_mat. pose proof (GT (dtrace o A) f0 FT eq_refl) as G0. change (val f0) with 0 in G0. apply abs_between in DT.
  destruct (fgt (dtrace o A) f0).
  - destruct (rot_some_quat qw m (fun q => eq_refl) HR) as (r & U & E & P). pose proof (rot_sums r U) as S. rewrite E in S.
    destruct S as ((S0 & _) & (S1 & S2 & S3) & _).
    pose proof (Rle_0_sqr (qw r)) as Q0. pose proof (Rle_0_sqr (qx r)) as Q1. pose proof (Rle_0_sqr (qy r)) as Q2. pose proof (Rle_0_sqr (qz r)) as Q3. unfold Rsqr in *.
    pose proof U as U1. unfold unitq, qnorm2 in U1. assert (C1 : 0 <= qw r <= 1) by (split; [exact P|apply sq_le_1; lra]).
    assert (T : appr (fadd (dtrace o A) f1) (4 * (qw r * qw r)) (3 * e + 20 * w)).
    { rewrite <- S0. destruct one_ok as [F1 V1]. assert (O : appr f1 1 0) by (rewrite <- V1; now apply appr_val).
      apply (appr_add _ _ _ _ (3 * e + 9 * w) 0 5); try lra; [split; [exact FT|apply Rabs_le; lra]|exact O| |].
      - rewrite Rabs_pos_eq; lra.
      - destruct eta_below as (_ & _ & BG). lra. }
    destruct (main_step _ _ _ HE C1 ltac:(lra) T) as (M1 & M2 & M3 & M4).
    apply (FIN _ r U E); cbn [dw dv dx dy dz]; [now apply WK| | |]; (eapply other_step; [exact HE| |exact M2|exact M3|exact M4|lra]);
      rewrite <- ?S1, <- ?S2, <- ?S3; apply pair_sub; try assumption; rewrite ?S1, ?S2, ?S3; apply (PR _ _ r U); unfold qnorm2; lra.
  - assert (G1 := GT (dy (r1 A)) (dx (r0 A)) (proj1 A11) (proj1 A00)).
    pose proof (abs_between _ _ _ (proj2 A00)) as N0. pose proof (abs_between _ _ _ (proj2 A11)) as N1. pose proof (abs_between _ _ _ (proj2 A22)) as N2.
    set (i1 := fgt (dy (r1 A)) (dx (r0 A))) in *.
    assert (G2 : if fgt (dz (r2 A)) (if i1 then dy (r1 A) else dx (r0 A)) then val (if i1 then dy (r1 A) else dx (r0 A)) < val (dz (r2 A)) else val (dz (r2 A)) <= val (if i1 then dy (r1 A) else dx (r0 A))).
    { apply GT; [apply A22|]. destruct i1; [apply A11|apply A00]. }
    destruct (fgt (dz (r2 A)) (if i1 then dy (r1 A) else dx (r0 A))).
    + destruct (rot_some_quat qz m (fun q => eq_refl) HR) as (r & U & E & P). pose proof (rot_sums r U) as S. rewrite E in S.
      destruct S as ((S0 & SX & SY & SZ) & (S1 & S2 & S3) & (S4 & S5 & S6)).
      pose proof (Rle_0_sqr (qw r)) as Q0. pose proof (Rle_0_sqr (qx r)) as Q1. pose proof (Rle_0_sqr (qy r)) as Q2. pose proof (Rle_0_sqr (qz r)) as Q3. unfold Rsqr in *.
      pose proof U as U1. unfold unitq, qnorm2 in U1. assert (C1 : 0 <= qz r <= 1) by (split; [exact P|apply sq_le_1; lra]). unfold trace3 in *.
      assert (C2 : 9 / 10 <= 4 * (qz r * qz r)) by (destruct i1; lra).
      pose proof (diag_step _ _ _ _ _ _ _ HE A22 A00 A11 B2 B0 B1) as T. rewrite SZ in T.
      destruct (main_step _ _ _ HE C1 C2 T) as (M1 & M2 & M3 & M4).
      apply (FIN _ r U E); cbn [dw dv dx dy dz]; [| | |now apply WK]; (eapply other_step; [exact HE| |exact M2|exact M3|exact M4|lra]).
      * rewrite (Rmult_comm (qz r)), <- S3. apply pair_sub; try assumption. rewrite S3. apply (PR _ _ r U); unfold qnorm2; lra.
      * rewrite (Rmult_comm (qz r)), <- S5, Rplus_comm. apply pair_add; try assumption. rewrite Rplus_comm, S5. apply (PR _ _ r U); unfold qnorm2; lra.
      * rewrite (Rmult_comm (qz r)), <- S6, Rplus_comm. apply pair_add; try assumption. rewrite Rplus_comm, S6. apply (PR _ _ r U); unfold qnorm2; lra.
    + destruct i1.
      * destruct (rot_some_quat qy m (fun q => eq_refl) HR) as (r & U & E & P). pose proof (rot_sums r U) as S. rewrite E in S.
        destruct S as ((S0 & SX & SY & SZ) & (S1 & S2 & S3) & (S4 & S5 & S6)).
        pose proof (Rle_0_sqr (qw r)) as Q0. pose proof (Rle_0_sqr (qx r)) as Q1. pose proof (Rle_0_sqr (qy r)) as Q2. pose proof (Rle_0_sqr (qz r)) as Q3. unfold Rsqr in *.
        pose proof U as U1. unfold unitq, qnorm2 in U1. assert (C1 : 0 <= qy r <= 1) by (split; [exact P|apply sq_le_1; lra]). unfold trace3 in *.
        assert (C2 : 9 / 10 <= 4 * (qy r * qy r)) by lra.
        pose proof (diag_step _ _ _ _ _ _ _ HE A11 A22 A00 B1 B2 B0) as T. rewrite SY in T.
        destruct (main_step _ _ _ HE C1 C2 T) as (M1 & M2 & M3 & M4).
        apply (FIN _ r U E); cbn [dw dv dx dy dz]; [| |now apply WK|]; (eapply other_step; [exact HE| |exact M2|exact M3|exact M4|lra]).
        -- rewrite (Rmult_comm (qy r)), <- S2. apply pair_sub; try assumption. rewrite S2. apply (PR _ _ r U); unfold qnorm2; lra.
        -- rewrite (Rmult_comm (qy r)), <- S4, Rplus_comm. apply pair_add; try assumption. rewrite Rplus_comm, S4. apply (PR _ _ r U); unfold qnorm2; lra.
        -- rewrite <- S6. apply pair_add; try assumption. rewrite S6. apply (PR _ _ r U); unfold qnorm2; lra.
      * destruct (rot_some_quat qx m (fun q => eq_refl) HR) as (r & U & E & P). pose proof (rot_sums r U) as S. rewrite E in S.
        destruct S as ((S0 & SX & SY & SZ) & (S1 & S2 & S3) & (S4 & S5 & S6)).
        pose proof (Rle_0_sqr (qw r)) as Q0. pose proof (Rle_0_sqr (qx r)) as Q1. pose proof (Rle_0_sqr (qy r)) as Q2. pose proof (Rle_0_sqr (qz r)) as Q3. unfold Rsqr in *.
        pose proof U as U1. unfold unitq, qnorm2 in U1. assert (C1 : 0 <= qx r <= 1) by (split; [exact P|apply sq_le_1; lra]). unfold trace3 in *.
        assert (C2 : 9 / 10 <= 4 * (qx r * qx r)) by lra.
        pose proof (diag_step _ _ _ _ _ _ _ HE A00 A11 A22 B0 B1 B2) as T. rewrite SX in T.
        destruct (main_step _ _ _ HE C1 C2 T) as (M1 & M2 & M3 & M4).
        apply (FIN _ r U E); cbn [dw dv dx dy dz]; [|now apply WK| |]; (eapply other_step; [exact HE| |exact M2|exact M3|exact M4|lra]).
        -- rewrite (Rmult_comm (qx r)), <- S1. apply pair_sub; try assumption. rewrite S1. apply (PR _ _ r U); unfold qnorm2; lra.
        -- rewrite <- S4. apply pair_add; try assumption. rewrite S4. apply (PR _ _ r U); unfold qnorm2; lra.
        -- rewrite <- S5. apply pair_add; try assumption. rewrite S5. apply (PR _ _ r U); unfold qnorm2; lra.
Qed.
