(** Accumulation of rounding errors in products of quaternions (support). *)

From Coq Require Import ZArith Reals Lra Lia Psatz List Bool Permutation.
From Flocq Require Import Core BinarySingleNaN.
From Verif Require Import V3 ModelFloat SpecFlt FloatProofs FloatDrift ModelFloatQ SpecFltQ.
Import ListNotations.
Local Open Scope R_scope.

(** ** Sums of products in any order *)

Definition term (l : list (double * double)) (i : nat) : R :=
  val (fst (nth i l (f0, f0))) * val (snd (nth i l (f0, f0))).
Definition total (f : nat -> R) (s : list nat) : R := fold_right (fun i a => f i + a) 0 s.

Lemma total_app f a b : total f (a ++ b) = total f a + total f b.
Proof. unfold total. induction a as [|i a IH]; cbn [app fold_right]; [ring|rewrite IH; ring]. Qed.
Lemma total_perm f a b : Permutation a b -> total f a = total f b.
Proof. unfold total. induction 1; cbn [fold_right]; lra. Qed.
Lemma total_nonneg f a : (forall i, 0 <= f i) -> 0 <= total f a.
Proof. unfold total. intros H. induction a as [|i a IH]; cbn [fold_right]; [lra|]. pose proof (H i). lra. Qed.
Lemma total_abs f a : Rabs (total f a) <= total (fun i => Rabs (f i)) a.
Proof.
  unfold total. induction a as [|i a IH]; cbn [fold_right]; [rewrite Rabs_R0; lra|].
  eapply Rle_trans; [apply Rabs_triang|]. lra.
Qed.

Lemma uses_pos t : (1 <= length (uses t))%nat.
Proof. induction t; cbn [uses length]; rewrite ?app_length; lia. Qed.

Lemma combine_err (k e z A n : R) : 0 <= e <= / 4000 -> 1 <= k <= 100 -> 0 <= A -> 0 <= n ->
  z <= 2 * (k - 1) * e * A + n -> (1 + e) * z + e * A <= 2 * k * e * A + (1 + e) * n.
Proof.
  intros He Hk HA Hn Hz.
  assert (H1 : (1 + e) * z <= (1 + e) * (2 * (k - 1) * e * A + n)) by (apply Rmult_le_compat_l; lra).
  assert (H2 : 0 <= e * A) by (apply Rmult_le_pos; lra).
  assert (H3 : (2 * (k - 1) * e) * (e * A) <= 1 * (e * A)) by (apply Rmult_le_compat_r; [lra|nra]).
  nra.
Qed.

(** One more sum: errors of the operands and of the operation. *)
Lemma join_err k A z n (x y S T : R) : 1 <= k <= 100 -> 0 <= A -> 0 <= n ->
  Rabs (S + T) <= A -> z <= 2 * (k - 1) * u * A + n -> Rabs ((x - S) + (y - T)) <= z ->
  Rabs (x + y) <= 2 * A + n /\
  (forall r, Rabs (r - (x + y)) <= u * Rabs (x + y) + eta ->
     Rabs (r - (S + T)) <= 2 * k * u * A + (1 + u) * n + eta).
Proof.
  intros Hk HA Hn HS Hz HE. pose proof u_val as Hu. assert (U0 : 0 <= u <= / 4000) by lra.
  assert (C200 : 2 * (k - 1) * u * A <= A).
  { rewrite <- (Rmult_1_l A) at 2. apply Rmult_le_compat_r; [lra|]. rewrite Hu. lra. }
  assert (M : Rabs (x + y) <= A + z).
  { replace (x + y) with (S + T + ((x - S) + (y - T))) by ring.
    eapply Rle_trans; [apply Rabs_triang|]. lra. }
  split; [lra|]. intros r E.
  replace (r - (S + T)) with ((r - (x + y)) + ((x - S) + (y - T))) by ring.
  eapply Rle_trans; [apply Rabs_triang|].
  pose proof (combine_err k u z A n U0 Hk HA Hn Hz) as C.
  assert (uM : u * Rabs (x + y) <= u * (A + z)) by (apply Rmult_le_compat_l; lra). lra.
Qed.

Lemma dsum_ok t l : (length (uses t) <= 100)%nat ->
  (forall i, finite (fst (nth i l (f0, f0))) /\ finite (snd (nth i l (f0, f0)))) ->
  total (fun i => Rabs (term l i)) (uses t) <= big / 4 ->
  finite (dsum t l) /\
  Rabs (val (dsum t l) - total (term l) (uses t))
    <= 2 * INR (length (uses t)) * u * total (fun i => Rabs (term l i)) (uses t)
       + (3 * INR (length (uses t)) - 2) * eta.
Proof.
  intros HL HF. pose proof eta_le as He. pose proof big_ge as Hb. pose proof u_val as Hu.
  assert (U0 : 0 <= u <= / 4000) by lra.
  assert (NN : forall s, 0 <= total (fun i => Rabs (term l i)) s) by (intros s; apply total_nonneg; intros; apply Rabs_pos).
  assert (UE : 0 <= u * eta) by (apply Rmult_le_pos; lra).
  assert (Et : forall k, 1 <= k <= 100 -> 0 <= (3 * k - 2) * eta <= 300 * eta /\ 0 <= u * ((3 * k - 2) * eta) <= / 10 * eta).
  { intros k Hk. assert (H : 0 <= (3 * k - 2) * eta <= 300 * eta).
    { split; [apply Rmult_le_pos; lra|apply Rmult_le_compat_r; lra]. }
    split; [exact H|]. split; [apply Rmult_le_pos; lra|]. rewrite Hu. lra. }
  induction t as [i|a IHa b IHb|i a IHa]; intros HB.
  - cbn [uses dsum length] in *. unfold total in *; cbn [fold_right] in *. rewrite Rplus_0_r in *.
    unfold term in *. set (p := nth i l (f0, f0)) in *.
    destruct (HF i) as [F0 F1]. fold p in F0, F1.
    destruct (fmul_ok (fst p) (snd p) F0 F1) as [F V]; [lra|].
    split; [exact F|]. rewrite V. pose proof (nearest_err (val (fst p) * val (snd p))) as E.
    pose proof (Rabs_pos (val (fst p) * val (snd p))).
    cbn [INR]. set (Z := Rabs (val (fst p) * val (snd p))) in *.
    assert (0 <= u * Z) by (apply Rmult_le_pos; lra). lra.
  - cbn [uses dsum] in *. rewrite !total_app, app_length in *.
    pose proof (uses_pos a) as Pa. pose proof (uses_pos b) as Pb.
    pose proof (NN (uses a)) as Na. pose proof (NN (uses b)) as Nb.
    destruct IHa as [Fa Ea]; [lia|lra|]. destruct IHb as [Fb Eb]; [lia|lra|].
    pose proof (total_abs (term l) (uses a)) as Ta. pose proof (total_abs (term l) (uses b)) as Tb.
    rewrite plus_INR. apply le_INR in Pa, Pb. cbn [INR] in Pa, Pb.
    apply le_INR in HL. rewrite plus_INR in HL. replace (INR 100) with 100 in HL by (cbn; ring).
    set (ka := INR (length (uses a))) in *. set (kb := INR (length (uses b))) in *.
    set (Aa := total (fun i => Rabs (term l i)) (uses a)) in *. set (Ab := total (fun i => Rabs (term l i)) (uses b)) in *.
    set (Sa := total (term l) (uses a)) in *. set (Sb := total (term l) (uses b)) in *.
    set (x := dsum a l) in *. set (y := dsum b l) in *.
    assert (Ka : 2 * ka * u * Aa <= 2 * (ka + kb - 1) * u * Aa)
      by (apply Rmult_le_compat_r; [lra|]; apply Rmult_le_compat_r; lra).
    assert (Kb : 2 * kb * u * Ab <= 2 * (ka + kb - 1) * u * Ab)
      by (apply Rmult_le_compat_r; [lra|]; apply Rmult_le_compat_r; lra).
    destruct (Et ka) as [Ea0 _]; [lra|]. destruct (Et kb) as [Eb0 _]; [lra|]. destruct (Et (ka + kb)) as [Ec0 Ec1]; [lra|].
    destruct (join_err (ka + kb) (Aa + Ab) (2 * (ka + kb - 1) * u * (Aa + Ab) + (3 * (ka + kb) - 4) * eta)
       ((3 * (ka + kb) - 4) * eta) (val x) (val y) Sa Sb) as [M J]; try lra.
    { eapply Rle_trans; [apply Rabs_triang|]. lra. }
    { eapply Rle_trans; [apply Rabs_triang|]. lra. }
    destruct (fadd_ok x y Fa Fb) as [F V]; [lra|].
    split; [exact F|]. pose proof (J (val (fadd x y))) as E. rewrite V in E |- *.
    specialize (E (nearest_err _)). lra.
  - cbn [uses dsum length] in *. rewrite S_INR in *.
    set (p := nth i l (f0, f0)) in *.
    assert (T1 : forall f, total f (i :: uses a) = f i + total f (uses a)) by reflexivity.
    rewrite !T1 in *. change (term l i) with (val (fst p) * val (snd p)) in *.
    destruct (HF i) as [F0 F1]. fold p in F0, F1.
    pose proof (uses_pos a) as Pa. pose proof (NN (uses a)) as Na.
    pose proof (Rabs_pos (val (fst p) * val (snd p))) as Np.
    destruct IHa as [Fa Ea]; [lia|lra|].
    pose proof (total_abs (term l) (uses a)) as Ta.
    apply le_INR in Pa. cbn [INR] in Pa.
    apply le_INR in HL. rewrite S_INR in HL. replace (INR 100) with 100 in HL by (cbn; ring).
    set (ka := INR (length (uses a))) in *. set (Aa := total (fun i => Rabs (term l i)) (uses a)) in *.
    set (Sa := total (term l) (uses a)) in *. set (y := dsum a l) in *.
    set (q := val (fst p) * val (snd p)) in *.
    assert (Kp : 0 <= 2 * ka * u * Rabs q) by (apply Rmult_le_pos; [|lra]; apply Rmult_le_pos; lra).
    destruct (Et ka) as [Ea0 _]; [lra|]. destruct (Et (ka + 1)) as [Ec0 Ec1]; [lra|].
    destruct (join_err (ka + 1) (Rabs q + Aa) (2 * ka * u * Aa + (3 * ka - 2) * eta)
       ((3 * ka - 2) * eta) q (val y) q Sa) as [M J]; try lra.
    { eapply Rle_trans; [apply Rabs_triang|]. lra. }
    { replace (q - q + (val y - Sa)) with (val y - Sa) by ring. exact Ea. }
    destruct (ffma_ok (fst p) (snd p) y F0 F1 Fa) as [F V]; [fold q; lra|].
    split; [exact F|]. fold q in V. pose proof (J (val (ffma (fst p) (snd p) y))) as E. rewrite V in E |- *.
    specialize (E (nearest_err _)). lra.
Qed.

(** ** Norm of quaternions *)

Definition qnorm (q : Q4) : R := sqrt (qnorm2 q).
Definition qsub (a b : Q4) : Q4 := mkQ (qw a - qw b) (qx a - qx b) (qy a - qy b) (qz a - qz b).
Definition qadd (a b : Q4) : Q4 := mkQ (qw a + qw b) (qx a + qx b) (qy a + qy b) (qz a + qz b).

Lemma qnorm2_nonneg q : 0 <= qnorm2 q.
Proof.
  unfold qnorm2. pose proof (sq_nonneg (qw q)). pose proof (sq_nonneg (qx q)).
  pose proof (sq_nonneg (qy q)). pose proof (sq_nonneg (qz q)). lra.
Qed.
Lemma qnorm_nonneg q : 0 <= qnorm q. Proof. apply sqrt_pos. Qed.
Lemma qnorm_sq q : qnorm q * qnorm q = qnorm2 q.
Proof. apply sqrt_sqrt, qnorm2_nonneg. Qed.
Lemma qnorm_mul a b : qnorm (qmul a b) = qnorm a * qnorm b.
Proof. unfold qnorm. rewrite qnorm2_mul. apply sqrt_mult; apply qnorm2_nonneg. Qed.
Lemma qnorm_le_sq q t : 0 <= t -> qnorm2 q <= t * t -> qnorm q <= t.
Proof. intros Ht H. unfold qnorm. rewrite <- (sqrt_square t Ht). now apply sqrt_le_1_alt. Qed.
Lemma qnorm_unit q : unitq q -> qnorm q = 1.
Proof. unfold unitq, qnorm. intros ->. apply sqrt_1. Qed.

Lemma cauchy4 a0 a1 a2 a3 b0 b1 b2 b3 :
  a0 * b0 + a1 * b1 + a2 * b2 + a3 * b3 <= qnorm (mkQ a0 a1 a2 a3) * qnorm (mkQ b0 b1 b2 b3).
Proof.
  pose proof (qnorm_nonneg (mkQ a0 a1 a2 a3)) as Ha. pose proof (qnorm_nonneg (mkQ b0 b1 b2 b3)) as Hb.
  pose proof (Rmult_le_pos _ _ Ha Hb) as Hab. pose proof (qnorm_sq (mkQ a0 a1 a2 a3)) as Sa. pose proof (qnorm_sq (mkQ b0 b1 b2 b3)) as Sb.
  set (s := a0 * b0 + a1 * b1 + a2 * b2 + a3 * b3).
  destruct (Rle_dec s 0) as [H|H]; [lra|].
  apply Rsqr_incr_0_var; [|exact Hab]. unfold Rsqr.
  set (A := qnorm (mkQ a0 a1 a2 a3)) in *. set (B := qnorm (mkQ b0 b1 b2 b3)) in *.
  replace (A * B * (A * B)) with ((A * A) * (B * B)) by ring. rewrite Sa, Sb.
  clear. unfold qnorm2, s; cbn.
  pose proof (sq_nonneg (a0*b1-a1*b0)). pose proof (sq_nonneg (a0*b2-a2*b0)). pose proof (sq_nonneg (a0*b3-a3*b0)).
  pose proof (sq_nonneg (a1*b2-a2*b1)). pose proof (sq_nonneg (a1*b3-a3*b1)). pose proof (sq_nonneg (a2*b3-a3*b2)). lra.
Qed.
Lemma cauchy4_abs a0 a1 a2 a3 b0 b1 b2 b3 :
  Rabs (a0 * b0) + Rabs (a1 * b1) + Rabs (a2 * b2) + Rabs (a3 * b3)
  <= qnorm (mkQ a0 a1 a2 a3) * qnorm (mkQ b0 b1 b2 b3).
Proof.
  rewrite !Rabs_mult. eapply Rle_trans; [apply cauchy4|]. right. unfold qnorm, qnorm2; cbn. now rewrite !abs_sq.
Qed.
Lemma qnorm_triangle a b : qnorm (qadd a b) <= qnorm a + qnorm b.
Proof.
  pose proof (qnorm_nonneg a) as Ha. pose proof (qnorm_nonneg b) as Hb. apply qnorm_le_sq; [lra|].
  pose proof (cauchy4 (qw a) (qx a) (qy a) (qz a) (qw b) (qx b) (qy b) (qz b)) as C.
  assert (Ea : mkQ (qw a) (qx a) (qy a) (qz a) = a) by now destruct a.
  assert (Eb : mkQ (qw b) (qx b) (qy b) (qz b) = b) by now destruct b.
  rewrite Ea, Eb in C. pose proof (qnorm_sq a). pose proof (qnorm_sq b).
  replace (qnorm2 (qadd a b)) with (qnorm2 a + 2 * (qw a * qw b + qx a * qx b + qy a * qy b + qz a * qz b) + qnorm2 b)
    by (unfold qnorm2, qadd; cbn; ring). lra.
Qed.
Lemma qcomp_le_norm q : Rabs (qw q) <= qnorm q /\ Rabs (qx q) <= qnorm q /\ Rabs (qy q) <= qnorm q /\ Rabs (qz q) <= qnorm q.
Proof.
  pose proof (qnorm_nonneg q) as H. pose proof (qnorm_sq q) as E.
  destruct q as [a b c d]; unfold qnorm2 in E; cbn [qw qx qy qz] in *.
  pose proof (sq_nonneg a). pose proof (sq_nonneg b). pose proof (sq_nonneg c). pose proof (sq_nonneg d).
  repeat split; (apply Rsqr_incr_0_var; [|exact H]; unfold Rsqr; rewrite abs_sq, E; lra).
Qed.
Lemma qnorm_comp q t : Rabs (qw q) <= t -> Rabs (qx q) <= t -> Rabs (qy q) <= t -> Rabs (qz q) <= t ->
  qnorm q <= 2 * t.
Proof.
  intros A B C D. pose proof (Rabs_pos (qw q)) as P. apply qnorm_le_sq; [lra|]. unfold qnorm2.
  assert (X : forall x, Rabs x <= t -> x * x <= t * t).
  { intros x H. rewrite <- (abs_sq x). pose proof (Rabs_pos x). apply Rmult_le_compat; lra. }
  pose proof (X _ A). pose proof (X _ B). pose proof (X _ C). pose proof (X _ D). lra.
Qed.

(** ** One product *)

Lemma sum4_ok t (x0 x1 x2 x3 y0 y1 y2 y3 : double) N : Permutation (uses t) (seq 0 4) ->
  finite x0 -> finite x1 -> finite x2 -> finite x3 -> finite y0 -> finite y1 -> finite y2 -> finite y3 ->
  Rabs (val x0 * val y0) + Rabs (val x1 * val y1) + Rabs (val x2 * val y2) + Rabs (val x3 * val y3) <= N ->
  N <= big / 4 ->
  finite (dsum t [(x0, y0); (x1, y1); (x2, y2); (x3, y3)]) /\
  Rabs (val (dsum t [(x0, y0); (x1, y1); (x2, y2); (x3, y3)]) -
        (val x0 * val y0 + val x1 * val y1 + val x2 * val y2 + val x3 * val y3)) <= 8 * u * N + 10 * eta.
Proof.
  intros P Fx0 Fx1 Fx2 Fx3 Fy0 Fy1 Fy2 Fy3 HN HB.
  set (l := [(x0, y0); (x1, y1); (x2, y2); (x3, y3)]).
  assert (L : length (uses t) = 4%nat) by (rewrite (Permutation_length P); reflexivity).
  assert (T1 : total (term l) (uses t) = val x0 * val y0 + val x1 * val y1 + val x2 * val y2 + val x3 * val y3).
  { rewrite (total_perm _ _ _ P). cbn [seq total fold_right]. unfold term, l; cbn [nth fst snd]. unfold total; cbn [fold_right]. ring. }
  assert (T2 : total (fun i => Rabs (term l i)) (uses t) <= N).
  { rewrite (total_perm _ _ _ P). eapply Rle_trans; [|exact HN]. right.
    cbn [seq]. unfold total; cbn [fold_right]. unfold term, l; cbn [nth fst snd]. ring. }
  destruct (dsum_ok t l) as [F E].
  - rewrite L. lia.
  - intros i. destruct i as [|[|[|[|i]]]]; cbn; auto. destruct i; cbn; split; reflexivity.
  - lra.
  - split; [exact F|]. rewrite T1, L in E. eapply Rle_trans; [exact E|].
    replace (INR 4) with 4 by (cbn; ring).
    assert (0 < u) by (rewrite u_val; lra).
    assert (u * total (fun i => Rabs (term l i)) (uses t) <= u * N) by (apply Rmult_le_compat_l; lra). lra.
Qed.

Lemma qmul_round o a b : sums_four o -> qfinite a -> qfinite b ->
  qnorm (qval a) * qnorm (qval b) <= big / 4 ->
  qfinite (dqmul o a b) /\
  qwithin (8 * u * (qnorm (qval a) * qnorm (qval b)) + 10 * eta) (qval (dqmul o a b)) (qmul (qval a) (qval b)).
Proof.
  intros (Pw & Px & Py & Pz) (Fa & Fa0 & Fa1 & Fa2) (Fb & Fb0 & Fb1 & Fb2) HB.
  set (N := qnorm (qval a) * qnorm (qval b)) in *.
  destruct (fopp_ok _ Fa0) as [G0 V0]. destruct (fopp_ok _ Fa1) as [G1 V1]. destruct (fopp_ok _ Fa2) as [G2 V2].
  assert (Nx : forall a0 a1 a2 a3 b0 b1 b2 b3,
     qnorm2 (mkQ a0 a1 a2 a3) = qnorm2 (qval a) -> qnorm2 (mkQ b0 b1 b2 b3) = qnorm2 (qval b) ->
     Rabs (a0 * b0) + Rabs (a1 * b1) + Rabs (a2 * b2) + Rabs (a3 * b3) <= N).
  { intros a0 a1 a2 a3 b0 b1 b2 b3 Ea Eb. eapply Rle_trans; [apply cauchy4_abs|].
    right. unfold N, qnorm. now rewrite Ea, Eb. }
  destruct (sum4_ok (ow o) (dw a) (fopp (dx (dv a))) (fopp (dy (dv a))) (fopp (dz (dv a)))
     (dw b) (dx (dv b)) (dy (dv b)) (dz (dv b)) N) as [Fw Ew]; auto.
  { apply Nx; [rewrite V0, V1, V2|]; unfold qnorm2, qval; cbn; ring. }
  destruct (sum4_ok (ox o) (dw a) (dx (dv a)) (dy (dv a)) (fopp (dz (dv a)))
     (dx (dv b)) (dw b) (dz (dv b)) (dy (dv b)) N) as [Fx Ex]; auto.
  { apply Nx; [rewrite V2|]; unfold qnorm2, qval; cbn; ring. }
  destruct (sum4_ok (oy o) (dw a) (dy (dv a)) (dz (dv a)) (fopp (dx (dv a)))
     (dy (dv b)) (dw b) (dx (dv b)) (dz (dv b)) N) as [Fy Ey]; auto.
  { apply Nx; [rewrite V0|]; unfold qnorm2, qval; cbn; ring. }
  destruct (sum4_ok (oz o) (dw a) (dz (dv a)) (dx (dv a)) (fopp (dy (dv a)))
     (dz (dv b)) (dw b) (dy (dv b)) (dx (dv b)) N) as [Fz Ez]; auto.
  { apply Nx; [rewrite V1|]; unfold qnorm2, qval; cbn; ring. }
  split; [repeat split; assumption|].
  rewrite V0, V1, V2 in Ew. rewrite V2 in Ex. rewrite V0 in Ey. rewrite V1 in Ez.
  unfold qwithin, dqmul, qval, qmul; cbn [qw qx qy qz dw dv dx dy dz].
  split; [|split; [|split]].
  - eapply Rle_trans; [right|exact Ew]. apply (f_equal Rabs). ring.
  - eapply Rle_trans; [right|exact Ex]. apply (f_equal Rabs). ring.
  - eapply Rle_trans; [right|exact Ey]. apply (f_equal Rabs). ring.
  - eapply Rle_trans; [right|exact Ez]. apply (f_equal Rabs). ring.
Qed.

Lemma qwithin_norm d a b : qwithin d a b -> qnorm (qsub a b) <= 2 * d.
Proof. intros (A & B & C & D). apply qnorm_comp; assumption. Qed.
Lemma norm_qwithin d a b : qnorm (qsub a b) <= d -> qwithin d a b.
Proof.
  intros H. destruct (qcomp_le_norm (qsub a b)) as (A & B & C & D). unfold qsub in *; cbn [qw qx qy qz] in *.
  repeat split; (eapply Rle_trans; eauto).
Qed.

Lemma qmul_step o a p b r d D : sums_four o -> 0 <= d <= / 1000 -> D <= 1 ->
  qfinite a -> qfinite b -> unitq p -> unitq r ->
  qwithin d (qval b) r -> qnorm (qsub (qval a) p) <= D ->
  qfinite (dqmul o a b) /\ qnorm (qsub (qval (dqmul o a b)) (qmul p r)) <= D + (4 * d + / 2 ^ 47).
Proof.
  intros Ho Hd HD Fa Fb Up Ur W N. pose proof (qwithin_norm d _ _ W) as Nb.
  assert (Na2 : qnorm (qval a) <= 2).
  { replace (qval a) with (qadd p (qsub (qval a) p)) by (unfold qadd, qsub, qval; cbn; f_equal; ring).
    eapply Rle_trans; [apply qnorm_triangle|]. rewrite (qnorm_unit p Up). lra. }
  assert (Nb2 : qnorm (qval b) <= 1 + 2 * d).
  { replace (qval b) with (qadd r (qsub (qval b) r)) by (unfold qadd, qsub, qval; cbn; f_equal; ring).
    eapply Rle_trans; [apply qnorm_triangle|]. rewrite (qnorm_unit r Ur). lra. }
  pose proof (qnorm_nonneg (qval a)) as Pa. pose proof (qnorm_nonneg (qval b)) as Pb.
  assert (PN : qnorm (qval a) * qnorm (qval b) <= 2 * (1 + 2 * d)) by (apply Rmult_le_compat; lra).
  pose proof big_ge as HB. pose proof eta_le as He. pose proof u_val as Hu.
  destruct (qmul_round o a b Ho Fa Fb) as [F E]; [lra|].
  split; [exact F|]. apply qwithin_norm in E.
  replace (qsub (qval (dqmul o a b)) (qmul p r)) with
    (qadd (qsub (qval (dqmul o a b)) (qmul (qval a) (qval b)))
       (qadd (qmul (qsub (qval a) p) r) (qmul (qval a) (qsub (qval b) r))))
    by (generalize (qval (dqmul o a b)) (qval a) (qval b); intros x y z; clear;
        unfold qadd, qsub, qmul; cbn; f_equal; ring).
  eapply Rle_trans; [apply qnorm_triangle|]. eapply Rle_trans; [apply Rplus_le_compat_l, qnorm_triangle|].
  rewrite !qnorm_mul, (qnorm_unit r Ur), Rmult_1_r.
  assert (T : qnorm (qval a) * qnorm (qsub (qval b) r) <= 2 * (2 * d)).
  { pose proof (qnorm_nonneg (qsub (qval b) r)). apply Rmult_le_compat; lra. }
  assert (UN : u * (qnorm (qval a) * qnorm (qval b)) <= u * (2 * (1 + 2 * d))) by (apply Rmult_le_compat_l; lra).
  rewrite Hu in *. replace (2 ^ 47) with 140737488355328 by ring. lra.
Qed.

Lemma qprod_drift o d : sums_four o -> 0 <= d <= / 1000 -> forall As Rs,
  Forall2 (fun A R => qfinite A /\ unitq R /\ qwithin d (qval A) R) As Rs ->
  forall a p D, 0 <= D -> D + INR (length As) * (4 * d + / 2 ^ 47) <= 1 -> qfinite a -> unitq p ->
  qnorm (qsub (qval a) p) <= D ->
  qfinite (dqprod o a As) /\ unitq (qproduct p Rs) /\
  qnorm (qsub (qval (dqprod o a As)) (qproduct p Rs)) <= D + INR (length As) * (4 * d + / 2 ^ 47).
Proof.
  intros Ho Hd. induction 1 as [|A R As Rs (FA & HR & W) HF IH]; intros a p D D0 HD Fa Hp N.
  - cbn. rewrite Rmult_0_l, Rplus_0_r in *. auto.
  - change (length (A :: As)) with (S (length As)) in *. rewrite S_INR in *.
    pose proof (pos_INR (length As)) as Hn.
    assert (E0 : 0 <= 4 * d + / 2 ^ 47).
    { assert (0 < / 2 ^ 47) by (apply Rinv_0_lt_compat, pow_lt; lra). lra. }
    pose proof (Rmult_le_pos _ _ Hn E0) as Hm.
    destruct (qmul_step o a p A R d D) as [G M]; auto; [lra|].
    set (e := 4 * d + / 2 ^ 47) in *.
    destruct (IH (dqmul o a A) (qmul p R) (D + e)) as (I1 & I2 & I3); auto; [lra|lra|now apply unitq_mul|].
    split; [exact I1|]. split; [exact I2|].
    replace (D + (INR (length As) + 1) * e) with (D + e + INR (length As) * e) by ring. exact I3.
Qed.
