(** Conversion between rotation matrices and quaternions on doubles. *)

From Coq Require Import ZArith Reals Lra Lia Psatz List Bool.
From Flocq Require Import Core BinarySingleNaN.
From Verif Require Import V3 ModelLeaf SpecLeaf LeafProofs ModelExpr SpecExpr ModelFloat ModelFloatQ ModelFloatExpr SpecFlt SpecFltQ SpecFltExpr FloatProofs FloatDrift
  FloatLog2 FloatQuat FloatAct FloatNorm FloatStep2 FloatCoef FloatShep FloatTree PropsDrift PropsQuatFlt PropsFltExpr.
From Verif Require PropsLie.
Local Open Scope R_scope.

Lemma pow44 : / 2 ^ 43 = 2 * / 2 ^ 44 /\ / 2 ^ 39 = 32 * / 2 ^ 44 /\ 0 < / 2 ^ 44 <= / 1000000.
Proof.
  replace (2 ^ 44) with 17592186044416 by ring. replace (2 ^ 43) with 8796093022208 by ring. replace (2 ^ 39) with 549755813888 by ring. lra.
Qed.

(** ** C61 *)

(** A stored matrix within [e] (root of the summed squares) of a rotation becomes a finite
    quaternion within 15 e + 2^-43 of a unit quaternion of the same rotation: also near half
    turns, and whichever branch the rounded entries select. *)
Theorem c61_to_quaternion o e A R : mfinite A -> is_rot R -> fnorm (sub3 (mval A) R) <= e -> e <= / 1000 ->
  let q := dq_of_mat o A in
  qfinite q /\ exists r, unitq r /\ qrot r = R /\ qdist (qval q) r <= 15 * e + / 2 ^ 43.
Proof.
  intros F HR D He q. destruct pow44 as (P1 & P2 & P3). pose proof (fnorm_nonneg (sub3 (mval A) R)) as N.
  destruct (mconvert_step o e A R (conj F (conj HR D)) He) as (Fq & r & U & E & Q). split; [exact Fq|]. exists r. split; [exact U|]. split; [exact E|].
  eapply Rle_trans; [exact Q|]. rewrite P1. nra.
Qed.
Print Assumptions c61_to_quaternion.

(** matrix -> quaternion -> matrix *)
Theorem c61_matrix_round_trip o o' e A R : mfinite A -> is_rot R -> fnorm (sub3 (mval A) R) <= e -> e <= / 20000 ->
  let B := dqrot o' (dq_of_mat o A) in mfinite B /\ fnorm (sub3 (mval B) R) <= 225 * e + / 2 ^ 39.
Proof.
  intros F HR D He B. destruct pow44 as (P1 & P2 & P3). pose proof (fnorm_nonneg (sub3 (mval A) R)) as N.
  destruct (c61_to_quaternion o e A R F HR D ltac:(lra)) as (Fq & r & U & E & Q). rewrite P1 in Q.
  destruct (qconvert_step o' (15 * e + 2 * / 2 ^ 44) (dq_of_mat o A) R) as (FB & _ & DB); [split; [exact Fq|now exists r]|lra|].
  split; [exact FB|]. eapply Rle_trans; [exact DB|]. rewrite P2. nra.
Qed.
Print Assumptions c61_matrix_round_trip.

(** quaternion -> matrix -> quaternion: the same quaternion or its opposite *)
Theorem c61_quaternion_round_trip o o' e q r : qfinite q -> unitq r -> qdist (qval q) r <= e -> e <= / 20000 ->
  let q' := dq_of_mat o' (dqrot o q) in
  qfinite q' /\ (qdist (qval q') r <= 225 * e + / 2 ^ 39 \/ qdist (qval q') (mkQ (- qw r) (- qx r) (- qy r) (- qz r)) <= 225 * e + / 2 ^ 39).
Proof.
  intros F U D He q'. destruct pow44 as (P1 & P2 & P3). assert (N : 0 <= e) by (eapply Rle_trans; [|exact D]; apply sqrt_pos).
  destruct (qconvert_step o e q (qrot r)) as (FB & RB & DB); [split; [exact F|now exists r]|lra|].
  assert (DB' : fnorm (sub3 (mval (dqrot o q)) (qrot r)) <= 15 * e + 2 * / 2 ^ 44) by (eapply Rle_trans; [exact DB|]; nra).
  destruct (c61_to_quaternion o' _ _ _ FB RB DB' ltac:(lra)) as (Fq & r' & U' & E & Q). rewrite P1 in Q. split; [exact Fq|].
  assert (Z : 15 * (15 * e + 2 * / 2 ^ 44) + 2 * / 2 ^ 44 <= 225 * e + / 2 ^ 39) by (rewrite P2; lra).
  destruct (PropsLie.qrot_eq_sign r' r U' U E) as [-> | ->]; [left|right]; (eapply Rle_trans; [exact Q|exact Z]).
Qed.
Print Assumptions c61_quaternion_round_trip.

(** ** Concrete cases: a rotation with positive trace, and a half turn, where the trace is
    negative and the stored diagonal decides the branch. *)
Definition half_d : DM := mkDM (mkDV f1 f0 f0) (mkDV f0 (fopp f1) f0) (mkDV f0 f0 (fopp f1)).
Definition half : M3 := mkM 1 0 0 0 (-1) 0 0 0 (-1).

Example c61_example : mfinite tilt_d /\ is_rot tilt /\ fnorm (sub3 (mval tilt_d) tilt) <= 3 * / 2 ^ 53 /\ 3 * / 2 ^ 53 <= / 20000 /\
  mfinite half_d /\ is_rot half /\ fnorm (sub3 (mval half_d) half) <= 0 /\ trace3 half < 0 /\
  qfinite roll_d /\ unitq roll /\ qdist (qval roll_d) roll <= / 2 ^ 50.
Proof.
  destruct tilt_ok as (F & U & W). destruct roll_ok as (F' & U' & W'). destruct one_ok as [O1 V1]. destruct (fopp_ok f1 O1) as [O2 V2]. rewrite V1 in V2.
  assert (P0 : 0 < / 2 ^ 53) by (apply Rinv_0_lt_compat, pow_lt; lra).
  split; [exact F|]. split; [exact U|]. split; [apply fnorm_within; [exact W|lra]|].
  split; [replace (2 ^ 53) with 9007199254740992 by ring; lra|].
  split; [unfold mfinite, vfinite, half_d; cbn [r0 r1 r2 dx dy dz]; repeat split; auto|].
  split; [unfold is_rot, half; split; [unfold mul3, tr3, i3; cbn; f_equal; ring|unfold det3; cbn; ring]|].
  split.
  { replace (sub3 (mval half_d) half) with (mkM 0 0 0 0 0 0 0 0 0); [|unfold mval, half_d, half, sub3; cbn [r0 r1 r2 dx dy dz m00 m01 m02 m10 m11 m12 m20 m21 m22]; rewrite V1, V2; change (val f0) with 0; f_equal; ring].
    eapply Rle_trans; [apply (fnorm_entry _ 0)|]; try lra. unfold mwithin; cbn. rewrite Rminus_0_r, Rabs_R0. repeat split; lra. }
  split; [unfold trace3, half; cbn; lra|]. split; [exact F'|]. split; [exact U'|].
  rewrite qdist_norm. apply qwithin_norm in W'. replace (2 ^ 50) with (2 ^ 53 / 8) in * by field. 
  replace (/ (2 ^ 53 / 8)) with (8 * / 2 ^ 53) by (field; apply pow_nonzero; lra). lra.
Qed.

(** T1 * T0, T1 with a matrix and T0 with a quaternion: the product of the matrices becomes the
    quaternion of the result. *)
Example c56_mixed_example : let c := / 2 ^ 50 + / 2 ^ 44 in
  let e := XBin OCompose (XLeaf 1 (Plain LMatRT)) (XLeaf 0 (Plain LCompRT)) in
  prepare e = Some (e, Plain LCompRT) /\ fits c ex_m e /\ stored (/ 2 ^ 50) ex_mem ex_m e /\ grown c (fst (cost e)) <= / 2 ^ 34.
Proof.
  intros c e. split; [reflexivity|].
  assert (C0 : / 2 ^ 44 <= c) by (assert (0 < / 2 ^ 50) by (apply Rinv_0_lt_compat, pow_lt; lra); unfold c; lra).
  assert (CV : c = / 1125899906842624 + / 17592186044416).
  { unfold c. replace (2 ^ 50) with 1125899906842624 by ring. replace (2 ^ 44) with 17592186044416 by ring. reflexivity. }
  assert (CC : cost e = (271, 12)%nat) by reflexivity.
  assert (I1 : INR 1 = 1) by reflexivity. assert (I2 : INR 271 = 271) by (rewrite INR_IZR_INZ; reflexivity). assert (I3 : INR 12 = 12) by (rewrite INR_IZR_INZ; reflexivity).
  destruct ex_norms as (A & B & _). pose proof vast_1000. pose proof tiny_1.
  assert (Z : forall x, x <= 3 -> Rmax tiny x <= 3) by (intros; apply Rmax_lub; lra). apply Z in A, B.
  split; [|split].
  - unfold e. cbn [fits]. fold e. rewrite CC. cbn [fst snd cost]. rewrite I1, I2, I3, CV. cbn [e size ex_m length_of].
    repeat split; try lra.
  - exact (conj (conj eq_refl (ex_stored 1)) (conj eq_refl (ex_stored 0))).
  - rewrite CC. cbn [fst]. eapply Rle_trans; [apply grown_le; [exact C0|]|]; rewrite I2, CV; [lra|]. replace (2 ^ 34) with 17179869184 by ring. lra.
Qed.
