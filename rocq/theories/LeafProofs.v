(** Proofs about conversions, exponential and logarithm of the leaf model. *)

From Coq Require Import Reals Lra Psatz List Bool Arith Ratan Nsatz.
From Verif Require Import Mat V3 ModelLeaf SpecLeaf.
Local Open Scope R_scope.

(** ** Shepperd's method *)

Record rot_eqs (m : M3) : Prop := {
  re_c0 : m00 m * m00 m + m10 m * m10 m + m20 m * m20 m = 1;
  re_c1 : m01 m * m01 m + m11 m * m11 m + m21 m * m21 m = 1;
  re_c2 : m02 m * m02 m + m12 m * m12 m + m22 m * m22 m = 1;
  re_c01 : m00 m * m01 m + m10 m * m11 m + m20 m * m21 m = 0;
  re_c02 : m00 m * m02 m + m10 m * m12 m + m20 m * m22 m = 0;
  re_c12 : m01 m * m02 m + m11 m * m12 m + m21 m * m22 m = 0;
  re_r0 : m00 m * m00 m + m01 m * m01 m + m02 m * m02 m = 1;
  re_r1 : m10 m * m10 m + m11 m * m11 m + m12 m * m12 m = 1;
  re_r2 : m20 m * m20 m + m21 m * m21 m + m22 m * m22 m = 1;
  re_r01 : m00 m * m10 m + m01 m * m11 m + m02 m * m12 m = 0;
  re_r02 : m00 m * m20 m + m01 m * m21 m + m02 m * m22 m = 0;
  re_r12 : m10 m * m20 m + m11 m * m21 m + m12 m * m22 m = 0;
  re_a00 : m00 m = m11 m * m22 m - m12 m * m21 m;
  re_a01 : m01 m = m12 m * m20 m - m10 m * m22 m;
  re_a02 : m02 m = m10 m * m21 m - m11 m * m20 m;
  re_a10 : m10 m = m02 m * m21 m - m01 m * m22 m;
  re_a11 : m11 m = m00 m * m22 m - m02 m * m20 m;
  re_a12 : m12 m = m01 m * m20 m - m00 m * m21 m;
  re_a20 : m20 m = m01 m * m12 m - m02 m * m11 m;
  re_a21 : m21 m = m02 m * m10 m - m00 m * m12 m;
  re_a22 : m22 m = m00 m * m11 m - m01 m * m10 m }.

Lemma rot_equations m : is_rot m -> rot_eqs m.
Proof.
  intros H. pose proof (rot_adj m H) as A. pose proof (rot_mul_tr m H) as T.
  destruct H as (H & _).
  destruct m as [a b c d e f g h i]; unfold adj3 in A; v3unfh A; v3unfh H; v3unfh T.
  injection H as E1 E2 E3 E4 E5 E6 E7 E8 E9.
  injection T as T1 T2 T3 T4 T5 T6 T7 T8 T9.
  injection A as A1 A2 A3 A4 A5 A6 A7 A8 A9.
  constructor; cbn; assumption.
Qed.

Lemma half_inv t T : 0 < T -> t = sqrt T ->
  let s := (1 / 2) / t in t * t = T /\ s * t = 1 / 2 /\ s * s * T = 1 / 4.
Proof.
  intros HT -> s. pose proof (sqrt_lt_R0 T HT) as Hp.
  pose proof (sqrt_sqrt T (Rlt_le _ _ HT)) as Hq.
  assert (Hs : s * sqrt T = 1 / 2) by (unfold s; field; lra).
  split; [exact Hq|]. split; [exact Hs|].
  transitivity (s * s * (sqrt T * sqrt T)); [rewrite Hq; reflexivity|].
  transitivity ((s * sqrt T) * (s * sqrt T)); [ring|]. rewrite Hs. field.
Qed.

Lemma q_from_products (m : M3) (w x y z : R) :
  w * w = (1 + m00 m + m11 m + m22 m) / 4 ->
  x * x = (1 + m00 m - m11 m - m22 m) / 4 ->
  y * y = (1 - m00 m + m11 m - m22 m) / 4 ->
  z * z = (1 - m00 m - m11 m + m22 m) / 4 ->
  w * x = (m21 m - m12 m) / 4 -> w * y = (m02 m - m20 m) / 4 ->
  w * z = (m10 m - m01 m) / 4 ->
  x * y = (m01 m + m10 m) / 4 -> x * z = (m02 m + m20 m) / 4 ->
  y * z = (m12 m + m21 m) / 4 ->
  unitq (mkQ w x y z) /\ qrot (mkQ w x y z) = m.
Proof.
  destruct m as [a b c d e f g h i]; unfold unitq; v3unf. intros. split; [lra|].
  f_equal; lra.
Qed.

Lemma prod_ss s T p q k : s * s * T = 1 / 4 -> p * q = k * T -> (p * s) * (q * s) = k / 4.
Proof.
  intros Hs Hp. transitivity (s * s * (p * q)); [ring|]. rewrite Hp.
  transitivity (s * s * T * k); [ring|]. rewrite Hs. field.
Qed.
Lemma prod_st s t p : s * t = 1 / 2 -> t / 2 * (p * s) = p / 4.
Proof. intros Hs. transitivity (s * t * p / 2); [field|]. rewrite Hs. field. Qed.
Lemma prod_ts s t p : s * t = 1 / 2 -> (p * s) * (t / 2) = p / 4.
Proof. intros Hs. transitivity (s * t * p / 2); [field|]. rewrite Hs. field. Qed.
Lemma prod_tt t T : t * t = T -> t / 2 * (t / 2) = T / 4.
Proof. intros <-. field. Qed.

Lemma q_of_mat_correct m : is_rot m ->
  unitq (q_of_mat m) /\ qrot (q_of_mat m) = m.
Proof.
  intros H. pose proof (rot_equations m H) as Q. pose proof (rot_diag_le m H) as DL.
  pose proof (rot_trace_bound m H) as TB. clear H.
  destruct Q as [c0 c1 c2 c01 c02 c12 r0 r1 r2 r01 r02 r12 a00 a01 a02 a10 a11 a12 a20 a21 a22].
  destruct m as [a b c d e f g h i]; unfold q_of_mat; cbn in *. unfold trace3 in *; cbn in *.
  destruct (Rlt_dec 0 (a + e + i)) as [Ht|Ht];
    [|destruct (Rlt_dec (if Rlt_dec a e then e else a) i) as [H2|H2];
      [|destruct (Rlt_dec a e) as [H1|H1]]].
  - assert (HT : 0 < a + e + i + 1) by lra.
    destruct (half_inv (sqrt (a + e + i + 1)) (a + e + i + 1) HT eq_refl) as (K1 & K2 & K3).
    apply q_from_products; cbn.
    + rewrite (prod_tt _ _ K1); lra.
    + apply (prod_ss _ _ _ _ _ K3); lra.
    + apply (prod_ss _ _ _ _ _ K3); lra.
    + apply (prod_ss _ _ _ _ _ K3); lra.
    + apply (prod_st _ _ _ K2).
    + apply (prod_st _ _ _ K2).
    + apply (prod_st _ _ _ K2).
    + apply (prod_ss _ _ _ _ _ K3); lra.
    + apply (prod_ss _ _ _ _ _ K3); lra.
    + apply (prod_ss _ _ _ _ _ K3); lra.
  - assert (HT : 0 < i - a - e + 1) by (destruct (Rlt_dec a e); lra).
    destruct (half_inv (sqrt (i - a - e + 1)) (i - a - e + 1) HT eq_refl) as (K1 & K2 & K3).
    apply q_from_products; cbn.
    + apply (prod_ss _ _ _ _ _ K3); lra.
    + apply (prod_ss _ _ _ _ _ K3); lra.
    + apply (prod_ss _ _ _ _ _ K3); lra.
    + rewrite (prod_tt _ _ K1); lra.
    + apply (prod_ss _ _ _ _ _ K3); lra.
    + apply (prod_ss _ _ _ _ _ K3); lra.
    + apply (prod_ts _ _ _ K2).
    + apply (prod_ss _ _ _ _ _ K3); lra.
    + rewrite (prod_ts _ _ _ K2); lra.
    + rewrite (prod_ts _ _ _ K2); lra.
  - assert (HT : 0 < e - i - a + 1) by lra.
    destruct (half_inv (sqrt (e - i - a + 1)) (e - i - a + 1) HT eq_refl) as (K1 & K2 & K3).
    apply q_from_products; cbn.
    + apply (prod_ss _ _ _ _ _ K3); lra.
    + apply (prod_ss _ _ _ _ _ K3); lra.
    + rewrite (prod_tt _ _ K1); lra.
    + apply (prod_ss _ _ _ _ _ K3); lra.
    + apply (prod_ss _ _ _ _ _ K3); lra.
    + rewrite (prod_ts _ _ _ K2); lra.
    + apply (prod_ss _ _ _ _ _ K3); lra.
    + rewrite (prod_ts _ _ _ K2); lra.
    + apply (prod_ss _ _ _ _ _ K3); lra.
    + rewrite (prod_st _ _ _ K2); lra.
  - assert (HT : 0 < a - e - i + 1) by lra.
    destruct (half_inv (sqrt (a - e - i + 1)) (a - e - i + 1) HT eq_refl) as (K1 & K2 & K3).
    apply q_from_products; cbn.
    + apply (prod_ss _ _ _ _ _ K3); lra.
    + rewrite (prod_tt _ _ K1); lra.
    + apply (prod_ss _ _ _ _ _ K3); lra.
    + apply (prod_ss _ _ _ _ _ K3); lra.
    + rewrite (prod_ts _ _ _ K2); lra.
    + apply (prod_ss _ _ _ _ _ K3); lra.
    + apply (prod_ss _ _ _ _ _ K3); lra.
    + rewrite (prod_st _ _ _ K2); lra.
    + rewrite (prod_st _ _ _ K2); lra.
    + apply (prod_ss _ _ _ _ _ K3); lra.
Qed.

(** ** Angle-axis from quaternion *)

Lemma atan2_cos_sin n w : 0 < n -> 0 <= w -> n * n + w * w = 1 ->
  cos (atan2_pos n w) = w /\ sin (atan2_pos n w) = n.
Proof.
  intros Hn Hw H1. unfold atan2_pos. destruct (Req_EM_T w 0) as [->|Hw0].
  - rewrite cos_PI2, sin_PI2. split; [reflexivity|]. nra.
  - assert (0 < w) by lra.
    assert (E : 1 + (n / w)² = (/ w) * (/ w)).
    { unfold Rsqr. transitivity ((n * n + w * w) / (w * w)); [field; lra|]. rewrite H1.
      field; lra. }
    assert (S : sqrt (1 + (n / w)²) = / w).
    { rewrite E. apply sqrt_square. left. apply Rinv_0_lt_compat. assumption. }
    rewrite cos_atan, sin_atan, S. split; field; lra.
Qed.

Lemma qrot_neg w x y z : qrot (mkQ (- w) (- x) (- y) (- z)) = qrot (mkQ w x y z).
Proof. v3ring. Qed.

Lemma aa_of_q_correct q : unitq q ->
  unitv (snd (aa_of_q q)) /\ aa_rot (fst (aa_of_q q)) (snd (aa_of_q q)) = qrot q.
Proof.
  intros H. unfold aa_of_q. set (n := vnorm (qvec q)).
  assert (Hnn : n * n = vnorm2 (qvec q)) by apply vnorm_sq.
  assert (Hn0 : 0 <= n) by apply vnorm_nonneg.
  assert (Hq : n * n + qw q * qw q = 1).
  { rewrite Hnn. unfold unitq in H. destruct q; v3unfh H; v3unf. lra. }
  destruct (Req_EM_T n 0) as [Hn|Hn]; cbn [fst snd].
  - split; [unfold unitv; v3unf; ring|].
    rewrite aa_rot_0. assert (Hv : qvec q = v0).
    { apply vnorm2_eq0. rewrite <- Hnn, Hn. ring. }
    destruct q as [w x y z]. unfold qvec in Hv; cbn in Hv. injection Hv as -> -> ->.
    v3unf. f_equal; ring.
  - assert (Hp : 0 < n) by lra.
    assert (Hu : forall k, k * k = 1 -> unitv (vscal (k * / n) (qvec q))).
    { intros k Hk. unfold unitv.
      replace (vnorm2 (vscal (k * / n) (qvec q)))
        with ((k * k) * (/ n * / n * vnorm2 (qvec q))).
      - rewrite Hk, <- Hnn. field. lra.
      - destruct q; v3unf. ring. }
    assert (Ha : Rabs (qw q) * Rabs (qw q) = qw q * qw q).
    { rewrite <- Rabs_mult. apply Rabs_pos_eq. apply sq_nonneg. }
    destruct (atan2_cos_sin n (Rabs (qw q)) Hp (Rabs_pos _)) as (Ec & Es); [lra|].
    destruct (Rlt_dec (qw q) 0) as [Hw|Hw].
    + specialize (Hu (-1) ltac:(ring)).
      replace (-1 * / n) with (/ - n) in Hu by (field; lra).
      split; [exact Hu|].
      rewrite <- (qrot_half _ _ Hu), Ec, Es.
      rewrite Rabs_left by assumption.
      replace q with (mkQ (qw q) (qx q) (qy q) (qz q)) at 5 by (destruct q; reflexivity).
      rewrite <- qrot_neg. f_equal.
      destruct q; v3unf; f_equal; field; lra.
    + specialize (Hu 1 ltac:(ring)). rewrite Rmult_1_l in Hu.
      split; [exact Hu|].
      rewrite <- (qrot_half _ _ Hu), Ec, Es.
      rewrite Rabs_right by lra.
      f_equal. destruct q; v3unf; f_equal; field; lra.
Qed.

(** ** Exponential *)

Lemma sin_cos_1 x : sin x * sin x + cos x * cos x = 1.
Proof. pose proof (sin2_cos2 x) as H. unfold Rsqr in H. exact H. Qed.

Lemma cos_half_1 x : 1 - cos x = 2 * (sin (x / 2) * sin (x / 2)).
Proof.
  replace (cos x) with (cos (2 * (x / 2))) by (f_equal; field). rewrite cos_2a_sin. ring.
Qed.
Lemma sin_half x : sin x = 2 * (sin (x / 2) * cos (x / 2)).
Proof. replace (sin x) with (sin (2 * (x / 2))) by (f_equal; field). rewrite sin_2a. ring. Qed.

Lemma vnorm_0 : vnorm v0 = 0.
Proof. unfold vnorm. replace (vnorm2 v0) with 0 by (v3unf; ring). apply sqrt_0. Qed.

Lemma vnorm_eq0 v : vnorm v = 0 -> v = v0.
Proof. intros H. apply vnorm2_eq0. rewrite <- vnorm_sq, H. ring. Qed.

Lemma vnorm_neq0 v : v <> v0 -> 0 < vnorm v.
Proof.
  intros H. destruct (vnorm_nonneg v) as [Hv|Hv]; [exact Hv|].
  contradiction H. now apply vnorm_eq0.
Qed.

Lemma so3_exp_0 : so3_exp v0 = i3.
Proof.
  unfold so3_exp. destruct (Req_EM_T (vnorm v0) 0) as [|H]; [reflexivity|].
  contradiction H. apply vnorm_0.
Qed.

Lemma so3_exp_nz v : v <> v0 ->
  so3_exp v = rodrigues (sin (vnorm v) / vnorm v) ((1 - cos (vnorm v)) / vnorm2 v) v.
Proof.
  intros H. unfold so3_exp. destruct (Req_EM_T (vnorm v) 0) as [E|E].
  - contradiction H. now apply vnorm_eq0.
  - now rewrite vnorm_sq.
Qed.

Lemma so3_exp_is_rot v : is_rot (so3_exp v).
Proof.
  unfold so3_exp. destruct (Req_EM_T (vnorm v) 0) as [E|E]; [apply is_rot_i|].
  apply rodrigues_is_rot_gen. rewrite <- vnorm_sq. set (n := vnorm v) in *.
  pose proof (sin_cos_1 n) as S.
  apply (Rmult_eq_reg_r (n * n)); [|nra].
  transitivity (2 * (1 - cos n)); [field; lra|].
  transitivity (sin n * sin n + (1 - cos n) * (1 - cos n)); [lra|]. field; lra.
Qed.

(** Rodrigues' formula is the rotation by the angle |v| about the axis v/|v|. *)
Lemma so3_exp_axis_angle v : v <> v0 ->
  unitv (vscal (/ vnorm v) v) /\ so3_exp v = aa_rot (vnorm v) (vscal (/ vnorm v) v).
Proof.
  intros H. pose proof (vnorm_neq0 v H) as Hn.
  assert (U : unitv (vscal (/ vnorm v) v)).
  { unfold unitv. replace (vnorm2 (vscal (/ vnorm v) v)) with (/ vnorm v * / vnorm v * vnorm2 v)
      by (destruct v; v3unf; ring). rewrite <- vnorm_sq. field. lra. }
  split; [exact U|]. rewrite aa_rot_rodrigues by exact U.
  rewrite so3_exp_nz by exact H. rewrite <- vnorm_sq. unfold rodrigues.
  rewrite skew_scal, mul3_scal_l, mul3_scal_r.
  f_equal. f_equal.
  - destruct v; v3unf; f_equal; field; lra.
  - destruct v; v3unf; f_equal; field; lra.
Qed.

Section Exp.
  Variable eps : R.

  (** The branch of exp in which the code computes sin and cos (or the input is 0). *)
  Definition exp_rot_general (v : V3) : Prop :=
    v = v0 \/ eps < vnorm2 v * vnorm2 v.

  Lemma exp_quat_correct v : 0 <= eps -> exp_rot_general v ->
    unitq (exp_quat eps v) /\ qrot (exp_quat eps v) = so3_exp v.
  Proof.
    intros He [->|Hv].
    - unfold exp_quat. replace (vnorm2 v0) with 0 by (v3unf; ring).
      destruct (Rlt_dec eps (0 * 0)) as [K|K]; [lra|]. cbn.
      rewrite so3_exp_0. unfold unitq. v3unf. split; [field|]. f_equal; field.
    - unfold exp_quat. fold (vnorm v).
      destruct (Rlt_dec eps (vnorm2 v * vnorm2 v)) as [K|K]; [|contradiction]. cbn [fst snd].
      assert (Hv0 : v <> v0).
      { intros ->. revert Hv. replace (vnorm2 v0) with 0 by (v3unf; ring). lra. }
      destruct (so3_exp_axis_angle v Hv0) as (U & E).
      pose proof (vnorm_neq0 v Hv0) as Hn. set (n := vnorm v) in *.
      assert (Q : mkQ (cos (n / 2)) (sin (n / 2) / n * vx v) (sin (n / 2) / n * vy v)
                     (sin (n / 2) / n * vz v)
             = mkQ (cos (n / 2)) (sin (n / 2) * vx (vscal (/ n) v))
                   (sin (n / 2) * vy (vscal (/ n) v)) (sin (n / 2) * vz (vscal (/ n) v))).
      { destruct v; cbn. f_equal; unfold Rdiv; ring. }
      rewrite Q. split; [apply unitq_half; exact U|].
      rewrite qrot_half by exact U. rewrite E. f_equal. field.
  Qed.
End Exp.

(** ** Logarithm *)

Lemma trace_rodrigues s c v : trace3 (rodrigues s c v) = 3 - 2 * c * vnorm2 v.
Proof. unfold rodrigues. v3ring. Qed.

Lemma rodrigues_antisym s c v :
  sub3 (rodrigues s c v) (tr3 (rodrigues s c v)) = skew (vscal (2 * s) v).
Proof. unfold rodrigues. v3ring. Qed.

Lemma uncross_skew v : uncross (skew v) = v.
Proof. destruct v; reflexivity. Qed.

Lemma uncross_scal k v : uncross (scal3 k (skew v)) = vscal k v.
Proof. destruct v; unfold uncross; v3unf. f_equal; ring. Qed.

Lemma rot_angle_exp v : vnorm v <= PI -> rot_angle (so3_exp v) = vnorm v.
Proof.
  intros Hpi. pose proof (vnorm_nonneg v) as Hn.
  unfold rot_angle. destruct (Req_EM_T (vnorm v) 0) as [E|E].
  - rewrite (vnorm_eq0 v E), so3_exp_0, vnorm_0. replace ((trace3 i3 - 1) / 2) with 1
      by (v3unf; field). rewrite acos_1. reflexivity.
  - rewrite so3_exp_nz by (intros ->; apply E, vnorm_0).
    rewrite trace_rodrigues. rewrite <- vnorm_sq.
    replace ((3 - 2 * ((1 - cos (vnorm v)) / (vnorm v * vnorm v)) * (vnorm v * vnorm v) - 1) / 2)
      with (cos (vnorm v)) by (field; exact E).
    apply acos_cos. lra.
Qed.

Section Log.
  Variable eps : R.

  Lemma log_exp_general v : 0 <= eps -> eps < vnorm2 v -> vnorm v < PI ->
    log_mat eps (so3_exp v) = Some v.
  Proof.
    intros He Hv Hpi.
    assert (Hv0 : v <> v0).
    { intros ->. revert Hv. replace (vnorm2 v0) with 0 by (v3unf; ring). lra. }
    pose proof (vnorm_neq0 v Hv0) as Hn.
    assert (Hs : 0 < sin (vnorm v)) by (apply sin_gt_0; lra).
    unfold log_mat. pose proof (rot_trace_bound _ (so3_exp_is_rot v)) as TB.
    destruct (Rle_dec _ _) as [K1|K1]; [|exfalso; apply K1; lra].
    destruct (Rle_dec ((trace3 (so3_exp v) - 1) / 2) 1) as [K2|K2]; [|exfalso; apply K2; lra].
    change (acos ((trace3 (so3_exp v) - 1) / 2)) with (rot_angle (so3_exp v)).
    rewrite rot_angle_exp by lra. rewrite vnorm_sq.
    destruct (Rlt_dec eps (vnorm2 v)) as [K3|K3]; [|contradiction].
    unfold odiv. destruct (Req_EM_T (2 * sin (vnorm v)) 0) as [K4|K4]; [lra|].
    rewrite so3_exp_nz by exact Hv0. rewrite rodrigues_antisym, uncross_scal.
    rewrite vscal_scal. f_equal.
    replace (vnorm v / (2 * sin (vnorm v)) * (2 * (sin (vnorm v) / vnorm v))) with 1 by (field; lra).
    apply vscal_1.
  Qed.

  (** For small angles the code returns sin(|v|)/|v| v. *)
  Lemma log_exp_small v : 0 <= eps -> v <> v0 -> vnorm2 v <= eps -> vnorm v <= PI ->
    log_mat eps (so3_exp v) = Some (vscal (sin (vnorm v) / vnorm v) v).
  Proof.
    intros He Hv0 Hv Hpi.
    pose proof (vnorm_neq0 v Hv0) as Hn.
    unfold log_mat. pose proof (rot_trace_bound _ (so3_exp_is_rot v)) as TB.
    destruct (Rle_dec _ _) as [K1|K1]; [|exfalso; apply K1; lra].
    destruct (Rle_dec ((trace3 (so3_exp v) - 1) / 2) 1) as [K2|K2]; [|exfalso; apply K2; lra].
    change (acos ((trace3 (so3_exp v) - 1) / 2)) with (rot_angle (so3_exp v)).
    rewrite rot_angle_exp by lra. rewrite vnorm_sq.
    destruct (Rlt_dec eps (vnorm2 v)) as [K3|K3]; [lra|].
    rewrite so3_exp_nz by exact Hv0. rewrite rodrigues_antisym, uncross_scal.
    rewrite vscal_scal. f_equal. f_equal. field. lra.
  Qed.

  Lemma log_i : 0 <= eps -> log_mat eps i3 = Some v0.
  Proof.
    intros He. unfold log_mat. replace ((trace3 i3 - 1) / 2) with 1 by (v3unf; field).
    destruct (Rle_dec _ _) as [K1|K1]; [|exfalso; apply K1; lra].
    destruct (Rle_dec 1 1) as [K2|K2]; [|exfalso; apply K2; lra].
    rewrite acos_1. destruct (Rlt_dec eps (0 * 0)); [lra|].
    f_equal. unfold uncross. v3unf. f_equal; field.
  Qed.
End Log.

(** Any rotation matrix that is not a half turn, from its antisymmetric part. *)
Lemma rot_from_antisym m : is_rot m ->
  let s := vscal (1 / 2) (uncross (sub3 m (tr3 m))) in
  let x := (trace3 m - 1) / 2 in
  scal3 (1 + x) m = add3 (scal3 (1 + x) (add3 i3 (skew s))) (mul3 (skew s) (skew s))
  /\ vnorm2 s = 1 - x * x.
Proof.
  intros H. pose proof (rot_equations m H) as Q. clear H.
  destruct Q as [c0 c1 c2 c01 c02 c12 r0 r1 r2 r01 r02 r12 a00 a01 a02 a10 a11 a12 a20 a21 a22].
  destruct m as [a b c d e f g h i]; cbn in *. unfold uncross. v3unf.
  split; [f_equal; lra|lra].
Qed.

Lemma exp_log_general eps m : is_rot m -> 0 <= eps -> rot_angle m < PI ->
  eps < rot_angle m * rot_angle m ->
  exists v, log_mat eps m = Some v /\ vnorm v = rot_angle m /\ so3_exp v = m.
Proof.
  intros H He Hpi Hang. pose proof (rot_trace_bound m H) as TB.
  destruct (rot_from_antisym m H) as (E1 & E2).
  set (s := vscal (1 / 2) (uncross (sub3 m (tr3 m)))) in *.
  set (x := (trace3 m - 1) / 2) in *. unfold rot_angle in *. fold x in Hpi, Hang |- *.
  set (th := acos x) in *.
  assert (Cx : cos th = x) by (apply cos_acos; lra).
  pose proof (acos_bound x) as AB. fold th in AB.
  assert (Hth : 0 < th).
  { destruct (proj1 AB) as [K|K]; [exact K|]. rewrite <- K in Hang. lra. }
  assert (Hs : 0 < sin th) by (apply sin_gt_0; lra).
  assert (Hc : 1 + x <> 0).
  { intros K. pose proof (sin_cos_1 th) as S. rewrite Cx in S.
    replace x with (-1) in S by lra. nra. }
  unfold log_mat. fold x.
  destruct (Rle_dec _ _) as [K1|K1]; [|exfalso; apply K1; lra].
  destruct (Rle_dec x 1) as [K2|K2]; [|exfalso; apply K2; lra].
  fold th. destruct (Rlt_dec eps (th * th)) as [K3|K3]; [|contradiction].
  unfold odiv. destruct (Req_EM_T (2 * sin th) 0) as [K4|K4]; [lra|].
  eexists. split; [reflexivity|].
  assert (EV : uncross (scal3 (th / (2 * sin th)) (sub3 m (tr3 m))) = vscal (th / sin th) s).
  { unfold s, uncross. destruct m; v3unf. f_equal; field; lra. }
  rewrite EV.
  assert (Hn2 : vnorm2 (vscal (th / sin th) s) = th * th).
  { replace (vnorm2 (vscal (th / sin th) s)) with (th / sin th * (th / sin th) * vnorm2 s)
      by (destruct s; v3unf; ring).
    rewrite E2. pose proof (sin_cos_1 th) as S. rewrite Cx in S.
    replace (1 - x * x) with (sin th * sin th) by lra. field. lra. }
  assert (Hn : vnorm (vscal (th / sin th) s) = th).
  { unfold vnorm. rewrite Hn2. apply sqrt_square. lra. }
  split; [exact Hn|].
  rewrite so3_exp_nz.
  2:{ intros K. rewrite K, vnorm_0 in Hn. lra. }
  rewrite Hn, Hn2. unfold rodrigues. rewrite skew_scal, mul3_scal_l, mul3_scal_r.
  assert (S : sin th * sin th = (1 - x) * (1 + x)).
  { pose proof (sin_cos_1 th) as S. rewrite Cx in S. lra. }
  assert (F1 : forall n, scal3 (sin th / th) (scal3 (th / sin th) n) = n).
  { intros [? ? ? ? ? ? ? ? ?]; v3unf. f_equal; field; lra. }
  rewrite F1.
  assert (F2 : forall n, scal3 ((1 - cos th) / (th * th)) (scal3 (th / sin th) (scal3 (th / sin th) n))
                  = scal3 (/ (1 + x)) n).
  { intros n. rewrite Cx.
    assert (G : (1 - x) / (th * th) * (th / sin th * (th / sin th)) = / (1 + x)).
    { transitivity ((1 - x) / (sin th * sin th)); [field; lra|]. rewrite S. field.
      split; [exact Hc|]. intros Z. rewrite Z in S. nra. }
    rewrite <- G. destruct n; v3unf. f_equal; ring. }
  rewrite F2.
  assert (F3 : m = scal3 (/ (1 + x)) (scal3 (1 + x) m)).
  { destruct m; v3unf. f_equal; field; exact Hc. }
  rewrite F3, E1. destruct s; v3unf. f_equal; field; exact Hc.
Qed.

(** ** Rigid transforms: exponential and logarithm *)

Lemma rodrigues_mul a b c d v :
  mul3 (rodrigues a b v) (rodrigues c d v)
  = rodrigues (a + c - vnorm2 v * (a * d + b * c)) (b + d + a * c - vnorm2 v * (b * d)) v.
Proof. unfold rodrigues. v3ring. Qed.

Lemma rodrigues_00 v : rodrigues 0 0 v = i3.
Proof. unfold rodrigues. v3ring. Qed.

Lemma rodrigues_at_0 a b : rodrigues a b v0 = i3.
Proof. unfold rodrigues. v3ring. Qed.

Lemma so3_V_0 : so3_V v0 = i3.
Proof.
  unfold so3_V. destruct (Req_EM_T (vnorm v0) 0) as [|H]; [reflexivity|].
  contradiction H. apply vnorm_0.
Qed.

Lemma so3_V_nz v : v <> v0 ->
  so3_V v = rodrigues ((1 - cos (vnorm v)) / vnorm2 v)
              ((1 - sin (vnorm v) / vnorm v) / vnorm2 v) v.
Proof.
  intros H. unfold so3_V. destruct (Req_EM_T (vnorm v) 0) as [E|E].
  - contradiction H. now apply vnorm_eq0.
  - now rewrite vnorm_sq.
Qed.

Lemma cos_lt_1 x : 0 < x < 2 * PI -> cos x < 1.
Proof.
  intros Hx. pose proof (cos_half_1 x) as H.
  assert (0 < sin (x / 2)) by (apply sin_gt_0; lra). nra.
Qed.

(** The code's V^-1. *)
Definition so3_Vinv (v : V3) : M3 :=
  rodrigues (- (1 / 2))
    ((1 - (sin (vnorm v) / vnorm v) / 2 / ((1 - cos (vnorm v)) / vnorm2 v)) / vnorm2 v) v.

Lemma V_Vinv v : v <> v0 -> vnorm v < 2 * PI ->
  mul3 (so3_V v) (so3_Vinv v) = i3 /\ mul3 (so3_Vinv v) (so3_V v) = i3.
Proof.
  intros Hv Hpi. pose proof (vnorm_neq0 v Hv) as Hn.
  pose proof (cos_lt_1 (vnorm v) (conj Hn Hpi)) as Hc.
  rewrite so3_V_nz by exact Hv. unfold so3_Vinv. rewrite !rodrigues_mul.
  rewrite <- (vnorm_sq v). pose proof (sin_cos_1 (vnorm v)) as S.
  set (n := vnorm v) in *. set (s := sin n) in *. set (c := cos n) in *.
  assert (C1 : forall k, 0 = k -> forall a, 0 = a -> rodrigues k a v = i3).
  { intros k <- a <-. apply rodrigues_00. }
  assert (Hs2 : s * s = (1 - c) * (1 + c)) by lra.
  split; apply C1.
  - field. lra.
  - transitivity ((s * s - (1 - c) * (1 + c)) * (/ (2 * (n * n) * (c - 1)))); [rewrite Hs2; ring|].
    field. repeat split; try lra.
  - field. lra.
  - transitivity ((s * s - (1 - c) * (1 + c)) * (/ (2 * (n * n) * (c - 1)))); [rewrite Hs2; ring|].
    field. repeat split; try lra.
Qed.

Section ExpRT.
  Variable eps : R.

  Definition exp_twist_general (w : V3) : Prop := w = v0 \/ eps < vnorm2 w.

  Lemma twist_exp_correct w u : 0 <= eps -> exp_twist_general w ->
    twist_exp eps w u = (so3_exp w, app3 (so3_V w) u).
  Proof.
    intros He [->|Hw].
    - unfold twist_exp. replace (vnorm2 v0) with 0 by (v3unf; ring).
      destruct (Rlt_dec eps 0); [lra|]. rewrite so3_exp_0, so3_V_0.
      f_equal; [v3ring|]. destruct u; v3unf. f_equal; ring.
    - assert (Hv0 : w <> v0).
      { intros ->. revert Hw. replace (vnorm2 v0) with 0 by (v3unf; ring). lra. }
      unfold twist_exp. destruct (Rlt_dec eps (vnorm2 w)) as [K|K]; [|contradiction].
      rewrite so3_exp_nz, so3_V_nz by exact Hv0. unfold rodrigues. rewrite !add3_assoc.
      reflexivity.
  Qed.

  (** In the small branch the rotation part is I + [w]x. *)
  Lemma twist_exp_small w u : vnorm2 w <= eps ->
    twist_exp eps w u = (add3 i3 (skew w), u).
  Proof.
    intros Hw. unfold twist_exp. destruct (Rlt_dec eps (vnorm2 w)) as [K|K]; [lra|].
    f_equal; [v3ring|]. destruct u; v3unf. f_equal; ring.
  Qed.

  Lemma rt_log_general m t w : 0 <= eps -> log_mat eps m = Some w -> eps < vnorm2 w ->
    vnorm w < 2 * PI ->
    rt_log eps m t = Some (w, app3 (so3_Vinv w) t).
  Proof.
    intros He Hl Hw Hpi.
    assert (Hv0 : w <> v0).
    { intros ->. revert Hw. replace (vnorm2 v0) with 0 by (v3unf; ring). lra. }
    pose proof (vnorm_neq0 w Hv0) as Hn.
    pose proof (cos_lt_1 (vnorm w) (conj Hn Hpi)) as Hc.
    pose proof (vnorm_sq w) as Hsq.
    unfold rt_log. rewrite Hl. destruct (Rlt_dec eps (vnorm2 w)) as [K|K]; [|contradiction].
    fold (vnorm w). unfold odiv.
    destruct (Req_EM_T (vnorm w) 0) as [Z|_]; [lra|].
    destruct (Req_EM_T (vnorm2 w) 0) as [Z|_]; [lra|].
    destruct (Req_EM_T ((1 - cos (vnorm w)) / vnorm2 w) 0) as [Z|_].
    - exfalso. assert (0 < (1 - cos (vnorm w)) / vnorm2 w) by (apply Rdiv_lt_0_compat; lra). lra.
    - f_equal. f_equal. f_equal. unfold so3_Vinv, rodrigues.
      generalize ((1 - sin (vnorm w) / vnorm w / 2 / ((1 - cos (vnorm w)) / vnorm2 w)) / vnorm2 w).
      intros k. v3ring.
  Qed.

  Lemma rt_log_exp w u : 0 <= eps -> eps < vnorm2 w -> vnorm w < PI ->
    rt_log eps (so3_exp w) (app3 (so3_V w) u) = Some (w, u).
  Proof.
    intros He Hw Hpi. pose proof (log_exp_general eps w He Hw Hpi) as HL.
    assert (Hv0 : w <> v0).
    { intros ->. revert Hw. replace (vnorm2 v0) with 0 by (v3unf; ring). lra. }
    pose proof (vnorm_neq0 w Hv0) as Hn.
    rewrite (rt_log_general _ _ _ He HL Hw) by lra.
    rewrite <- app3_mul. destruct (V_Vinv w Hv0) as (_ & E); [lra|]. rewrite E, app3_i. reflexivity.
  Qed.

  Lemma rt_log_exp_0 u : 0 <= eps -> rt_log eps (so3_exp v0) (app3 (so3_V v0) u) = Some (v0, u).
  Proof.
    intros He. rewrite so3_exp_0, so3_V_0, app3_i. unfold rt_log. rewrite log_i by exact He.
    replace (vnorm2 v0) with 0 by (v3unf; ring). destruct (Rlt_dec eps 0); [lra|].
    f_equal. f_equal. destruct u; v3unf. f_equal; field.
  Qed.

  Lemma rt_exp_log m t : 0 <= eps -> is_rot m -> rot_angle m < PI ->
    eps < rot_angle m * rot_angle m ->
    exists w u, rt_log eps m t = Some (w, u) /\ vnorm w = rot_angle m
      /\ so3_exp w = m /\ app3 (so3_V w) u = t.
  Proof.
    intros He Hm Hpi Ha. destruct (exp_log_general eps m Hm He Hpi Ha) as (w & HL & Hn & HE).
    assert (Hw : eps < vnorm2 w) by (rewrite <- vnorm_sq, Hn; exact Ha).
    assert (Hv0 : w <> v0).
    { intros ->. revert Hw. replace (vnorm2 v0) with 0 by (v3unf; ring). lra. }
    pose proof (vnorm_neq0 w Hv0) as Hp.
    exists w, (app3 (so3_Vinv w) t). rewrite (rt_log_general m t w He HL Hw) by lra.
    repeat split; try assumption.
    rewrite <- app3_mul. destruct (V_Vinv w Hv0) as (E & _); [lra|]. rewrite E. apply app3_i.
  Qed.
End ExpRT.

(** ** Local Jacobians of exp and log *)

(** The SO(3) exp Jacobian in closed form is the matrix V; the log Jacobian is its
    inverse. *)
Lemma rodrigues_left_jac s c1 v :
  add3 (mul3 (sub3 i3 (rodrigues s c1 v)) (skew v)) (outer3 v v)
  = add3 (scal3 (vnorm2 v) i3)
      (add3 (scal3 (vnorm2 v * c1) (skew v)) (scal3 (1 - s) (mul3 (skew v) (skew v)))).
Proof. unfold rodrigues. v3ring. Qed.

Lemma exp_rot_jac_V eps v : 0 <= eps -> eps < vnorm2 v ->
  exp_rot_jac eps (so3_exp v) v = so3_V v.
Proof.
  intros He Hv.
  assert (Hv0 : v <> v0).
  { intros ->. revert Hv. replace (vnorm2 v0) with 0 by (v3unf; ring). lra. }
  unfold exp_rot_jac.
  destruct (Rlt_dec eps (vnorm2 v)) as [K|K]; [|contradiction].
  rewrite so3_exp_nz, so3_V_nz by exact Hv0. rewrite rodrigues_left_jac.
  assert (HN : vnorm2 v <> 0) by lra. revert HN. generalize (vnorm2 v) as N. intros N HN.
  generalize (sin (vnorm v) / vnorm v) as A. generalize (1 - cos (vnorm v)) as B. intros B A.
  unfold rodrigues. generalize (mul3 (skew v) (skew v)) as S2. generalize (skew v) as S.
  intros S S2. destruct S, S2; v3unf. f_equal; field; exact HN.
Qed.

(** The log Jacobian of the code is V^-1. *)
Lemma log_rot_jac_Vinv v : v <> v0 -> vnorm v < 2 * PI ->
  log_rot_jac v = Some (so3_Vinv v).
Proof.
  intros Hv Hpi. pose proof (vnorm_neq0 v Hv) as Hn.
  pose proof (cos_lt_1 (vnorm v) (conj Hn Hpi)) as Hc.
  assert (Hsq : vnorm v * vnorm v = vnorm2 v) by apply vnorm_sq.
  unfold log_rot_jac. fold (vnorm v). unfold odiv.
  destruct (Req_EM_T (vnorm v) 0) as [Z|_]; [lra|].
  destruct (Req_EM_T (vnorm2 v) 0) as [Z|_]; [nra|].
  destruct (Req_EM_T (1 - cos (vnorm v)) 0) as [Z|_]; [lra|].
  f_equal. unfold so3_Vinv, rodrigues. rewrite <- Hsq.
  replace (((1 - cos (vnorm v)) / (vnorm v * vnorm v) - 1 / 2 * (sin (vnorm v) / vnorm v))
             / (1 - cos (vnorm v)))
    with ((1 - sin (vnorm v) / vnorm v / 2 / ((1 - cos (vnorm v)) / (vnorm v * vnorm v)))
            / (vnorm v * vnorm v)) by (field; lra).
  generalize ((1 - sin (vnorm v) / vnorm v / 2 / ((1 - cos (vnorm v)) / (vnorm v * vnorm v)))
            / (vnorm v * vnorm v)). intros k. v3ring.
Qed.

(** At zero the log Jacobian is 0/0. *)
Lemma log_rot_jac_0 : log_rot_jac v0 = None.
Proof.
  unfold log_rot_jac. fold (vnorm v0). rewrite vnorm_0. unfold odiv.
  destruct (Req_EM_T 0 0) as [_|K]; [reflexivity|now contradiction K].
Qed.
