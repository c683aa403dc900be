(** Small-angle accuracy (C17, C18, C20, C22): below the library's thresholds the formulas
    for exp, log and the Jacobian of exp are approximations.  The theorems bound their
    distance to the exact functions and to the exact derivative. *)

From Coq Require Import Reals Lra Lia List Bool Arith Ratan.
From Verif Require Import Mat ModelMeta ModelJac SpecJac JacProofs V3 ModelLeaf SpecLeaf
  LeafProofs ModelExpr SpecExpr ExprProofs PropsExpr PropsVec Calc SpecDeriv DerivProofs DerivUn
  DerivTree JacDef PropsDeriv PropsLie PropsLieJac.
Import ListNotations.
Local Open Scope R_scope.
Local Open Scope mat_scope.
Local Arguments mvec : simpl never.

Lemma abs_le_sqr x n : 0 <= n -> x * x <= n * n -> Rabs x <= n.
Proof. intros H0 H. apply Rabs_le. split; nra. Qed.

(** Two matrices I + s[v] + c[v]^2 differ by at most |s-s'| |v| + |c-c'| |v|^2. *)
Lemma rod_diff s c s' c' v i j : (i < 3)%nat -> (j < 3)%nat ->
  Rabs (mnth (of_m3 (rodrigues s c v)) i j - mnth (of_m3 (rodrigues s' c' v)) i j)
    <= Rabs (s - s') * vnorm v + Rabs (c - c') * vnorm2 v.
Proof.
  intros Hi Hj.
  assert (X : exists p q, Rabs p <= vnorm v /\ Rabs q <= vnorm2 v /\
    mnth (of_m3 (rodrigues s c v)) i j - mnth (of_m3 (rodrigues s' c' v)) i j = (s - s') * p + (c - c') * q).
  { pose proof (vnorm_nonneg v) as N0. pose proof (vnorm_sq v) as N2.
    destruct v as [x y z]. unfold vnorm2 in N2. cbn [vx vy vz vdot] in N2. unfold vdot in N2. cbn [vx vy vz] in N2.
    assert (Z0 : Rabs 0 <= vnorm (mkV x y z)) by (rewrite Rabs_R0; exact N0).
    pose proof (Rle_0_sqr (x - y)). pose proof (Rle_0_sqr (x - z)). pose proof (Rle_0_sqr (y - z)).
    pose proof (Rle_0_sqr (x + y)). pose proof (Rle_0_sqr (x + z)). pose proof (Rle_0_sqr (y + z)).
    pose proof (Rle_0_sqr x). pose proof (Rle_0_sqr y). pose proof (Rle_0_sqr z).
    unfold Rsqr in *.
    assert (Ax : Rabs x <= vnorm (mkV x y z)) by (apply abs_le_sqr; lra).
    assert (Ay : Rabs y <= vnorm (mkV x y z)) by (apply abs_le_sqr; lra).
    assert (Az : Rabs z <= vnorm (mkV x y z)) by (apply abs_le_sqr; lra).
    assert (Nx : Rabs (- x) <= vnorm (mkV x y z)) by now rewrite Rabs_Ropp.
    assert (Ny : Rabs (- y) <= vnorm (mkV x y z)) by now rewrite Rabs_Ropp.
    assert (Nz : Rabs (- z) <= vnorm (mkV x y z)) by now rewrite Rabs_Ropp.
    destruct i as [|[|[|i]]]; [| | |lia]; (destruct j as [|[|[|j]]]; [| | |lia]);
      [exists 0, (- (y * y + z * z)) | exists (- z), (x * y) | exists y, (x * z)
      |exists z, (x * y) | exists 0, (- (x * x + z * z)) | exists (- x), (y * z)
      |exists (- y), (x * z) | exists x, (y * z) | exists 0, (- (x * x + y * y))];
      (split; [assumption|]; split;
       [apply Rabs_le; unfold vnorm2, vdot; cbn [vx vy vz]; lra|unfold mnth, rodrigues; cbn; v3unf; ring]). }
  destruct X as (p & q & Hp & Hq & ->).
  eapply Rle_trans; [apply Rabs_triang|]. rewrite !Rabs_mult.
  apply Rplus_le_compat; apply Rmult_le_compat_l; auto using Rabs_pos.
Qed.

Lemma rod_jac s c v : vnorm2 v <> 0 ->
  scal3 (/ vnorm2 v) (add3 (mul3 (sub3 i3 (rodrigues s c v)) (skew v)) (outer3 v v))
    = rodrigues c ((1 - s) / vnorm2 v) v.
Proof.
  intros H. destruct v as [x y z]. unfold rodrigues. v3unf. revert H. v3unf. intros H. f_equal; field; exact H.
Qed.

Lemma qrot_rod c s v : qrot (mkQ c (s * vx v) (s * vy v) (s * vz v)) = rodrigues (2 * c * s) (2 * s * s) v.
Proof. destruct v. unfold rodrigues. v3unf. f_equal; ring. Qed.

(** The coefficients of the exact left Jacobian. *)
Lemma cB_bounds n : 0 < n <= 1 -> 1/2 - n * n / 24 <= (1 - cos n) / (n * n) <= 1/2.
Proof.
  intros H. destruct (cos_small_bounds n) as (L & U); [lra|].
  assert (P : 0 < n * n) by nra.
  split; apply (Rmult_le_reg_r (n * n) _ _ P);
    replace ((1 - cos n) / (n * n) * (n * n)) with (1 - cos n) by (field; lra); nra.
Qed.
Lemma cC_bounds n : 0 < n <= 1 -> 1/6 - n * n / 120 <= (1 - sin n / n) / (n * n) <= 1/6.
Proof.
  intros H. destruct (sin_small_bounds n) as (L & U); [lra|].
  assert (P : 0 < n * n * n) by (apply Rmult_lt_0_compat; nra).
  split; apply (Rmult_le_reg_r (n * n * n) _ _ P);
    replace ((1 - sin n / n) / (n * n) * (n * n * n)) with (n - sin n) by (field; lra); nra.
Qed.

(** The matrix computed for exp of a relative rotation. *)
Lemma exp_jac_value eps na m a v : m a = VRel v ->
  expr_jacobian eps na m (XUn OExpMap (XLeaf a (Plain LRel))) (leaf_obj a (Plain LRel)) =
    Some (Ok (mmul (of_m3 (exp_rot_jac eps (qrot (exp_quat eps v)) v)) (mid 3))).
Proof. intros Ha. unfold expr_jacobian. cbn. rewrite Ha. cbn. now rewrite ?Nat.eqb_refl. Qed.

(** The exact exponential is differentiable everywhere, with derivative so3_V. *)
Lemma exp_derivative eps m a v : 0 <= eps < 1 -> m a = VRel v ->
  is_derivative eps m (XUn OExpMap (XLeaf a (Plain LRel))) a (of_m3 (so3_V v)).
Proof.
  intros He Ha. change (is_derivative 0 m (XUn OExpMap (XLeaf a (Plain LRel))) a (of_m3 (so3_V v))).
  assert (T : forall J, is_derivative 0 m (XUn OExpMap (XLeaf a (Plain LRel))) a J -> J == of_m3 (so3_V v) ->
    is_derivative 0 m (XUn OExpMap (XLeaf a (Plain LRel))) a (of_m3 (so3_V v))).
  { intros J D E c d C0 M. apply (mo_ext _ _ _ KRot (D c d C0 M)).
    - intros x. cbn [deval]. unfold dupd. rewrite Nat.eqb_refl, C0, Ha. cbn. now intros [= <-].
    - intros i _. now apply mvec_meq. }
  destruct (Req_EM_T (vnorm v) 0) as [Z|Z].
  - apply vnorm_eq0 in Z. subst v.
    destruct (c22_exp_rotation_at_zero 0 0 m a ltac:(lra) Ha) as (_ & J & _ & E & D).
    apply (T J D). rewrite E, so3_V_0. split; [reflexivity|]. split; [reflexivity|].
    intros i j Hi Hj. cbn in Hi, Hj.
    destruct i as [|[|[|i]]]; [| | |lia]; (destruct j as [|[|[|j]]]; [| | |lia]); reflexivity.
  - assert (W : v <> v0) by (intros ->; apply Z, vnorm_0).
    assert (N : 0 < vnorm v) by (pose proof (vnorm_nonneg v); lra).
    assert (N2 : 0 < vnorm2 v) by (rewrite <- vnorm_sq; nra).
    assert (N4 : 0 < vnorm2 v * vnorm2 v) by nra.
    assert (G : good 0 m (XUn OExpMap (XLeaf a (Plain LRel))) KRot).
    { apply (good_exp 0 m _ KRel KRot); [apply good_leaf; rewrite Ha; [reflexivity|exact I]|reflexivity|].
      intros x. cbn. rewrite Ha. intros [= <-]. right. exact N4. }
    assert (Hm : means 0 m (XUn OExpMap (XLeaf a (Plain LRel))) = Some (DRot (so3_exp v))).
    { rewrite (good_means 0 m _ KRot (Rle_refl 0) G). cbn. now rewrite Ha. }
    destruct (c01_jacobian_is_derivative 0 0 m _ KRot a LRel _ ltac:(lra) G Hm) as (_ & J & A1 & A2 & A3);
      [cbn; tauto|rewrite Ha; reflexivity| |].
    { cbn [smooth]. split; [exact I|]. intros _ x. cbn. rewrite Ha. intros [= <-]. exact I. }
    rewrite (exp_jac_value 0 0 m a v Ha) in A1. injection A1 as <-. apply (T _ A3).
    destruct (exp_quat_correct 0 v (Rle_refl 0) (or_intror N4)) as (_ & ->).
    rewrite exp_rot_jac_V by lra. apply mmul_mid_r. reflexivity.
Qed.

(** *** Jacobian of exp for small relative rotations *)

(** In the whole range where exp uses its approximation (|v|^4 <= eps), the matrix the
    library returns is within |v|^2/4, entry by entry, of the derivative of the exact
    exponential.  The range contains both branches of the Jacobian's own test
    (|v|^2 <= eps or not). *)
Theorem c22_exp_jacobian_small_angle : forall eps na m a v, 0 <= eps < 1 -> m a = VRel v ->
  vnorm2 v * vnorm2 v <= eps ->
  let e := XUn OExpMap (XLeaf a (Plain LRel)) in
  exists J J0, expr_jacobian eps na m e (leaf_obj a (Plain LRel)) = Some (Ok J) /\
    has_shape 3 3 J /\ has_shape 3 3 J0 /\ is_derivative eps m e a J0 /\
    forall i j, (i < 3)%nat -> (j < 3)%nat -> Rabs (mget J i j - mget J0 i j) <= vnorm2 v / 4.
Proof.
  intros eps na m a v He Ha Hv e.
  set (J := of_m3 (exp_rot_jac eps (qrot (exp_quat eps v)) v)).
  exists (mmul J (mid 3)), (of_m3 (so3_V v)).
  split; [now apply exp_jac_value|]. split; [split; reflexivity|]. split; [split; reflexivity|].
  split; [now apply exp_derivative|]. intros i j Hi Hj.
  assert (EJ : mget (mmul J (mid 3)) i j = mget J i j).
  { destruct (mmul_mid_r J 3 eq_refl) as (_ & _ & X). now apply X. }
  rewrite EJ. clear EJ.
  assert (Jn : forall M, mget (of_m3 M) i j = mnth (of_m3 M) i j).
  { intros M. symmetry. apply mnth_in; assumption. }
  unfold J. rewrite !Jn. clear Jn J.
  pose proof (vnorm2_pos v) as P2. pose proof (vnorm_nonneg v) as N0. pose proof (vnorm_sq v) as Sq.
  assert (L2 : vnorm2 v <= 1) by nra. assert (L1 : vnorm v <= 1) by nra.
  destruct (Req_EM_T (vnorm v) 0) as [Z|Z].
  { apply vnorm_eq0 in Z. subst v.
    assert (Z2 : vnorm2 v0 = 0) by (v3unf; ring).
    replace (exp_rot_jac eps (qrot (exp_quat eps v0)) v0) with (so3_V v0).
    - unfold Rminus. rewrite Rplus_opp_r, Rabs_R0. lra.
    - rewrite so3_V_0. unfold exp_rot_jac. rewrite Z2. destruct (Rlt_dec eps 0); [lra|]. v3unf. f_equal; field. }
  assert (W : v <> v0) by (intros ->; apply Z, vnorm_0).
  rewrite (so3_V_nz v W). rewrite <- Sq in *. set (n := vnorm v) in *.
  assert (Np : 0 < n) by lra. assert (Nn : 0 < n * n) by nra.
  destruct (cB_bounds n) as (B1 & B2); [lra|]. destruct (cC_bounds n) as (C1 & C2); [lra|].
  unfold exp_rot_jac. rewrite <- Sq. fold n. destruct (Rlt_dec eps (n * n)) as [K|K].
  - rewrite exp_quat_small by (rewrite <- Sq; exact Hv). rewrite <- Sq. fold n.
    rewrite qrot_rod. rewrite Sq, rod_jac by (rewrite <- Sq; fold n; lra). rewrite <- Sq. fold n.
    eapply Rle_trans; [apply rod_diff; assumption|]. rewrite <- Sq. fold n.
    set (b := (1 - cos n) / (n * n)) in *. set (c := (1 - sin n / n) / (n * n)) in *.
    replace ((1 - 2 * (1 - n * n / 8) * (1 / 2 + n * n / 48)) / (n * n)) with (1/12 + n * n / 192) by (field; lra).
    assert (D1 : Rabs (2 * (1 / 2 + n * n / 48) * (1 / 2 + n * n / 48) - b) <= n * n * (1/12 + 1/1152)).
    { apply Rabs_le. nra. }
    assert (D2 : Rabs (1/12 + n * n / 192 - c) <= 1/12 + 1/120) by (apply Rabs_le; nra).
    assert (X1 : Rabs (2 * (1 / 2 + n * n / 48) * (1 / 2 + n * n / 48) - b) * n <= n * n * (1/12 + 1/1152) * 1)
      by (apply Rmult_le_compat; auto using Rabs_pos).
    assert (X2 : Rabs (1/12 + n * n / 192 - c) * (n * n) <= (1/12 + 1/120) * (n * n))
      by (apply Rmult_le_compat_r; lra).
    lra.
  - replace (add3 i3 (scal3 (1 / 2) (skew v))) with (rodrigues (1/2) 0 v)
      by (clear; destruct v; unfold rodrigues; v3unf; f_equal; ring).
    eapply Rle_trans; [apply rod_diff; assumption|]. rewrite <- Sq. fold n.
    set (b := (1 - cos n) / (n * n)) in *. set (c := (1 - sin n / n) / (n * n)) in *.
    assert (D1 : Rabs (1/2 - b) <= n * n / 24) by (apply Rabs_le; lra).
    assert (D2 : Rabs (0 - c) <= 1/6) by (apply Rabs_le; nra).
    assert (X1 : Rabs (1/2 - b) * n <= n * n / 24 * 1) by (apply Rmult_le_compat; auto using Rabs_pos).
    assert (X2 : Rabs (0 - c) * (n * n) <= 1/6 * (n * n)) by (apply Rmult_le_compat_r; lra).
    lra.
Qed.
Print Assumptions c22_exp_jacobian_small_angle.

Example c22_small_angle_example :
  let v := mkV (1/20) 0 0 in let m := fun _ : nat => VRel v in
  m 0%nat = VRel v /\ vnorm2 v * vnorm2 v <= 1/10000 /\ 1/10000 < vnorm2 v /\ v <> v0.
Proof.
  cbv zeta. split; [reflexivity|]. split; [v3unf; lra|]. split; [v3unf; lra|].
  intros H. injection H. lra.
Qed.

(** *** log of a small rotation *)

Lemma cA_bounds n : 0 < n <= 1 -> 1 - n * n / 6 <= sin n / n <= 1.
Proof.
  intros H. destruct (sin_small_bounds n) as (L & U); [lra|].
  assert (P : 0 < n * n * n) by (apply Rmult_lt_0_compat; nra).
  pose proof (sin_lt_x n (proj1 H)) as X.
  split; apply (Rmult_le_reg_r n); try lra; replace (sin n / n * n) with (sin n) by (field; lra); [nra|lra].
Qed.

Lemma scal_close k b v : Rabs (k - 1) <= b ->
  Rabs (vx (vscal k v) - vx v) <= b * Rabs (vx v) /\
  Rabs (vy (vscal k v) - vy v) <= b * Rabs (vy v) /\
  Rabs (vz (vscal k v) - vz v) <= b * Rabs (vz v).
Proof.
  intros H. destruct v as [x y z]. cbn.
  assert (X : forall r, Rabs (k * r - r) <= b * Rabs r).
  { intros r. replace (k * r - r) with ((k - 1) * r) by ring. rewrite Rabs_mult.
    apply Rmult_le_compat_r; [apply Rabs_pos|exact H]. }
  repeat split; apply X.
Qed.

Lemma log_small_value eps v : 0 <= eps <= 1 -> vnorm2 v <= eps ->
  exists k, 1 - vnorm2 v / 6 <= k <= 1 /\ log_mat eps (so3_exp v) = Some (vscal k v).
Proof.
  intros He Hv. destruct (Req_EM_T (vnorm v) 0) as [Z|Z].
  - apply vnorm_eq0 in Z. subst v. exists 1. split.
    + replace (vnorm2 v0) with 0 by (v3unf; ring). lra.
    + rewrite so3_exp_0, log_i by lra. f_equal. v3unf. f_equal; ring.
  - assert (W : v <> v0) by (intros ->; apply Z, vnorm_0).
    pose proof (vnorm_nonneg v) as N0. pose proof (vnorm_sq v) as Sq.
    assert (N1 : vnorm v <= 1) by nra.
    exists (sin (vnorm v) / vnorm v). split.
    + rewrite <- Sq. apply cA_bounds. lra.
    + apply log_exp_small; try assumption; [lra|]. pose proof PI2_3_2. unfold PI2 in *. lra.
Qed.

(** Below the threshold log is not the inverse of exp, but its relative error is at most
    a sixth of the squared angle. *)
Theorem c17_log_small_angle : forall eps m e v, 0 <= eps <= 1 -> good eps m e KRot ->
  means eps m e = Some (DRot (so3_exp v)) -> vnorm2 v <= eps ->
  exists w, means eps m (XUn OLogMap e) = Some (DRel w) /\
    Rabs (vx w - vx v) <= vnorm2 v / 6 * Rabs (vx v) /\
    Rabs (vy w - vy v) <= vnorm2 v / 6 * Rabs (vy v) /\
    Rabs (vz w - vz v) <= vnorm2 v / 6 * Rabs (vz v).
Proof.
  intros eps m e v He G Hm Hv.
  destruct (log_small_value eps v He Hv) as (k & Hk & E).
  exists (vscal k v). split; [|apply scal_close, Rabs_le; lra].
  assert (G2 : good eps m (XUn OLogMap e) KRel)
    by (apply (good_un eps m OLogMap _ KRot KRel G); [reflexivity|discriminate]).
  rewrite (good_means eps m _ KRel (proj1 He) G2). cbn [deval].
  rewrite <- (good_means eps m e KRot (proj1 He) G), Hm. cbn. now rewrite E.
Qed.
Print Assumptions c17_log_small_angle.

(** *** log after exp, both approximate *)

Lemma acos_le_1 x : 1/2 + 1/24 < x <= 1 -> 0 <= acos x <= 1.
Proof.
  intros H. pose proof (acos_bound x) as B. split; [lra|]. apply Rnot_lt_le. intros K.
  assert (E : cos (acos x) = x) by (apply cos_acos; lra).
  destruct (cos_small_bounds 1) as (_ & U); [lra|].
  assert (cos (acos x) < cos 1) by (apply cos_decreasing_1; lra). lra.
Qed.

Lemma sinc_inv_bound a : 0 < a <= 1 -> 0 < sin a /\ 1 <= a / sin a <= 1 + a * a / 5.
Proof.
  intros H. destruct (sin_small_bounds a) as (L & _); [lra|].
  pose proof (sin_lt_x a (proj1 H)) as U.
  assert (A2 : a * a <= 1) by nra.
  assert (P : 0 < sin a) by nra. split; [exact P|].
  split; apply (Rmult_le_reg_r (sin a) _ _ P); replace (a / sin a * sin a) with a by (field; lra); [lra|].
  assert (X : (1 + a * a / 5) * (a - a * a * a / 6) <= (1 + a * a / 5) * sin a)
    by (apply Rmult_le_compat_l; [nra|lra]).
  assert (Y : a <= (1 + a * a / 5) * (a - a * a * a / 6)).
  { replace ((1 + a * a / 5) * (a - a * a * a / 6)) with (a + a * (a * a) * (1 - a * a) / 30) by field.
    assert (0 <= a * (a * a) * (1 - a * a)) by (apply Rmult_le_pos; nra). lra. }
  lra.
Qed.

Lemma log_small_exp eps v : 0 <= eps <= 1/2 -> vnorm2 v * vnorm2 v <= eps ->
  exists k, Rabs (k - 1) <= vnorm2 v / 6 /\
    log_mat eps (qrot (exp_quat eps v)) = Some (vscal k v).
Proof.
  intros He Hv. rewrite exp_quat_small by exact Hv. rewrite qrot_rod. unfold log_mat.
  rewrite trace_rodrigues, rodrigues_antisym, !uncross_scal.
  pose proof (vnorm2_pos v) as P. set (q := vnorm2 v) in *.
  assert (Q : q <= 71/100) by nra.
  set (s := 1 / 2 + q / 48). set (c := 1 - q / 8).
  assert (S1 : 1/2 <= s <= 515/1000) by (unfold s; lra).
  assert (S2 : 1/4 <= s * s <= 266/1000) by nra.
  replace ((3 - 2 * (2 * s * s) * q - 1) / 2) with (1 - 2 * (s * s) * q) by field.
  assert (T : 0 <= s * s * q <= 266/1000 * q) by (split; [nra|apply Rmult_le_compat_r; lra]).
  set (x := 1 - 2 * (s * s) * q).
  assert (X : 1/2 + 1/24 < x <= 1) by (unfold x; lra).
  destruct (Rle_dec (-1) x) as [_|K]; [|lra]. destruct (Rle_dec x 1) as [_|K]; [|lra].
  assert (E2 : 2 * c * s = 1 - q / 12 - q * q / 192) by (unfold c, s; field).
  assert (QQ : 0 <= q * q <= 71/100 * q) by nra.
  destruct (acos_le_1 x X) as (A0 & A1). set (al := acos x) in *.
  assert (EC : cos al = x) by (apply cos_acos; lra).
  destruct (Rlt_dec eps (al * al)) as [K|K].
  - assert (Al : 0 < al) by nra.
    destruct (sinc_inv_bound al ltac:(lra)) as (Sp & F1 & F2).
    unfold odiv. destruct (Req_EM_T (2 * sin al) 0) as [Z|_]; [lra|].
    exists (al / sin al * (2 * c * s)). split.
    + destruct (cos_small_bounds al) as (_ & U); [lra|]. rewrite EC in U. unfold x in U.
      assert (L : al * al * (11 / 12) <= 4 * (s * s * q)).
      { assert (al * al * (al * al) <= al * al * 1) by (apply Rmult_le_compat_l; nra). nra. }
      assert (L2 : al * al <= 117/100 * q) by nra.
      set (f := al / sin al) in *.
      assert (F : 1 <= f <= 1 + 234/1000 * q) by nra.
      rewrite E2. apply Rabs_le. split.
      * assert (1 * (1 - q / 12 - q * q / 192) <= f * (1 - q / 12 - q * q / 192))
          by (apply Rmult_le_compat_r; nra). nra.
      * assert (f * (1 - q / 12 - q * q / 192) <= (1 + 234/1000 * q) * (1 - q / 12 - q * q / 192))
          by (apply Rmult_le_compat_r; nra).
        assert (0 <= q * (q * q)) by (apply Rmult_le_pos; nra). nra.
    + rewrite uncross_scal. apply f_equal. clearbody c s al. clear -Sp. destruct v as [v1 v2 v3]. v3unf. f_equal; field; lra.
  - exists (2 * c * s). split.
    + rewrite E2. apply Rabs_le. nra.
    + apply f_equal. clearbody c s. clear. destruct v as [v1 v2 v3]. v3unf. f_equal; field.
Qed.

(** For relative rotations in exp's approximate range, log(exp(v)) is a multiple of v whose
    relative error is at most a sixth of the squared angle, although exp(v) is not a
    rotation there (c18_unit_norm_refuted). *)
Theorem c17_small_log_of_exp : forall eps m a v, 0 <= eps <= 1/2 -> m a = VRel v ->
  vnorm2 v * vnorm2 v <= eps ->
  exists w, means eps m (XUn OLogMap (XUn OExpMap (XLeaf a (Plain LRel)))) = Some (DRel w) /\
    Rabs (vx w - vx v) <= vnorm2 v / 6 * Rabs (vx v) /\
    Rabs (vy w - vy v) <= vnorm2 v / 6 * Rabs (vy v) /\
    Rabs (vz w - vz v) <= vnorm2 v / 6 * Rabs (vz v).
Proof.
  intros eps m a v He Ha Hv. destruct (log_small_exp eps v He Hv) as (k & Hk & E).
  exists (vscal k v). split; [|now apply scal_close].
  unfold means.
  change (eval eps m (XUn OLogMap (XUn OExpMap (XLeaf a (Plain LRel)))))
    with (eval_p eps m (XUn OLogMap (XUn (OConvert LMat) (XUn OExpMap (XLeaf a (Plain LRel)))))).
  cbn -[qrot exp_quat log_mat]. rewrite Ha. cbn -[qrot exp_quat log_mat]. now rewrite E.
Qed.
Print Assumptions c17_small_log_of_exp.

(** *** Rigid transforms *)

Definition norm1 (u : V3) : R := Rabs (vx u) + Rabs (vy u) + Rabs (vz u).

Lemma app_close A B u b : 0 <= b ->
  (forall i j, (i < 3)%nat -> (j < 3)%nat -> Rabs (mnth (of_m3 A) i j - mnth (of_m3 B) i j) <= b) ->
  Rabs (vx (app3 A u) - vx (app3 B u)) <= b * norm1 u /\
  Rabs (vy (app3 A u) - vy (app3 B u)) <= b * norm1 u /\
  Rabs (vz (app3 A u) - vz (app3 B u)) <= b * norm1 u.
Proof.
  intros Hb H. destruct u as [x y z].
  assert (X : forall p q r p' q' r', Rabs (p - p') <= b -> Rabs (q - q') <= b -> Rabs (r - r') <= b ->
    Rabs (p * x + q * y + r * z - (p' * x + q' * y + r' * z)) <= b * norm1 (mkV x y z)).
  { intros p q r p' q' r' H1 H2 H3.
    replace (p * x + q * y + r * z - (p' * x + q' * y + r' * z))
      with ((p - p') * x + (q - q') * y + (r - r') * z) by ring.
    eapply Rle_trans; [apply Rabs_triang|]. unfold norm1. cbn [vx vy vz].
    rewrite !Rmult_plus_distr_l. apply Rplus_le_compat.
    - eapply Rle_trans; [apply Rabs_triang|]. rewrite !Rabs_mult.
      apply Rplus_le_compat; apply Rmult_le_compat_r; auto using Rabs_pos.
    - rewrite Rabs_mult. apply Rmult_le_compat_r; auto using Rabs_pos. }
  destruct A as [a0 a1 a2 a3 a4 a5 a6 a7 a8], B as [b0 b1 b2 b3 b4 b5 b6 b7 b8].
  assert (E : forall M i j, (i < 3)%nat -> (j < 3)%nat -> mnth (of_m3 M) i j = mget (of_m3 M) i j)
    by (intros; apply mnth_in; assumption).
  repeat split; v3unf; cbn; apply X.
  - specialize (H 0%nat 0%nat ltac:(lia) ltac:(lia)). rewrite !E in H by lia. exact H.
  - specialize (H 0%nat 1%nat ltac:(lia) ltac:(lia)). rewrite !E in H by lia. exact H.
  - specialize (H 0%nat 2%nat ltac:(lia) ltac:(lia)). rewrite !E in H by lia. exact H.
  - specialize (H 1%nat 0%nat ltac:(lia) ltac:(lia)). rewrite !E in H by lia. exact H.
  - specialize (H 1%nat 1%nat ltac:(lia) ltac:(lia)). rewrite !E in H by lia. exact H.
  - specialize (H 1%nat 2%nat ltac:(lia) ltac:(lia)). rewrite !E in H by lia. exact H.
  - specialize (H 2%nat 0%nat ltac:(lia) ltac:(lia)). rewrite !E in H by lia. exact H.
  - specialize (H 2%nat 1%nat ltac:(lia) ltac:(lia)). rewrite !E in H by lia. exact H.
  - specialize (H 2%nat 2%nat ltac:(lia) ltac:(lia)). rewrite !E in H by lia. exact H.
Qed.

(** The approximate exponential of a twist: rotation entries within 2/3 of the squared
    angle, translation within 2/3 of the angle times the translation part. *)
Theorem c20_small_exp_close_partial : forall eps m a w u, 0 <= eps <= 1 -> m a = VTwist w u ->
  vnorm2 w <= eps ->
  exists M t, means eps m (XUn OExpMap (XLeaf a (Plain LTwist))) = Some (DRT M t) /\
    (forall i j, (i < 3)%nat -> (j < 3)%nat ->
       Rabs (mnth (of_m3 M) i j - mnth (of_m3 (so3_exp w)) i j) <= 2/3 * vnorm2 w) /\
    Rabs (vx t - vx (app3 (so3_V w) u)) <= 2/3 * vnorm w * norm1 u /\
    Rabs (vy t - vy (app3 (so3_V w) u)) <= 2/3 * vnorm w * norm1 u /\
    Rabs (vz t - vz (app3 (so3_V w) u)) <= 2/3 * vnorm w * norm1 u.
Proof.
  intros eps m a w u He Ha Hw. exists (add3 i3 (skew w)), u. split.
  { unfold means.
    change (eval eps m (XUn OExpMap (XLeaf a (Plain LTwist))))
      with (eval_p eps m (XUn OExpMap (XLeaf a (Plain LTwist)))).
    cbn. rewrite Ha. cbn. rewrite twist_exp_small by exact Hw. reflexivity. }
  replace (add3 i3 (skew w)) with (rodrigues 1 0 w) by (clear; destruct w; unfold rodrigues; v3unf; f_equal; ring).
  pose proof (vnorm_nonneg w) as N0. pose proof (vnorm_sq w) as Sq. pose proof (vnorm2_pos w) as P2.
  assert (N1 : vnorm w <= 1) by nra.
  destruct (Req_EM_T (vnorm w) 0) as [Z|Z].
  { apply vnorm_eq0 in Z. subst w. rewrite rodrigues_at_0, so3_exp_0, so3_V_0, app3_i, vnorm_0.
    unfold Rminus. rewrite !Rplus_opp_r, Rabs_R0.
    split; [intros; rewrite Rplus_opp_r, Rabs_R0; lra|]. repeat split; lra. }
  assert (W : w <> v0) by (intros ->; apply Z, vnorm_0).
  set (n := vnorm w) in *. assert (Np : 0 < n) by lra. assert (Nn : 0 < n * n) by nra.
  destruct (cA_bounds n) as (A1 & A2); [lra|]. destruct (cB_bounds n) as (B1 & B2); [lra|].
  destruct (cC_bounds n) as (C1 & C2); [lra|].
  split.
  - intros i j Hi Hj. rewrite (so3_exp_nz w W). eapply Rle_trans; [apply rod_diff; assumption|].
    rewrite <- Sq. fold n.
    set (x := sin n / n) in *. set (b := (1 - cos n) / (n * n)) in *.
    assert (D1 : Rabs (1 - x) <= n * n / 6) by (apply Rabs_le; lra).
    assert (D2 : Rabs (0 - b) <= 1/2) by (apply Rabs_le; nra).
    assert (X1 : Rabs (1 - x) * n <= n * n / 6 * 1) by (apply Rmult_le_compat; auto using Rabs_pos).
    assert (X2 : Rabs (0 - b) * (n * n) <= 1/2 * (n * n)) by (apply Rmult_le_compat_r; lra).
    lra.
  - rewrite <- (app3_i u) at 1 4 7. apply app_close; [lra|]. intros i j Hi Hj.
    rewrite <- (rodrigues_00 w), (so3_V_nz w W). eapply Rle_trans; [apply rod_diff; assumption|].
    rewrite <- Sq. fold n.
    set (b := (1 - cos n) / (n * n)) in *. set (c := (1 - sin n / n) / (n * n)) in *.
    assert (D1 : Rabs (0 - b) <= 1/2) by (apply Rabs_le; nra).
    assert (D2 : Rabs (0 - c) <= 1/6) by (apply Rabs_le; nra).
    assert (X1 : Rabs (0 - b) * n <= 1/2 * n) by (apply Rmult_le_compat_r; lra).
    assert (X2 : Rabs (0 - c) * (n * n) <= 1/6 * (n * n)) by (apply Rmult_le_compat_r; lra).
    nra.
Qed.
Print Assumptions c20_small_exp_close_partial.

(** The approximate logarithm of the exact exponential of a twist: the rotation part has
    relative error at most a sixth of the squared angle, the translation part an error of
    at most half the squared angle times its size. *)
Theorem c20_small_log_close_partial : forall eps m e w u, 0 <= eps <= 1 -> good eps m e KRT ->
  means eps m e = Some (DRT (so3_exp w) (app3 (so3_V w) u)) -> vnorm2 w <= eps ->
  exists w' u', means eps m (XUn OLogMap e) = Some (DTwist w' u') /\
    Rabs (vx w' - vx w) <= vnorm2 w / 6 * Rabs (vx w) /\
    Rabs (vy w' - vy w) <= vnorm2 w / 6 * Rabs (vy w) /\
    Rabs (vz w' - vz w) <= vnorm2 w / 6 * Rabs (vz w) /\
    Rabs (vx u' - vx u) <= vnorm2 w / 2 * norm1 u /\
    Rabs (vy u' - vy u) <= vnorm2 w / 2 * norm1 u /\
    Rabs (vz u' - vz u) <= vnorm2 w / 2 * norm1 u.
Proof.
  intros eps m e w u He G Hm Hw.
  destruct (log_small_value eps w He Hw) as (k & Hk & E).
  pose proof (vnorm_nonneg w) as N0. pose proof (vnorm_sq w) as Sq. pose proof (vnorm2_pos w) as P2.
  assert (N1 : vnorm w <= 1) by nra.
  exists (vscal k w), (app3 (mul3 (sub3 i3 (scal3 (1/2) (skew (vscal k w)))) (so3_V w)) u).
  assert (G2 : good eps m (XUn OLogMap e) KTwist)
    by (apply (good_un eps m OLogMap _ KRT KTwist G); [reflexivity|discriminate]).
  split.
  { rewrite (good_means eps m _ KTwist (proj1 He) G2). cbn [deval].
    rewrite <- (good_means eps m e KRT (proj1 He) G), Hm. cbn [dsem_un]. unfold rt_log. rewrite E.
    destruct (Rlt_dec eps (vnorm2 (vscal k w))) as [K|K].
    - exfalso. replace (vnorm2 (vscal k w)) with (k * k * vnorm2 w) in K by (clear; destruct w; v3unf; ring).
      assert (k * k <= 1) by nra. assert (k * k * vnorm2 w <= 1 * vnorm2 w) by (apply Rmult_le_compat_r; lra). lra.
    - cbn. now rewrite app3_mul. }
  destruct (scal_close k (vnorm2 w / 6) w ltac:(apply Rabs_le; lra)) as (S1 & S2 & S3).
  split; [exact S1|]. split; [exact S2|]. split; [exact S3|]. clear S1 S2 S3.
  rewrite <- (app3_i u) at 2 5 8. apply app_close; [lra|]. intros i j Hi Hj.
  destruct (Req_EM_T (vnorm w) 0) as [Z|Z].
  { apply vnorm_eq0 in Z. subst w. rewrite so3_V_0.
    replace (mul3 (sub3 i3 (scal3 (1 / 2) (skew (vscal k v0)))) i3) with i3 by (clear; v3unf; f_equal; ring).
    unfold Rminus. rewrite Rplus_opp_r, Rabs_R0. lra. }
  assert (W : w <> v0) by (intros ->; apply Z, vnorm_0).
  rewrite (so3_V_nz w W).
  replace (sub3 i3 (scal3 (1/2) (skew (vscal k w)))) with (rodrigues (- (k / 2)) 0 w)
    by (clear; destruct w; unfold rodrigues; v3unf; f_equal; field).
  rewrite rodrigues_mul, <- (rodrigues_00 w). eapply Rle_trans; [apply rod_diff; assumption|].
  rewrite <- Sq in *. set (n := vnorm w) in *.
  assert (Np : 0 < n) by lra. assert (Nn : 0 < n * n) by nra. assert (Nn1 : n * n <= 1) by nra.
  destruct (cB_bounds n) as (B1 & B2); [lra|]. destruct (cC_bounds n) as (C1 & C2); [lra|].
  set (b := (1 - cos n) / (n * n)) in *. set (c := (1 - sin n / n) / (n * n)) in *.
  assert (D1 : Rabs (- (k / 2) + b - n * n * (- (k / 2) * c + 0 * b) - 0) <= n * n / 6).
  { assert (KC : 0 <= k / 2 * c <= 1/12).
    { split; [apply Rmult_le_pos; lra|]. replace (1/12) with (1/2 * (1/6)) by field.
      apply Rmult_le_compat; lra. }
    replace (- (k / 2) + b - n * n * (- (k / 2) * c + 0 * b) - 0) with (b - k / 2 + n * n * (k / 2 * c)) by ring.
    assert (0 <= n * n * (k / 2 * c) <= n * n * (1/12)) by (split; [nra|apply Rmult_le_compat_l; lra]).
    apply Rabs_le. lra. }
  assert (D2 : Rabs (0 + c + - (k / 2) * b - n * n * (0 * c) - 0) <= 1/4).
  { assert (KB : 0 <= k / 2 * b <= 1/4).
    { split; [apply Rmult_le_pos; lra|]. replace (1/4) with (1/2 * (1/2)) by field.
      apply Rmult_le_compat; lra. }
    apply Rabs_le. lra. }
  match goal with |- ?p * _ + ?q * _ <= _ => set (dp := p) in *; set (dq := q) in * end.
  assert (X1 : dp * n <= n * n / 6 * 1) by (apply Rmult_le_compat; auto; apply Rabs_pos).
  assert (X2 : dq * (n * n) <= 1/4 * (n * n)) by (apply Rmult_le_compat_r; lra).
  lra.
Qed.
Print Assumptions c20_small_log_close_partial.

Example c20_small_example :
  let w := mkV (1/100) 0 0 in let u := mkV 1 2 3 in
  let m := fun b : nat => match b with O => VTwist w u | _ => VMatRT (so3_exp w) (app3 (so3_V w) u) v0 1 end in
  m 0%nat = VTwist w u /\ vnorm2 w <= 1/100 /\ vnorm2 w * vnorm2 w <= 1/100 /\ w <> v0 /\
  good (1/100) m (XLeaf 1 (Plain LMatRT)) KRT /\
  means (1/100) m (XLeaf 1 (Plain LMatRT)) = Some (DRT (so3_exp w) (app3 (so3_V w) u)).
Proof.
  cbv zeta. split; [reflexivity|]. split; [v3unf; lra|]. split; [v3unf; lra|].
  split; [intros H; injection H; lra|].
  assert (G : good (1/100) (fun b : nat => match b with O => VTwist (mkV (1/100) 0 0) (mkV 1 2 3)
     | _ => VMatRT (so3_exp (mkV (1/100) 0 0)) (app3 (so3_V (mkV (1/100) 0 0)) (mkV 1 2 3)) v0 1 end)
     (XLeaf 1 (Plain LMatRT)) KRT).
  { apply good_leaf; [reflexivity|]. cbn. split; [apply so3_exp_is_rot|split; reflexivity]. }
  split; [exact G|]. rewrite (good_means (1/100) _ _ KRT ltac:(lra) G). reflexivity.
Qed.
