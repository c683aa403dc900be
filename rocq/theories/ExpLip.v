(** How fast exp, its Jacobian and the inverse of that can change. *)

From Coq Require Import Reals List Bool Arith Lra Lia Psatz.
From Verif Require Import Mat V3 ModelLeaf SpecLeaf LeafProofs Calc NumLip PropsLie FloatProofs FloatDrift FloatExp FloatAct FloatNorm FloatStep FloatStep2 PropsExpFlt FloatLog FloatCoef FloatLogJac.
Import ListNotations.
Local Open Scope R_scope.

(** |f 1 - f 0| <= L if |f'| <= L in between. *)
Lemma v3_mean f f' L : 0 <= L -> (forall s, 0 <= s <= 1 -> v3_deriv f s (f' s) /\ vnorm (f' s) <= L) -> vnorm (vsub (f 1) (f 0)) <= L.
Proof.
  intros HL H. set (y := vsub (f 1) (f 0)).
  assert (X : Rabs (vdot y (f 1) - vdot y (f 0)) <= (vnorm y * L) * Rabs (1 - 0)).
  { apply (lip_of_deriv (fun s => vdot y (f s)) (fun s => vdot y (f' s)) (1 / 2) (1 / 2)).
    - intros x Hx. assert (Hx' : 0 <= x <= 1) by (revert Hx; unfold Rabs; destruct (Rcase_abs _); lra).
      destruct (H x Hx') as [(D1 & D2 & D3) B]. split.
      + unfold vdot. eapply dpl_val; [apply dpl_plus; [apply dpl_plus|]; (apply dpl_mult; [apply dpl_const|eassumption])|cbv beta; ring].
      + eapply Rle_trans; [apply vdot_abs|]. apply Rmult_le_compat_l; [apply vnorm_nonneg|exact B].
    - unfold Rabs; destruct (Rcase_abs _); lra.
    - unfold Rabs; destruct (Rcase_abs _); lra. }
  replace (vdot y (f 1) - vdot y (f 0)) with (vdot y y) in X by (unfold y; destruct (f 1), (f 0); unfold vdot, vsub; cbn; ring).
  assert (E : vdot y y = vnorm y * vnorm y) by (rewrite vnorm_sq; reflexivity).
  rewrite E, Rminus_0_r, Rabs_R1, Rabs_pos_eq in X by (apply Rmult_le_pos; apply vnorm_nonneg).
  pose proof (vnorm_nonneg y). destruct (Req_dec (vnorm y) 0) as [Z|Z]; [lra|].
  apply (Rmult_le_reg_l (vnorm y)); lra.
Qed.

Lemma exp_V v u : app3 (so3_exp v) u = vadd u (vcross v (app3 (so3_V v) u)).
Proof.
  destruct (Req_EM_T (vnorm v) 0) as [Z|Z].
  - apply vnorm_eq0 in Z. rewrite Z, so3_exp_0, so3_V_0, !app3_i. destruct u. unfold vadd, vcross, v0; cbn; f_equal; ring.
  - assert (Hv : v <> v0) by (intros ->; apply Z, vnorm_0).
    rewrite (so3_exp_cA v Hv), (so3_V_cB v Hv). unfold cC.
    assert (N : vnorm2 v <> 0) by (rewrite <- vnorm_sq; intros K; apply Z; nra).
    set (A := cA v) in *. set (B := cB v) in *. clearbody A B.
    assert (K : forall C, A = 1 - C * vnorm2 v -> app3 (rodrigues A B v) u = vadd u (vcross v (app3 (rodrigues B C v) u))).
    { intros C ->. unfold rodrigues. destruct v, u. v3unf. f_equal; ring. }
    apply K. field. exact N.
Qed.

Lemma V_short v u : vnorm (app3 (so3_V v) u) <= vnorm u.
Proof.
  destruct (se3_flow_exp v u) as (_ & Z & D). set (t := fun s => app3 (so3_V (vscal s v)) (vscal s u)) in *.
  replace (app3 (so3_V v) u) with (vsub (t 1) (t 0)).
  - apply (v3_mean t (fun s => vadd (vcross v (t s)) u)); [apply vnorm_nonneg|]. intros s _. split; [apply D|].
    apply Req_le. rewrite <- (norm_rot (so3_exp (vscal s v)) u) by apply so3_exp_is_rot. f_equal. rewrite exp_V. unfold t.
    destruct v, u. generalize (so3_V (vscal s (mkV vx vy vz))). intros m. destruct m. v3unf. f_equal; ring.
  - change (t 0 = v0) in Z. rewrite Z. unfold t. rewrite !vscal_1. destruct (app3 (so3_V v) u). unfold vsub, v0; cbn; f_equal; ring.
Qed.

Lemma exp_lip a b u : vnorm (vsub (app3 (so3_exp a) u) (app3 (so3_exp b) u)) <= vnorm (vsub a b) * vnorm u.
Proof.
  set (d := vsub a b). set (f := fun s => app3 (so3_exp (vadd b (vscal s d))) u).
  replace (app3 (so3_exp a) u) with (f 1) by (unfold f, d; f_equal; f_equal; destruct a, b; unfold vadd, vscal, vsub; cbn; f_equal; ring).
  replace (app3 (so3_exp b) u) with (f 0) by (unfold f, d; f_equal; f_equal; destruct a, b; unfold vadd, vscal, vsub; cbn; f_equal; ring).
  apply (v3_mean f (fun s => vcross (app3 (so3_V (vadd b (vscal s d))) d) (f s))).
  - apply Rmult_le_pos; apply vnorm_nonneg.
  - intros s _. split.
    + apply (v3d_shift f). assert (D : v3_deriv (fun h => vadd b (vscal (s + h) d)) 0 d).
      { eapply v3d_val; [apply v3d_add; [apply v3d_const|apply v3d_lin_shift]|]. destruct d; unfold vadd, v0; cbn; f_equal; ring. }
      pose proof (so3_exp_deriv _ _ D) as X. cbv beta in X. rewrite Rplus_0_r in X. unfold f.
      eapply v3d_val; [apply v3d_app; [exact X|apply (v3d_const u)]|]. cbv beta. rewrite Rplus_0_r.
      generalize (so3_V (vadd b (vscal s d))) (so3_exp (vadd b (vscal s d))). intros V0 E0. destruct V0, E0, d, u. v3unf. f_equal; ring.
    + eapply Rle_trans; [apply cross_norm|]. apply Rmult_le_compat; try apply vnorm_nonneg; [apply V_short|].
      unfold f. rewrite norm_rot by apply so3_exp_is_rot. apply Rle_refl.
Qed.

Lemma V_lip a b u : vnorm (vsub (app3 (so3_V a) u) (app3 (so3_V b) u)) <= vnorm (vsub a b) * vnorm u.
Proof.
  destruct (se3_flow_exp a u) as (_ & Z & D). destruct (se3_flow_exp b u) as (_ & Z' & D').
  set (t := fun s => app3 (so3_V (vscal s a)) (vscal s u)) in *. set (t' := fun s => app3 (so3_V (vscal s b)) (vscal s u)) in *.
  set (f := fun s => vsub (t s) (t' s)).
  assert (N : 0 <= vnorm (vsub a b) * vnorm u) by (apply Rmult_le_pos; apply vnorm_nonneg).
  replace (vsub (app3 (so3_V a) u) (app3 (so3_V b) u)) with (vsub (f 1) (f 0)).
  - apply (v3_mean f (fun s => vsub (vadd (vcross a (t s)) u) (vadd (vcross b (t' s)) u)) _ N). intros s Hs. split.
    + apply v3d_sub; [apply D|apply D'].
    + assert (E : forall x r, r = (fun s => app3 (so3_V (vscal s x)) (vscal s u)) -> vadd (vcross x (r s)) u = app3 (so3_exp (vscal s x)) u).
      { intros x r ->. rewrite exp_V. generalize (so3_V (vscal s x)). intros m. destruct m, x, u. v3unf. f_equal; ring. }
      rewrite (E a t eq_refl), (E b t' eq_refl). eapply Rle_trans; [apply exp_lip|]. apply Rmult_le_compat_r; [apply vnorm_nonneg|].
      replace (vsub (vscal s a) (vscal s b)) with (vscal s (vsub a b)) by (destruct a, b; unfold vsub, vscal; cbn; f_equal; ring).
      rewrite norm_scal, Rabs_pos_eq by lra. rewrite <- (Rmult_1_l (vnorm (vsub a b))) at 2. apply Rmult_le_compat_r; [apply vnorm_nonneg|lra].
  - change (t 0 = v0) in Z. change (t' 0 = v0) in Z'. unfold f. rewrite Z, Z'. unfold t, t'. rewrite !vscal_1.
    destruct (app3 (so3_V a) u), (app3 (so3_V b) u). unfold vsub, v0; cbn; f_equal; ring.
Qed.

(** ** The inverse *)
Lemma skew_dot k v u : 0 <= k -> k * vnorm2 v <= 1 -> vnorm2 v <= 10 ->
  vnorm (app3 (rodrigues (- (1 / 2)) k v) u) <= 2 * vnorm u.
Proof.
  intros K0 K1 HV. apply norm_le_sq; [pose proof (vnorm_nonneg u); lra|].
  replace (2 * vnorm u * (2 * vnorm u)) with (4 * vnorm2 u) by (rewrite <- vnorm_sq; ring).
  assert (E : vnorm2 (app3 (rodrigues (- (1 / 2)) k v) u) = vnorm2 u + (1 / 4 - 2 * k + k * (k * vnorm2 v)) * vnorm2 (vcross v u)).
  { unfold rodrigues. destruct v, u. v3unf. field. }
  assert (L : vnorm2 (vcross v u) <= vnorm2 v * vnorm2 u).
  { assert (X : vnorm2 (vcross v u) = vnorm2 v * vnorm2 u - vdot v u * vdot v u) by (destruct v, u; unfold vnorm2, vdot, vcross; cbn; ring).
    rewrite X. pose proof (Rle_0_sqr (vdot v u)) as Q. unfold Rsqr in Q. lra. }
  assert (P : 0 <= vnorm2 (vcross v u)) by apply vnorm2_pos. assert (PU : 0 <= vnorm2 u) by apply vnorm2_pos.
  assert (k * (k * vnorm2 v) <= k * 1) by (apply Rmult_le_compat_l; lra).
  assert ((1 / 4 - 2 * k + k * (k * vnorm2 v)) * vnorm2 (vcross v u) <= 1 / 4 * vnorm2 (vcross v u)) by (apply Rmult_le_compat_r; lra).
  assert (vnorm2 v * vnorm2 u <= 10 * vnorm2 u) by (apply Rmult_le_compat_r; lra). lra.
Qed.

Lemma Vinv_stretch v u : v <> v0 -> vnorm v <= PI -> vnorm (app3 (so3_Vinv v) u) <= 2 * vnorm u.
Proof.
  intros Hv Hpi. unfold so3_Vinv.
  pose proof (vnorm_neq0 v Hv) as Hn. pose proof PI_ge. assert (Hc : cos (vnorm v) < 1) by (apply cos_lt_1; lra).
  assert (N : 0 < vnorm2 v) by (rewrite <- vnorm_sq; nra).
  assert (S0 : 0 <= sin (vnorm v)) by (apply sin_ge_0; lra).
  pose proof (numerator_nonneg (vnorm v) ltac:(lra)) as NN. pose proof PI_sq as PS. pose proof PI_le.
  rewrite <- (vnorm_sq v) in N. set (n := vnorm v) in *. set (s := sin n) in *. set (c := cos n) in *.
  assert (E : (1 - s / n / 2 / ((1 - c) / vnorm2 v)) / vnorm2 v = ((1 - c) / (n * n) - 1 / 2 * (s / n)) * / (1 - c)).
  { rewrite <- (vnorm_sq v). fold n. field. lra. }
  assert (I : 0 < / (1 - c)) by (apply Rinv_0_lt_compat; lra).
  rewrite E. apply skew_dot.
  - apply Rmult_le_pos; lra.
  - rewrite <- (vnorm_sq v). fold n. replace (((1 - c) / (n * n) - 1 / 2 * (s / n)) * / (1 - c) * (n * n)) with (1 - s * n * / 2 * / (1 - c)) by (field; lra).
    assert (0 <= s * n * / 2 * / (1 - c)) by (repeat apply Rmult_le_pos; lra). lra.
  - rewrite <- (vnorm_sq v). fold n. assert (n * n <= PI * PI) by (apply Rmult_le_compat; lra). lra.
Qed.

Lemma Vinv_lip a b u : a <> v0 -> b <> v0 -> vnorm a <= PI -> vnorm b <= PI ->
  vnorm (vsub (app3 (so3_Vinv a) u) (app3 (so3_Vinv b) u)) <= 4 * vnorm (vsub a b) * vnorm u.
Proof.
  intros A B PA PB. pose proof PI_ge.
  destruct (V_Vinv a A ltac:(lra)) as [_ EA]. destruct (V_Vinv b B ltac:(lra)) as [EB _].
  set (y := app3 (so3_Vinv b) u).
  assert (E : vsub (app3 (so3_Vinv a) u) y = app3 (so3_Vinv a) (vsub (app3 (so3_V b) y) (app3 (so3_V a) y))).
  { assert (EY : app3 (so3_V b) y = u) by (unfold y; now rewrite <- app3_mul, EB, app3_i).
    rewrite EY, <- app_sub, <- (app3_mul (so3_Vinv a) (so3_V a)), EA, app3_i. reflexivity. }
  rewrite E. eapply Rle_trans; [apply Vinv_stretch; assumption|].
  pose proof (V_lip b a y) as L. pose proof (Vinv_stretch b u B PB) as Y. fold y in Y. replace (vnorm (vsub b a)) with (vnorm (vsub a b)) in L by (rewrite <- norm_opp; f_equal; destruct a, b; unfold vopp, vsub; cbn; f_equal; ring).
  pose proof (vnorm_nonneg (vsub a b)).
  assert (vnorm (vsub a b) * vnorm y <= vnorm (vsub a b) * (2 * vnorm u)) by (apply Rmult_le_compat_l; assumption). lra.
Qed.
