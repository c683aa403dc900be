(** C49: products of rotation matrices and rotated vectors, computed on doubles. *)

From Coq Require Import ZArith Reals Lra Lia Psatz List Bool.
From Flocq Require Import Core BinarySingleNaN.
From Verif Require Import V3 ModelFloat SpecFlt FloatProofs FloatDrift.
Import ListNotations.
Local Open Scope R_scope.

(** A product of matrices of finite doubles, each within [d] of a rotation, is finite and
    within n * (6 d + 2^-48) of the product of the rotations, whichever way sums are
    evaluated, as long as that bound is at most one. *)
Theorem c49_product_drift o d A R As Rs :
  0 <= d <= / 1000 ->
  Forall2 (fun A R => mfinite A /\ is_rot R /\ mwithin d (mval A) R) (A :: As) (R :: Rs) ->
  INR (length (A :: As)) * (6 * d + / 2 ^ 48) <= 1 ->
  mfinite (dprod o A As) /\
  mwithin (INR (length (A :: As)) * (6 * d + / 2 ^ 48)) (mval (dprod o A As)) (mproduct R Rs).
Proof.
  intros Hd HF Hn. inversion_clear HF as [|? ? ? ? (FA & HR & W) HF'].
  change (length (A :: As)) with (S (length As)) in *. rewrite S_INR in *.
  assert (E0 : 0 < / 2 ^ 48) by (apply Rinv_0_lt_compat, pow_lt; lra).
  destruct (prod_drift o d Hd As Rs HF' A R (6 * d + / 2 ^ 48)) as (P1 & P2 & P3); auto; [lra|lra| |].
  - destruct (mwithin_rnear d A R) as (N0 & N1 & N2); auto; [lra|].
    unfold rnear. repeat split; lra.
  - split; [exact P1|]. apply rnear_mwithin.
    replace ((INR (length As) + 1) * (6 * d + / 2 ^ 48)) with
      (6 * d + / 2 ^ 48 + INR (length As) * (6 * d + / 2 ^ 48)) by ring. exact P3.
Qed.
Print Assumptions c49_product_drift.

Lemma rot_entries m : is_rot m ->
  Rabs (m00 m) <= 1 /\ Rabs (m01 m) <= 1 /\ Rabs (m02 m) <= 1 /\
  Rabs (m10 m) <= 1 /\ Rabs (m11 m) <= 1 /\ Rabs (m12 m) <= 1 /\
  Rabs (m20 m) <= 1 /\ Rabs (m21 m) <= 1 /\ Rabs (m22 m) <= 1.
Proof.
  intros H. destruct (rot_row_norm m H) as (n0 & n1 & n2).
  pose proof (comp_le_norm (mrow0 m)) as (a & b & c). pose proof (comp_le_norm (mrow1 m)) as (d & e & f).
  pose proof (comp_le_norm (mrow2 m)) as (g & h & i).
  unfold mrow0, mrow1, mrow2 in *; cbn [vx vy vz] in *. repeat split; lra.
Qed.

Lemma near_prod D a b p q : 0 <= D <= 1 -> Rabs (a - p) <= D -> Rabs (b - q) <= D ->
  Rabs p <= 1 -> Rabs q <= 1 -> Rabs (a * b - p * q) <= 3 * D.
Proof.
  intros HD Ha Hb Hp Hq.
  replace (a * b - p * q) with ((a - p) * q + p * (b - q) + (a - p) * (b - q)) by ring.
  eapply Rle_trans; [apply Rabs_triang|]. eapply Rle_trans; [apply Rplus_le_compat_r, Rabs_triang|].
  rewrite !Rabs_mult. pose proof (Rabs_pos (a - p)). pose proof (Rabs_pos (b - q)).
  pose proof (Rabs_pos p). pose proof (Rabs_pos q). nra.
Qed.

Lemma near_orthogonal D x p : 0 <= D <= 1 -> is_rot p -> mwithin D x p ->
  mwithin (9 * D) (mul3 (tr3 x) x) i3.
Proof.
  intros HD Hp (w00 & w01 & w02 & w10 & w11 & w12 & w20 & w21 & w22).
  destruct (rot_entries p Hp) as (e00 & e01 & e02 & e10 & e11 & e12 & e20 & e21 & e22).
  destruct Hp as [Ho _]. destruct x, p. unfold mul3, tr3, i3 in *; cbn in *. injection Ho; intros.
  assert (T : forall a b c a' b' c' p q r p' q' r' v,
    Rabs (a - p) <= D -> Rabs (b - q) <= D -> Rabs (c - r) <= D ->
    Rabs (a' - p') <= D -> Rabs (b' - q') <= D -> Rabs (c' - r') <= D ->
    Rabs p <= 1 -> Rabs q <= 1 -> Rabs r <= 1 -> Rabs p' <= 1 -> Rabs q' <= 1 -> Rabs r' <= 1 ->
    p * p' + q * q' + r * r' = v -> Rabs (a * a' + b * b' + c * c' - v) <= 9 * D).
  { intros a b c a' b' c' p q r p' q' r' v; intros. subst v.
    pose proof (near_prod D a a' p p') as X. pose proof (near_prod D b b' q q') as Y. pose proof (near_prod D c c' r r') as Z.
    replace (a * a' + b * b' + c * c' - (p * p' + q * q' + r * r')) with
      ((a * a' - p * p') + (b * b' - q * q') + (c * c' - r * r')) by ring.
    eapply Rle_trans; [apply Rabs_triang|]. eapply Rle_trans; [apply Rplus_le_compat_r, Rabs_triang|].
    assert (Rabs (a * a' - p * p') <= 3 * D) by auto. assert (Rabs (b * b' - q * q') <= 3 * D) by auto.
    assert (Rabs (c * c' - r * r') <= 3 * D) by auto. lra. }
  unfold mwithin; cbn.
  split; [|split; [|split; [|split; [|split; [|split; [|split; [|split]]]]]]]; (eapply T; eauto).
Qed.

(** Its columns stay orthonormal within 9 times as much. *)
Theorem c49_stays_orthonormal o d A R As Rs :
  0 <= d <= / 1000 ->
  Forall2 (fun A R => mfinite A /\ is_rot R /\ mwithin d (mval A) R) (A :: As) (R :: Rs) ->
  INR (length (A :: As)) * (6 * d + / 2 ^ 48) <= 1 ->
  let X := mval (dprod o A As) in
  mwithin (9 * (INR (length (A :: As)) * (6 * d + / 2 ^ 48))) (mul3 (tr3 X) X) i3.
Proof.
  intros Hd HF Hn X. destruct (c49_product_drift o d A R As Rs Hd HF Hn) as [_ W].
  apply near_orthogonal with (mproduct R Rs); auto.
  - split; [|exact Hn]. apply Rmult_le_pos; [apply pos_INR|].
    assert (E0 : 0 < / 2 ^ 48) by (apply Rinv_0_lt_compat, pow_lt; lra). lra.
  - clear - HF. inversion_clear HF as [|? ? ? ? (_ & HR & _) HF'].
    revert R HR. induction HF' as [|a r As Rs (_ & Hr & _) _ IH]; intros R HR; cbn; auto.
    apply IH. now apply is_rot_mul.
Qed.
Print Assumptions c49_stays_orthonormal.

(** A rotated vector: every component is within (2 d + 2^-50) times the vector's length of
    that of the vector rotated exactly (and 2^-1070, for vectors near the least double). *)
Theorem c49_rotate o d A R v :
  0 <= d <= / 1000 -> mfinite A -> is_rot R -> mwithin d (mval A) R ->
  vfinite v -> vnorm (vval v) <= 2 ^ 900 ->
  let e := (2 * d + / 2 ^ 50) * vnorm (vval v) + / 2 ^ 1070 in
  vfinite (dapp o A v) /\
  Rabs (val (dx (dapp o A v)) - vx (app3 R (vval v))) <= e /\
  Rabs (val (dy (dapp o A v)) - vy (app3 R (vval v))) <= e /\
  Rabs (val (dz (dapp o A v)) - vz (app3 R (vval v))) <= e.
Proof.
  intros Hd (F0 & F1 & F2) HR (w00 & w01 & w02 & w10 & w11 & w12 & w20 & w21 & w22) Fv Hv e.
  destruct (rot_row_norm R HR) as (n0 & n1 & n2).
  assert (HB : 2 ^ 900 <= big / 100).
  { unfold big. replace 1000%nat with (900 + 100)%nat by reflexivity. rewrite pow_add.
    assert (2 ^ 10 <= 2 ^ 100) by (apply Rle_pow; [lra|lia]). assert (0 < 2 ^ 900) by (apply pow_lt; lra).
    replace (2 ^ 10) with 1024 in * by ring. nra. }
  generalize dependent (2 ^ 900). intros G HG HB.
  assert (He : 8 * eta <= / 2 ^ 1070).
  { unfold eta. replace 1075%nat with (5 + 1070)%nat by reflexivity. rewrite pow_add, Rinv_mult.
    assert (0 < / 2 ^ 1070) by (apply Rinv_0_lt_compat, pow_lt; lra). generalize dependent (/ 2 ^ 1070). intros z Hz.
    replace (2 ^ 5) with 32 by ring. lra. }
  assert (C : forall (c : DV) (r : V3), vfinite c -> vnorm r = 1 ->
     Rabs (val (dx c) - vx r) <= d -> Rabs (val (dy c) - vy r) <= d -> Rabs (val (dz c) - vz r) <= d ->
     finite (ddot o c v) /\ Rabs (val (ddot o c v) - vdot r (vval v)) <= e).
  { intros c r Fc Hr C0 C1 C2.
    pose proof (comp_le_norm (vval v)) as (N0 & N1 & N2).
    pose proof (cauchy (vabs r) (vabs (vval v))) as CS. rewrite !norm_abs, Hr in CS.
    pose proof (sumabs_sq (vval v)) as SS. pose proof (vnorm_nonneg (vval v)) as N.
    assert (S : sumabs (vval v) <= 2 * vnorm (vval v)).
    { apply Rsqr_incr_0_var; [|lra]. unfold Rsqr. rewrite <- vnorm_sq in SS. nra. }
    pose proof (ddot_ok o c v Fc Fv) as K.
    subst e. generalize dependent (vnorm (vval v)). intros n. intros.
    unfold vdot, vabs, sumabs in *. cbn [vx vy vz] in *. unfold vval in *. cbn [vx vy vz] in *.
    pose proof (abs_le_dist _ _ _ C0) as B0. pose proof (abs_le_dist _ _ _ C1) as B1. pose proof (abs_le_dist _ _ _ C2) as B2.
    set (a0 := val (dx v)) in *. set (a1 := val (dy v)) in *. set (a2 := val (dz v)) in *.
    set (c0 := val (dx c)) in *. set (c1 := val (dy c)) in *. set (c2 := val (dz c)) in *.
    set (q0 := vx r) in *. set (q1 := vy r) in *. set (q2 := vz r) in *.
    assert (Pr : forall x y z, Rabs x <= Rabs y + d -> Rabs (x * z) <= Rabs y * Rabs z + d * Rabs z).
    { intros x y z H. rewrite Rabs_mult. pose proof (Rabs_pos z). nra. }
    pose proof (Pr c0 q0 a0 B0) as P0. pose proof (Pr c1 q1 a1 B1) as P1. pose proof (Pr c2 q2 a2 B2) as P2.
    assert (Dz : forall z, 0 <= d * Rabs z <= / 1000 * Rabs z).
    { intros z. pose proof (Rabs_pos z). split; [apply Rmult_le_pos; lra|]. apply Rmult_le_compat_r; lra. }
    pose proof (Dz a0) as D0. pose proof (Dz a1) as D1. pose proof (Dz a2) as D2.
    assert (Q : forall x z, 0 <= Rabs x * Rabs z) by (intros; apply Rmult_le_pos; apply Rabs_pos).
    pose proof (Q q0 a0) as Q0. pose proof (Q q1 a1) as Q1. pose proof (Q q2 a2) as Q2.
    destruct K as [F E]; try lra.
    split; [exact F|].
    assert (X : forall x y z, Rabs (x - y) <= d -> - (d * Rabs z) <= (x - y) * z <= d * Rabs z).
    { intros x y z H. apply Rabs_le_inv. rewrite Rabs_mult. apply Rmult_le_compat_r; [apply Rabs_pos|exact H]. }
    pose proof (X c0 q0 a0 C0) as Y0. pose proof (X c1 q1 a1 C1) as Y1. pose proof (X c2 q2 a2 C2) as Y2.
    assert (SD : d * Rabs a0 + d * Rabs a1 + d * Rabs a2 <= 2 * d * n).
    { rewrite <- !Rmult_plus_distr_l. replace (2 * d * n) with (d * (2 * n)) by ring. apply Rmult_le_compat_l; lra. }
    assert (U : / 2 ^ 50 = / 1125899906842624) by (f_equal; ring).
    rewrite U. rewrite u_val in *. apply abs_between in E. apply Rabs_le.
    replace ((2 * d + / 1125899906842624) * n) with (2 * d * n + / 1125899906842624 * n) by ring.
    generalize dependent (/ 2 ^ 1070). intros z He. lra. }
  destruct (C (r0 A) (mrow0 R) F0 n0 w00 w01 w02) as [G0 E0].
  destruct (C (r1 A) (mrow1 R) F1 n1 w10 w11 w12) as [G1 E1].
  destruct (C (r2 A) (mrow2 R) F2 n2 w20 w21 w22) as [G2 E2].
  split; [exact (conj G0 (conj G1 G2))|]. exact (conj E0 (conj E1 E2)).
Qed.
Print Assumptions c49_rotate.

(** ** Concrete cases *)

(** The quarter turn about z and the matrix with entries 3/5 and 4/5 rounded to doubles. *)
Definition quarter_d : DM := mkDM (mkDV f0 (fopp f1) f0) (mkDV f1 f0 f0) (mkDV f0 f0 f1).
Definition quarter : M3 := mkM 0 (-1) 0 1 0 0 0 0 1.
Definition f35 : double := lit 5404319552844595 (-53).
Definition f45 : double := lit 7205759403792794 (-53).
Definition tilt_d : DM := mkDM (mkDV f1 f0 f0) (mkDV f0 f35 (fopp f45)) (mkDV f0 f45 f35).
Definition tilt : M3 := mkM 1 0 0 0 (3/5) (-(4/5)) 0 (4/5) (3/5).

Lemma bpow_m53 : bpow radix2 (-53) = / 9007199254740992.
Proof. rewrite <- u_val. exact (bpow_inv_pow 53). Qed.
Lemma f1_ok : finite f1 /\ val f1 = 1.
Proof. destruct (lit_ok 1 0) as [F V]; [lia|lia|]. split; [exact F|]. unfold f1. rewrite V. cbn. ring. Qed.
Lemma f0_ok : finite f0 /\ val f0 = 0. Proof. split; reflexivity. Qed.

Lemma quarter_ok : mfinite quarter_d /\ is_rot quarter /\ mwithin (/ 2 ^ 53) (mval quarter_d) quarter.
Proof.
  destruct f1_ok as [F1 V1]. destruct f0_ok as [F0 V0]. destruct (fopp_ok f1 F1) as [Fm Vm].
  split; [|split].
  - unfold mfinite, vfinite, quarter_d; cbn [r0 r1 r2 dx dy dz]. auto 20.
  - split; [unfold quarter; v3unf; f_equal; ring|unfold quarter; v3unf; ring].
  - assert (H : 0 <= / 2 ^ 53) by (left; apply Rinv_0_lt_compat, pow_lt; lra).
    unfold mwithin, mval, quarter_d, quarter; cbn [r0 r1 r2 dx dy dz m00 m01 m02 m10 m11 m12 m20 m21 m22].
    rewrite Vm, V1, V0. repeat split; apply Rabs_le; lra.
Qed.

Lemma tilt_ok : mfinite tilt_d /\ is_rot tilt /\ mwithin (/ 2 ^ 53) (mval tilt_d) tilt.
Proof.
  destruct f1_ok as [F1 V1]. destruct f0_ok as [F0 V0].
  destruct (lit_ok 5404319552844595 (-53)) as [F3 V3]; [lia|lia|].
  destruct (lit_ok 7205759403792794 (-53)) as [F4 V4]; [lia|lia|].
  fold f35 in F3, V3. fold f45 in F4, V4. rewrite bpow_m53 in V3, V4. destruct (fopp_ok f45 F4) as [Fm Vm].
  split; [|split].
  - unfold mfinite, vfinite, tilt_d; cbn [r0 r1 r2 dx dy dz]. auto 20.
  - split; [unfold tilt; v3unf; f_equal; field|unfold tilt; v3unf; field].
  - change (/ 2 ^ 53) with u. rewrite u_val.
    unfold mwithin, mval, tilt_d, tilt; cbn [r0 r1 r2 dx dy dz m00 m01 m02 m10 m11 m12 m20 m21 m22].
    rewrite Vm, V1, V0, V3, V4. repeat split; apply Rabs_le; lra.
Qed.

Example c49_example : exists As Rs, length As = 1000%nat /\
  Forall2 (fun A R => mfinite A /\ is_rot R /\ mwithin (/ 2 ^ 53) (mval A) R) (tilt_d :: As) (tilt :: Rs) /\
  INR (length (tilt_d :: As)) * (6 * / 2 ^ 53 + / 2 ^ 48) <= / 2 ^ 37.
Proof.
  exists (repeat quarter_d 1000), (repeat quarter 1000).
  assert (L : length (repeat quarter_d 1000) = 1000%nat) by apply repeat_length.
  split; [exact L|]. split.
  - constructor; [exact tilt_ok|]. clear L. generalize 1000%nat. induction n; cbn; constructor; auto. exact quarter_ok.
  - change (length (tilt_d :: repeat quarter_d 1000)) with (S (length (repeat quarter_d 1000))). rewrite L.
    replace (INR 1001) with 1001 by (rewrite INR_IZR_INZ; reflexivity).
    change (/ 2 ^ 53) with u. rewrite u_val.
    replace (2 ^ 48) with 281474976710656 by ring. replace (2 ^ 37) with 137438953472 by ring. lra.
Qed.

Example c49_rotate_example : mfinite tilt_d /\ is_rot tilt /\ mwithin (/ 2 ^ 53) (mval tilt_d) tilt /\
  vfinite (mkDV f1 f1 f0) /\ vnorm (vval (mkDV f1 f1 f0)) <= 2 ^ 900.
Proof.
  destruct tilt_ok as (A & B & C). destruct f1_ok as [F1 V1]. destruct f0_ok as [F0 V0].
  split; [exact A|]. split; [exact B|]. split; [exact C|]. split; [exact (conj F1 (conj F1 F0))|].
  unfold vval; cbn [dx dy dz]. rewrite V1, V0.
  apply Rle_trans with (2 ^ 1); [|apply Rle_pow; [lra|lia]].
  apply norm_le_sq; [lra|]. unfold vnorm2, vdot; cbn. lra.
Qed.
