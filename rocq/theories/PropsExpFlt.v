(** C50: the exponential map of a rotation vector computed on doubles. *)

From Coq Require Import ZArith Reals Lra Lia Psatz List Bool.
From Flocq Require Import Core BinarySingleNaN.
From Verif Require Import V3 SpecLeaf ModelLeaf LeafProofs ModelFloat SpecFlt FloatProofs FloatDrift PropsLie FloatExp.
Local Open Scope R_scope.

Lemma lit_small n z : (Z.abs z < 2 ^ 53)%Z -> n = IZR z -> finite (lit z 0) /\ val (lit z 0) = n.
Proof. intros H E. destruct (lit_ok z 0 H) as [F V]; [lia|]. split; [exact F|]. rewrite V, E. cbn. ring. Qed.
Lemma fhalf_ok : finite fhalf /\ val fhalf = 1 / 2.
Proof.
  destruct (lit_ok 1 (-1)) as [F V]; [lia|lia|]. split; [exact F|]. unfold fhalf. rewrite V. cbn. lra.
Qed.

(** What the branch for small angles computes. *)
Lemma small_branch o v : vfinite v -> vnorm (vval v) <= huge ->
  let N := vnorm (vval v) in let a2 := ddot o v v in
  let s := fadd fhalf (fdiv a2 (lit 48 0)) in let w := fsub f1 (fdiv a2 (lit 8 0)) in
  fgt (fmul a2 a2) feps = false ->
  finite s /\ finite w /\ Rabs (val s - (1 / 2 + N * N / 48)) <= 7 / 10 * / 9007199254740992 /\
  Rabs (val w - (1 - N * N / 8)) <= 12 / 10 * / 9007199254740992 /\
  N * N <= 1491 / 100000000000 /\ N <= 12211 / 100000000 /\
  N * N * (N * N) <= 21 / 10 * / 9007199254740992.
Proof.
  intros Fv HN N a2 s w Hb.
  destruct (a2_ok o v Fv HN) as [F2 E2]. fold N a2 in F2, E2.
  pose proof (a2_nonneg o v Fv HN) as P2. fold a2 in P2.
  apply branch_small in Hb; auto.
  pose proof (vnorm_nonneg (vval v)) as N0. fold N in N0. pose proof eta_le as He. pose proof big_ge as HB.
  rewrite u_val in E2. apply abs_between in E2. set (x := val a2) in *.
  assert (X : x <= 14902 / 1000000000000).
  { destruct (Rle_dec x (14902 / 1000000000000)) as [H|H]; [exact H|]. exfalso. nra. }
  assert (XN : N * N <= 1491 / 100000000000) by lra.
  assert (XN1 : N <= 12211 / 100000000).
  { destruct (Rle_dec N (12211 / 100000000)) as [H|H]; [exact H|]. exfalso. nra. }
  pose proof (sq_nonneg N) as NN.
  destruct (lit_small 48 48) as [F48 V48]; [lia|lra|]. destruct (lit_small 8 8) as [F8 V8]; [lia|lra|].
  destruct (lit_small 1 1) as [F1 V1]; [lia|lra|]. fold f1 in F1, V1. destruct fhalf_ok as [Fh Vh].
  destruct (fdiv_ok a2 (lit 48 0) F2) as [G1 W1]; [rewrite V48; lra|rewrite V48; fold x; rewrite Rabs_pos_eq; lra|].
  destruct (fdiv_ok a2 (lit 8 0) F2) as [G2 W2]; [rewrite V8; lra|rewrite V8; fold x; rewrite Rabs_pos_eq; lra|].
  rewrite V48 in W1. rewrite V8 in W2. fold x in W1, W2.
  pose proof (nerr (x / 48)) as E1. rewrite <- W1 in E1. rewrite (Rabs_pos_eq (x / 48)) in E1 by lra. apply abs_between in E1.
  pose proof (nerr (x / 8)) as E3. rewrite <- W2 in E3. rewrite (Rabs_pos_eq (x / 8)) in E3 by lra. apply abs_between in E3.
  destruct (fadd_ok fhalf (fdiv a2 (lit 48 0)) Fh G1) as [Fs Vs]; [rewrite Vh, Rabs_pos_eq; lra|].
  destruct (fsub_ok f1 (fdiv a2 (lit 8 0)) F1 G2) as [Fw Vw]; [rewrite V1, Rabs_pos_eq; lra|].
  fold s in Fs, Vs. fold w in Fw, Vw. rewrite Vh in Vs. rewrite V1 in Vw.
  set (k := val (fdiv a2 (lit 48 0))) in *. set (l := val (fdiv a2 (lit 8 0))) in *.
  pose proof (nerr (1 / 2 + k)) as E4. rewrite <- Vs in E4. rewrite (Rabs_pos_eq (1 / 2 + k)) in E4 by lra. apply abs_between in E4.
  pose proof (nerr (1 - l)) as E5. rewrite <- Vw in E5. rewrite (Rabs_pos_eq (1 - l)) in E5 by lra. apply abs_between in E5.
  split; [exact Fs|]. split; [exact Fw|]. split; [apply Rabs_le; lra|]. split; [apply Rabs_le; lra|].
  split; [exact XN|]. split; [exact XN1|].
  assert (NX : N * N <= x * (1 + 8 * / 9007199254740992) + 10 * eta) by lra.
  clear - NX NN X Hb P2 He. set (y := x * (1 + 8 * / 9007199254740992) + 10 * eta) in *.
  apply Rle_trans with (y * y); [apply Rmult_le_compat; lra|]. unfold y.
  replace ((x * (1 + 8 * / 9007199254740992) + 10 * eta) * (x * (1 + 8 * / 9007199254740992) + 10 * eta)) with
    (x * x * ((1 + 8 * / 9007199254740992) * (1 + 8 * / 9007199254740992)) + 20 * (x * eta) * (1 + 8 * / 9007199254740992) + 100 * (eta * eta)) by ring.
  assert (x * eta <= 1 * eta) by (apply Rmult_le_compat_r; lra).
  assert (eta * eta <= 1 * eta) by (apply Rmult_le_compat_r; lra). lra.
Qed.

Lemma abs_abs_dist x y : Rabs (Rabs x - Rabs y) <= Rabs (x - y).
Proof. apply Rabs_triang_inv2. Qed.

Lemma norm_dist a b : Rabs (vnorm a - vnorm b) <= vnorm (vsub a b).
Proof.
  pose proof (norm_triangle b (vsub a b)) as A. pose proof (norm_triangle a (vopp (vsub a b))) as B.
  rewrite norm_opp in B.
  replace (vadd b (vsub a b)) with a in A by (destruct a, b; unfold vadd, vsub; cbn; f_equal; ring).
  replace (vadd a (vopp (vsub a b))) with b in B by (destruct a, b; unfold vadd, vsub, vopp; cbn; f_equal; ring).
  apply Rabs_le. lra.
Qed.
Lemma norm_scal k a : vnorm (vscal k a) = Rabs k * vnorm a.
Proof.
  unfold vnorm. replace (vnorm2 (vscal k a)) with (k * k * vnorm2 a)
    by (destruct a; unfold vnorm2, vdot, vscal; cbn; ring).
  rewrite sqrt_mult; [|apply sq_nonneg|apply vnorm2_pos]. f_equal.
  rewrite <- abs_sq. apply sqrt_square. apply Rabs_pos.
Qed.

(** For every rotation vector whose squared length does not overflow (length up to 2^401),
    the quaternion is finite and its squared norm is within 2^-47 of one. *)
Theorem c50_exp_unit M o v : one_ulp M -> vfinite v -> vnorm (vval v) <= 2 ^ 401 ->
  let (w, q) := dexp_quat M o v in
  finite w /\ vfinite q /\ Rabs (val w * val w + vnorm2 (vval q) - 1) <= / 2 ^ 47.
Proof.
  intros HM Fv HN. change (2 ^ 401) with huge in HN. unfold dexp_quat.
  replace (2 ^ 47) with 140737488355328 by ring.
  pose proof (vnorm_nonneg (vval v)) as N0. pose proof eta_le as He.
  set (a2 := ddot o v v). destruct (fgt (fmul a2 a2) feps) eqn:Hb.
  - destruct (big_branch M o v HM Fv HN Hb) as (Fc & Ec & Fs & Es & Eh). fold a2 in Fc, Ec, Fs, Es, Eh.
    set (h := fdiv (fsqrt a2) f2) in *. set (s := fdiv (fsin M h) (fsqrt a2)) in *. set (c := fcos M h) in *.
    assert (T : / 10 ^ 90 <= / 10 ^ 40).
    { apply Rinv_le_contravar; [apply pow_lt; lra|]. apply Rle_pow; [lra|lia]. }
    assert (T40 : / 10 ^ 40 = / 10000000000000000000000000000000000000000).
    { f_equal. replace 40%nat with (10 * 4)%nat by reflexivity. rewrite pow_mult. replace (10 ^ 10) with 10000000000 by ring. ring. }
    rewrite T40 in T. generalize dependent (/ 10 ^ 90). intros t Es T.
    assert (Sb : Rabs (sin (val h)) <= 1) by (apply Rabs_le, SIN_bound).
    assert (Cb : Rabs (cos (val h)) <= 1) by (apply Rabs_le, COS_bound).
    assert (Sk : Rabs (val s) <= 50000).
    { destruct (a2_ok o v Fv HN) as [F2 _]. apply branch_big in Hb; auto. destruct (a_ok o v Fv HN Hb) as (_ & _ & NL).
      pose proof (abs_le_dist _ _ _ Es) as B. rewrite Rabs_mult, (Rabs_pos_eq (vnorm (vval v))) in B by lra.
      assert (0 <= Rabs (val s)) by apply Rabs_pos.
      destruct (Rle_dec (Rabs (val s)) 50000) as [K|K]; [exact K|exfalso]. 
      assert (50000 * / 10000 <= Rabs (val s) * vnorm (vval v)) by (apply Rmult_le_compat; lra). lra. }
    destruct (vec_part v Fv HN s 50000 Fs Sk) as [Fq _]; [lra|].
    pose proof (vec_norm v Fv HN s 50000 Fs Sk ltac:(lra)) as Vn. cbv zeta in Vn.
    split; [exact Fc|]. split; [exact Fq|].
    set (q := dmapv (fmul s) v) in *. rewrite <- vnorm_sq.
    pose proof (norm_dist (vval q) (vscal (val s) (vval v))) as Nd. rewrite norm_scal in Nd.
    pose proof (abs_abs_dist (val s * vnorm (vval v)) (sin (val h))) as Ad.
    rewrite (Rabs_mult (val s)), (Rabs_pos_eq (vnorm (vval v))) in Ad by lra.
    pose proof (vnorm_nonneg (vval q)) as R0. set (r := vnorm (vval q)) in *.
    set (z := Rabs (val s) * vnorm (vval v)) in *.
    assert (P : sin (val h) * sin (val h) + cos (val h) * cos (val h) = 1) by apply sin2_cos2.
    rewrite <- (abs_sq (sin (val h))) in P.
    pose proof (Rabs_pos (sin (val h))) as S0. set (sh := Rabs (sin (val h))) in *.
    set (ch := cos (val h)) in *.
    assert (Z : Rabs (z - sh) <= 13 * / 9007199254740992) by lra.
    apply abs_between in Z. assert (Nd' := Rle_trans _ _ _ Nd Vn). apply abs_between in Nd'.
    assert (RS : Rabs (r - sh) <= 17 * / 9007199254740992) by (apply Rabs_le; lra).
    assert (CC : Rabs (val c - ch) <= 3 * / 9007199254740992) by lra.
    apply abs_between in RS, CC. apply Rabs_le_inv in Cb.
    replace (val c * val c + r * r - 1) with ((val c - ch) * (val c + ch) + (r - sh) * (r + sh)) by lra.
    clear - RS CC Cb Sb S0 R0.
    assert (A : Rabs ((val c - ch) * (val c + ch)) <= 3 * / 9007199254740992 * (21 / 10)).
    { rewrite Rabs_mult. apply Rmult_le_compat; try apply Rabs_pos; apply Rabs_le; lra. }
    assert (B : Rabs ((r - sh) * (r + sh)) <= 17 * / 9007199254740992 * (21 / 10)).
    { rewrite Rabs_mult. apply Rmult_le_compat; try apply Rabs_pos; apply Rabs_le; lra. }
    eapply Rle_trans; [apply Rabs_triang|]. lra.
  - destruct (small_branch o v Fv HN Hb) as (Fs & Fw & Es & Ew & X & X1 & X4). fold a2 in Fs, Fw, Es, Ew.
    set (s := fadd fhalf (fdiv a2 (lit 48 0))) in *. set (w := fsub f1 (fdiv a2 (lit 8 0))) in *.
    set (N := vnorm (vval v)) in *. pose proof (sq_nonneg N) as NN.
    apply abs_between in Es, Ew.
    assert (Sk : Rabs (val s) <= 1) by (apply Rabs_le; lra).
    destruct (vec_part v Fv HN s 1 Fs Sk) as [Fq _]; [lra|].
    pose proof (vec_norm v Fv HN s 1 Fs Sk ltac:(lra)) as Vn. cbv zeta in Vn. fold N in Vn.
    split; [exact Fw|]. split; [exact Fq|].
    set (q := dmapv (fmul s) v) in *. rewrite <- vnorm_sq.
    pose proof (norm_dist (vval q) (vscal (val s) (vval v))) as Nd. rewrite norm_scal in Nd. fold N in Nd.
    assert (Nd' := Rle_trans _ _ _ Nd Vn). rewrite (Rabs_pos_eq (val s)) in Nd' by lra. apply abs_between in Nd'.
    set (r := vnorm (vval q)) in *. set (S := val s) in *. set (W := val w) in *.
    assert (SN : 0 <= S * N <= 13 / 100000).
    { split; [apply Rmult_le_pos; lra|]. apply Rle_trans with (1 * (12211 / 100000000)); [apply Rmult_le_compat; lra|lra]. }
    assert (RR : Rabs ((r - S * N) * (r + S * N)) <= 2 * / 9007199254740992 * 1).
    { rewrite Rabs_mult. apply Rmult_le_compat; try apply Rabs_pos; apply Rabs_le; lra. }
    assert (WW : Rabs ((W - (1 - N * N / 8)) * (W + (1 - N * N / 8))) <= 12 / 10 * / 9007199254740992 * (21 / 10)).
    { rewrite Rabs_mult. apply Rmult_le_compat; try apply Rabs_pos; apply Rabs_le; lra. }
    assert (SS : Rabs ((S - (1 / 2 + N * N / 48)) * ((S + (1 / 2 + N * N / 48)) * (N * N))) <= / 9007199254740992 * 1).
    { rewrite Rabs_mult. apply Rmult_le_compat; try apply Rabs_pos; [apply Rabs_le; lra|].
      rewrite Rabs_mult, (Rabs_pos_eq (N * N)) by lra. apply Rle_trans with (2 * (1491 / 100000000000)); [|lra].
      apply Rmult_le_compat; try apply Rabs_pos; try lra. apply Rabs_le; lra. }
    replace (W * W + r * r - 1) with ((r - S * N) * (r + S * N) + (W - (1 - N * N / 8)) * (W + (1 - N * N / 8))
      + (S - (1 / 2 + N * N / 48)) * ((S + (1 / 2 + N * N / 48)) * (N * N))
      + (N * N * (N * N) * (7 / 192) + N * N * (N * N) * (N * N) / 2304)) by field.
    assert (N6 : 0 <= N * N * (N * N) * (N * N) <= N * N * (N * N) * 1).
    { split; [apply Rmult_le_pos; [apply Rmult_le_pos|]; lra|]. apply Rmult_le_compat_l; [apply Rmult_le_pos; lra|lra]. }
    apply Rabs_le_inv in RR, WW, SS. pose proof (Rmult_le_pos _ _ NN NN). apply Rabs_le. lra.
Qed.
Print Assumptions c50_exp_unit.

(** The same with the quaternion written out. *)
Lemma exp_explicit M o v : one_ulp M -> vfinite v -> vnorm (vval v) <= 2 ^ 401 ->
  let (w, q) := dexp_quat M o v in
  let e := / 2 ^ 43 + / 2 ^ 49 * vnorm (vval v) in
  exists r, (exists k, k * vnorm (vval v) = sin (vnorm (vval v) / 2) /\
      r = mkQ (cos (vnorm (vval v) / 2)) (k * vx (vval v)) (k * vy (vval v)) (k * vz (vval v))) /\
    unitq r /\ qrot r = so3_exp (vval v) /\
    Rabs (val w - qw r) <= e /\ Rabs (val (dx q) - qx r) <= e /\
    Rabs (val (dy q) - qy r) <= e /\ Rabs (val (dz q) - qz r) <= e.
Proof.
  intros HM Fv HN. change (2 ^ 401) with huge in HN. unfold dexp_quat.
  replace (2 ^ 43) with 8796093022208 by ring. replace (2 ^ 49) with 562949953421312 by ring.
  pose proof (vnorm_nonneg (vval v)) as N0. pose proof eta_le as He.
  assert (X0 : exists k, k * vnorm (vval v) = sin (vnorm (vval v) / 2) /\
     let r := mkQ (cos (vnorm (vval v) / 2)) (k * vx (vval v)) (k * vy (vval v)) (k * vz (vval v)) in
     unitq r /\ qrot r = so3_exp (vval v)).
  { destruct (Req_EM_T (vnorm (vval v)) 0) as [Z|Z].
    - exists 0. rewrite Z. split; [replace (0 / 2) with 0 by field; rewrite sin_0; ring|].
      apply vnorm_eq0 in Z. rewrite Z. rewrite so3_exp_0.
      replace (0 / 2) with 0 by field. rewrite cos_0. unfold unitq. v3unf. split; [field|f_equal; field].
    - exists (sin (vnorm (vval v) / 2) / vnorm (vval v)). split; [field; exact Z|].
      assert (B0 : 0 < vnorm2 (vval v) * vnorm2 (vval v)).
      { rewrite <- vnorm_sq. assert (0 < vnorm (vval v) * vnorm (vval v)) by nra. nra. }
      destruct (exp_quat_correct 0 (vval v)) as (U & R); [lra|right; exact B0|].
      unfold exp_quat in U, R. fold (vnorm (vval v)) in U, R. destruct (Rlt_dec 0 _) as [_|K]; [|lra].
      exact (conj U R). }
  destruct X0 as (k & Hk & U & R). 
  pose proof (comp_le_norm (vval v)) as (C0 & C1 & C2). unfold vval in C0, C1, C2; cbn [vx vy vz] in C0, C1, C2.
  fold (vval v) in C0, C1, C2.
  set (a2 := ddot o v v). 
  (* enough: w is near the cosine, and s |v| near the sine *)
  assert (Fin : forall (w s : double) K, finite s -> Rabs (val s) <= K -> K <= 100000 ->
    let N := vnorm (vval v) in let t := Rabs (val s * N - sin (N / 2)) in
    let e := / 8796093022208 + / 562949953421312 * N in
    Rabs (val w - cos (N / 2)) <= e -> t + (/ 9007199254740992 * (t + 1) + eta) <= e ->
    exists r, (exists k, k * vnorm (vval v) = sin (vnorm (vval v) / 2) /\
      r = mkQ (cos (vnorm (vval v) / 2)) (k * vx (vval v)) (k * vy (vval v)) (k * vz (vval v))) /\
    unitq r /\ qrot r = so3_exp (vval v) /\
      Rabs (val w - qw r) <= e /\ Rabs (val (dx (dmapv (fmul s) v)) - qx r) <= e /\
      Rabs (val (dy (dmapv (fmul s) v)) - qy r) <= e /\ Rabs (val (dz (dmapv (fmul s) v)) - qz r) <= e).
  { intros w s K Fs Hs HK N t e Hw Ht.
    exists (mkQ (cos (N / 2)) (k * vx (vval v)) (k * vy (vval v)) (k * vz (vval v))).
    split; [exists k; split; [exact Hk|reflexivity]|]. split; [exact U|]. split; [exact R|]. split; [exact Hw|].
    destruct (vec_part v Fv HN s K Fs Hs HK) as (_ & E0 & E1 & E2). cbn [qw qx qy qz].
    assert (SN : Rabs (val s) * N <= t + 1).
    { replace (Rabs (val s) * N) with (Rabs (val s * N)) by (rewrite Rabs_mult, (Rabs_pos_eq N) by exact N0; reflexivity).
      replace (val s * N) with ((val s * N - sin (N / 2)) + sin (N / 2)) by ring.
      eapply Rle_trans; [apply Rabs_triang|]. apply Rplus_le_compat_l. apply Rabs_le, SIN_bound. }
    assert (P : forall x y, Rabs x <= N -> Rabs (y - val s * x) <= / 9007199254740992 * Rabs (val s * x) + eta ->
      Rabs (y - k * x) <= e).
    { intros x y Hx Hy.
      assert (A1 : Rabs (val s * x) <= t + 1).
      { rewrite Rabs_mult. eapply Rle_trans; [|exact SN]. apply Rmult_le_compat_l; [apply Rabs_pos|exact Hx]. }
      assert (A2 : Rabs ((val s - k) * x) <= t).
      { unfold t, N. rewrite <- Hk. fold N. replace (val s * N - k * N) with ((val s - k) * N) by ring.
        rewrite !Rabs_mult. rewrite (Rabs_pos_eq N) by exact N0. apply Rmult_le_compat_l; [apply Rabs_pos|exact Hx]. }
      replace (y - k * x) with ((y - val s * x) + (val s - k) * x) by ring.
      eapply Rle_trans; [apply Rabs_triang|]. lra. }
    split; [|split]; apply P; assumption. }
  destruct (fgt (fmul a2 a2) feps) eqn:Hb.
  - destruct (big_branch M o v HM Fv HN Hb) as (Fc & Ec & Fs & Es & Eh). fold a2 in Fc, Ec, Fs, Es, Eh.
    set (h := fdiv (fsqrt a2) f2) in *. set (s := fdiv (fsin M h) (fsqrt a2)) in *. set (c := fcos M h) in *.
    assert (T : / 10 ^ 90 <= / 10 ^ 40).
    { apply Rinv_le_contravar; [apply pow_lt; lra|]. apply Rle_pow; [lra|lia]. }
    assert (T40 : / 10 ^ 40 = / 10000000000000000000000000000000000000000).
    { f_equal. replace 40%nat with (10 * 4)%nat by reflexivity. rewrite pow_mult. replace (10 ^ 10) with 10000000000 by ring. ring. }
    rewrite T40 in T. generalize dependent (/ 10 ^ 90). intros t Es T.
    assert (Sb : Rabs (sin (val h)) <= 1) by (apply Rabs_le, SIN_bound).
    assert (Cb : Rabs (cos (val h)) <= 1) by (apply Rabs_le, COS_bound).
    pose proof (sin_lip (val h) (vnorm (vval v) / 2)) as Ls. pose proof (cos_lip (val h) (vnorm (vval v) / 2)) as Lc.
    assert (Sk : Rabs (val s) <= 50000).
    { destruct (a2_ok o v Fv HN) as [F2 _]. apply branch_big in Hb; auto. destruct (a_ok o v Fv HN Hb) as (_ & _ & NL).
      pose proof (abs_le_dist _ _ _ Es) as B. rewrite Rabs_mult, (Rabs_pos_eq (vnorm (vval v))) in B by lra.
      assert (0 <= Rabs (val s)) by apply Rabs_pos.
      destruct (Rle_dec (Rabs (val s)) 50000) as [K|K]; [exact K|exfalso]. 
      assert (50000 * / 10000 <= Rabs (val s) * vnorm (vval v)) by (apply Rmult_le_compat; lra). lra. }
    assert (Hc : Rabs (val c - cos (vnorm (vval v) / 2)) <=
                 3 * / 9007199254740992 + 5 * / 9007199254740992 * vnorm (vval v)).
    { replace (val c - cos (vnorm (vval v) / 2)) with ((val c - cos (val h)) + (cos (val h) - cos (vnorm (vval v) / 2))) by ring.
      eapply Rle_trans; [apply Rabs_triang|]. lra. }
    assert (Hs : Rabs (val s * vnorm (vval v) - sin (vnorm (vval v) / 2)) <=
                 13 * / 9007199254740992 + 5 * / 9007199254740992 * vnorm (vval v)).
    { replace (val s * vnorm (vval v) - sin (vnorm (vval v) / 2)) with
        ((val s * vnorm (vval v) - sin (val h)) + (sin (val h) - sin (vnorm (vval v) / 2))) by ring.
      eapply Rle_trans; [apply Rabs_triang|]. lra. }
    apply (Fin c s 50000 Fs Sk); lra.
  - destruct (small_branch o v Fv HN Hb) as (Fs & Fw & Es & Ew & X & X1 & X4). fold a2 in Fs, Fw, Es, Ew.
    set (s := fadd fhalf (fdiv a2 (lit 48 0))) in *. set (w := fsub f1 (fdiv a2 (lit 8 0))) in *.
    apply abs_between in Es, Ew.
    assert (Sk : Rabs (val s) <= 1) by (apply Rabs_le; pose proof (sq_nonneg (vnorm (vval v))); lra).
    set (N := vnorm (vval v)) in *. pose proof (sq_nonneg N) as NN.
    destruct (cos_small_bounds (N / 2)) as [CL CU]; [lra|]. destruct (sin_small_bounds (N / 2)) as [SL _]; [lra|].
    assert (SU : sin (N / 2) <= N / 2).
    { pose proof (abs_sin_le (N / 2)) as A. rewrite (Rabs_pos_eq (N / 2)) in A by lra. apply Rabs_le_inv in A. lra. }
    replace (N / 2 * (N / 2) * (N / 2) / 6) with (N * N * N / 48) in SL by field.
    replace (N / 2 * (N / 2) / 2) with (N * N / 8) in CL, CU by field.
    replace (N / 2 * (N / 2) * (N / 2) * (N / 2) / 24) with (N * N * (N * N) / 384) in CU by field.
    assert (N3 : 0 <= N * N * N <= 18207 / 10000000000000000).
    { split; [apply Rmult_le_pos; lra|]. apply Rle_trans with (1491 / 100000000000 * (12211 / 100000000)); [apply Rmult_le_compat; lra|lra]. }
    assert (SN : Rabs (val s * N - (N / 2 + N * N * N / 48)) <= 7 / 10 * / 9007199254740992 * 1).
    { replace (val s * N - (N / 2 + N * N * N / 48)) with ((val s - (1 / 2 + N * N / 48)) * N) by field.
      rewrite Rabs_mult, (Rabs_pos_eq N) by exact N0. apply Rmult_le_compat; try apply Rabs_pos; try lra. apply Rabs_le. lra. }
    apply abs_between in SN.
    assert (HT : Rabs (val s * N - sin (N / 2)) <= 7 / 10 * / 9007199254740992 + 2 * (18207 / 10000000000000000) / 48)
      by (apply Rabs_le; lra).
    apply (Fin w s 1 Fs Sk); fold N; try lra. apply Rabs_le. lra.
Qed.

(** Every component is within 2^-43 + 2^-49 |v| of that of a unit quaternion of the exact
    rotation by |v| about v.  (The first summand is what the sign error in the small-angle
    branch costs; 2^-49 would do for an exact series.) *)
Theorem c50_exp_accurate M o v : one_ulp M -> vfinite v -> vnorm (vval v) <= 2 ^ 401 ->
  let (w, q) := dexp_quat M o v in
  let e := / 2 ^ 43 + / 2 ^ 49 * vnorm (vval v) in
  exists r, unitq r /\ qrot r = so3_exp (vval v) /\
    Rabs (val w - qw r) <= e /\ Rabs (val (dx q) - qx r) <= e /\
    Rabs (val (dy q) - qy r) <= e /\ Rabs (val (dz q) - qz r) <= e.
Proof.
  intros HM Fv HN. pose proof (exp_explicit M o v HM Fv HN) as X. destruct (dexp_quat M o v) as [w q].
  destruct X as (r & _ & X). now exists r.
Qed.
Print Assumptions c50_exp_accurate.

(** ** The hypotheses can be met: correctly rounded sin, cos and acos exist. *)

Definition round_to_double (x : R) : double :=
  binary_normalize 53 1024 _ _ mode_NE (ZnearestE (scaled_mantissa radix2 (FLT_exp (-1074) 53) x))
    (cexp radix2 (FLT_exp (-1074) 53) x) false.

Lemma round_to_double_ok x : Rabs x <= big -> finite (round_to_double x) /\ val (round_to_double x) = nearest x.
Proof.
  intros H. unfold round_to_double.
  pose proof (binary_normalize_correct 53 1024 _ _ mode_NE (ZnearestE (scaled_mantissa radix2 (FLT_exp (-1074) 53) x))
    (cexp radix2 (FLT_exp (-1074) 53) x) false) as C. cbv zeta in C. rewrite round_nearest in C.
  change (F2R {| Fnum := ZnearestE (scaled_mantissa radix2 (FLT_exp (-1074) 53) x); Fexp := cexp radix2 (FLT_exp (-1074) 53) x |})
    with (nearest x) in C.
  assert (I : nearest (nearest x) = nearest x).
  { apply round_generic; [typeclasses eauto|]. apply generic_format_round; typeclasses eauto. }
  rewrite I in C. rewrite Rlt_bool_true in C by now apply no_overflow.
  destruct C as (C1 & C2 & _). split; [exact C2|exact C1].
Qed.

Definition rounded_libm : libm :=
  Libm (fun x => round_to_double (sin (val x))) (fun x => round_to_double (cos (val x)))
       (fun x => round_to_double (acos (val x))).

Lemma rounded_libm_ok : rounds_correctly rounded_libm.
Proof.
  pose proof big_ge as HB. split; [|split].
  - intros x _. apply round_to_double_ok. apply Rle_trans with 1; [apply Rabs_le, SIN_bound|lra].
  - intros x _. apply round_to_double_ok. apply Rle_trans with 1; [apply Rabs_le, COS_bound|lra].
  - intros x _ _. apply round_to_double_ok. pose proof (acos_bound (val x)). pose proof PI_4. rewrite Rabs_pos_eq; lra.
Qed.

Lemma rounds_one_ulp M : rounds_correctly M -> one_ulp M.
Proof.
  intros (S & C & _). destruct ulp_num as [U1 U2]. pose proof eta_pos.
  split; intros x Fx; rewrite U1, U2.
  - destruct (S x Fx) as [F ->]. split; [exact F|]. pose proof (nerr (sin (val x))). pose proof (Rabs_pos (sin (val x))). lra.
  - destruct (C x Fx) as [F ->]. split; [exact F|]. pose proof (nerr (cos (val x))). pose proof (Rabs_pos (cos (val x))). lra.
Qed.

Example c50_example : one_ulp rounded_libm /\ vfinite (mkDV f1 f2 fhalf) /\ vnorm (vval (mkDV f1 f2 fhalf)) <= 2 ^ 401.
Proof.
  split; [apply rounds_one_ulp, rounded_libm_ok|].
  destruct (lit_small 1 1) as [F1 V1]; [lia|lra|]. fold f1 in F1, V1. destruct f2_ok as [F2 V2]. destruct fhalf_ok as [Fh Vh].
  split; [exact (conj F1 (conj F2 Fh))|]. unfold vval; cbn [dx dy dz]. rewrite V1, V2, Vh.
  apply Rle_trans with (2 ^ 2); [|apply Rle_pow; [lra|lia]].
  apply norm_le_sq; [lra|]. unfold vnorm2, vdot; cbn. lra.
Qed.
