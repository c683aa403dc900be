(** C51, C52, C53: logarithms and Jacobians of small rotations computed on doubles. *)

From Coq Require Import ZArith Reals Lra Lia Psatz List Bool.
From Flocq Require Import Core BinarySingleNaN.
From Verif Require Import V3 SpecLeaf ModelLeaf LeafProofs ModelFloat SpecFlt FloatProofs FloatDrift PropsLie
  PropsSmall FloatExp PropsExpFlt FloatNear.
Import ListNotations.
Local Open Scope R_scope.

(** ** C52: the Jacobian of log of a rotation *)

Lemma log_rot_jac_near_id w : w <> v0 -> vnorm w <= 1 ->
  exists J, log_rot_jac w = Some J /\ mwithin (vnorm w) J i3.
Proof.
  intros Hw HN. pose proof (vnorm_neq0 w Hw) as N0. unfold log_rot_jac. fold (vnorm w).
  destruct (cA_bounds (vnorm w)) as [AL AU]; [lra|]. destruct (cB_bounds (vnorm w)) as [BL BU]; [lra|].
  rewrite vnorm_sq in BL, BU.
  assert (N2 : 0 < vnorm2 w) by (rewrite <- vnorm_sq; nra).
  assert (N21 : vnorm2 w <= 1) by (rewrite <- vnorm_sq; nra).
  rewrite vnorm_sq in AL.
  set (n := vnorm w) in *. set (x := vnorm2 w) in *.
  assert (Cp : 0 < 1 - cos n).
  { assert (0 < (1 - cos n) / x) by lra. replace (1 - cos n) with ((1 - cos n) / x * x) by (field; lra). nra. }
  unfold odiv. destruct (Req_EM_T n 0) as [K|_]; [lra|]. destruct (Req_EM_T x 0) as [K|_]; [lra|].
  destruct (Req_EM_T (1 - cos n) 0) as [K|_]; [lra|]. eexists. split; [reflexivity|].
  set (A := sin n / n) in *. set (B := (1 - cos n) / x) in *.
  set (k := (B - 1 / 2 * A) / (1 - cos n)).
  assert (Kx : Rabs (k * x) <= x / 5).
  { replace (k * x) with ((B - 1 / 2 * A) / B) by (unfold k, B; field; split; lra).
    unfold Rdiv. rewrite Rabs_mult, (Rabs_pos_eq (/ B)) by (left; apply Rinv_0_lt_compat; lra).
    assert (IB : / B <= 24 / 11) by (replace (24 / 11) with (/ (11 / 24)) by field; apply Rinv_le_contravar; lra).
    assert (IB0 : 0 < / B) by (apply Rinv_0_lt_compat; lra).
    apply Rle_trans with (x / 12 * (24 / 11)); [|lra]. apply Rmult_le_compat; try apply Rabs_pos; try lra.
    apply Rabs_le. lra. }
  destruct (comp_le_norm w) as (c0 & c1 & c2). fold n in c0, c1, c2.
  assert (Q : forall a b, Rabs a <= n -> Rabs b <= n -> Rabs (k * (a * b)) <= x / 5).
  { intros a b Ha Hb. rewrite Rabs_mult.
    eapply Rle_trans; [|exact Kx]. rewrite (Rabs_mult k x). apply Rmult_le_compat_l; [apply Rabs_pos|].
    rewrite Rabs_mult, (Rabs_pos_eq x) by lra. unfold x. rewrite <- vnorm_sq. fold n.
    apply Rmult_le_compat; try apply Rabs_pos; assumption. }
  assert (XN : x <= n) by (unfold x; rewrite <- vnorm_sq; fold n; nra).
  pose proof (Q _ _ c0 c0) as q00. pose proof (Q _ _ c0 c1) as q01. pose proof (Q _ _ c0 c2) as q02.
  pose proof (Q _ _ c1 c1) as q11. pose proof (Q _ _ c1 c2) as q12. pose proof (Q _ _ c2 c2) as q22.
  apply Rabs_le_inv in q00, q01, q02, q11, q12, q22, c0, c1, c2.
  generalize dependent k. intros k. intros. clear - q00 q01 q02 q11 q12 q22 c0 c1 c2 XN N0 N2.
  destruct w as [a b c]. cbn [vx vy vz] in *. unfold mwithin. 
  v3unf. repeat split; apply Rabs_le; lra.
Qed.

(** For every rotation vector of length at most 2^-27 the exact Jacobian of log is within
    2^-27 of the identity (and is, by C01, the derivative), but not one entry of the computed
    one is finite. *)
Theorem c52_log_jacobian_refuted M o phi :
  rounds_correctly M -> vfinite phi -> vval phi <> v0 -> vnorm (vval phi) <= / 2 ^ 27 ->
  (exists J, log_rot_jac (vval phi) = Some J /\ mwithin (/ 2 ^ 27) J i3) /\
  forall x, In x (mentries (dlog_rot_jac M o phi)) -> ~ finite x.
Proof.
  intros HM Fv Hv HN. split.
  - destruct (log_rot_jac_near_id (vval phi) Hv) as (J & E & W).
    + eapply Rle_trans; [exact HN|]. replace (2 ^ 27) with 134217728 by ring. lra.
    + exists J. split; [exact E|]. unfold mwithin in *. decompose [and] W. repeat split; eapply Rle_trans; eauto.
  - replace (/ 2 ^ 27) with (/ 134217728) in HN by (f_equal; ring).
    destruct (one_minus_cos M o phi HM Fv HN) as [Fz Vz].
    unfold dlog_rot_jac. cbv zeta.
    set (t2 := ddot o phi phi) in *. set (k := fdiv (fsub (fdiv (fsub f1 (fcos M (fsqrt t2))) t2) _) (fsub f1 (fcos M (fsqrt t2)))).
    assert (Hk : ~ finite k) by (apply nf_div_0; assumption).
    generalize dependent k. intros k Hk. clear - Hk.
    pose proof (fun y => nf_mul_l k y Hk) as Hm.
    intros x Hx.
    cbn [In app mentries ventries r0 r1 r2 dx dy dz dmapm2 dmapv2 dmapm dmapv dmat_cross dcross dskew did] in Hx.
    repeat (destruct Hx as [<-|Hx]; [apply nf_add_r, nf_sub_l, nf_mul_l, Hm|]). destruct Hx.
Qed.
Print Assumptions c52_log_jacobian_refuted.

Lemma lit_axis e : (-1074 <= e <= 900)%Z -> let v := mkDV (lit 1 e) f0 f0 in
  vfinite v /\ vval v = mkV (bpow radix2 e) 0 0 /\ vnorm (vval v) = bpow radix2 e.
Proof.
  intros He v. destruct (lit_ok 1 e) as [F V]; [lia|exact He|]. rewrite Rmult_1_l in V.
  split; [repeat split; exact F|].
  assert (E : vval v = mkV (bpow radix2 e) 0 0) by (unfold vval, v; cbn [dx dy dz]; rewrite V; reflexivity).
  split; [exact E|]. rewrite E. unfold vnorm, vnorm2, vdot; cbn [vx vy vz].
  replace (bpow radix2 e * bpow radix2 e + 0 * 0 + 0 * 0) with (bpow radix2 e * bpow radix2 e) by ring.
  apply sqrt_square, bpow_ge_0.
Qed.

Example c52_example : exists phi, vfinite phi /\ vval phi <> v0 /\ vnorm (vval phi) <= / 2 ^ 27.
Proof.
  exists (mkDV (lit 1 (-30)) f0 f0). destruct (lit_axis (-30)) as (F & E & N); [lia|].
  split; [exact F|]. split.
  - rewrite E. intros K. injection K as K. pose proof (bpow_gt_0 radix2 (-30)). lra.
  - rewrite N. rewrite (bpow_inv_pow 30 : bpow radix2 (-30) = _).
    apply Rinv_le_contravar; [apply pow_lt; lra|apply Rle_pow; [lra|lia]].
Qed.

(** ** C53: the Jacobian of exp of a twist *)

Definition zero_valued (x : double) : Prop := finite x /\ val x = 0.

Lemma nearest_0 : nearest 0 = 0. Proof. apply round_0. typeclasses eauto. Qed.
Lemma big_pos : Rabs 0 <= big. Proof. rewrite Rabs_R0. pose proof big_ge. lra. Qed.
Lemma z_mul_l x y : zero_valued x -> finite y -> zero_valued (fmul x y).
Proof.
  intros [Fx Vx] Fy. destruct (fmul_ok x y Fx Fy) as [F V]; rewrite Vx, Rmult_0_l in *; [apply big_pos|].
  split; [exact F|]. now rewrite V, nearest_0.
Qed.
Lemma z_mul_r x y : zero_valued y -> finite x -> zero_valued (fmul x y).
Proof.
  intros [Fy Vy] Fx. destruct (fmul_ok x y Fx Fy) as [F V]; rewrite Vy, Rmult_0_r in *; [apply big_pos|].
  split; [exact F|]. now rewrite V, nearest_0.
Qed.
Lemma z_add x y : zero_valued x -> zero_valued y -> zero_valued (fadd x y).
Proof.
  intros [Fx Vx] [Fy Vy]. destruct (fadd_ok x y Fx Fy) as [F V]; rewrite Vx, Vy, Rplus_0_l in *; [apply big_pos|].
  split; [exact F|]. now rewrite V, nearest_0.
Qed.
Lemma z_sub x y : zero_valued x -> zero_valued y -> zero_valued (fsub x y).
Proof.
  intros [Fx Vx] [Fy Vy]. destruct (fsub_ok x y Fx Fy) as [F V]; rewrite Vx, Vy, Rminus_0_r in *; [apply big_pos|].
  split; [exact F|]. now rewrite V, nearest_0.
Qed.
Lemma z_div x y : zero_valued x -> val y <> 0 -> zero_valued (fdiv x y).
Proof.
  intros [Fx Vx] Hy. destruct (fdiv_ok x y Fx Hy) as [F V]; rewrite Vx in *; unfold Rdiv in *; rewrite Rmult_0_l in *; [apply big_pos|].
  split; [exact F|]. now rewrite V, nearest_0.
Qed.
Lemma z_fma x y z : zero_valued x -> finite y -> zero_valued z -> zero_valued (ffma x y z).
Proof.
  intros [Fx Vx] Fy [Fz Vz]. destruct (ffma_ok x y z Fx Fy Fz) as [F V]; rewrite Vx, Vz, Rmult_0_l, Rplus_0_l in *; [apply big_pos|].
  split; [exact F|]. now rewrite V, nearest_0.
Qed.
Lemma z_fma_r x y z : finite x -> zero_valued y -> zero_valued z -> zero_valued (ffma x y z).
Proof.
  intros Fx [Fy Vy] [Fz Vz]. destruct (ffma_ok x y z Fx Fy Fz) as [F V]; rewrite Vy, Vz, Rmult_0_r, Rplus_0_l in *; [apply big_pos|].
  split; [exact F|]. now rewrite V, nearest_0.
Qed.

(** Bounded doubles: finite and at most [B]; one operation. *)
Lemma mul_bd x y B C : finite x -> finite y -> Rabs (val x) <= B -> Rabs (val y) <= C -> B * C <= big / 4 ->
  finite (fmul x y) /\ Rabs (val (fmul x y)) <= 2 * (B * C) + 1.
Proof.
  intros Fx Fy Hx Hy HB. pose proof (Rabs_pos (val x)). pose proof (Rabs_pos (val y)).
  assert (P : Rabs (val x * val y) <= B * C) by (rewrite Rabs_mult; apply Rmult_le_compat; lra).
  assert (0 <= B * C) by (apply Rmult_le_pos; lra). pose proof big_ge. pose proof eta_le.
  destruct (fmul_ok x y Fx Fy) as [F V]; [lra|]. split; [exact F|]. rewrite V.
  pose proof (abs_le_dist _ _ _ (nerr (val x * val y))). lra.
Qed.
Lemma add_bd x y B C : finite x -> finite y -> Rabs (val x) <= B -> Rabs (val y) <= C -> B + C <= big / 4 ->
  finite (fadd x y) /\ Rabs (val (fadd x y)) <= 2 * (B + C) + 1.
Proof.
  intros Fx Fy Hx Hy HB. pose proof (Rabs_pos (val x)). pose proof (Rabs_pos (val y)).
  assert (P : Rabs (val x + val y) <= B + C) by (eapply Rle_trans; [apply Rabs_triang|lra]).
  pose proof big_ge. pose proof eta_le.
  destruct (fadd_ok x y Fx Fy) as [F V]; [lra|]. split; [exact F|]. rewrite V.
  pose proof (abs_le_dist _ _ _ (nerr (val x + val y))). lra.
Qed.

Section Block.
  Variables (M : libm) (o : order) (th uy uz : double).
  Hypothesis HM : rounds_correctly M.
  Hypothesis Ft : finite th.
  Hypothesis Fy : finite uy.
  Hypothesis Fz : finite uz.
  Hypothesis HT : / 2 ^ 400 <= val th <= / 134217728.
  Hypothesis HY : Rabs (val uy) <= 2 ^ 400.
  Hypothesis HZ : Rabs (val uz) <= 2 ^ 400.
  Let w := mkDV th f0 f0.
  Let v := mkDV f0 uy uz.

  Lemma th_pos : 0 < val th.
  Proof. assert (0 < / 2 ^ 400) by (apply Rinv_0_lt_compat, pow_lt; lra). lra. Qed.
  Lemma w_norm : vnorm (vval w) = val th.
  Proof.
    pose proof th_pos. unfold vval, w; cbn [dx dy dz]. change (val f0) with 0.
    unfold vnorm, vnorm2, vdot; cbn [vx vy vz].
    replace (val th * val th + 0 * 0 + 0 * 0) with (val th * val th) by ring. apply sqrt_square; lra.
  Qed.
  Lemma w_fin : vfinite w. Proof. split; [exact Ft|split; reflexivity]. Qed.
  Lemma w_small : vnorm (vval w) <= / 134217728. Proof. rewrite w_norm. lra. Qed.

  Let t2 := ddot o w w.
  Let t := fsqrt t2.

  Lemma t2_pos : finite t2 /\ / 2 ^ 802 <= val t2 <= 1.
  Proof.
    destruct (t2_bounds o w w_fin w_small) as [F [_ U]]. fold t2 in F, U. split; [exact F|]. split; [|lra].
    destruct (a2_ok o w w_fin (HNh w w_small)) as [_ E]. fold t2 in E. rewrite w_norm, u_val in E.
    apply abs_between in E.
    assert (Q : / 2 ^ 800 <= val th * val th).
    { replace 800%nat with (400 + 400)%nat by reflexivity. rewrite pow_add, Rinv_mult.
      assert (0 < / 2 ^ 400) by (apply Rinv_0_lt_compat, pow_lt; lra). apply Rmult_le_compat; lra. }
    assert (E8 : 32 * eta <= / 2 ^ 800).
    { unfold eta. replace 1075%nat with (800 + (270 + 5))%nat by reflexivity. rewrite !pow_add, !Rinv_mult.
      assert (0 < / 2 ^ 800) by (apply Rinv_0_lt_compat, pow_lt; lra).
      assert (/ 2 ^ 270 <= 1). { rewrite <- Rinv_1. apply Rinv_le_contravar; [lra|]. apply pow_R1_Rle. lra. }
      assert (0 < / 2 ^ 270) by (apply Rinv_0_lt_compat, pow_lt; lra).
      replace (2 ^ 5) with 32 by ring. nra. }
    assert (E2 : / 2 ^ 802 = / 4 * / 2 ^ 800).
    { replace 802%nat with (2 + 800)%nat by reflexivity. rewrite pow_add, Rinv_mult. replace (2 ^ 2) with 4 by ring. ring. }
    rewrite E2. pose proof eta_pos. lra.
  Qed.

  Lemma t_pos : finite t /\ 0 < val t <= 1.
  Proof.
    destruct (t_bounds o w w_fin w_small) as (F & P & U). fold t2 in F, P, U. fold t in F, P, U. split; [exact F|].
    split; [|nra]. destruct P as [P|P]; [exact P|exfalso].
    destruct t2_pos as [F2 [L _]]. assert (0 < / 2 ^ 802) by (apply Rinv_0_lt_compat, pow_lt; lra).
    destruct (fsqrt_ok t2 F2) as [_ V]; [lra|]. fold t in V. rewrite <- P in V.
    assert (S : / 2 ^ 401 <= sqrt (val t2)).
    { rewrite <- (sqrt_square (/ 2 ^ 401)) by (left; apply Rinv_0_lt_compat, pow_lt; lra).
      apply sqrt_le_1_alt. rewrite <- Rinv_mult, <- pow_add. exact L. }
    apply nearest_le in S. rewrite <- V in S.
    destruct (lit_ok 1 (-401)) as [_ VL]; [lia|lia|]. rewrite Rmult_1_l in VL.
    rewrite (bpow_inv_pow 401 : bpow radix2 (-401) = _) in VL.
    rewrite <- VL, nearest_val, VL in S. assert (0 < / 2 ^ 401) by (apply Rinv_0_lt_compat, pow_lt; lra). lra.
  Qed.

  Lemma sin_is_t : finite (fsin M t) /\ val (fsin M t) = val t.
  Proof.
    destruct t_pos as [F [P U]]. destruct (t_bounds o w w_fin w_small) as (_ & _ & U2). fold t2 in U2. fold t in U2.
    destruct HM as (HS & _). destruct (HS t F) as [Fs Vs]. split; [exact Fs|]. rewrite Vs.
    destruct (sin_small_bounds (val t)) as [L _]; [lra|].
    apply nearest_below; [exact P|left; now apply sin_lt_x|].
    eapply Rlt_le_trans; [|exact L].
    assert (val t * val t * val t <= / 18014398509000000 * val t) by (apply Rmult_le_compat_r; lra). lra.
  Qed.

  Let a := fdiv (fsin M t) t.
  Lemma a_is_1 : finite a /\ val a = 1.
  Proof.
    destruct t_pos as [F [P U]]. destruct sin_is_t as [Fs Vs]. pose proof big_ge.
    destruct (fdiv_ok (fsin M t) t Fs) as [G W]; [lra|rewrite Vs; unfold Rdiv; rewrite Rinv_r, Rabs_R1 by lra; lra|].
    split; [exact G|]. unfold a. rewrite W, Vs. unfold Rdiv. rewrite Rinv_r by lra.
    rewrite <- (proj2 f1_val). apply nearest_val.
  Qed.

  Let b := fdiv (fsub f1 (fcos M t)) t2.
  Let c := fdiv (fsub f1 a) t2.
  Lemma t2_nz : val t2 <> 0.
  Proof. destruct t2_pos as [_ [L _]]. assert (0 < / 2 ^ 802) by (apply Rinv_0_lt_compat, pow_lt; lra). lra. Qed.
  Lemma b_z : zero_valued b.
  Proof. apply z_div; [exact (one_minus_cos M o w HM w_fin w_small)|exact t2_nz]. Qed.
  Lemma c_z : zero_valued c.
  Proof.
    apply z_div; [|exact t2_nz]. destruct a_is_1 as [Fa Va]. destruct f1_val as [F1 V1].
    destruct (fsub_ok f1 a F1 Fa) as [G W]; rewrite V1, Va in *.
    - replace (1 - 1) with 0 by ring. apply big_pos.
    - split; [exact G|]. rewrite W. replace (1 - 1) with 0 by ring. apply nearest_0.
  Qed.
  Lemma f0_z : zero_valued f0. Proof. split; reflexivity. Qed.
  Lemma f0_oz : zero_valued (fopp f0). Proof. split; [reflexivity|]. unfold val, fopp. rewrite B2R_Bopp. apply Ropp_0. Qed.

  (** (a - 2 b) / theta^2 is huge but finite. *)
  Let k1 := fdiv (fsub a (fmul f2 b)) t2.
  Lemma k1_fin : finite k1 /\ Rabs (val k1) <= 2 ^ 810.
  Proof.
    destruct a_is_1 as [Fa Va]. destruct (z_mul_r f2 b b_z (proj1 f2_ok)) as [Fb Vb].
    pose proof big_ge as HB. pose proof eta_le as He.
    destruct (fsub_ok a (fmul f2 b) Fa Fb) as [Fs Vs]; [rewrite Va, Vb, Rminus_0_r, Rabs_R1; lra|].
    rewrite Va, Vb, Rminus_0_r in Vs. rewrite <- (proj2 f1_val), nearest_val, (proj2 f1_val) in Vs.
    destruct t2_pos as [F2 [L U]]. assert (L0 : 0 < / 2 ^ 802) by (apply Rinv_0_lt_compat, pow_lt; lra).
    assert (I : 1 <= / val t2 <= 2 ^ 802).
    { split; [rewrite <- Rinv_1; apply Rinv_le_contravar; lra|].
      rewrite <- (Rinv_inv (2 ^ 802)). apply Rinv_le_contravar; lra. }
    assert (B8 : 2 ^ 802 <= big / 2).
    { unfold big. replace 1000%nat with (802 + (197 + 1))%nat by reflexivity. rewrite !pow_add, pow_1.
      assert (0 < 2 ^ 802) by (apply pow_lt; lra). assert (1 <= 2 ^ 197) by (apply pow_R1_Rle; lra). nra. }
    destruct (fdiv_ok (fsub a (fmul f2 b)) t2 Fs t2_nz) as [Fk Vk].
    - rewrite Vs. unfold Rdiv. rewrite Rmult_1_l, Rabs_pos_eq; lra.
    - split; [exact Fk|]. unfold k1. rewrite Vk, Vs. unfold Rdiv. rewrite Rmult_1_l.
      eapply Rle_trans; [apply (abs_le_dist _ _ _ (nerr (/ val t2)))|]. rewrite Rabs_pos_eq by lra.
      apply Rle_trans with (2 * 2 ^ 802); [lra|].
      replace 810%nat with (1 + (802 + 7))%nat by reflexivity. rewrite !pow_add, pow_1.
      assert (0 < 2 ^ 802) by (apply pow_lt; lra). replace (2 ^ 7) with 128 by ring. nra.
  Qed.

  Lemma dot_z : zero_valued (ddot o w v).
  Proof.
    pose proof f0_z as Z0. unfold w, v. destruct o; cbn [ddot dx dy dz].
    - apply z_add; [apply z_add|]; [now apply z_mul_r|now apply z_mul_l|now apply z_mul_l].
    - apply z_add; [now apply z_mul_r|apply z_add; now apply z_mul_l].
    - apply z_fma; [exact Z0|exact Fz|]. apply z_fma; [exact Z0|exact Fy|now apply z_mul_r].
  Qed.

  Lemma z_fin x : zero_valued x -> finite x. Proof. now intros []. Qed.
  Lemma z_bd x : zero_valued x -> Rabs (val x) <= 1. Proof. intros [_ ->]. rewrite Rabs_R0. lra. Qed.

  Lemma big_room : 10 * 2 ^ 820 <= big / 8 /\ 2 ^ 400 <= 2 ^ 820 /\ 1 <= 2 ^ 400 /\ 4 * 2 ^ 810 <= 2 ^ 820.
  Proof.
    unfold big. split; [|split; [|split]].
    - replace 1000%nat with (820 + (10 + 170))%nat by reflexivity. rewrite !pow_add.
      assert (0 < 2 ^ 820) by (apply pow_lt; lra). assert (1 <= 2 ^ 170) by (apply pow_R1_Rle; lra).
      replace (2 ^ 10) with 1024 by ring. nra.
    - apply Rle_pow; [lra|lia].
    - apply pow_R1_Rle; lra.
    - replace 820%nat with (810 + 10)%nat by reflexivity. rewrite pow_add. replace (2 ^ 10) with 1024 by ring.
      assert (0 < 2 ^ 810) by (apply pow_lt; lra). lra.
  Qed.
  Lemma fin_or x : zero_valued x \/ (x = th \/ x = fopp th) -> finite x /\ Rabs (val x) <= 1.
  Proof.
    intros [Z|[->| ->]].
    - split; [now apply z_fin|now apply z_bd].
    - split; [exact Ft|]. pose proof th_pos. rewrite Rabs_pos_eq; lra.
    - destruct (fopp_ok th Ft) as [F V]. split; [exact F|]. rewrite V, Rabs_Ropp. pose proof th_pos. rewrite Rabs_pos_eq; lra.
  Qed.

  (** An entry of W is finite. *)
  Lemma W_entry i s z : zero_valued i -> (zero_valued s \/ (s = th \/ s = fopp th)) -> zero_valued z ->
    finite (fadd (fadd i (fmul k1 s)) z).
  Proof.
    intros Hi Hs Hz. destruct (fin_or s Hs) as [Fs Bs]. destruct k1_fin as [Fk Bk].
    destruct big_room as (R1 & R2 & R3 & R4).
    destruct (mul_bd k1 s (2 ^ 810) 1 Fk Fs Bk Bs) as [Fm Bm]; [lra|].
    destruct (add_bd i (fmul k1 s) 1 (2 * (2 ^ 810 * 1) + 1) (z_fin _ Hi) Fm (z_bd _ Hi) Bm) as [Fa Ba]; [lra|].
    destruct (add_bd (fadd i (fmul k1 s)) z _ 1 Fa (z_fin _ Hz) Ba (z_bd _ Hz)) as [F _]; [lra|exact F].
  Qed.

  (** An entry of the block. *)
  Lemma B_entry u o1 o2 W : finite u -> finite (fadd o1 o2) -> finite W ->
    zero_valued (fadd (fadd (fmul b u) (fmul c (fadd o1 o2))) (fmul (ddot o w v) W)).
  Proof.
    intros Fu Fo FW. pose proof b_z. pose proof c_z. pose proof dot_z.
    apply z_add; [apply z_add|]; now apply z_mul_l.
  Qed.

  (** Entries of the outer products. *)
  Lemma outer_fin x y x' y' : finite x -> finite y -> finite x' -> finite y' ->
    Rabs (val x) <= 1 -> Rabs (val y) <= 2 ^ 400 -> Rabs (val x') <= 2 ^ 400 -> Rabs (val y') <= 1 ->
    finite (fadd (fmul x y) (fmul x' y')).
  Proof.
    intros F1 F2 F3 F4 B1 B2 B3 B4. destruct big_room as (R1 & R2 & R3 & _).
    destruct (mul_bd x y 1 (2 ^ 400) F1 F2 B1 B2) as [G1 C1]; [lra|].
    destruct (mul_bd x' y' (2 ^ 400) 1 F3 F4 B3 B4) as [G2 C2]; [lra|].
    destruct (add_bd _ _ _ _ G1 G2 C1 C2) as [F _]; [lra|exact F].
  Qed.

  Let k2 := fdiv (fsub b (fmul f3 c)) t2.
  Lemma f3_fin : finite f3. Proof. apply lit_ok; lia. Qed.
  Lemma k2_z : zero_valued k2.
  Proof. apply z_div; [|exact t2_nz]. apply z_sub; [exact b_z|]. apply z_mul_r; [exact c_z|exact f3_fin]. Qed.

  Lemma block_zero x : In x (mentries (dexp_jac_block M o w v)) -> zero_valued x.
  Proof.
    assert (E : forall u o1 o2 i s p q,
      finite u -> finite (fadd o1 o2) -> finite i -> (zero_valued s \/ (s = th \/ s = fopp th)) -> finite q ->
      (finite p) ->
      zero_valued (fadd (fadd (fmul b u) (fmul c (fadd o1 o2)))
        (fmul (ddot o w v) (fadd (fadd (fmul (fsub c b) i) (fmul k1 s)) (fmul (fmul k2 p) q))))).
    { intros u o1 o2 i s p q Fu Fo Fi Hs Fq Fp. apply B_entry; auto. apply W_entry; auto.
      - apply z_mul_l; [apply z_sub; [exact c_z|exact b_z]|exact Fi].
      - apply z_mul_l; [apply z_mul_l; [exact k2_z|exact Fp]|exact Fq]. }
    pose proof f0_z as Z0. pose proof f0_oz as Zo. pose proof (z_fin _ Z0) as F0. pose proof (z_fin _ Zo) as Fo.
    destruct f1_val as [F1 _].
    destruct (fin_or th ltac:(auto)) as [Fth Bth]. destruct (fopp_ok uy Fy) as [Foy _]. destruct (fopp_ok uz Fz) as [Foz _].
    pose proof (z_bd _ Z0) as B0. destruct big_room as (_ & _ & R3 & _).
    assert (B4 : Rabs (val f0) <= 2 ^ 400) by lra.
    unfold dexp_jac_block, w, v. cbv zeta. fold w v. fold t2. fold t. fold a b c k1 k2.
    cbn [In app mentries ventries r0 r1 r2 dx dy dz dmapm2 dmapv2 dmapm dmapv douter dskew did].
    assert (D : dx w = th /\ dy w = f0 /\ dz w = f0 /\ dx v = f0 /\ dy v = uy /\ dz v = uz) by (repeat split; reflexivity).
    destruct D as (D0 & D1 & D2 & D3 & D4 & D5). rewrite ?D0, ?D1, ?D2, ?D3, ?D4, ?D5. clear D0 D1 D2 D3 D4 D5.
    intros Hx.
    repeat (destruct Hx as [<-|Hx]; [apply E; auto; apply outer_fin; auto|]). destruct Hx.
  Qed.
End Block.

(** For every rotation about x by an angle between 2^-400 and 2^-27 and every displacement
    (0,uy,uz), the exact block is half the cross matrix of the displacement to one part in
    2^27 (and is, by C01, the derivative of the translation of exp with respect to the
    rotation), but the computed block is zero: all of it is lost. *)
Theorem c53_exp_jacobian_refuted M o th uy uz :
  rounds_correctly M -> finite th -> finite uy -> finite uz ->
  / 2 ^ 400 <= val th <= / 2 ^ 27 -> Rabs (val uy) <= 2 ^ 400 -> Rabs (val uz) <= 2 ^ 400 ->
  let w := mkDV th f0 f0 in let u := mkDV f0 uy uz in
  (exists B, eade_B (vval w) (vval u) = Some B /\
     mwithin (/ 2 ^ 27 * (Rabs (val uy) + Rabs (val uz))) B (scal3 (1 / 2) (skew (vval u)))) /\
  forall x, In x (mentries (dexp_jac_block M o w u)) -> finite x /\ val x = 0.
Proof.
  intros HM Ft Fy Fz HT HY HZ w u. replace (2 ^ 27) with 134217728 in * by ring. split.
  - pose proof (th_pos th HT) as TP. pose proof (w_norm th HT) as WN. fold w in WN.
    unfold eade_B. fold (vnorm (vval w)). rewrite <- (vnorm_sq (vval w)), WN.
    destruct (cA_bounds (val th)) as [AL AU]; [lra|]. destruct (cB_bounds (val th)) as [BL BU]; [lra|].
    destruct (cC_bounds (val th)) as [CL CU]; [lra|].
    assert (T2 : 0 < val th * val th <= / 134217728 * val th) by nra.
    unfold odiv. destruct (Req_EM_T (val th) 0) as [K|_]; [lra|]. destruct (Req_EM_T (val th * val th) 0) as [K|_]; [lra|].
    eexists. split; [reflexivity|].
    set (b := (1 - cos (val th)) / (val th * val th)) in *.
    set (cc := (1 - sin (val th) / val th) / (val th * val th)) in *.
    assert (CC : 0 <= cc * val th <= / 134217728 / 6).
    { split; [apply Rmult_le_pos; lra|]. apply Rle_trans with (1 / 6 * / 134217728); [apply Rmult_le_compat; lra|lra]. }
    assert (BB : Rabs (b - 1 / 2) <= / 134217728 / 24) by (apply Rabs_le; lra).
    assert (Q1 : forall y, Rabs ((b - 1 / 2) * y) <= / 134217728 / 24 * Rabs y).
    { intros y. rewrite Rabs_mult. apply Rmult_le_compat_r; [apply Rabs_pos|exact BB]. }
    assert (Q2 : forall y, Rabs (cc * val th * y) <= / 134217728 / 6 * Rabs y).
    { intros y. rewrite Rabs_mult. apply Rmult_le_compat_r; [apply Rabs_pos|]. rewrite Rabs_pos_eq; lra. }
    pose proof (Q1 (val uy)) as X1. pose proof (Q1 (val uz)) as X2. pose proof (Q2 (val uy)) as X3. pose proof (Q2 (val uz)) as X4.
    pose proof (Rabs_pos (val uy)). pose proof (Rabs_pos (val uz)).
    apply Rabs_le_inv in X1, X2, X3, X4.
    replace (vdot (vval w) (vval u)) with 0 by (unfold vdot, vval, w, u; cbn; ring).
    cbv zeta.
    unfold vval, w, u; cbn [dx dy dz]. change (val f0) with 0.
    clearbody b cc. clear - X1 X2 X3 X4 H H0. generalize dependent (val th). intros tt X3 X4.
    match goal with |- mwithin _ (add3 _ (scal3 0 ?W)) _ => generalize W; intros W2 end.
    unfold mwithin. cbv [add3 scal3 skew outer3 m00 m01 m02 m10 m11 m12 m20 m21 m22 vx vy vz].
    repeat split; apply Rabs_le; lra.
  - intros x Hx. apply (block_zero M o th uy uz HM Ft Fy Fz HT HY HZ x Hx).
Qed.
Print Assumptions c53_exp_jacobian_refuted.

Example c53_example : finite (lit 1 (-30)) /\ finite f1 /\ finite f2 /\
  / 2 ^ 400 <= val (lit 1 (-30)) <= / 2 ^ 27 /\ Rabs (val f1) <= 2 ^ 400 /\ Rabs (val f2) <= 2 ^ 400.
Proof.
  destruct (lit_ok 1 (-30)) as [F V]; [lia|lia|]. destruct f1_val as [F1 V1]. destruct f2_ok as [F2 V2].
  rewrite Rmult_1_l, (bpow_inv_pow 30 : bpow radix2 (-30) = _) in V. rewrite V, V1, V2.
  assert (2 ^ 2 <= 2 ^ 400) by (apply Rle_pow; [lra|lia]).
  split; [exact F|]. split; [exact F1|]. split; [exact F2|]. split.
  - split; (apply Rinv_le_contravar; [apply pow_lt; lra|apply Rle_pow; [lra|lia]]).
  - rewrite !Rabs_pos_eq; lra.
Qed.
