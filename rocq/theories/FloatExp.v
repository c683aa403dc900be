(** The exponential map of a rotation vector computed on doubles (support). *)

From Coq Require Import ZArith Reals Lra Lia Psatz List Bool.
From Flocq Require Import Core BinarySingleNaN.
From Verif Require Import V3 ModelFloat SpecFlt FloatProofs FloatDrift PropsLie.
Local Open Scope R_scope.

(** ** sin and cos are Lipschitz *)

Lemma abs_sin_le x : Rabs (sin x) <= Rabs x.
Proof.
  assert (P : forall x, 0 <= x -> Rabs (sin x) <= x).
  { clear x. intros x Hx. destruct (Rle_dec 1 x) as [H|H].
    - apply Rle_trans with 1; [|exact H]. apply Rabs_le. apply SIN_bound.
    - destruct (Rle_lt_or_eq_dec _ _ Hx) as [H0|H0].
      + rewrite Rabs_pos_eq; [left; now apply sin_lt_x|]. apply sin_ge_0; [lra|]. pose proof PI2_3_2. unfold PI2 in *. lra.
      + subst. rewrite sin_0, Rabs_R0. lra. }
  destruct (Rle_dec 0 x) as [H|H].
  - rewrite (Rabs_pos_eq x) by exact H. now apply P.
  - rewrite <- (Rabs_Ropp (sin x)), <- sin_neg, <- (Rabs_Ropp x). rewrite (Rabs_pos_eq (- x)) by lra. apply P. lra.
Qed.

Lemma sin_lip x y : Rabs (sin x - sin y) <= Rabs (x - y).
Proof.
  rewrite form4, !Rabs_mult, (Rabs_pos_eq 2) by lra.
  pose proof (abs_sin_le ((x - y) / 2)) as S. unfold Rdiv in S at 2. rewrite Rabs_mult, (Rabs_pos_eq (/ 2)) in S by lra.
  assert (C : Rabs (cos ((x + y) / 2)) <= 1) by (apply Rabs_le, COS_bound).
  pose proof (Rabs_pos (sin ((x - y) / 2))). pose proof (Rabs_pos (cos ((x + y) / 2))). nra.
Qed.
Lemma cos_lip x y : Rabs (cos x - cos y) <= Rabs (x - y).
Proof.
  rewrite form2, !Rabs_mult, (Rabs_left (-2)) by lra.
  pose proof (abs_sin_le ((x - y) / 2)) as S. unfold Rdiv in S at 2. rewrite Rabs_mult, (Rabs_pos_eq (/ 2)) in S by lra.
  assert (C : Rabs (sin ((x + y) / 2)) <= 1) by (apply Rabs_le, SIN_bound).
  pose proof (Rabs_pos (sin ((x - y) / 2))). pose proof (Rabs_pos (sin ((x + y) / 2))). nra.
Qed.

(** ** Constants *)

Definition huge : R := 2 ^ 401.
Lemma huge_ok : 1000 <= huge /\ huge * huge <= big / 1000 /\ eta * huge <= / 10 ^ 100.
Proof.
  unfold huge, big, eta. split; [|split].
  - apply Rle_trans with (2 ^ 10); [cbn; lra|apply Rle_pow; [lra|lia]].
  - rewrite <- pow_add. change (401 + 401)%nat with 802%nat.
    replace 1000%nat with (802 + (10 + 188))%nat by reflexivity. rewrite !pow_add.
    assert (1 <= 2 ^ 188) by (apply pow_R1_Rle; lra). assert (0 < 2 ^ 802) by (apply pow_lt; lra).
    replace (2 ^ 10) with 1024 by ring. 
    assert (2 ^ 802 <= 2 ^ 802 * 2 ^ 188) by nra. lra.
  - replace 1075%nat with (674 + 401)%nat by reflexivity. rewrite pow_add, Rinv_mult, Rmult_assoc, Rinv_l
      by (apply pow_nonzero; lra). rewrite Rmult_1_r.
    apply Rinv_le_contravar; [apply pow_lt; lra|].
    apply Rle_trans with ((2 ^ 4) ^ 100); [apply pow_incr; lra|]. rewrite <- pow_mult. apply Rle_pow; [lra|lia].
Qed.

Section Exp.
  Variables (M : libm) (o : order) (v : DV).
  Hypothesis HM : one_ulp M.
  Hypothesis Fv : vfinite v.
  Let N : R := vnorm (vval v).
  Hypothesis HN : N <= huge.

  Let a2 : double := ddot o v v.
  Lemma N_pos : 0 <= N. Proof. apply vnorm_nonneg. Qed.

  Lemma a2_ok : finite a2 /\ Rabs (val a2 - N * N) <= 4 * u * (N * N) + 8 * eta.
  Proof.
    pose proof N_pos as N0. pose proof (comp_le_norm (vval v)) as (A & B & C). fold N in A, B, C.
    unfold vval in A, B, C; cbn [vx vy vz] in A, B, C.
    destruct huge_ok as (H1 & H2 & _).
    assert (P : forall x, Rabs x <= N -> Rabs (x * x) <= big / 8).
    { intros x Hx. rewrite Rabs_mult. pose proof (Rabs_pos x). pose proof big_ge.
      apply Rle_trans with (huge * huge); [apply Rmult_le_compat; lra|lra]. }
    destruct (ddot_ok o v v Fv Fv (P _ A) (P _ B) (P _ C)) as [F E].
    split; [exact F|]. fold a2 in E.
    assert (Q : vdot (vval v) (vval v) = N * N) by (symmetry; apply vnorm_sq).
    rewrite Q in E.
    assert (R : Rabs (val (dx v) * val (dx v)) + Rabs (val (dy v) * val (dy v)) + Rabs (val (dz v) * val (dz v)) = N * N).
    { rewrite !(fun x => Rabs_pos_eq (x * x) (sq_nonneg x)). exact Q. }
    now rewrite R in E.
  Qed.

  Lemma a2_nonneg_sq : - (8 * eta) <= val a2.
  Proof.
    destruct a2_ok as [_ E]. apply abs_between in E. pose proof (sq_nonneg N). rewrite u_val in E. lra.
  Qed.
  (** A rounded sum of squares is not negative. *)
  Lemma a2_nonneg : 0 <= val a2.
  Proof.
    destruct (Rle_dec 0 (val a2)) as [H|H]; [exact H|exfalso].
    (* a double above -8 eta = -2^-1072 could still be negative: rounding is monotone *)
    assert (Z : nearest 0 = 0) by (apply round_0; typeclasses eauto).
    pose proof (comp_le_norm (vval v)) as (A & B & C). fold N in A, B, C.
    unfold vval in A, B, C; cbn [vx vy vz] in A, B, C.
    destruct huge_ok as (H1 & H2 & _). pose proof big_ge as HB.
    assert (P : forall x, finite x -> Rabs (val x) <= N -> finite (fmul x x) /\ 0 <= val (fmul x x) <= big / 100).
    { intros x Fx Hx. pose proof N_pos. pose proof (Rabs_pos (val x)).
      assert (S : Rabs (val x * val x) <= big / 1000).
      { rewrite Rabs_mult. apply Rle_trans with (huge * huge); [apply Rmult_le_compat; lra|lra]. }
      destruct (fmul_ok x x Fx Fx) as [F V]; [lra|]. split; [exact F|]. rewrite V. split.
      - rewrite <- Z. apply nearest_le. apply sq_nonneg.
      - pose proof (nerr (val x * val x)) as E. apply abs_between in E. apply Rabs_le_inv in S as S'. pose proof eta_le. lra. }
    destruct Fv as (F0 & F1 & F2).
    destruct (P _ F0 A) as [G0 [L0 U0]]. destruct (P _ F1 B) as [G1 [L1 U1]]. destruct (P _ F2 C) as [G2 [L2 U2]].
    assert (Add : forall x y, finite x -> finite y -> 0 <= val x <= big / 10 -> 0 <= val y <= big / 10 ->
      finite (fadd x y) /\ 0 <= val (fadd x y) /\ val (fadd x y) <= val x + val y + / 9007199254740992 * (val x + val y) + eta).
    { intros x y Fx Fy Hx Hy. destruct (fadd_ok x y Fx Fy) as [F V]; [rewrite Rabs_pos_eq; lra|].
      split; [exact F|]. rewrite V. split; [rewrite <- Z; apply nearest_le; lra|].
      pose proof (nerr (val x + val y)) as E. apply abs_between in E. rewrite (Rabs_pos_eq (val x + val y)) in E; lra. }
    apply H. pose proof eta_le as HE. unfold a2. destruct o; cbn [ddot].
    - destruct (Add (fmul (dx v) (dx v)) (fmul (dy v) (dy v))) as (K & KL & KU); auto; [lra|lra|].
      apply Add; auto; lra.
    - destruct (Add (fmul (dy v) (dy v)) (fmul (dz v) (dz v))) as (K & KL & KU); auto; [lra|lra|].
      apply Add; auto; lra.
    - assert (Fma : forall x y, finite x -> finite y -> Rabs (val x) <= N -> 0 <= val y <= big / 10 ->
        finite (ffma x x y) /\ 0 <= val (ffma x x y) /\
        val (ffma x x y) <= big / 1000 + val y + / 9007199254740992 * (big / 1000 + val y) + eta).
      { intros x y Fx Fy Hx Hy. pose proof N_pos. pose proof (Rabs_pos (val x)).
        assert (S : Rabs (val x * val x) <= big / 1000).
        { rewrite Rabs_mult. apply Rle_trans with (huge * huge); [apply Rmult_le_compat; lra|lra]. }
        pose proof (sq_nonneg (val x)). rewrite Rabs_pos_eq in S by assumption.
        destruct (ffma_ok x x y Fx Fx Fy) as [F V]; [rewrite Rabs_pos_eq; lra|].
        split; [exact F|]. rewrite V. split; [rewrite <- Z; apply nearest_le; lra|].
        pose proof (nerr (val x * val x + val y)) as E. apply abs_between in E.
        rewrite (Rabs_pos_eq (val x * val x + val y)) in E; lra. }
      destruct (Fma (dy v) (fmul (dx v) (dx v))) as (K & KL & KU); auto; [lra|].
      apply Fma; auto; lra.
  Qed.

  Lemma feps_ok : finite feps /\ val feps = 2 * / 9007199254740992.
  Proof.
    destruct (lit_ok 1 (-52)) as [F V]; [lia|lia|]. split; [exact F|]. unfold feps. rewrite V.
    rewrite (bpow_inv_pow 52 : bpow radix2 (-52) = _).
    replace (2 ^ 52) with 4503599627370496 by ring. lra.
  Qed.

  (** The branch: also when the square overflows. *)
  Lemma branch_big x : finite x -> fgt (fmul x x) feps = true -> 2 * / 9007199254740992 < val x * val x.
  Proof.
    intros Fx H. destruct feps_ok as [Fe Ve].
    destruct (Rle_dec (val x * val x) (2 * / 9007199254740992)) as [L|L]; [exfalso|lra].
    pose proof big_ge. pose proof (sq_nonneg (val x)).
    destruct (fmul_ok x x Fx Fx) as [F V]; [rewrite Rabs_pos_eq; lra|].
    apply fgt_ok in H; auto. rewrite V, Ve in H. apply nearest_le in L.
    rewrite <- Ve, nearest_val, Ve in L. lra.
  Qed.
  Lemma branch_small x : finite x -> fgt (fmul x x) feps = false ->
    val x * val x <= 2 * / 9007199254740992 * (1 + 4 * / 9007199254740992).
  Proof.
    intros Fx H. destruct feps_ok as [Fe Ve]. pose proof (sq_nonneg (val x)) as Sq.
    destruct (Rle_dec (val x * val x) 1) as [L|L].
    - pose proof big_ge.
      destruct (fmul_ok x x Fx Fx) as [F V]; [rewrite Rabs_pos_eq; lra|].
      destruct (Rlt_dec (val feps) (val (fmul x x))) as [K|K]; [apply fgt_ok in K; auto; congruence|].
      pose proof (nerr (val x * val x)) as E. apply abs_between in E. rewrite Rabs_pos_eq in E by lra.
      pose proof eta_le. rewrite V in K. lra.
    - exfalso. pose proof (Bmult_correct 53 1024 _ _ mode_NE x x) as C. rewrite round_nearest in C.
      assert (K : fgt (fmul x x) feps = true); [|congruence]. unfold fgt, fmul.
      revert C. case Rlt_bool_spec; intros B C.
      + destruct C as (C1 & C2 & _). apply (fgt_ok (fmul x x) feps); auto.
        * unfold finite, fmul. rewrite C2. unfold finite in Fx. now rewrite Fx.
        * unfold val, fmul at 1. rewrite C1. fold (val x). fold (val feps). rewrite Ve.
          assert (G : 1 <= val x * val x) by lra. apply nearest_le in G.
          destruct (lit_ok 1 0) as [_ V1]; [lia|lia|].
          assert (V1' : val (lit 1 0) = 1) by (rewrite V1; cbn; ring).
          pose proof (nearest_val (lit 1 0)) as W. rewrite V1' in W. lra.
      + rewrite xorb_nilpotent in C. destruct (Bmult mode_NE x x) as [?|[|]| |? ? ? ?]; try discriminate C.
        revert Fe. unfold finite. clear. destruct feps; try discriminate; reflexivity.
  Qed.

  Let a : double := fsqrt a2.

  Lemma HN2 : N * N <= huge * huge.
  Proof. pose proof N_pos. apply Rmult_le_compat; lra. Qed.

  Lemma a_ok : 2 * / 9007199254740992 < val a2 * val a2 ->
    finite a /\ Rabs (val a - N) <= 7 * / 9007199254740992 * N /\ / 10000 <= N.
  Proof.
    intros Hbig. destruct a2_ok as [F2 E2]. pose proof a2_nonneg as P2.
    destruct (fsqrt_ok a2 F2 P2) as [Fa Va]. split; [exact Fa|].
    pose proof N_pos as N0. pose proof eta_le as He. rewrite u_val in E2. apply abs_between in E2.
    set (x := val a2) in *.
    assert (X : / 70000000 <= x).
    { destruct (Rle_dec (/ 70000000) x) as [H|H]; [exact H|]. exfalso. nra. }
    assert (X2 : / 80000000 <= N * N) by lra.
    assert (XN : / 10000 <= N).
    { destruct (Rle_dec (/ 10000) N) as [H|H]; [exact H|]. exfalso. nra. }
    assert (SU : sqrt x <= N * (1 + 5 * / 9007199254740992)).
    { rewrite <- (sqrt_square (N * (1 + 5 * / 9007199254740992))) by nra. apply sqrt_le_1_alt.
      replace (N * (1 + 5 * / 9007199254740992) * (N * (1 + 5 * / 9007199254740992))) with
        (N * N * ((1 + 5 * / 9007199254740992) * (1 + 5 * / 9007199254740992))) by ring. lra. }
    assert (SL : N * (1 - 5 * / 9007199254740992) <= sqrt x).
    { rewrite <- (sqrt_square (N * (1 - 5 * / 9007199254740992))) by nra. apply sqrt_le_1_alt.
      replace (N * (1 - 5 * / 9007199254740992) * (N * (1 - 5 * / 9007199254740992))) with
        (N * N * ((1 - 5 * / 9007199254740992) * (1 - 5 * / 9007199254740992))) by ring. lra. }
    split; [|exact XN]. fold a in Va. rewrite Va.
    pose proof (nerr (sqrt x)) as E. apply abs_between in E. rewrite Rabs_pos_eq in E by apply sqrt_pos.
    apply Rabs_le. lra.
  Qed.

  Lemma f2_ok : finite f2 /\ val f2 = 2.
  Proof. destruct (lit_ok 2 0) as [F V]; [lia|lia|]. split; [exact F|]. unfold f2. rewrite V. cbn. ring. Qed.

  Let h : double := fdiv a f2.
  Let s : double := fdiv (fsin M h) a.
  Let c : double := fcos M h.

  Lemma ulp_num : / 2 ^ 52 = 2 * / 9007199254740992 /\ / 2 ^ 1074 = 2 * eta.
  Proof.
    split.
    - replace (2 ^ 52) with 4503599627370496 by ring. lra.
    - unfold eta. replace 1075%nat with (1 + 1074)%nat by reflexivity. rewrite pow_add, Rinv_mult, pow_1. lra.
  Qed.

  (** What the branch for larger angles computes. *)
  Lemma big_branch : fgt (fmul a2 a2) feps = true ->
    finite c /\ Rabs (val c - cos (val h)) <= 2 * / 9007199254740992 * Rabs (cos (val h)) + 2 * eta /\
    finite s /\ Rabs (val s * N - sin (val h)) <= 12 * / 9007199254740992 * Rabs (sin (val h)) + / 10 ^ 90 /\
    Rabs (val h - N / 2) <= 5 * / 9007199254740992 * N.
  Proof.
    intros Hb. destruct a2_ok as [F2 _]. apply branch_big in Hb; auto.
    destruct (a_ok Hb) as (Fa & Ea & NL). apply abs_between in Ea.
    destruct f2_ok as [Ff Vf]. pose proof big_ge as HB. pose proof eta_le as He. destruct huge_ok as (HH1 & HH2 & HH3).
    assert (Hbig : huge <= big / 1000) by nra.
    destruct (fdiv_ok a f2 Fa) as [Fh Vh]; [rewrite Vf; lra|rewrite Vf, Rabs_pos_eq; lra|].
    fold h in Fh, Vh. rewrite Vf in Vh.
    pose proof (nerr (val a / 2)) as Eh. rewrite <- Vh in Eh. rewrite (Rabs_pos_eq (val a / 2)) in Eh by lra. apply abs_between in Eh.
    destruct HM as [HS HC]. destruct (HC h Fh) as [Fc Ec]. destruct (HS h Fh) as [FS ES].
    destruct ulp_num as [U1 U2]. rewrite U1, U2 in Ec, ES.
    split; [exact Fc|]. split; [exact Ec|].
    assert (Sb : Rabs (sin (val h)) <= 1) by (apply Rabs_le, SIN_bound).
    pose proof (abs_le_dist _ _ _ ES) as AS.
    set (S := val (fsin M h)) in *. set (A := val a) in *. set (sh := sin (val h)) in *.
    assert (Ap : / 20000 <= A) by lra.
    assert (IA : / A <= 20000).
    { rewrite <- (Rinv_inv 20000). apply Rinv_le_contravar; lra. }
    assert (IA0 : 0 < / A) by (apply Rinv_0_lt_compat; lra).
    assert (SA : Rabs (S / A) <= 100000).
    { unfold Rdiv. rewrite Rabs_mult, (Rabs_pos_eq (/ A)) by lra.
      apply Rle_trans with (2 * 20000); [|lra]. apply Rmult_le_compat; try apply Rabs_pos; lra. }
    destruct (fdiv_ok (fsin M h) a FS) as [Fs Vs]; [fold A; lra|fold S A; lra|].
    fold s S A in Fs, Vs. split; [exact Fs|].
    pose proof (nerr (S / A)) as Es. rewrite <- Vs in Es.
    (* |s A - S| <= u |S| + eta A *)
    assert (K1 : Rabs (val s * A - S) <= / 9007199254740992 * Rabs S + eta * A).
    { replace (val s * A - S) with ((val s - S / A) * A) by (field; lra).
      rewrite Rabs_mult, (Rabs_pos_eq A) by lra.
      replace (/ 9007199254740992 * Rabs S + eta * A) with ((/ 9007199254740992 * Rabs (S / A) + eta) * A).
      - apply Rmult_le_compat_r; lra.
      - unfold Rdiv. rewrite Rabs_mult, (Rabs_pos_eq (/ A)) by lra. field. lra. }
    assert (T : eta * A <= 2 * / 10 ^ 100).
    { apply Rle_trans with (eta * (2 * huge)); [apply Rmult_le_compat_l; lra|]. lra. }
    (* |s| |N - A| <= 8 u |s| A *)
    assert (K2 : Rabs (val s * N - val s * A) <= 8 * / 9007199254740992 * Rabs (val s * A)).
    { replace (val s * N - val s * A) with (val s * (N - A)) by ring. rewrite !Rabs_mult, (Rabs_pos_eq A) by lra.
      replace (8 * / 9007199254740992 * (Rabs (val s) * A)) with (Rabs (val s) * (8 * / 9007199254740992 * A)) by ring.
      apply Rmult_le_compat_l; [apply Rabs_pos|]. apply Rabs_le. lra. }
    pose proof (abs_le_dist _ _ _ K1) as A1.
    assert (T9 : 100 * / 10 ^ 100 <= / 10 ^ 90).
    { replace 100%nat with (90 + 10)%nat at 1 by reflexivity. rewrite pow_add, Rinv_mult.
      assert (0 < / 10 ^ 90) by (apply Rinv_0_lt_compat, pow_lt; lra). replace (10 ^ 10) with 10000000000 by ring. lra. }
    assert (T0 : eta <= / 10 ^ 100) by (assert (eta * 1 <= eta * huge) by (apply Rmult_le_compat_l; lra); lra).
    generalize dependent (/ 10 ^ 90). intros t90. generalize dependent (/ 10 ^ 100). intros t100. intros.
    apply abs_between in K1, K2, ES.
    split; apply Rabs_le; lra.
  Qed.

  (** The vector part: the rounded products. *)
  Lemma vec_part (w : double) k : finite w -> Rabs (val w) <= k -> k <= 100000 ->
    let q := dmapv (fmul w) v in
    vfinite q /\
    Rabs (val (dx q) - val w * val (dx v)) <= / 9007199254740992 * Rabs (val w * val (dx v)) + eta /\
    Rabs (val (dy q) - val w * val (dy v)) <= / 9007199254740992 * Rabs (val w * val (dy v)) + eta /\
    Rabs (val (dz q) - val w * val (dz v)) <= / 9007199254740992 * Rabs (val w * val (dz v)) + eta.
  Proof.
    intros Fw Hw Hk q. pose proof (comp_le_norm (vval v)) as (A & B & C). fold N in A, B, C.
    unfold vval in A, B, C; cbn [vx vy vz] in A, B, C. destruct Fv as (F0 & F1 & F2).
    destruct huge_ok as (H1 & H2 & _). pose proof N_pos as N0. pose proof big_ge.
    assert (P : forall x, finite x -> Rabs (val x) <= N ->
      finite (fmul w x) /\ Rabs (val (fmul w x) - val w * val x) <= / 9007199254740992 * Rabs (val w * val x) + eta).
    { intros x Fx Hx. pose proof (Rabs_pos (val x)). pose proof (Rabs_pos (val w)).
      destruct (fmul_ok w x Fw Fx) as [F V].
      - rewrite Rabs_mult. apply Rle_trans with (100000 * huge); [apply Rmult_le_compat; lra|nra].
      - split; [exact F|]. rewrite V. apply nerr. }
    destruct (P _ F0 A), (P _ F1 B), (P _ F2 C). unfold q, vfinite, dmapv; cbn [dx dy dz]. auto.
  Qed.

  Lemma vec_norm (w : double) k : finite w -> Rabs (val w) <= k -> k <= 100000 ->
    let q := dmapv (fmul w) v in
    vnorm (vsub (vval q) (vscal (val w) (vval v))) <= 2 * (/ 9007199254740992 * (Rabs (val w) * N) + eta).
  Proof.
    intros Fw Hw Hk q. destruct (vec_part w k Fw Hw Hk) as (_ & E0 & E1 & E2). fold q in E0, E1, E2.
    pose proof (comp_le_norm (vval v)) as (A & B & C). fold N in A, B, C.
    unfold vval in A, B, C; cbn [vx vy vz] in A, B, C. pose proof N_pos as N0. pose proof (Rabs_pos (val w)) as W0.
    pose proof eta_le as He.
    set (t := / 9007199254740992 * (Rabs (val w) * N) + eta).
    assert (T0 : 0 <= t) by (unfold t; pose proof (Rmult_le_pos _ _ W0 N0); lra).
    assert (P : forall x, Rabs x <= N -> / 9007199254740992 * Rabs (val w * x) + eta <= t).
    { intros x Hx. unfold t. rewrite Rabs_mult. apply Rplus_le_compat_r, Rmult_le_compat_l; [lra|].
      apply Rmult_le_compat_l; lra. }
    apply norm_le_sq; [lra|].
    assert (Q : vnorm2 (vsub (vval q) (vscal (val w) (vval v))) <= 3 * (t * t)).
    { apply norm_comp; unfold vsub, vscal, vval; cbn [vx vy vz].
      - eapply Rle_trans; [exact E0|]. now apply P.
      - eapply Rle_trans; [exact E1|]. now apply P.
      - eapply Rle_trans; [exact E2|]. now apply P. }
    pose proof (sq_nonneg t). lra.
  Qed.
End Exp.
