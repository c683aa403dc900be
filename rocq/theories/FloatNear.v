(** Doubles near zero rotation: where formulas lose all digits (support). *)

From Coq Require Import ZArith Reals Lra Lia Psatz List Bool.
From Flocq Require Import Core BinarySingleNaN.
From Verif Require Import V3 ModelFloat SpecFlt FloatProofs FloatDrift PropsLie FloatExp PropsExpFlt.
Local Open Scope R_scope.

(** ** Rounding to a neighbour *)

Notation fexp := (FLT_exp (-1074) 53).
Notation pre := (pred radix2 fexp).

Lemma pred_gap y : 0 < y -> pre y <= y - / 9007199254740992 * y.
Proof.
  intros Hy. rewrite pred_eq_pos by lra. unfold pred_pos.
  assert (Hm : bpow radix2 (mag radix2 y - 1) <= y < bpow radix2 (mag radix2 y)).
  { destruct (mag radix2 y) as [e He]; cbn. specialize (He (Rgt_not_eq _ _ Hy)). rewrite Rabs_pos_eq in He; lra. }
  assert (U : / 9007199254740992 = bpow radix2 (-53)).
  { rewrite <- u_val. symmetry. exact (bpow_inv_pow 53). }
  rewrite U. case Req_bool_spec; intros E.
  - assert (Q : bpow radix2 (-53) * y = bpow radix2 (-53 + (mag radix2 y - 1)))
      by (rewrite bpow_plus; apply f_equal; exact E).
    rewrite Q.
    assert (bpow radix2 (-53 + (mag radix2 y - 1)) <= bpow radix2 (fexp (mag radix2 y - 1))).
    { apply bpow_le. unfold FLT_exp. lia. }
    lra.
  - unfold ulp. rewrite Req_bool_false by lra. unfold cexp.
    assert (bpow radix2 (mag radix2 y - 53) <= bpow radix2 (fexp (mag radix2 y))).
    { apply bpow_le. unfold FLT_exp. lia. }
    replace (mag radix2 y - 53)%Z with (-53 + mag radix2 y)%Z in H by ring. rewrite bpow_plus in H.
    pose proof (bpow_gt_0 radix2 (-53)). nra.
Qed.

Lemma format_val (x : double) : generic_format radix2 fexp (val x).
Proof. apply generic_format_B2R. Qed.

(** Slightly below a double rounds to it. *)
Lemma nearest_below (y : double) x : 0 < val y -> x <= val y ->
  val y - / 9007199254740992 / 2 * val y < x -> nearest x = val y.
Proof.
  intros Hy Hx Hl. apply Rle_antisym.
  - rewrite <- (nearest_val y). now apply nearest_le.
  - unfold nearest. apply round_N_ge_midp; [typeclasses eauto|apply format_val|].
    pose proof (pred_gap (val y) Hy). lra.
Qed.

Lemma pred_1 : pre 1 = 1 - / 9007199254740992.
Proof.
  rewrite pred_eq_pos by lra. unfold pred_pos.
  assert (M : mag radix2 1 = 1%Z :> Z) by apply mag_1.
  rewrite M. change (bpow radix2 (1 - 1)) with 1. rewrite Req_bool_true by reflexivity.
  rewrite <- u_val. f_equal. exact (bpow_inv_pow 53).
Qed.

Lemma f1_val : finite f1 /\ val f1 = 1.
Proof. apply lit_small; [lia|lra]. Qed.

(** The double below one. *)
Lemma nearest_pred_1 x : 1 - 14 / 10 * / 9007199254740992 < x < 1 - 6 / 10 * / 9007199254740992 ->
  nearest x = 1 - / 9007199254740992.
Proof.
  intros [L H].
  assert (F1 : generic_format radix2 fexp 1) by (rewrite <- (proj2 f1_val); apply format_val).
  assert (Fp : generic_format radix2 fexp (1 - / 9007199254740992)).
  { rewrite <- pred_1. apply generic_format_pred; [typeclasses eauto|exact F1]. }
  apply Rle_antisym.
  - unfold nearest. apply round_N_le_midp; [typeclasses eauto|exact Fp|].
    rewrite <- pred_1 at 2. rewrite succ_pred; [lra|typeclasses eauto|exact F1].
  - unfold nearest. apply round_N_ge_midp; [typeclasses eauto|exact Fp|].
    pose proof (pred_gap (1 - / 9007199254740992) ltac:(lra)). lra.
Qed.

(** ** What is not finite stays so *)

Lemma nf_div_0 x y : val y = 0 -> finite y -> ~ finite (fdiv x y).
Proof.
  unfold finite, fdiv. destruct y as [s|s| |s m e B]; cbn; try discriminate.
  - intros _ _. destruct x; cbn; discriminate.
  - intros H. exfalso. apply eq_0_F2R in H. now destruct s.
Qed.
Lemma nf_mul_l x y : ~ finite x -> ~ finite (fmul x y).
Proof. unfold finite, fmul. destruct x; cbn; intros H; try (exfalso; apply H; reflexivity); destruct y; cbn; discriminate. Qed.
Lemma nf_mul_r x y : ~ finite y -> ~ finite (fmul x y).
Proof. unfold finite, fmul. destruct y; cbn; intros H; try (exfalso; apply H; reflexivity); destruct x; cbn; discriminate. Qed.
Lemma nf_sub_l x y : ~ finite x -> ~ finite (fsub x y).
Proof.
  unfold finite, fsub. destruct x; cbn; intros H; try (exfalso; apply H; reflexivity); destruct y; cbn; try discriminate.
  destruct (Bool.eqb _ _); discriminate.
Qed.
Lemma nf_add_r x y : ~ finite y -> ~ finite (fadd x y).
Proof.
  unfold finite, fadd. destruct y; cbn; intros H; try (exfalso; apply H; reflexivity); destruct x; cbn; try discriminate.
  destruct (Bool.eqb _ _); discriminate.
Qed.
Lemma nf_nan : ~ finite (B754_nan). Proof. discriminate. Qed.

(** ** Small angles *)

Section Small.
  Variables (M : libm) (o : order) (v : DV).
  Hypothesis HM : rounds_correctly M.
  Hypothesis Fv : vfinite v.
  Let N : R := vnorm (vval v).
  (** 2^-27 *)
  Hypothesis HN : N <= / 134217728.

  Lemma HNh : N <= huge. Proof. destruct huge_ok. lra. Qed.

  Let t2 := ddot o v v.
  Let t := fsqrt t2.

  Lemma t2_bounds : finite t2 /\ 0 <= val t2 <= / 18014398509481900.
  Proof.
    destruct (a2_ok o v Fv HNh) as [F E]. fold N t2 in F, E. split; [exact F|].
    split; [exact (a2_nonneg o v Fv HNh)|]. apply abs_between in E. rewrite u_val in E.
    pose proof (vnorm_nonneg (vval v)) as N0. fold N in N0. pose proof eta_le.
    assert (N * N <= / 18014398509481984).
    { apply Rle_trans with (/ 134217728 * / 134217728); [apply Rmult_le_compat; lra|lra]. }
    lra.
  Qed.

  Lemma t_bounds : finite t /\ 0 <= val t /\ val t * val t <= / 18014398509000000.
  Proof.
    destruct t2_bounds as [F [L U]]. destruct (fsqrt_ok t2 F L) as [Ft Vt]. fold t in Ft, Vt.
    split; [exact Ft|].
    assert (Z : nearest 0 = 0) by (apply round_0; typeclasses eauto).
    assert (P : 0 <= val t) by (rewrite Vt, <- Z; apply nearest_le, sqrt_pos).
    split; [exact P|].
    pose proof (nerr (sqrt (val t2))) as E. rewrite <- Vt in E. apply abs_between in E.
    pose proof (sqrt_pos (val t2)) as S0. rewrite Rabs_pos_eq in E by exact S0.
    pose proof (sqrt_sqrt (val t2) L) as SS. pose proof eta_le.
    set (s := sqrt (val t2)) in *.
    assert (S1 : s <= 1) by nra.
    assert (K : val t <= s + / 9007199254740992 * s + eta) by lra.
    assert (0 <= / 9007199254740992 * s + eta <= 2 * / 9007199254740992) by lra.
    assert (val t * val t <= (s + (/ 9007199254740992 * s + eta)) * (s + (/ 9007199254740992 * s + eta))).
    { apply Rmult_le_compat; lra. }
    set (d := / 9007199254740992 * s + eta) in *.
    assert (SB : s <= / 134217727).
    { destruct (Rle_dec s (/ 134217727)) as [K1|K1]; [exact K1|exfalso]. nra. }
    assert (D1 : d <= / 9007199254740992 * / 134217727 + eta) by (unfold d; lra).
    assert (s * d <= / 134217727 * (/ 9007199254740992 * / 134217727 + eta)) by (apply Rmult_le_compat; lra).
    assert (d * d <= (/ 9007199254740992 * / 134217727 + eta) * 1) by (apply Rmult_le_compat; lra).
    nra.
  Qed.

  Lemma cos_is_1 : finite (fcos M t) /\ val (fcos M t) = 1.
  Proof.
    destruct t_bounds as (F & P & U). destruct HM as (_ & HC & _). destruct (HC t F) as [Fc Vc].
    split; [exact Fc|]. rewrite Vc.
    assert (T1 : val t <= 1) by nra.
    destruct (cos_small_bounds (val t)) as [CL CU]; [lra|].
    rewrite <- (proj2 f1_val). apply nearest_below; rewrite (proj2 f1_val); [lra| |].
    - pose proof (COS_bound (val t)). lra.
    - lra.
  Qed.

  Lemma one_minus_cos : finite (fsub f1 (fcos M t)) /\ val (fsub f1 (fcos M t)) = 0.
  Proof.
    destruct cos_is_1 as [F V]. destruct f1_val as [F1 V1]. pose proof big_ge.
    destruct (fsub_ok f1 (fcos M t) F1 F) as [G W].
    - rewrite V, V1. replace (1 - 1) with 0 by ring. rewrite Rabs_R0. lra.
    - split; [exact G|]. rewrite W, V, V1. replace (1 - 1) with 0 by ring. apply round_0. typeclasses eauto.
  Qed.
End Small.
