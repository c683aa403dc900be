(** Rounding errors of the operations on doubles (support). *)

From Coq Require Import ZArith Reals Lra Lia List Bool.
From Flocq Require Import Core BinarySingleNaN Relative.
From Verif Require Import V3 ModelFloat SpecFlt.
Local Open Scope R_scope.

Lemma fexp_FLT e : SpecFloat.fexp 53 1024 e = FLT_exp (-1074) 53 e.
Proof. reflexivity. Qed.

Lemma round_nearest x : round radix2 (SpecFloat.fexp 53 1024) (round_mode mode_NE) x = nearest x.
Proof. reflexivity. Qed.

Lemma bpow_pow n : bpow radix2 (Z.of_nat n) = 2 ^ n.
Proof. rewrite bpow_powerRZ. now rewrite <- pow_powerRZ. Qed.
Lemma bpow_inv_pow n : bpow radix2 (- Z.of_nat n) = / 2 ^ n.
Proof. now rewrite bpow_opp, bpow_pow. Qed.

(** Unit roundoff and half the least positive double. *)
Definition u : R := / 2 ^ 53.
Definition eta : R := / 2 ^ 1075.

Lemma eta_pos : 0 < eta. Proof. apply Rinv_0_lt_compat. apply pow_lt. lra. Qed.
Lemma eta_tiny : eta <= / 2 ^ 200.
Proof. apply Rinv_le_contravar; [apply pow_lt; lra|]. apply Rle_pow; [lra|lia]. Qed.

Lemma u_val : u = / 9007199254740992. Proof. unfold u. f_equal. ring. Qed.

Lemma nearest_err x : Rabs (nearest x - x) <= u * Rabs x + eta.
Proof.
  destruct (error_N_FLT radix2 (-1074) 53 eq_refl (fun x => negb (Z.even x)) x) as (e & h & He & Hh & _ & E).
  unfold nearest. fold ZnearestE in E. rewrite E.
  replace (x * (1 + e) + h - x) with (x * e + h) by ring.
  eapply Rle_trans; [apply Rabs_triang|]. rewrite Rabs_mult.
  pose proof (bpow_inv_pow 52) as E1. pose proof (bpow_inv_pow 1074) as E2.
  replace (bpow radix2 (- (53) + 1)) with (bpow radix2 (- Z.of_nat 52)) in He by reflexivity.
  replace (bpow radix2 (-1074)) with (bpow radix2 (- Z.of_nat 1074)) in Hh by reflexivity.
  rewrite E1 in He. rewrite E2 in Hh. clear E1 E2.
  assert (/ 2 * / 2 ^ 52 = u). { unfold u. rewrite <- Rinv_mult. reflexivity. }
  assert (/ 2 * / 2 ^ 1074 = eta). { unfold eta. rewrite <- Rinv_mult. reflexivity. }
  rewrite H in He. rewrite H0 in Hh.
  apply Rplus_le_compat; [|exact Hh]. rewrite Rmult_comm. apply Rmult_le_compat_r; [apply Rabs_pos|exact He].
Qed.

Lemma nearest_le x y : x <= y -> nearest x <= nearest y.
Proof. apply round_le; typeclasses eauto. Qed.
Lemma nearest_val x : nearest (val x) = val x.
Proof. apply round_generic; [typeclasses eauto|]. apply generic_format_B2R. Qed.
Lemma nearest_bound x e : Rabs x <= bpow radix2 e -> (-1074 <= e)%Z -> Rabs (nearest x) <= bpow radix2 e.
Proof.
  intros H He. apply abs_round_le_generic; auto.
  - typeclasses eauto. - typeclasses eauto.
  - apply generic_format_bpow. unfold FLT_exp. lia.
Qed.

(** A bound below which nothing overflows. *)
Definition big : R := 2 ^ 1000.
Lemma big_1 : 2 ^ 200 <= big.
Proof. unfold big. apply Rle_pow; [lra|lia]. Qed.

Lemma no_overflow x : Rabs x <= big -> Rabs (nearest x) < bpow radix2 1024.
Proof.
  intros H. unfold big in H. rewrite <- bpow_pow in H. apply Rle_lt_trans with (bpow radix2 1000).
  - apply nearest_bound; [exact H|lia].
  - apply bpow_lt. lia.
Qed.

Lemma fadd_ok x y : finite x -> finite y -> Rabs (val x + val y) <= big ->
  finite (fadd x y) /\ val (fadd x y) = nearest (val x + val y).
Proof.
  intros Fx Fy H. pose proof (Bplus_correct 53 1024 _ _ mode_NE x y Fx Fy) as C.
  rewrite round_nearest in C. rewrite Rlt_bool_true in C by now apply no_overflow.
  split; apply C.
Qed.
Lemma fsub_ok x y : finite x -> finite y -> Rabs (val x - val y) <= big ->
  finite (fsub x y) /\ val (fsub x y) = nearest (val x - val y).
Proof.
  intros Fx Fy H. pose proof (Bminus_correct 53 1024 _ _ mode_NE x y Fx Fy) as C.
  rewrite round_nearest in C. rewrite Rlt_bool_true in C by now apply no_overflow.
  split; apply C.
Qed.
Lemma fmul_ok x y : finite x -> finite y -> Rabs (val x * val y) <= big ->
  finite (fmul x y) /\ val (fmul x y) = nearest (val x * val y).
Proof.
  intros Fx Fy H. pose proof (Bmult_correct 53 1024 _ _ mode_NE x y) as C.
  rewrite round_nearest in C. rewrite Rlt_bool_true in C by now apply no_overflow.
  destruct C as (C1 & C2 & _). split; [|exact C1]. unfold finite, fmul. rewrite C2.
  unfold finite in *. now rewrite Fx, Fy.
Qed.
Lemma fdiv_ok x y : finite x -> val y <> 0 -> Rabs (val x / val y) <= big ->
  finite (fdiv x y) /\ val (fdiv x y) = nearest (val x / val y).
Proof.
  intros Fx Fy H. pose proof (Bdiv_correct 53 1024 _ _ mode_NE x y Fy) as C.
  rewrite round_nearest in C. rewrite Rlt_bool_true in C by now apply no_overflow.
  destruct C as (C1 & C2 & _). split; [|exact C1]. unfold finite, fdiv. now rewrite C2.
Qed.
Lemma ffma_ok x y z : finite x -> finite y -> finite z -> Rabs (val x * val y + val z) <= big ->
  finite (ffma x y z) /\ val (ffma x y z) = nearest (val x * val y + val z).
Proof.
  intros Fx Fy Fz H. pose proof (Bfma_correct 53 1024 _ _ mode_NE x y z Fx Fy Fz) as C. cbv zeta in C.
  rewrite round_nearest in C. rewrite Rlt_bool_true in C by now apply no_overflow.
  split; apply C.
Qed.
Lemma fsqrt_ok x : finite x -> 0 <= val x ->
  finite (fsqrt x) /\ val (fsqrt x) = nearest (sqrt (val x)).
Proof.
  intros Fx H. pose proof (Bsqrt_correct 53 1024 _ _ mode_NE x) as (C1 & C2 & _).
  split; [|exact C1]. unfold finite, fsqrt. rewrite C2. unfold finite in Fx.
  destruct x as [s|s| |[|] m e B]; try discriminate Fx; try reflexivity.
  exfalso. cbn in H. apply (Rlt_not_le _ _ (F2R_lt_0 radix2 (Float radix2 (Zneg m) e) eq_refl) H).
Qed.
Lemma fopp_ok x : finite x -> finite (fopp x) /\ val (fopp x) = - val x.
Proof. intros F. split; [unfold finite, fopp; now rewrite is_finite_Bopp|apply B2R_Bopp]. Qed.
Lemma fgt_ok x y : finite x -> finite y -> fgt x y = true <-> val y < val x.
Proof.
  intros Fx Fy. unfold fgt. rewrite Bltb_correct; auto. unfold val.
  case Rlt_bool_spec; split; auto; try discriminate. lra.
Qed.

(** Literals. *)
Lemma lit_ok m e : (Z.abs m < 2 ^ 53)%Z -> (-1074 <= e <= 900)%Z ->
  finite (lit m e) /\ val (lit m e) = IZR m * bpow radix2 e.
Proof.
  intros Hm He. pose proof (binary_normalize_correct 53 1024 _ _ mode_NE m e false) as C.
  cbv zeta in C. rewrite round_nearest in C.
  assert (Hg : nearest (F2R (Float radix2 m e)) = F2R (Float radix2 m e)).
  { apply round_generic; [typeclasses eauto|]. apply generic_format_FLT.
    exists (Float radix2 m e); auto; cbn; lia. }
  rewrite Hg in C. rewrite Rlt_bool_true in C.
  - destruct C as (C1 & C2 & _). split; [exact C2|exact C1].
  - unfold F2R; cbn [Fnum Fexp]. rewrite Rabs_mult, (Rabs_pos_eq (bpow radix2 e)) by apply bpow_ge_0.
    rewrite <- abs_IZR.
    apply Rlt_le_trans with (bpow radix2 53 * bpow radix2 e).
    + apply Rmult_lt_compat_r; [apply bpow_gt_0|]. change (bpow radix2 53) with (IZR (2 ^ 53)). now apply IZR_lt.
    + rewrite <- bpow_plus. apply bpow_le. lia.
Qed.
