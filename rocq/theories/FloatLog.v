(** The logarithm of a rotation matrix computed on doubles: real analysis. *)

From Coq Require Import ZArith Reals Machin Ratan Lra Lia Psatz List Bool.
From Flocq Require Import Core BinarySingleNaN.
From Verif Require Import V3 SpecLeaf LeafProofs ModelFloat SpecFlt FloatProofs FloatDrift FloatExp.
Local Open Scope R_scope.

Lemma sin_lower x : 0 <= x <= PI -> x - x * x * x / 6 <= sin x.
Proof.
  intros [H0 H1]. destruct (sin_bound x 0 H0 H1) as [L _].
  unfold sin_approx, sin_term in L. cbn in L. lra.
Qed.
Lemma cos_half x : cos x = 1 - 2 * (sin (x / 2) * sin (x / 2)).
Proof. replace x with (2 * (x / 2)) at 1 by field. rewrite cos_2a_sin. ring. Qed.
Lemma cos_lower x : 1 - x * x / 2 <= cos x.
Proof.
  rewrite cos_half. pose proof (abs_sin_le (x / 2)) as H.
  assert (sin (x / 2) * sin (x / 2) <= x / 2 * (x / 2)).
  { rewrite <- (Rabs_right (sin (x / 2) * sin (x / 2))) by (apply Rle_ge, sq_nonneg).
    rewrite <- (Rabs_right (x / 2 * (x / 2))) by (apply Rle_ge, sq_nonneg). rewrite !Rabs_mult.
    apply Rmult_le_compat; auto using Rabs_pos. }
  lra.
Qed.
Lemma PI_le : PI <= 63 / 20.
Proof.
  destruct (PI_2_3_7_ineq 1) as [_ H]. unfold tg_alt, PI_2_3_7_tg, Ratan_seq in H. cbn in H. lra.
Qed.
Lemma PI_ge : 3 <= PI. Proof. pose proof PI2_3_2. unfold PI2 in *. lra. Qed.

Lemma cos_upper x : 0 <= x <= PI -> x * x <= 6 * (1 - cos x).
Proof.
  intros [H0 H1]. rewrite cos_half. pose proof PI_le as HP.
  pose proof (sin_lower (x / 2)) as L.
  assert (S : x / 2 * (29 / 50) <= sin (x / 2)).
  { eapply Rle_trans; [|apply L; lra]. assert (x * x <= 63 / 20 * (63 / 20)) by nra.
    replace (x / 2 - x / 2 * (x / 2) * (x / 2) / 6) with (x / 2 * (1 - x * x / 24)) by field.
    apply Rmult_le_compat_l; lra. }
  assert (x / 2 * (29 / 50) * (x / 2 * (29 / 50)) <= sin (x / 2) * sin (x / 2)).
  { apply Rmult_le_compat; lra. }
  nra.
Qed.

(** Up to 7/4 the sine is at least 12/25 of the angle; angles beyond have a negative cosine. *)
Lemma sin_mid x : 0 <= x <= 7 / 4 -> 12 / 25 * x <= sin x.
Proof.
  intros H. pose proof PI_ge. eapply Rle_trans; [|apply sin_lower; lra].
  assert (x * x <= 7 / 4 * (7 / 4)) by nra.
  replace (x - x * x * x / 6) with ((1 - x * x / 6) * x) by field. apply Rmult_le_compat_r; lra.
Qed.
Lemma cos_mid x : 0 <= x <= PI -> - (1 / 10) <= cos x -> x <= 7 / 4.
Proof.
  intros [H0 H1] C. destruct (Rle_dec x (7 / 4)) as [L|L]; [exact L|exfalso].
  pose proof PI_ge. pose proof PI_le.
  assert (cos x < cos (7 / 4)) by (apply cos_decreasing_1; lra).
  assert (cos (7 / 4) <= - (1 / 10)); [|lra]. rewrite cos_half.
  pose proof (sin_lower (7 / 4 / 2)) as S.
  assert (3 / 4 <= sin (7 / 4 / 2)) by (eapply Rle_trans; [|apply S; lra]; lra).
  nra.
Qed.

(** x / sin x *)
Definition phi (x : R) : R := x / sin x.

Lemma phi_deriv x : 0 < x < PI -> derivable_pt_lim phi x ((1 * sin x - cos x * x) / Rsqr (sin x)).
Proof.
  intros H. assert (0 < sin x) by (apply sin_gt_0; lra).
  apply (derivable_pt_lim_div id sin); [apply derivable_pt_lim_id|apply derivable_pt_lim_sin|lra].
Qed.

Lemma phi_mvt a b : 0 < a -> a < b -> b < PI -> exists x, a < x < b /\
  (phi b - phi a) * (sin x * sin x * sin x) = (sin x - x * cos x) * (cos a - cos b).
Proof.
  intros Ha Hab Hb.
  set (h := fun x => (phi x - phi a) * (cos b - cos a) - (cos x - cos a) * (phi b - phi a)).
  destruct (MVT_cor2 h (fun x => (1 * sin x - cos x * x) / Rsqr (sin x) * (cos b - cos a) - - sin x * (phi b - phi a)) a b Hab)
    as (x & E & Hx).
  - intros x Hx. unfold h.
    apply (derivable_pt_lim_minus (fun x => (phi x - phi a) * (cos b - cos a)) (fun x => (cos x - cos a) * (phi b - phi a))).
    + replace ((1 * sin x - cos x * x) / Rsqr (sin x) * (cos b - cos a)) with
        ((1 * sin x - cos x * x) / Rsqr (sin x) * (cos b - cos a) + (phi x - phi a) * 0) by ring.
      apply (derivable_pt_lim_mult (fun x => phi x - phi a) (fun _ => cos b - cos a)).
      * rewrite <- (Rminus_0_r ((1 * sin x - cos x * x) / Rsqr (sin x))).
        apply (derivable_pt_lim_minus phi (fun _ => phi a)); [apply phi_deriv; lra|apply derivable_pt_lim_const].
      * apply derivable_pt_lim_const.
    + replace (- sin x * (phi b - phi a)) with (- sin x * (phi b - phi a) + (cos x - cos a) * 0) by ring.
      apply (derivable_pt_lim_mult (fun x => cos x - cos a) (fun _ => phi b - phi a)).
      * rewrite <- (Rminus_0_r (- sin x)).
        apply (derivable_pt_lim_minus cos (fun _ => cos a)); [apply derivable_pt_lim_cos|apply derivable_pt_lim_const].
      * apply derivable_pt_lim_const.
  - exists x. split; [exact Hx|]. unfold h in E.
    assert (S : 0 < sin x) by (apply sin_gt_0; lra).
    assert (Z : (1 * sin x - cos x * x) / Rsqr (sin x) * (cos b - cos a) - - sin x * (phi b - phi a) = 0).
    { apply (Rmult_eq_reg_r (b - a)); [|lra]. rewrite <- E. ring. }
    unfold Rsqr in Z.
    apply (Rmult_eq_compat_r (sin x * sin x)) in Z.
    replace (((1 * sin x - cos x * x) / (sin x * sin x) * (cos b - cos a) - - sin x * (phi b - phi a)) * (sin x * sin x))
      with ((sin x - x * cos x) * (cos b - cos a) + sin x * sin x * sin x * (phi b - phi a)) in Z by (field; lra).
    lra.
Qed.

(** The slope of x / sin x with respect to cos x. *)
Lemma slope_nonneg x : 0 < x < PI -> 0 <= sin x - x * cos x.
Proof.
  intros H. destruct (Rle_dec (cos x) 0) as [C|C].
  - assert (0 < sin x) by (apply sin_gt_0; lra). nra.
  - assert (X : x < PI / 2).
    { destruct (Rlt_dec x (PI / 2)) as [L|L]; [exact L|exfalso]. apply C. apply cos_le_0; lra. }
    (* sin x - x cos x increases from 0 *)
    destruct (MVT_cor2 (fun x => sin x - x * cos x) (fun x => x * sin x) 0 x (proj1 H)) as (y & E & Hy).
    + intros y Hy. replace (y * sin y) with (cos y - (1 * cos y + y * - sin y)) by ring.
      apply (derivable_pt_lim_minus sin (fun x => x * cos x)); [apply derivable_pt_lim_sin|].
      apply (derivable_pt_lim_mult (fun x => x) cos); [apply derivable_pt_lim_id|apply derivable_pt_lim_cos].
    + rewrite sin_0 in E. assert (0 < sin y) by (apply sin_gt_0; lra).
      assert (0 <= y * sin y * (x - 0)) by (apply Rmult_le_pos; [apply Rmult_le_pos|]; lra). lra.
Qed.

Lemma slope_cubic x : 0 < x < PI -> sin x - x * cos x <= x * x * x / 2.
Proof.
  intros H. pose proof (sin_lt_x x (proj1 H)). pose proof (cos_lower x).
  assert (x * (1 - x * x / 2) <= x * cos x) by (apply Rmult_le_compat_l; lra). lra.
Qed.
Lemma slope_linear x : 0 < x < PI -> sin x - x * cos x <= x * (1 - cos x).
Proof. intros H. pose proof (sin_lt_x x (proj1 H)). lra. Qed.

Lemma sin_sq x : sin x * sin x = (1 - cos x) * (1 + cos x).
Proof. pose proof (sin2_cos2 x). unfold Rsqr in *. nra. Qed.
Lemma cos_gt_m1 x : 0 <= x < PI -> 0 < 1 + cos x.
Proof.
  intros H. assert (cos PI < cos x) by (apply cos_decreasing_1; lra). rewrite cos_PI in *. lra.
Qed.

(** Two angles with close cosines: away from half turns x / sin x is close too. *)
Lemma phi_close a b e : 0 < a < PI -> 0 < b < PI -> Rabs (cos a - cos b) <= e -> e <= (1 + cos b) / 30 ->
  sin b * Rabs (phi a - phi b) <= 10 * e / (1 + cos b).
Proof.
  intros Ha Hb He H30. pose proof (cos_gt_m1 b ltac:(lra)) as Cb. pose proof (COS_bound b) as [_ Cb1].
  assert (Sb : 0 < sin b) by (apply sin_gt_0; lra). pose proof (SIN_bound b) as [_ Sb1].
  assert (e0 : 0 <= e) by (eapply Rle_trans; [apply Rabs_pos|exact He]).
  apply abs_between in He.
  (* a point between with the slope *)
  assert (K : a = b \/ exists x, 0 < x < PI /\ (cos a <= cos x <= cos b \/ cos b <= cos x <= cos a) /\
     Rabs (phi a - phi b) * (sin x * sin x * sin x) <= (sin x - x * cos x) * e).
  { destruct (Rtotal_order a b) as [L|[E|L]]; [right|left; exact E|right].
    - destruct (phi_mvt a b) as (x & Hx & E); try lra. exists x. split; [lra|].
      assert (cos x < cos a) by (apply cos_decreasing_1; lra). assert (cos b < cos x) by (apply cos_decreasing_1; lra).
      split; [right; lra|]. assert (Sx : 0 < sin x) by (apply sin_gt_0; lra).
      assert (S3 : 0 < sin x * sin x * sin x) by (repeat apply Rmult_lt_0_compat; assumption).
      rewrite <- (Rabs_pos_eq (sin x * sin x * sin x)) at 1 by lra. rewrite <- Rabs_mult.
      replace ((phi a - phi b) * (sin x * sin x * sin x)) with (- ((phi b - phi a) * (sin x * sin x * sin x))) by ring.
      rewrite E, Rabs_Ropp, Rabs_mult. pose proof (slope_nonneg x ltac:(lra)) as N. rewrite (Rabs_pos_eq _ N).
      apply Rmult_le_compat_l; [exact N|]. apply Rabs_le. lra.
    - destruct (phi_mvt b a) as (x & Hx & E); try lra. exists x. split; [lra|].
      assert (cos x < cos b) by (apply cos_decreasing_1; lra). assert (cos a < cos x) by (apply cos_decreasing_1; lra).
      split; [left; lra|]. assert (Sx : 0 < sin x) by (apply sin_gt_0; lra).
      assert (S3 : 0 < sin x * sin x * sin x) by (repeat apply Rmult_lt_0_compat; assumption).
      rewrite <- (Rabs_pos_eq (sin x * sin x * sin x)) at 1 by lra. rewrite <- Rabs_mult.
      rewrite E, Rabs_mult. pose proof (slope_nonneg x ltac:(lra)) as N. rewrite (Rabs_pos_eq _ N).
      apply Rmult_le_compat_l; [exact N|]. apply Rabs_le. lra. }
  destruct K as [->|(x & Hx & Between & K)].
  { rewrite Rminus_diag_eq, Rabs_R0, Rmult_0_r by reflexivity. apply Rmult_le_pos; [lra|]. left. now apply Rinv_0_lt_compat. }
  assert (Sx : 0 < sin x) by (apply sin_gt_0; lra). pose proof (COS_bound x) as [_ Cx1].
  assert (Dx : cos b - e <= cos x <= cos b + e) by (destruct Between; lra). clear Between.
  pose proof (Rabs_pos (phi a - phi b)) as P0. set (p := Rabs (phi a - phi b)) in *.
  assert (S3 : 0 < sin x * sin x * sin x) by (repeat apply Rmult_lt_0_compat; assumption).
  apply (Rmult_le_reg_r (1 + cos b)); [exact Cb|].
  replace (10 * e / (1 + cos b) * (1 + cos b)) with (10 * e) by (field; lra).
  destruct (Rle_dec 0 (cos b)) as [C|C].
  - (* up to a quarter turn *)
    assert (X : x <= 7 / 4) by (apply cos_mid; lra).
    pose proof (sin_mid x ltac:(lra)) as SM. pose proof (slope_cubic x Hx) as SC.
    assert (X3 : 0 < x * x * x) by (repeat apply Rmult_lt_0_compat; lra).
    assert (S3' : 12 / 25 * (12 / 25) * (12 / 25) * (x * x * x) <= sin x * sin x * sin x).
    { replace (12 / 25 * (12 / 25) * (12 / 25) * (x * x * x)) with (12 / 25 * x * (12 / 25 * x) * (12 / 25 * x)) by field.
      apply Rmult_le_compat; try lra; [|apply Rmult_le_compat; lra]. apply Rmult_le_pos; lra. }
    assert (Q : p * (11 / 100) <= 1 / 2 * e).
    { apply (Rmult_le_reg_r (x * x * x)); [exact X3|].
      apply Rle_trans with (p * (sin x * sin x * sin x)).
      - rewrite Rmult_assoc. apply Rmult_le_compat_l; lra.
      - eapply Rle_trans; [exact K|]. replace (1 / 2 * e * (x * x * x)) with (x * x * x / 2 * e) by field.
        apply Rmult_le_compat_r; lra. }
    assert (p <= 5 * e) by lra.
    assert (sin b * p <= 1 * (5 * e)) by (apply Rmult_le_compat; lra).
    assert (0 <= sin b * p) by (apply Rmult_le_pos; lra). nra.
  - (* beyond *)
    pose proof (slope_linear x Hx) as SL.
    assert (SX : sin x * sin x = (1 - cos x) * (1 + cos x)) by apply sin_sq.
    assert (SB : sin b * sin b = (1 - cos b) * (1 + cos b)) by apply sin_sq.
    assert (Q : p * sin x * (1 + cos x) <= x * e).
    { apply (Rmult_le_reg_r (1 - cos x)); [lra|].
      replace (p * sin x * (1 + cos x) * (1 - cos x)) with (p * (sin x * sin x * sin x)) by (rewrite SX; ring).
      eapply Rle_trans; [exact K|]. replace (x * e * (1 - cos x)) with (x * (1 - cos x) * e) by ring.
      apply Rmult_le_compat_r; lra. }
    pose proof PI_le.
    assert (CX : 29 / 30 * (1 + cos b) <= 1 + cos x) by lra.
    assert (SS : sin b <= 3 / 2 * sin x).
    { apply Rsqr_incr_0_var; [|lra]. unfold Rsqr.
      replace (3 / 2 * sin x * (3 / 2 * sin x)) with (9 / 4 * (sin x * sin x)) by field. rewrite SX, SB.
      assert (1 - cos b <= 2) by lra. assert (29 / 30 <= 1 - cos x) by lra.
      assert ((1 - cos b) * (1 + cos b) <= 2 * (1 + cos b)) by (apply Rmult_le_compat_r; lra).
      assert (29 / 30 * (29 / 30 * (1 + cos b)) <= (1 - cos x) * (1 + cos x)) by (apply Rmult_le_compat; lra). lra. }
    assert (XE : x * e <= 16 / 5 * e) by (apply Rmult_le_compat_r; lra).
    assert (A1 : sin b * p * (1 + cos b) <= 3 / 2 * sin x * p * (1 + cos b)).
    { apply Rmult_le_compat_r; [lra|]. apply Rmult_le_compat_r; lra. }
    assert (A2 : sin x * p * (29 / 30 * (1 + cos b)) <= sin x * p * (1 + cos x)).
    { apply Rmult_le_compat_l; [|exact CX]. apply Rmult_le_pos; lra. }
    replace (sin x * p * (1 + cos x)) with (p * sin x * (1 + cos x)) in A2 by ring.
    replace (3 / 2 * sin x * p * (1 + cos b)) with (3 / 2 * (sin x * p * (1 + cos b))) in A1 by ring.
    replace (sin x * p * (29 / 30 * (1 + cos b))) with (29 / 30 * (sin x * p * (1 + cos b))) in A2 by ring. lra.
Qed.

Lemma phi_bound a : 0 < a < PI -> 1 <= phi a <= 4 / (1 + cos a).
Proof.
  intros H. assert (S : 0 < sin a) by (apply sin_gt_0; lra). pose proof (cos_gt_m1 a ltac:(lra)) as C.
  pose proof (sin_lt_x a (proj1 H)). pose proof (COS_bound a) as [_ C1]. pose proof PI_le.
  unfold phi. split.
  - apply (Rmult_le_reg_r (sin a)); [exact S|]. replace (a / sin a * sin a) with a by (field; lra). lra.
  - apply (Rmult_le_reg_r (sin a * (1 + cos a))); [apply Rmult_lt_0_compat; assumption|].
    replace (a / sin a * (sin a * (1 + cos a))) with (a * (1 + cos a)) by (field; lra).
    replace (4 / (1 + cos a) * (sin a * (1 + cos a))) with (4 * sin a) by (field; lra).
    destruct (Rle_dec 0 (cos a)) as [D|D].
    + assert (X : a <= PI / 2).
      { destruct (Rle_dec a (PI / 2)) as [L|L]; [exact L|exfalso]. assert (cos a < 0) by (apply cos_lt_0; lra). lra. }
      assert (SL : 57 / 100 * a <= sin a).
      { eapply Rle_trans; [|apply sin_lower; lra]. assert (a * a <= 8 / 5 * (8 / 5)) by nra.
        replace (a - a * a * a / 6) with ((1 - a * a / 6) * a) by field. apply Rmult_le_compat_r; lra. }
      assert (a * (1 + cos a) <= a * 2) by (apply Rmult_le_compat_l; lra). lra.
    + assert (SG : 1 + cos a <= sin a).
      { apply Rsqr_incr_0_var; [|lra]. unfold Rsqr. rewrite sin_sq. apply Rmult_le_compat_r; lra. }
      assert (a * (1 + cos a) <= 16 / 5 * sin a) by (apply Rmult_le_compat; lra). lra.
Qed.
