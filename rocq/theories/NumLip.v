(** Curves that agree to second order: [LR x0 f f'] says that near 0, f stays within
    O(h) of x0 and f' within O(h^2) of f.  The library's operations preserve this. *)

From Coq Require Import Reals Lra Lia List Bool Arith Ratan.
From Verif Require Import Mat V3 ModelLeaf SpecLeaf LeafProofs Calc.
Import ListNotations.
Local Open Scope R_scope.

(** ** Scalars *)

Definition LR (x0 : R) (f f' : R -> R) : Prop := exists K, near (fun h =>
  Rabs (f h - x0) <= K * Rabs h /\ Rabs (f h - f' h) <= K * (h * h)).

Lemma near_small e : 0 < e -> near (fun h => Rabs h < e).
Proof. intros H. exists e. auto. Qed.

Lemma sqr_le_abs h : Rabs h < 1 -> 0 <= h * h <= Rabs h.
Proof. unfold Rabs. destruct (Rcase_abs h); intros; split; nra. Qed.

Lemma LR_pos x0 f f' : LR x0 f f' -> exists K, 0 < K /\ near (fun h => Rabs h < 1 /\
  Rabs (f h - x0) <= K * Rabs h /\ Rabs (f h - f' h) <= K * (h * h)).
Proof.
  intros (K & N). exists (Rabs K + 1). split; [pose proof (Rabs_pos K); lra|].
  apply (near_impl2 _ _ _) with (2 := N) (3 := near_small 1 Rlt_0_1). intros h (A & B) C.
  split; [exact C|]. pose proof (Rle_abs K). pose proof (Rabs_pos h). pose proof (sqr_le_abs h C).
  split; [apply (Rle_trans _ _ _ A)|apply (Rle_trans _ _ _ B)]; nra.
Qed.

(** Both curves tend to x0. *)
Lemma LR_close x0 f f' e : 0 < e -> LR x0 f f' -> near (fun h => Rabs (f h - x0) < e /\ Rabs (f' h - x0) < e).
Proof.
  intros He H. destruct (LR_pos _ _ _ H) as (K & KP & N).
  assert (P : 0 < e / (3 * K)) by (apply Rdiv_lt_0_compat; lra).
  apply (near_impl2 _ _ _) with (2 := N) (3 := near_small _ P). intros h (A & B & C) D.
  assert (Q : K * Rabs h < e / 2).
  { apply (Rmult_lt_compat_l K) in D; [|exact KP]. replace (K * (e / (3 * K))) with (e / 3) in D by (field; lra). lra. }
  pose proof (sqr_le_abs h A) as S.
  split; [lra|].
  replace (f' h - x0) with ((f h - x0) - (f h - f' h)) by ring.
  pose proof (Rabs_triang (f h - x0) (- (f h - f' h))) as T. rewrite Rabs_Ropp in T.
  unfold Rminus at 1. nra.
Qed.

Lemma LR_at0 x0 f f' : LR x0 f f' -> f 0 = x0 /\ f' 0 = x0.
Proof.
  intros (K & N). pose proof (near_0 _ N) as (A & B). cbv beta in *. rewrite Rabs_R0, !Rmult_0_r in *.
  assert (Z : forall x, Rabs x <= 0 -> x = 0).
  { intros x. unfold Rabs. destruct (Rcase_abs x); lra. }
  apply Z in A, B. split; lra.
Qed.

Lemma LR_near x0 f f' g g' : near (fun h => f h = g h /\ f' h = g' h) -> LR x0 f f' -> LR x0 g g'.
Proof.
  intros E (K & N). exists K. apply (near_impl2 _ _ _) with (2 := E) (3 := N). intros h (-> & ->). auto.
Qed.

Lemma LR_const x : LR x (fun _ => x) (fun _ => x).
Proof.
  exists 0. apply near_all. intros h. unfold Rminus. rewrite Rplus_opp_r, Rabs_R0. lra.
Qed.

Lemma LR_lip g x0 f f' L r : 0 < r ->
  (forall x y, Rabs (x - x0) <= r -> Rabs (y - x0) <= r -> Rabs (g x - g y) <= L * Rabs (x - y)) ->
  LR x0 f f' -> LR (g x0) (fun h => g (f h)) (fun h => g (f' h)).
Proof.
  intros Hr G H. destruct (LR_pos _ _ _ H) as (K & KP & N). exists (Rabs L * K).
  apply (near_impl2 _ _ _) with (2 := N) (3 := LR_close _ _ _ r Hr H). intros h (_ & A & B) (C & D).
  assert (Z : Rabs (x0 - x0) <= r) by (unfold Rminus; rewrite Rplus_opp_r, Rabs_R0; lra).
  pose proof (G (f h) x0 (Rlt_le _ _ C) Z) as P. pose proof (G (f h) (f' h) (Rlt_le _ _ C) (Rlt_le _ _ D)) as Q.
  pose proof (Rle_abs L). pose proof (Rabs_pos L).
  pose proof (Rabs_pos (f h - x0)). pose proof (Rabs_pos (f h - f' h)).
  split.
  - apply (Rle_trans _ _ _ P). apply Rle_trans with (Rabs L * Rabs (f h - x0)); [nra|].
    rewrite Rmult_assoc. apply Rmult_le_compat_l; lra.
  - apply (Rle_trans _ _ _ Q). apply Rle_trans with (Rabs L * Rabs (f h - f' h)); [nra|].
    rewrite Rmult_assoc. apply Rmult_le_compat_l; lra.
Qed.

Lemma LR_add x f f' y g g' : LR x f f' -> LR y g g' -> LR (x + y) (fun h => f h + g h) (fun h => f' h + g' h).
Proof.
  intros (K & N) (K' & N'). exists (K + K'). apply (near_impl2 _ _ _) with (2 := N) (3 := N').
  intros h (A & B) (C & D). split.
  - replace (f h + g h - (x + y)) with ((f h - x) + (g h - y)) by ring.
    eapply Rle_trans; [apply Rabs_triang|]. lra.
  - replace (f h + g h - (f' h + g' h)) with ((f h - f' h) + (g h - g' h)) by ring.
    eapply Rle_trans; [apply Rabs_triang|]. lra.
Qed.

Lemma LR_opp x f f' : LR x f f' -> LR (- x) (fun h => - f h) (fun h => - f' h).
Proof.
  intros (K & N). exists K. apply (near_impl _ _) with (2 := N). intros h (A & B). split.
  - replace (- f h - - x) with (- (f h - x)) by ring. now rewrite Rabs_Ropp.
  - replace (- f h - - f' h) with (- (f h - f' h)) by ring. now rewrite Rabs_Ropp.
Qed.

Lemma LR_sub x f f' y g g' : LR x f f' -> LR y g g' -> LR (x - y) (fun h => f h - g h) (fun h => f' h - g' h).
Proof. intros A B. unfold Rminus. apply LR_add; [exact A|apply LR_opp, B]. Qed.

Lemma LR_mul x f f' y g g' : LR x f f' -> LR y g g' -> LR (x * y) (fun h => f h * g h) (fun h => f' h * g' h).
Proof.
  intros H H'. destruct (LR_pos _ _ _ H) as (K & KP & N). destruct (LR_pos _ _ _ H') as (K' & KP' & N').
  exists ((Rabs x + 1) * K' + (Rabs y + 1) * K).
  apply (near_impl2 _ _ _) with (2 := near_and _ _ N (LR_close _ _ _ 1 Rlt_0_1 H))
    (3 := near_and _ _ N' (LR_close _ _ _ 1 Rlt_0_1 H')).
  intros h ((A1 & A2 & A3) & (A4 & A5)) ((B1 & B2 & B3) & (B4 & B5)).
  assert (T : forall a b, Rabs (a - b) < 1 -> Rabs a <= Rabs b + 1).
  { intros a b Hab. replace a with (b + (a - b)) by ring. eapply Rle_trans; [apply Rabs_triang|lra]. }
  pose proof (T _ _ A4) as F. pose proof (T _ _ B5) as G'. clear T A4 A5 B4 B5.
  pose proof (Rabs_pos x). pose proof (Rabs_pos y). pose proof (Rabs_pos h).
  pose proof (sqr_le_abs h A1).
  assert (MM : forall a b c d : R, 0 <= a -> 0 <= b -> a <= c -> b <= d -> a * b <= c * d).
  { intros. apply Rmult_le_compat; assumption. }
  split.
  - replace (f h * g h - x * y) with (f h * (g h - y) + y * (f h - x)) by ring.
    eapply Rle_trans; [apply Rabs_triang|]. rewrite !Rabs_mult.
    pose proof (MM _ _ _ _ (Rabs_pos (f h)) (Rabs_pos (g h - y)) F B2).
    assert (Rabs y * Rabs (f h - x) <= (Rabs y + 1) * (K * Rabs h)) by (apply MM; auto using Rabs_pos; lra).
    nra.
  - replace (f h * g h - f' h * g' h) with (f h * (g h - g' h) + g' h * (f h - f' h)) by ring.
    eapply Rle_trans; [apply Rabs_triang|]. rewrite !Rabs_mult.
    pose proof (MM _ _ _ _ (Rabs_pos (f h)) (Rabs_pos (g h - g' h)) F B3).
    pose proof (MM _ _ _ _ (Rabs_pos (g' h)) (Rabs_pos (f h - f' h)) G' A3).
    nra.
Qed.

Lemma LR_scal c x f f' : LR x f f' -> LR (c * x) (fun h => c * f h) (fun h => c * f' h).
Proof. intros H. apply (LR_mul c (fun _ => c) (fun _ => c)); [apply LR_const|exact H]. Qed.

(** Locally Lipschitz functions, by the mean value theorem. *)
Lemma lip_of_deriv g g' x0 r L : (forall x, Rabs (x - x0) <= r -> derivable_pt_lim g x (g' x) /\ Rabs (g' x) <= L) ->
  forall x y, Rabs (x - x0) <= r -> Rabs (y - x0) <= r -> Rabs (g x - g y) <= L * Rabs (x - y).
Proof.
  intros D x y Hx Hy.
  assert (B : forall c, Rmin y x <= c <= Rmax y x -> Rabs (c - x0) <= r).
  { intros c. revert Hx Hy. unfold Rmin, Rmax, Rabs. destruct (Rle_dec y x);
      repeat destruct (Rcase_abs _); intros; lra. }
  destruct (MVT_abs g g' y x) as (c & E & C); [intros c Hc; apply D, B, Hc|].
  rewrite E. apply Rmult_le_compat_r; [apply Rabs_pos|]. apply D, B, C.
Qed.

Lemma LR_inv x f f' : x <> 0 -> LR x f f' -> LR (/ x) (fun h => / f h) (fun h => / f' h).
Proof.
  intros Hx. pose proof (Rabs_pos_lt x Hx) as P.
  apply (LR_lip Rinv x f f' (4 / (Rabs x * Rabs x)) (Rabs x / 2)); [lra|].
  intros a b Ha Hb.
  assert (T : forall c, Rabs (c - x) <= Rabs x / 2 -> Rabs x / 2 <= Rabs c).
  { intros c Hc. pose proof (Rabs_triang c (x - c)) as T. replace (c + (x - c)) with x in T by ring.
    rewrite (Rabs_minus_sym x c) in T. lra. }
  apply T in Ha, Hb.
  assert (Na : a <> 0) by (intros ->; rewrite Rabs_R0 in Ha; lra).
  assert (Nb : b <> 0) by (intros ->; rewrite Rabs_R0 in Hb; lra).
  replace (/ a - / b) with ((b - a) * / (a * b)) by (field; auto).
  rewrite Rabs_mult, (Rabs_minus_sym b a), Rmult_comm. apply Rmult_le_compat_r; [apply Rabs_pos|].
  rewrite Rabs_inv, Rabs_mult.
  apply Rle_trans with (/ ((Rabs x / 2) * (Rabs x / 2))).
  - apply Rinv_le_contravar; [nra|]. apply Rmult_le_compat; lra.
  - apply Req_le. field. lra.
Qed.

Lemma LR_div x f f' y g g' : y <> 0 -> LR x f f' -> LR y g g' -> LR (x / y) (fun h => f h / g h) (fun h => f' h / g' h).
Proof. intros N A B. unfold Rdiv. apply LR_mul; [exact A|apply LR_inv; assumption]. Qed.

Lemma LR_sqrt x f f' : 0 < x -> LR x f f' -> LR (sqrt x) (fun h => sqrt (f h)) (fun h => sqrt (f' h)).
Proof.
  intros Hx. pose proof (sqrt_lt_R0 x Hx) as S.
  assert (S2 : 0 < sqrt (x / 2)) by (apply sqrt_lt_R0; lra).
  apply (LR_lip sqrt x f f' (/ sqrt (x / 2)) (x / 2)); [lra|].
  intros a b Ha Hb.
  assert (T : forall c, Rabs (c - x) <= x / 2 -> x / 2 <= c).
  { intros c. unfold Rabs. destruct (Rcase_abs _); lra. }
  apply T in Ha, Hb.
  assert (La : sqrt (x / 2) <= sqrt a) by (apply sqrt_le_1; lra).
  assert (Lb : sqrt (x / 2) <= sqrt b) by (apply sqrt_le_1; lra).
  replace (sqrt a - sqrt b) with ((a - b) * / (sqrt a + sqrt b)).
  2:{ rewrite <- (sqrt_sqrt a) at 1 by lra. rewrite <- (sqrt_sqrt b) at 1 by lra. field. lra. }
  rewrite Rabs_mult, Rmult_comm. apply Rmult_le_compat_r; [apply Rabs_pos|].
  rewrite Rabs_inv, (Rabs_pos_eq (sqrt a + sqrt b)) by lra. apply Rinv_le_contravar; lra.
Qed.

Lemma LR_sin x f f' : LR x f f' -> LR (sin x) (fun h => sin (f h)) (fun h => sin (f' h)).
Proof.
  apply (LR_lip sin x f f' 1 1); [lra|]. apply (lip_of_deriv sin cos). intros c _.
  split; [apply derivable_pt_lim_sin|]. apply Rabs_le. pose proof (COS_bound c). lra.
Qed.
Lemma LR_cos x f f' : LR x f f' -> LR (cos x) (fun h => cos (f h)) (fun h => cos (f' h)).
Proof.
  apply (LR_lip cos x f f' 1 1); [lra|]. apply (lip_of_deriv cos (fun x => - sin x)). intros c _.
  split; [apply derivable_pt_lim_cos|]. rewrite Rabs_Ropp. apply Rabs_le. pose proof (SIN_bound c). lra.
Qed.

Lemma LR_acos x f f' : -1 < x < 1 -> LR x f f' -> LR (acos x) (fun h => acos (f h)) (fun h => acos (f' h)).
Proof.
  intros Hx. set (r := (1 - Rabs x) / 2).
  assert (Ax : Rabs x < 1) by (apply Rabs_def1; lra).
  pose proof (Rabs_pos x) as Px.
  assert (Pr : 0 < r) by (unfold r; lra).
  apply (LR_lip acos x f f' (/ sqrt r) r Pr).
  apply (lip_of_deriv acos (fun x => -1 / sqrt (1 - x * x))). intros c Hc.
  assert (Ac : Rabs c <= (1 + Rabs x) / 2).
  { replace c with (x + (c - x)) by ring. eapply Rle_trans; [apply Rabs_triang|]. unfold r in Hc. lra. }
  assert (Bc : -1 < c < 1) by (revert Ac; unfold Rabs at 1; destruct (Rcase_abs c); lra).
  split; [exact (dpl_acos (fun s => s) c 1 (dpl_id c) Bc)|].
  assert (Q : r <= 1 - c * c).
  { change (c * c) with (c²). rewrite (Rsqr_abs c). pose proof (Rabs_pos c). unfold Rsqr, r. nra. }
  pose proof (sqrt_lt_R0 r Pr). pose proof (sqrt_le_1 r (1 - c * c) (Rlt_le _ _ Pr) ltac:(lra) Q).
  unfold Rdiv. rewrite Rabs_mult, Rabs_left, Rabs_inv, Rabs_pos_eq by (try apply sqrt_pos; lra).
  replace (- -1 * / sqrt (1 - c * c)) with (/ sqrt (1 - c * c)) by ring.
  apply Rinv_le_contravar; lra.
Qed.

Lemma LR_lt x f f' c : LR x f f' -> x < c -> near (fun h => f h < c /\ f' h < c).
Proof.
  intros H L. apply (near_impl _ _) with (2 := LR_close _ _ _ (c - x) ltac:(lra) H).
  intros h (A & B). apply Rabs_def2 in A, B. lra.
Qed.
Lemma LR_gt x f f' c : LR x f f' -> c < x -> near (fun h => c < f h /\ c < f' h).
Proof.
  intros H L. apply (near_impl _ _) with (2 := LR_close _ _ _ (x - c) ltac:(lra) H).
  intros h (A & B). apply Rabs_def2 in A, B. lra.
Qed.
Lemma LR_nz x f f' : LR x f f' -> x <> 0 -> near (fun h => f h <> 0 /\ f' h <> 0).
Proof.
  intros H L. destruct (Rlt_dec x 0).
  - apply (near_impl _ _) with (2 := LR_lt _ _ _ 0 H r). intros; lra.
  - assert (P : 0 < x) by lra. apply (near_impl _ _) with (2 := LR_gt _ _ _ 0 H P). intros; lra.
Qed.
Lemma LR_val x y f f' : x = y -> LR x f f' -> LR y f f'.
Proof. now intros ->. Qed.

(** ** Vectors, matrices, quaternions *)

Definition LV (v : V3) (f f' : R -> V3) : Prop :=
  LR (vx v) (fun h => vx (f h)) (fun h => vx (f' h)) /\
  LR (vy v) (fun h => vy (f h)) (fun h => vy (f' h)) /\
  LR (vz v) (fun h => vz (f h)) (fun h => vz (f' h)).

Definition LM (m : M3) (f f' : R -> M3) : Prop :=
  (LR (m00 m) (fun h => m00 (f h)) (fun h => m00 (f' h)) /\
   LR (m01 m) (fun h => m01 (f h)) (fun h => m01 (f' h)) /\
   LR (m02 m) (fun h => m02 (f h)) (fun h => m02 (f' h))) /\
  (LR (m10 m) (fun h => m10 (f h)) (fun h => m10 (f' h)) /\
   LR (m11 m) (fun h => m11 (f h)) (fun h => m11 (f' h)) /\
   LR (m12 m) (fun h => m12 (f h)) (fun h => m12 (f' h))) /\
  (LR (m20 m) (fun h => m20 (f h)) (fun h => m20 (f' h)) /\
   LR (m21 m) (fun h => m21 (f h)) (fun h => m21 (f' h)) /\
   LR (m22 m) (fun h => m22 (f h)) (fun h => m22 (f' h))).

(** Quaternions with matching signs. *)
Definition LQ1 (q : Q4) (f f' : R -> Q4) : Prop :=
  LR (qw q) (fun h => qw (f h)) (fun h => qw (f' h)) /\
  LR (qx q) (fun h => qx (f h)) (fun h => qx (f' h)) /\
  LR (qy q) (fun h => qy (f h)) (fun h => qy (f' h)) /\
  LR (qz q) (fun h => qz (f h)) (fun h => qz (f' h)).

Definition qscal (s : R) (q : Q4) : Q4 := mkQ (s * qw q) (s * qx q) (s * qy q) (s * qz q).

Definition sign (s : R) : Prop := s = 1 \/ s = -1.
Lemma sign_sq s : sign s -> s * s = 1.
Proof. intros [-> | ->]; ring. Qed.
Lemma sign_mul s t : sign s -> sign t -> sign (s * t).
Proof. unfold sign. intros [-> | ->] [-> | ->]; (left; ring) || (right; ring). Qed.

(** Quaternions up to sign. *)
Definition LQ (q : Q4) (f f' : R -> Q4) : Prop := exists s s' : R -> R,
  (forall h, sign (s h) /\ sign (s' h)) /\
  LQ1 q (fun h => qscal (s h) (f h)) (fun h => qscal (s' h) (f' h)).

Ltac lr_step := match goal with
  | |- LR _ _ _ => first
      [ assumption | apply LR_const | apply LR_opp | apply LR_sub | apply LR_add | apply LR_mul
      | apply LR_scal ]
  end.
Ltac lr := repeat lr_step.
Ltac lrdes := repeat match goal with
  | H : LV _ _ _ |- _ => destruct H as (?&?&?)
  | H : LM _ _ _ |- _ => destruct H as ((?&?&?)&(?&?&?)&(?&?&?))
  | H : LQ1 _ _ _ |- _ => destruct H as (?&?&?&?)
  end.
Ltac lrgo := lrdes; unfold LV, LM, LQ1; cbv beta;
  cbn [vx vy vz m00 m01 m02 m10 m11 m12 m20 m21 m22 qw qx qy qz
       vadd vsub vopp vscal vdot vcross vnorm2 add3 sub3 opp3 scal3 mul3 tr3 app3 trace3 skew outer3
       qmul qconj qrot i3 z3 v0 qone qvec uncross];
  repeat match goal with |- _ /\ _ => split end; lr.

Lemma LV_const v : LV v (fun _ => v) (fun _ => v). Proof. repeat split; apply LR_const. Qed.
Lemma LM_const m : LM m (fun _ => m) (fun _ => m). Proof. repeat split; apply LR_const. Qed.
Lemma LQ1_const q : LQ1 q (fun _ => q) (fun _ => q). Proof. repeat split; apply LR_const. Qed.

Lemma LM_mul A f f' B g g' : LM A f f' -> LM B g g' -> LM (mul3 A B) (fun h => mul3 (f h) (g h)) (fun h => mul3 (f' h) (g' h)).
Proof. intros. lrgo. Qed.
Lemma LM_tr A f f' : LM A f f' -> LM (tr3 A) (fun h => tr3 (f h)) (fun h => tr3 (f' h)).
Proof. intros. lrgo. Qed.
Lemma LM_add A f f' B g g' : LM A f f' -> LM B g g' -> LM (add3 A B) (fun h => add3 (f h) (g h)) (fun h => add3 (f' h) (g' h)).
Proof. intros. lrgo. Qed.
Lemma LM_sub A f f' B g g' : LM A f f' -> LM B g g' -> LM (sub3 A B) (fun h => sub3 (f h) (g h)) (fun h => sub3 (f' h) (g' h)).
Proof. intros. lrgo. Qed.
Lemma LM_scal k s s' A f f' : LR k s s' -> LM A f f' -> LM (scal3 k A) (fun h => scal3 (s h) (f h)) (fun h => scal3 (s' h) (f' h)).
Proof. intros. lrgo. Qed.
Lemma LM_skew v f f' : LV v f f' -> LM (skew v) (fun h => skew (f h)) (fun h => skew (f' h)).
Proof. intros. lrgo. Qed.
Lemma LV_app A f f' v g g' : LM A f f' -> LV v g g' -> LV (app3 A v) (fun h => app3 (f h) (g h)) (fun h => app3 (f' h) (g' h)).
Proof. intros. lrgo. Qed.
Lemma LV_add u f f' v g g' : LV u f f' -> LV v g g' -> LV (vadd u v) (fun h => vadd (f h) (g h)) (fun h => vadd (f' h) (g' h)).
Proof. intros. lrgo. Qed.
Lemma LV_opp u f f' : LV u f f' -> LV (vopp u) (fun h => vopp (f h)) (fun h => vopp (f' h)).
Proof. intros. lrgo. Qed.
Lemma LV_uncross A f f' : LM A f f' -> LV (uncross A) (fun h => uncross (f h)) (fun h => uncross (f' h)).
Proof. intros. lrgo. Qed.
Lemma LR_norm2 v f f' : LV v f f' -> LR (vnorm2 v) (fun h => vnorm2 (f h)) (fun h => vnorm2 (f' h)).
Proof. intros. lrdes. unfold vnorm2, vdot. lr. Qed.
Lemma LR_trace A f f' : LM A f f' -> LR (trace3 A) (fun h => trace3 (f h)) (fun h => trace3 (f' h)).
Proof. intros. lrdes. unfold trace3. lr. Qed.
Lemma LQ1_mul a f f' b g g' : LQ1 a f f' -> LQ1 b g g' -> LQ1 (qmul a b) (fun h => qmul (f h) (g h)) (fun h => qmul (f' h) (g' h)).
Proof. intros. lrgo. Qed.
Lemma LQ1_conj a f f' : LQ1 a f f' -> LQ1 (qconj a) (fun h => qconj (f h)) (fun h => qconj (f' h)).
Proof. intros. lrgo. Qed.
Lemma LM_qrot1 a f f' : LQ1 a f f' -> LM (qrot a) (fun h => qrot (f h)) (fun h => qrot (f' h)).
Proof. intros. lrgo. Qed.
Lemma LV_qact1 a f f' v g g' : LQ1 a f f' -> LV v g g' -> LV (qact a v) (fun h => qact (f h) (g h)) (fun h => qact (f' h) (g' h)).
Proof. intros. unfold qact. cbv zeta. lrgo. Qed.

(** Curves may be replaced by equal ones near 0. *)
Lemma LV_near v f f' g g' : near (fun h => f h = g h /\ f' h = g' h) -> LV v f f' -> LV v g g'.
Proof.
  intros E (A & B & C). repeat split; (eapply LR_near; [|eassumption]);
    apply (near_impl _ _) with (2 := E); intros h (-> & ->); auto.
Qed.
Lemma LM_near m f f' g g' : near (fun h => f h = g h /\ f' h = g' h) -> LM m f f' -> LM m g g'.
Proof.
  intros E H. lrdes. repeat split; (eapply LR_near; [|eassumption]);
    apply (near_impl _ _) with (2 := E); intros h (-> & ->); auto.
Qed.
Lemma LQ1_near m f f' g g' : near (fun h => f h = g h /\ f' h = g' h) -> LQ1 m f f' -> LQ1 m g g'.
Proof.
  intros E H. lrdes. repeat split; (eapply LR_near; [|eassumption]);
    apply (near_impl _ _) with (2 := E); intros h (-> & ->); auto.
Qed.
Lemma LQ_near m f f' g g' : near (fun h => f h = g h /\ f' h = g' h) -> LQ m f f' -> LQ m g g'.
Proof.
  intros E (s & s' & S & H). exists s, s'. split; [exact S|]. eapply LQ1_near; [|exact H].
  apply (near_impl _ _) with (2 := E); intros h (-> & ->); auto.
Qed.

Lemma LQ_of1 q f f' : LQ1 q f f' -> LQ q f f'.
Proof.
  intros H. exists (fun _ => 1), (fun _ => 1). split; [intros; split; left; reflexivity|].
  assert (E : forall q, qscal 1 q = q) by (intros []; unfold qscal; cbn; f_equal; ring).
  eapply LQ1_near; [|exact H]. apply near_all. intros h. now rewrite !E.
Qed.
Lemma LQ_const q : LQ q (fun _ => q) (fun _ => q).
Proof. apply LQ_of1, LQ1_const. Qed.

Lemma qrot_sign s q : sign s -> qrot (qscal s q) = qrot q.
Proof. intros [-> | ->]; destruct q; unfold qrot, qscal; cbn; f_equal; ring. Qed.
Lemma qact_sign s q v : sign s -> qact (qscal s q) v = qact q v.
Proof. intros [-> | ->]; destruct q, v; unfold qact, qvec, qscal, vadd, vscal, vcross; cbn; f_equal; ring. Qed.

Lemma LM_qrot q f f' : LQ q f f' -> LM (qrot q) (fun h => qrot (f h)) (fun h => qrot (f' h)).
Proof.
  intros (s & s' & S & H). eapply LM_near; [|exact (LM_qrot1 _ _ _ H)]. apply near_all. intros h.
  destruct (S h). now rewrite !qrot_sign.
Qed.
Lemma LV_qact q f f' v g g' : LQ q f f' -> LV v g g' -> LV (qact q v) (fun h => qact (f h) (g h)) (fun h => qact (f' h) (g' h)).
Proof.
  intros (s & s' & S & H) G. eapply LV_near; [|exact (LV_qact1 _ _ _ _ _ _ H G)]. apply near_all. intros h.
  destruct (S h). now rewrite !qact_sign.
Qed.
Lemma LQ_conj q f f' : LQ q f f' -> LQ (qconj q) (fun h => qconj (f h)) (fun h => qconj (f' h)).
Proof.
  intros (s & s' & S & H). exists s, s'. split; [exact S|]. eapply LQ1_near; [|exact (LQ1_conj _ _ _ H)].
  apply near_all. intros h. unfold qconj, qscal. cbn. split; f_equal; ring.
Qed.
Lemma LQ_mul a f f' b g g' : LQ a f f' -> LQ b g g' -> LQ (qmul a b) (fun h => qmul (f h) (g h)) (fun h => qmul (f' h) (g' h)).
Proof.
  intros (s & s' & S & H) (t & t' & T & G). exists (fun h => s h * t h), (fun h => s' h * t' h).
  split. { intros h. destruct (S h), (T h). split; now apply sign_mul. }
  eapply LQ1_near; [|exact (LQ1_mul _ _ _ _ _ _ H G)].
  apply near_all. intros h. unfold qmul, qscal. cbn. split; f_equal; ring.
Qed.

(** ** Conversion from a matrix that is almost a rotation to a quaternion *)

Definition m3close (t : R) (a b : M3) : Prop :=
  (Rabs (m00 a - m00 b) <= t /\ Rabs (m01 a - m01 b) <= t /\ Rabs (m02 a - m02 b) <= t) /\
  (Rabs (m10 a - m10 b) <= t /\ Rabs (m11 a - m11 b) <= t /\ Rabs (m12 a - m12 b) <= t) /\
  (Rabs (m20 a - m20 b) <= t /\ Rabs (m21 a - m21 b) <= t /\ Rabs (m22 a - m22 b) <= t).
Definition q4close (t : R) (a b : Q4) : Prop :=
  Rabs (qw a - qw b) <= t /\ Rabs (qx a - qx b) <= t /\ Rabs (qy a - qy b) <= t /\ Rabs (qz a - qz b) <= t.

Lemma pivot_close u r tau : 0 <= u -> 1 <= r -> Rabs (r * r - 4 * (u * u)) <= 3 * tau -> Rabs (2 * u - r) <= 3 * tau.
Proof.
  intros Hu Hr H. replace (r * r - 4 * (u * u)) with (- ((2 * u - r) * (r + 2 * u))) in H by ring.
  rewrite Rabs_Ropp, Rabs_mult, (Rabs_pos_eq (r + 2 * u)) in H by lra.
  pose proof (Rabs_pos (2 * u - r)). nra.
Qed.
Lemma pivot_half u r tau : 0 <= u -> 1 <= r -> Rabs (r * r - 4 * (u * u)) <= 3 * tau -> Rabs (u - r / 2) <= 4 * tau.
Proof.
  intros Hu Hr H. apply pivot_close in H; auto. replace (u - r / 2) with ((2 * u - r) / 2) by field.
  unfold Rdiv. rewrite Rabs_mult, (Rabs_pos_eq (/ 2)) by lra. pose proof (Rabs_pos (2 * u - r)). lra.
Qed.
Lemma quot_close u r tau y n : 0 <= u -> 1 <= r -> Rabs (r * r - 4 * (u * u)) <= 3 * tau -> Rabs y <= 1 ->
  Rabs (4 * (u * y) - n) <= 2 * tau -> Rabs (y - n * (1 / 2 / r)) <= 4 * tau.
Proof.
  intros Hu Hr H Hy Hn. apply pivot_close in H; auto.
  replace (y - n * (1 / 2 / r)) with (((4 * (u * y) - n) - 2 * (y * (2 * u - r))) * / (2 * r)) by (field; lra).
  rewrite Rabs_mult, Rabs_inv, (Rabs_pos_eq (2 * r)) by lra.
  assert (N : Rabs (4 * (u * y) - n - 2 * (y * (2 * u - r))) <= 8 * tau).
  { unfold Rminus at 1. eapply Rle_trans; [apply Rabs_triang|]. rewrite Rabs_Ropp, Rabs_mult, Rabs_mult.
    rewrite (Rabs_pos_eq 2) by lra. pose proof (Rabs_pos y). pose proof (Rabs_pos (2 * u - r)).
    assert (Rabs y * Rabs (2 * u - r) <= 1 * (3 * tau)) by (apply Rmult_le_compat; lra). lra. }
  assert (I : / (2 * r) <= / 2) by (apply Rinv_le_contravar; lra).
  assert (P : 0 < / (2 * r)) by (apply Rinv_0_lt_compat; lra).
  apply Rle_trans with (8 * tau * / 2); [|lra].
  apply Rmult_le_compat; auto using Rabs_pos; lra.
Qed.

Lemma abs3 a b c t : Rabs a <= t -> Rabs b <= t -> Rabs c <= t -> Rabs (a + b + c) <= 3 * t.
Proof.
  intros. pose proof (Rabs_triang (a + b) c). pose proof (Rabs_triang a b). lra.
Qed.
Lemma abs2 a b t : Rabs a <= t -> Rabs b <= t -> Rabs (a + b) <= 2 * t.
Proof. intros. pose proof (Rabs_triang a b). lra. Qed.
Lemma sign_abs x : exists s, sign s /\ 0 <= s * x.
Proof.
  destruct (Rle_dec 0 x); [exists 1|exists (-1)]; (split; [unfold sign; auto|lra]).
Qed.

Lemma q_of_mat_near q m' tau : unitq q -> m3close tau (qrot q) m' ->
  exists s, sign s /\ q4close (4 * tau) (qscal s q) (q_of_mat m').
Proof.
  intros U H.
  assert (B : forall s, sign s -> Rabs (s * qw q) <= 1 /\ Rabs (s * qx q) <= 1 /\ Rabs (s * qy q) <= 1 /\ Rabs (s * qz q) <= 1).
  { intros s [-> | ->]; unfold unitq, qnorm2 in U; repeat split; apply Rabs_le; nra. }
  destruct q as [w x y z], m' as [a b c d e f g h i]. unfold unitq, qnorm2 in U. cbn in U, B.
  destruct H as ((Ha & Hb & Hc) & (Hd & He & Hf) & (Hg & Hh & Hi)). cbn in Ha, Hb, Hc, Hd, He, Hf, Hg, Hh, Hi.
  unfold q_of_mat. cbn [m00 m01 m02 m10 m11 m12 m20 m21 m22 trace3].
  unfold trace3. cbn [m00 m11 m22].
  assert (Neg : forall p r, Rabs (p - r) <= tau -> Rabs (- (p - r)) <= tau) by (intros; now rewrite Rabs_Ropp).
  pose proof (Neg _ _ Ha) as Ha'. pose proof (Neg _ _ He) as He'. pose proof (Neg _ _ Hi) as Hi'.
  pose proof (Neg _ _ Hb) as Hb'. pose proof (Neg _ _ Hc) as Hc'. pose proof (Neg _ _ Hd) as Hd'.
  pose proof (Neg _ _ Hf) as Hf'. pose proof (Neg _ _ Hg) as Hg'. pose proof (Neg _ _ Hh) as Hh'. clear Neg.
  destruct (Rlt_dec 0 (a + e + i)) as [T|T].
  - destruct (sign_abs w) as (s & S & P). exists s. split; [exact S|].
    pose proof (sign_sq s S) as SS. destruct (B s S) as (B1 & B2 & B3 & B4).
    set (r := sqrt (a + e + i + 1)).
    assert (RR : r * r = a + e + i + 1) by (apply sqrt_sqrt; lra).
    assert (R1 : 1 <= r) by (rewrite <- sqrt_1; apply sqrt_le_1; lra).
    assert (Q : Rabs (r * r - 4 * ((s * w) * (s * w))) <= 3 * tau).
    { rewrite RR. replace (s * w * (s * w)) with ((s * s) * (w * w)) by ring. rewrite SS.
      eapply Rle_trans; [|exact (abs3 _ _ _ _ Ha' He' Hi')]. apply Req_le, f_equal. nra. }
    unfold q4close, qscal. cbn [qw qx qy qz].
    split; [exact (pivot_half _ _ _ P R1 Q)|].
    assert (K : forall v, 4 * (s * w * (s * v)) = 4 * (w * v)) by (intros v; replace (s * w * (s * v)) with ((s * s) * (w * v)) by ring; rewrite SS; ring).
    split; [|split]; apply (quot_close (s * w) r tau); auto; rewrite K.
    + eapply Rle_trans; [|exact (abs2 _ _ _ Hh Hf')]. apply Req_le, f_equal. ring.
    + eapply Rle_trans; [|exact (abs2 _ _ _ Hc Hg')]. apply Req_le, f_equal. ring.
    + eapply Rle_trans; [|exact (abs2 _ _ _ Hd Hb')]. apply Req_le, f_equal. ring.
  - assert (DM : (if Rlt_dec a e then e else a) >= a /\ (if Rlt_dec a e then e else a) >= e)
      by (destruct (Rlt_dec a e); lra).
    destruct (Rlt_dec (if Rlt_dec a e then e else a) i) as [T2|T2]; [|destruct (Rlt_dec a e) as [T3|T3]].
    + destruct (sign_abs z) as (s & S & P). exists s. split; [exact S|].
      pose proof (sign_sq s S) as SS. destruct (B s S) as (B1 & B2 & B3 & B4).
      set (r := sqrt (i - a - e + 1)).
      assert (RR : r * r = i - a - e + 1) by (apply sqrt_sqrt; lra).
      assert (R1 : 1 <= r) by (rewrite <- sqrt_1; apply sqrt_le_1; lra).
      assert (Q : Rabs (r * r - 4 * ((s * z) * (s * z))) <= 3 * tau).
      { rewrite RR. replace (s * z * (s * z)) with ((s * s) * (z * z)) by ring. rewrite SS.
        eapply Rle_trans; [|exact (abs3 _ _ _ _ Hi' Ha He)]. apply Req_le, f_equal. nra. }
      unfold q4close, qscal. cbn [qw qx qy qz].
      assert (K : forall v, 4 * (s * z * (s * v)) = 4 * (z * v)) by (intros v; replace (s * z * (s * v)) with ((s * s) * (z * v)) by ring; rewrite SS; ring).
      split; [|split; [|split; [|exact (pivot_half _ _ _ P R1 Q)]]]; apply (quot_close (s * z) r tau); auto; rewrite K.
      * eapply Rle_trans; [|exact (abs2 _ _ _ Hd Hb')]. apply Req_le, f_equal. ring.
      * eapply Rle_trans; [|exact (abs2 _ _ _ Hc Hg)]. apply Req_le, f_equal. ring.
      * eapply Rle_trans; [|exact (abs2 _ _ _ Hf Hh)]. apply Req_le, f_equal. ring.
    + destruct (sign_abs y) as (s & S & P). exists s. split; [exact S|].
      pose proof (sign_sq s S) as SS. destruct (B s S) as (B1 & B2 & B3 & B4).
      set (r := sqrt (e - i - a + 1)).
      assert (RR : r * r = e - i - a + 1) by (apply sqrt_sqrt; lra).
      assert (R1 : 1 <= r) by (rewrite <- sqrt_1; apply sqrt_le_1; lra).
      assert (Q : Rabs (r * r - 4 * ((s * y) * (s * y))) <= 3 * tau).
      { rewrite RR. replace (s * y * (s * y)) with ((s * s) * (y * y)) by ring. rewrite SS.
        eapply Rle_trans; [|exact (abs3 _ _ _ _ He' Ha Hi)]. apply Req_le, f_equal. nra. }
      unfold q4close, qscal. cbn [qw qx qy qz].
      assert (K : forall v, 4 * (s * y * (s * v)) = 4 * (y * v)) by (intros v; replace (s * y * (s * v)) with ((s * s) * (y * v)) by ring; rewrite SS; ring).
      split; [|split; [|split; [exact (pivot_half _ _ _ P R1 Q)|]]]; apply (quot_close (s * y) r tau); auto; rewrite K.
      * eapply Rle_trans; [|exact (abs2 _ _ _ Hc Hg')]. apply Req_le, f_equal. ring.
      * eapply Rle_trans; [|exact (abs2 _ _ _ Hb Hd)]. apply Req_le, f_equal. ring.
      * eapply Rle_trans; [|exact (abs2 _ _ _ Hh Hf)]. apply Req_le, f_equal. ring.
    + destruct (sign_abs x) as (s & S & P). exists s. split; [exact S|].
      pose proof (sign_sq s S) as SS. destruct (B s S) as (B1 & B2 & B3 & B4).
      set (r := sqrt (a - e - i + 1)).
      assert (RR : r * r = a - e - i + 1) by (apply sqrt_sqrt; lra).
      assert (R1 : 1 <= r) by (rewrite <- sqrt_1; apply sqrt_le_1; lra).
      assert (Q : Rabs (r * r - 4 * ((s * x) * (s * x))) <= 3 * tau).
      { rewrite RR. replace (s * x * (s * x)) with ((s * s) * (x * x)) by ring. rewrite SS.
        eapply Rle_trans; [|exact (abs3 _ _ _ _ Ha' He Hi)]. apply Req_le, f_equal. nra. }
      unfold q4close, qscal. cbn [qw qx qy qz].
      assert (K : forall v, 4 * (s * x * (s * v)) = 4 * (x * v)) by (intros v; replace (s * x * (s * v)) with ((s * s) * (x * v)) by ring; rewrite SS; ring).
      split; [|split; [exact (pivot_half _ _ _ P R1 Q)|split]]; apply (quot_close (s * x) r tau); auto; rewrite K.
      * eapply Rle_trans; [|exact (abs2 _ _ _ Hh Hf')]. apply Req_le, f_equal. ring.
      * eapply Rle_trans; [|exact (abs2 _ _ _ Hd Hb)]. apply Req_le, f_equal. ring.
      * eapply Rle_trans; [|exact (abs2 _ _ _ Hg Hc)]. apply Req_le, f_equal. ring.
Qed.

Lemma LR_pair x y f f' g g' : LR x f f' -> LR y g g' -> exists K, 0 < K /\ near (fun h =>
  (Rabs (f h - x) <= K * Rabs h /\ Rabs (g h - y) <= K * Rabs h) /\
  (Rabs (f h - f' h) <= K * (h * h) /\ Rabs (g h - g' h) <= K * (h * h))).
Proof.
  intros H H'. destruct (LR_pos _ _ _ H) as (K & KP & N). destruct (LR_pos _ _ _ H') as (K' & KP' & N').
  exists (K + K'). split; [lra|]. apply (near_impl2 _ _ _) with (2 := N) (3 := N').
  intros h (A & B & C) (A' & B' & C'). pose proof (Rabs_pos h). pose proof (sqr_le_abs h A). repeat split; nra.
Qed.

Lemma LM_close m f f' : LM m f f' -> exists K, 0 < K /\ near (fun h =>
  m3close (K * Rabs h) m (f h) /\ m3close (K * (h * h)) (f h) (f' h)).
Proof.
  intros ((H1 & H2 & H3) & (H4 & H5 & H6) & (H7 & H8 & H9)).
  destruct (LR_pos _ _ _ H1) as (K1 & P1 & N1). destruct (LR_pos _ _ _ H2) as (K2 & P2 & N2).
  destruct (LR_pos _ _ _ H3) as (K3 & P3 & N3). destruct (LR_pos _ _ _ H4) as (K4 & P4 & N4).
  destruct (LR_pos _ _ _ H5) as (K5 & P5 & N5). destruct (LR_pos _ _ _ H6) as (K6 & P6 & N6).
  destruct (LR_pos _ _ _ H7) as (K7 & P7 & N7). destruct (LR_pos _ _ _ H8) as (K8 & P8 & N8).
  destruct (LR_pos _ _ _ H9) as (K9 & P9 & N9). clear H1 H2 H3 H4 H5 H6 H7 H8 H9.
  set (K := K1 + K2 + K3 + K4 + K5 + K6 + K7 + K8 + K9).
  exists K. split; [unfold K; lra|].
  apply (near_impl2 _ _ _) with (2 := near_and _ _ (near_and _ _ N1 (near_and _ _ N2 N3)) (near_and _ _ N4 (near_and _ _ N5 N6)))
    (3 := near_and _ _ N7 (near_and _ _ N8 N9)).
  clear N1 N2 N3 N4 N5 N6 N7 N8 N9. intros h (((S & A1 & B1) & (_ & A2 & B2) & (_ & A3 & B3)) & (_ & A4 & B4) & (_ & A5 & B5) & (_ & A6 & B6))
    ((_ & A7 & B7) & (_ & A8 & B8) & (_ & A9 & B9)).
  pose proof (Rabs_pos h) as Ph. pose proof (sqr_le_abs h S) as (Sh & _).
  assert (L1 : K1 <= K) by (unfold K; lra). assert (L2 : K2 <= K) by (unfold K; lra).
  assert (L3 : K3 <= K) by (unfold K; lra). assert (L4 : K4 <= K) by (unfold K; lra).
  assert (L5 : K5 <= K) by (unfold K; lra). assert (L6 : K6 <= K) by (unfold K; lra).
  assert (L7 : K7 <= K) by (unfold K; lra). assert (L8 : K8 <= K) by (unfold K; lra).
  assert (L9 : K9 <= K) by (unfold K; lra). clearbody K.
  assert (T : forall x k t, Rabs x <= k * t -> 0 <= t -> k <= K -> Rabs x <= K * t).
  { intros x k t H Ht Hk. apply (Rle_trans _ _ _ H). now apply Rmult_le_compat_r. }
  assert (Sy : forall x y k t, Rabs (x - y) <= k * t -> 0 <= t -> k <= K -> Rabs (y - x) <= K * t).
  { intros x y k t H Ht Hk. rewrite Rabs_minus_sym. eauto. }
  unfold m3close. repeat split; eauto.
Qed.

Lemma q4close_dec t a b : {q4close t a b} + {~ q4close t a b}.
Proof.
  unfold q4close.
  destruct (Rle_dec (Rabs (qw a - qw b)) t); [|right; tauto].
  destruct (Rle_dec (Rabs (qx a - qx b)) t); [|right; tauto].
  destruct (Rle_dec (Rabs (qy a - qy b)) t); [|right; tauto].
  destruct (Rle_dec (Rabs (qz a - qz b)) t); [left|right]; tauto.
Qed.

Lemma qscal_1 q : qscal 1 q = q.
Proof. destruct q. unfold qscal. cbn. f_equal; ring. Qed.
Lemma qscal_qscal a b q : qscal a (qscal b q) = qscal (a * b) q.
Proof. destruct q. unfold qscal. cbn. f_equal; ring. Qed.
Lemma q4close_sign t s a b : sign s -> q4close t (qscal s a) b -> q4close t a (qscal s b).
Proof.
  intros S (A & B & C & D). destruct a, b. cbn in *.
  assert (E : forall x y, x - s * y = s * (s * x - y)).
  { intros x y. replace (s * (s * x - y)) with ((s * s) * x - s * y) by ring. rewrite (sign_sq s S). ring. }
  assert (F : forall x y, Rabs (s * x - y) <= t -> Rabs (x - s * y) <= t).
  { intros x y H. rewrite E, Rabs_mult. destruct S as [-> | ->]; [rewrite Rabs_R1; lra|].
    rewrite Rabs_left by lra. lra. }
  unfold q4close. cbn. auto.
Qed.
Lemma q4close_scal t s a b : sign s -> q4close t a b -> q4close t (qscal s a) (qscal s b).
Proof.
  intros S H. apply q4close_sign; [exact S|]. rewrite qscal_qscal, (sign_sq s S), qscal_1. exact H.
Qed.

(** Sign choices are made pointwise. *)
Lemma LQ_choice q f f' K : near (fun h => exists s s', sign s /\ sign s' /\
    q4close (K * Rabs h) q (qscal s (f h)) /\ q4close (K * (h * h)) (f h) (qscal s' (f' h))) -> LQ q f f'.
Proof.
  intros N.
  set (sg := fun t a b => if q4close_dec t a b then 1 else -1).
  assert (G : forall t a b, sign (sg t a b)) by (intros; unfold sg, sign; destruct (q4close_dec t a b); auto).
  assert (C : forall t a b s, sign s -> q4close t a (qscal s b) -> q4close t a (qscal (sg t a b) b)).
  { intros t a b s S H. unfold sg. destruct (q4close_dec t a b) as [Y|Y]; [now rewrite qscal_1|].
    destruct S as [-> | ->]; [rewrite qscal_1 in H; contradiction|exact H]. }
  set (s := fun h => sg (K * Rabs h) q (f h)).
  set (s' := fun h => s h * sg (K * (h * h)) (f h) (f' h)).
  exists s, s'. split; [intros h; split; [apply G|apply sign_mul; apply G]|].
  assert (M : near (fun h => q4close (K * Rabs h) q (qscal (s h) (f h)) /\
                    q4close (K * (h * h)) (qscal (s h) (f h)) (qscal (s' h) (f' h)))).
  { apply (near_impl _ _) with (2 := N). intros h (t & t' & T & T' & A & B).
    split; [now apply (C _ _ _ t)|]. unfold s'. rewrite <- qscal_qscal. apply q4close_scal; [apply G|].
    now apply (C _ _ _ t'). }
  unfold LQ1, LR. repeat split; exists K; (apply (near_impl _ _) with (2 := M)); intros h ((A & B & Cc & D) & (A' & B' & C' & D'));
    (split; [rewrite Rabs_minus_sym|]; assumption).
Qed.

Lemma LQ_of_mat q m f f' : unitq q -> qrot q = m -> near (fun h => is_rot (f h)) -> LM m f f' ->
  LQ q (fun h => q_of_mat (f h)) (fun h => q_of_mat (f' h)).
Proof.
  intros U E R H. destruct (LM_close _ _ _ H) as (K & KP & N). apply (LQ_choice _ _ _ (4 * K)).
  apply (near_impl2 _ _ _) with (2 := R) (3 := N). intros h Rh (A & B). subst m.
  destruct (q_of_mat_near q (f h) _ U A) as (s & S & Q).
  destruct (q_of_mat_correct (f h) Rh) as (U' & E').
  rewrite <- E' in B. destruct (q_of_mat_near _ (f' h) _ U' B) as (s' & S' & Q').
  exists s, s'. rewrite !(Rmult_assoc 4). repeat split; auto using q4close_sign.
  all: apply q4close_sign; auto.
Qed.

(** ** Conversion to angle and axis *)

Lemma aa_of_q_scale k q : 0 < k -> aa_of_q (qscal k q) = aa_of_q q.
Proof.
  intros Hk. unfold aa_of_q.
  assert (E : qvec (qscal k q) = vscal k (qvec q)) by (destruct q; reflexivity).
  assert (N : vnorm (qvec (qscal k q)) = k * vnorm (qvec q)).
  { rewrite E. unfold vnorm. replace (vnorm2 (vscal k (qvec q))) with (k * k * vnorm2 (qvec q)).
    - rewrite sqrt_mult_alt by nra. now rewrite sqrt_square by lra.
    - destruct q. unfold vnorm2, vdot, vscal, qvec. cbn. ring. }
  rewrite N, E. set (n := vnorm (qvec q)).
  destruct (Req_EM_T (k * n) 0) as [Z|Z], (Req_EM_T n 0) as [Z'|Z'].
  - reflexivity.
  - exfalso. apply Rmult_integral in Z. lra.
  - exfalso. rewrite Z' in Z. lra.
  - assert (W : qw (qscal k q) = k * qw q) by reflexivity. rewrite W.
    rewrite Rabs_mult, (Rabs_pos_eq k) by lra.
    f_equal.
    + f_equal. unfold atan2_pos. destruct (Req_EM_T (k * Rabs (qw q)) 0) as [Y|Y], (Req_EM_T (Rabs (qw q)) 0) as [Y'|Y'].
      * reflexivity.
      * exfalso. apply Rmult_integral in Y. lra.
      * exfalso. rewrite Y' in Y. lra.
      * f_equal. field. lra.
    + destruct (Rlt_dec (k * qw q) 0) as [Y|Y], (Rlt_dec (qw q) 0) as [Y'|Y']; try (exfalso; nra);
        unfold vscal; f_equal; cbn; field; lra.
Qed.

Definition aa_mat (q : Q4) : M3 := aa_rot (fst (aa_of_q q)) (snd (aa_of_q q)).
Lemma aa_mat_nonunit q : 0 < qnorm2 q -> aa_mat q = qrot (qscal (/ sqrt (qnorm2 q)) q).
Proof.
  intros H. pose proof (sqrt_lt_R0 _ H) as S. pose proof (Rinv_0_lt_compat _ S) as I.
  unfold aa_mat. rewrite <- (aa_of_q_scale _ q I). apply aa_of_q_correct. unfold unitq.
  replace (qnorm2 (qscal (/ sqrt (qnorm2 q)) q)) with (/ sqrt (qnorm2 q) * / sqrt (qnorm2 q) * qnorm2 q).
  - rewrite <- (sqrt_sqrt (qnorm2 q)) at 3 by lra. field. lra.
  - destruct q. unfold qnorm2, qscal. cbn. ring.
Qed.

Lemma LR_qnorm2 q f f' : LQ1 q f f' -> LR (qnorm2 q) (fun h => qnorm2 (f h)) (fun h => qnorm2 (f' h)).
Proof. intros. lrdes. unfold qnorm2. lr. Qed.

Lemma LM_aa q f f' : unitq q -> LQ q f f' -> LM (qrot q) (fun h => aa_mat (f h)) (fun h => aa_mat (f' h)).
Proof.
  intros U (s & s' & S & H). pose proof (LR_qnorm2 _ _ _ H) as N.
  assert (P : 0 < qnorm2 q) by (unfold unitq in U; lra).
  assert (Sq : forall s q, sign s -> qnorm2 (qscal s q) = qnorm2 q).
  { intros t p T. replace (qnorm2 (qscal t p)) with (t * t * qnorm2 p) by (destruct p; unfold qnorm2, qscal; cbn; ring).
    rewrite (sign_sq t T). ring. }
  assert (E : near (fun h => qrot (qscal (/ sqrt (qnorm2 (qscal (s h) (f h)))) (qscal (s h) (f h))) = aa_mat (f h) /\
     qrot (qscal (/ sqrt (qnorm2 (qscal (s' h) (f' h)))) (qscal (s' h) (f' h))) = aa_mat (f' h))).
  { apply (near_impl _ _) with (2 := LR_gt _ _ _ 0 N P). intros h (A & B). destruct (S h) as (S1 & S2).
    rewrite !Sq in * by assumption.
    assert (C : forall k t p, sign t -> qrot (qscal k (qscal t p)) = qrot (qscal k p)).
    { intros k t p T. rewrite qscal_qscal, (Rmult_comm k t), <- qscal_qscal. now apply qrot_sign. }
    rewrite (aa_mat_nonunit _ A), (aa_mat_nonunit _ B). split; now apply C. }
  eapply LM_near; [exact E|].
  assert (D : LM (qrot (qscal (/ sqrt (qnorm2 q)) q))
    (fun h => qrot (qscal (/ sqrt (qnorm2 (qscal (s h) (f h)))) (qscal (s h) (f h))))
    (fun h => qrot (qscal (/ sqrt (qnorm2 (qscal (s' h) (f' h)))) (qscal (s' h) (f' h))))).
  { apply LM_qrot1. pose proof (LR_inv _ _ _ (Rgt_not_eq _ _ (sqrt_lt_R0 _ P)) (LR_sqrt _ _ _ P N)) as I.
    clear E N. destruct H as (H1 & H2 & H3 & H4).
    split; [|split; [|split]];
      [exact (LR_mul _ _ _ _ _ _ I H1)|exact (LR_mul _ _ _ _ _ _ I H2)
      |exact (LR_mul _ _ _ _ _ _ I H3)|exact (LR_mul _ _ _ _ _ _ I H4)]. }
  unfold unitq in U. rewrite U, sqrt_1, Rinv_1, qscal_1 in D. exact D.
Qed.

(** ** Logarithms and exponentials *)

Section Eps.
  Variable eps : R.
  Hypothesis He : 0 <= eps.

  Definition log_small (m : M3) : V3 := uncross (scal3 (1 / 2) (sub3 m (tr3 m))).
  Definition log_big (m : M3) : V3 :=
    let a := acos ((trace3 m - 1) / 2) in uncross (scal3 (a / (2 * sin a)) (sub3 m (tr3 m))).

  (** Away from the threshold and from half turns. *)
  Definition log_cond (m : M3) : Prop :=
    rot_angle m < PI /\ (eps < rot_angle m * rot_angle m \/ rot_angle m * rot_angle m < eps).

  Lemma log_mat_small m : ((trace3 m - 1) / 2 <= 1 -> -1 <= (trace3 m - 1) / 2 ->
    acos ((trace3 m - 1) / 2) * acos ((trace3 m - 1) / 2) <= eps) -> log_mat eps m = Some (log_small m).
  Proof.
    intros H. unfold log_mat. cbv zeta. destruct (Rle_dec (-1) _) as [A|A]; [|reflexivity].
    destruct (Rle_dec _ 1) as [B|B]; [|reflexivity]. specialize (H B A).
    destruct (Rlt_dec eps _) as [C|C]; [lra|reflexivity].
  Qed.

  Lemma log_mat_big m : -1 < (trace3 m - 1) / 2 < 1 ->
    eps < acos ((trace3 m - 1) / 2) * acos ((trace3 m - 1) / 2) -> log_mat eps m = Some (log_big m).
  Proof.
    intros X H. unfold log_mat. cbv zeta. destruct (Rle_dec (-1) _) as [A|A]; [|lra].
    destruct (Rle_dec _ 1) as [B|B]; [|lra]. destruct (Rlt_dec eps _) as [C|C]; [|lra].
    unfold odiv. destruct (Req_EM_T _ 0) as [Z|Z]; [|reflexivity].
    exfalso. pose proof (acos_bound_lt _ X) as (P1 & P2). pose proof (sin_gt_0 _ P1 P2). lra.
  Qed.

  Lemma acos_near1 e x : 0 < e -> cos (Rmin (sqrt e) 1 / 2) < x -> -1 <= x -> x <= 1 -> acos x * acos x < e.
  Proof.
    intros He' Hx X1 X2. pose proof (sqrt_lt_R0 e He') as S. pose proof (sqrt_sqrt e (Rlt_le _ _ He')) as SS.
    set (d := Rmin (sqrt e) 1 / 2) in *.
    assert (D : 0 < d < 1 /\ d < sqrt e).
    { unfold d, Rmin. destruct (Rle_dec (sqrt e) 1); lra. }
    pose proof (acos_bound x) as AB. pose proof PI2_3_2 as P. unfold PI2 in P.
    destruct (Rlt_dec (acos x) d) as [L|L]; [nra|]. exfalso.
    assert (cos (acos x) <= cos d) by (apply cos_decr_1; lra). rewrite cos_acos in H by lra. lra.
  Qed.

  Lemma LV_log_small m f f' : LM m f f' -> LV (log_small m) (fun h => log_small (f h)) (fun h => log_small (f' h)).
  Proof. intros. unfold log_small. lrgo. Qed.

  Lemma LV_log m f f' : is_rot m -> log_cond m -> LM m f f' ->
    exists w g g', log_mat eps m = Some w /\
      near (fun h => log_mat eps (f h) = Some (g h) /\ log_mat eps (f' h) = Some (g' h)) /\ LV w g g'.
  Proof.
    intros Rm (Ap & C) H. pose proof (rot_trace_bound m Rm) as TB.
    assert (X : LR ((trace3 m - 1) / 2) (fun h => (trace3 (f h) - 1) / 2) (fun h => (trace3 (f' h) - 1) / 2)).
    { apply LR_div; [lra| |apply LR_const]. apply LR_sub; [now apply LR_trace|apply LR_const]. }
    unfold rot_angle in Ap, C.
    pose proof (log_mat_small m) as LS. pose proof (log_mat_big m) as LB.
    pose proof (LV_log_small m f f' H) as LVS.
    set (lb := log_big m) in *. assert (Elb : lb = log_big m) by reflexivity. clearbody lb.
    set (x := (trace3 m - 1) / 2) in *. assert (Ex : x = (trace3 m - 1) / 2) by reflexivity. clearbody x.
    pose proof (acos_bound x) as AB.
    assert (X1 : -1 < x).
    { destruct (Rle_lt_or_eq_dec _ _ (proj1 TB)) as [L|E]; [exact L|]. exfalso. rewrite <- E in Ap.
      revert Ap. replace (-1) with (- (1)) by lra. rewrite acos_opp, acos_1. lra. }
    destruct C as [C|C].
    - assert (X2 : x < 1).
      { destruct (Rle_lt_or_eq_dec _ _ (proj2 TB)) as [L|E]; [exact L|]. exfalso. rewrite E, acos_1 in C. lra. }
      pose proof (LR_acos _ _ _ (conj X1 X2) X) as A.
      pose proof (LR_mul _ _ _ _ _ _ A A) as AA.
      exists lb, (fun h => log_big (f h)), (fun h => log_big (f' h)).
      split; [apply LB; [lra|exact C]|]. split.
      + apply (near_impl2 _ _ _) with (2 := near_and _ _ (LR_lt _ _ _ 1 X X2) (LR_gt _ _ _ (-1) X X1)) (3 := LR_gt _ _ _ eps AA C).
        intros h ((U1 & U2) & (U3 & U4)) (U5 & U6). split; apply log_mat_big; auto.
      + pose proof (acos_bound_lt _ (conj X1 X2)) as (P1 & P2). pose proof (sin_gt_0 _ P1 P2) as SP.
        assert (K : LR (acos x / (2 * sin (acos x)))
          (fun h => acos ((trace3 (f h) - 1) / 2) / (2 * sin (acos ((trace3 (f h) - 1) / 2))))
          (fun h => acos ((trace3 (f' h) - 1) / 2) / (2 * sin (acos ((trace3 (f' h) - 1) / 2))))).
        { apply (LR_div (acos x) (fun h => acos ((trace3 (f h) - 1) / 2)) (fun h => acos ((trace3 (f' h) - 1) / 2))
            (2 * sin (acos x))); [lra|exact A|]. apply LR_scal. apply (LR_sin _ _ _ A). }
        rewrite Elb. unfold log_big. cbv zeta. rewrite <- Ex.
        apply LV_uncross, LM_scal; [exact K|]. apply LM_sub; [exact H|]. now apply LM_tr.
    - assert (E0 : 0 < eps) by nra.
      exists (log_small m), (fun h => log_small (f h)), (fun h => log_small (f' h)).
      split; [apply LS; intros; lra|]. split; [|exact LVS].
      destruct (Rle_lt_or_eq_dec _ _ (proj2 TB)) as [X2|X2].
      + pose proof (LR_acos _ _ _ (conj X1 X2) X) as A. pose proof (LR_mul _ _ _ _ _ _ A A) as AA.
        apply (near_impl _ _) with (2 := LR_lt _ _ _ eps AA C). intros h (U1 & U2).
        split; apply log_mat_small; intros _ _; lra.
      + assert (Cl : cos (Rmin (sqrt eps) 1 / 2) < x).
        { rewrite X2. apply Rlt_le_trans with (cos 0); [|rewrite cos_0; lra]. pose proof (sqrt_lt_R0 eps E0). pose proof PI2_3_2 as P. unfold PI2 in P.
          assert (0 < Rmin (sqrt eps) 1 / 2 < 1) by (unfold Rmin; destruct (Rle_dec (sqrt eps) 1); lra).
          apply cos_decreasing_1; lra. }
        apply (near_impl _ _) with (2 := LR_gt _ _ _ _ X Cl). intros h (U1 & U2).
        split; apply log_mat_small; intros V1 V2; apply Rlt_le, acos_near1; auto.
  Qed.

  Lemma LR_odiv x f f' y g g' z : odiv x y = Some z -> LR x f f' -> LR y g g' ->
    z = x / y /\ near (fun h => odiv (f h) (g h) = Some (f h / g h) /\ odiv (f' h) (g' h) = Some (f' h / g' h)) /\
    LR z (fun h => f h / g h) (fun h => f' h / g' h).
  Proof.
    unfold odiv. destruct (Req_EM_T y 0) as [Z|Z]; [discriminate|]. intros [= <-] F G. split; [reflexivity|]. split.
    - apply (near_impl _ _) with (2 := LR_nz _ _ _ G Z). intros h (A & B).
      destruct (Req_EM_T (g h) 0), (Req_EM_T (g' h) 0); try contradiction. auto.
    - now apply LR_div.
  Qed.

  (** The translation part of the logarithm, as a function of the rotation part. *)
  Definition rt_log_t (w t : V3) : option V3 :=
    let theta2 := vnorm2 w in
    let theta := sqrt theta2 in
    let cross := skew w in
    if Rlt_dec eps theta2 then
      match odiv (sin theta) theta, odiv (1 - cos theta) theta2 with
      | Some A, Some B =>
          match odiv (A / 2) B with
          | Some AB =>
              match odiv (1 - AB) theta2 with
              | Some k => Some (app3 (add3 (sub3 i3 (scal3 (1 / 2) cross)) (scal3 k (mul3 cross cross))) t)
              | None => None
              end
          | None => None
          end
      | _, _ => None
      end
    else Some (app3 (sub3 i3 (scal3 (1 / 2) cross)) t).
  Lemma rt_log_split m t : rt_log eps m t =
    match log_mat eps m with
    | Some w => option_map (pair w) (rt_log_t w t)
    | None => None
    end.
  Proof.
    unfold rt_log, rt_log_t. destruct (log_mat eps m) as [w|]; [|reflexivity]. cbv zeta.
    destruct (Rlt_dec _ _); [|reflexivity]. destruct (odiv _ _); [|reflexivity].
    destruct (odiv _ _); [|reflexivity]. destruct (odiv _ _); [|reflexivity]. destruct (odiv _ _); reflexivity.
  Qed.

  Lemma LV_rt_log_t w f f' t g g' u : vnorm2 w <> eps -> rt_log_t w t = Some u -> LV w f f' -> LV t g g' ->
    exists k k', near (fun h => rt_log_t (f h) (g h) = Some (k h) /\ rt_log_t (f' h) (g' h) = Some (k' h)) /\ LV u k k'.
  Proof.
    intros Ne E F G. pose proof (LR_norm2 _ _ _ F) as N. pose proof (LM_skew _ _ _ F) as S.
    pose proof (LM_mul _ _ _ _ _ _ S S) as S2.
    pose proof (LM_sub _ _ _ _ _ _ (LM_const i3) (LM_scal _ _ _ _ _ _ (LR_const (1/2)) S)) as V1.
    unfold rt_log_t in E. cbv zeta in E. destruct (Rlt_dec eps (vnorm2 w)) as [L|L].
    - assert (Np : 0 < vnorm2 w) by lra.
      pose proof (LR_sqrt _ _ _ Np N) as T. pose proof (LR_sin _ _ _ T) as Sn. pose proof (LR_cos _ _ _ T) as Cs.
      destruct (odiv (sin (sqrt (vnorm2 w))) (sqrt (vnorm2 w))) as [A|] eqn:EA; [|discriminate].
      destruct (LR_odiv _ _ _ _ _ _ _ EA Sn T) as (_ & NA & LA).
      destruct (odiv (1 - cos (sqrt (vnorm2 w))) (vnorm2 w)) as [B|] eqn:EB; [|discriminate].
      destruct (LR_odiv _ _ _ _ _ _ _ EB (LR_sub _ _ _ _ _ _ (LR_const 1) Cs) N) as (_ & NB & LB).
      destruct (odiv (A / 2) B) as [AB|] eqn:EAB; [|discriminate].
      destruct (LR_odiv _ _ _ _ _ _ _ EAB (LR_div _ _ _ _ _ _ (Rgt_not_eq 2 0 Rlt_0_2) LA (LR_const 2)) LB) as (_ & NAB & LAB).
      destruct (odiv (1 - AB) (vnorm2 w)) as [k|] eqn:Ek; [|discriminate].
      destruct (LR_odiv _ _ _ _ _ _ _ Ek (LR_sub _ _ _ _ _ _ (LR_const 1) LAB) N) as (_ & Nk & Lk).
      injection E as <-.
      pose proof (LV_app _ _ _ _ _ _ (LM_add _ _ _ _ _ _ V1 (LM_scal _ _ _ _ _ _ Lk S2)) G) as Q.
      eexists _, _. split; [|exact Q].
      apply (near_impl2 _ _ _) with (2 := near_and _ _ (near_and _ _ NA NB) (near_and _ _ NAB Nk)) (3 := LR_gt _ _ _ eps N L).
      intros h (((a1 & a2) & (b1 & b2)) & (c1 & c2) & (d1 & d2)) (e1 & e2).
      unfold rt_log_t. cbv zeta. split.
      + destruct (Rlt_dec eps (vnorm2 (f h))); [|contradiction]. rewrite a1, b1, c1, d1. reflexivity.
      + destruct (Rlt_dec eps (vnorm2 (f' h))); [|contradiction]. rewrite a2, b2, c2, d2. reflexivity.
    - injection E as <-. pose proof (LV_app _ _ _ _ _ _ V1 G) as Q.
      eexists _, _. split; [|exact Q].
      assert (L' : vnorm2 w < eps) by lra.
      apply (near_impl _ _) with (2 := LR_lt _ _ _ eps N L'). intros h (e1 & e2).
      unfold rt_log_t. cbv zeta. destruct (Rlt_dec eps (vnorm2 (f h))); [lra|].
      destruct (Rlt_dec eps (vnorm2 (f' h))); [lra|]. split; reflexivity.
  Qed.

  Lemma LQ_exp v f f' : eps < vnorm2 v * vnorm2 v -> LV v f f' ->
    LQ (exp_quat eps v) (fun h => exp_quat eps (f h)) (fun h => exp_quat eps (f' h)).
  Proof.
    intros L F. apply LQ_of1. pose proof (LR_norm2 _ _ _ F) as N.
    assert (P : 0 <= vnorm2 v) by (rewrite <- vnorm_sq; nra).
    assert (Np : 0 < vnorm2 v) by nra.
    pose proof (LR_sqrt _ _ _ Np N) as T. pose proof (sqrt_lt_R0 _ Np) as Sp.
    assert (H2 : LR (sqrt (vnorm2 v) / 2) (fun h => sqrt (vnorm2 (f h)) / 2) (fun h => sqrt (vnorm2 (f' h)) / 2))
      by (apply LR_div; [lra|exact T|apply LR_const]).
    pose proof (LR_div _ _ _ _ _ _ (Rgt_not_eq _ _ Sp) (LR_sin _ _ _ H2) T) as K.
    pose proof (LR_cos _ _ _ H2) as Cs.
    assert (E : forall u, eps < vnorm2 u * vnorm2 u -> exp_quat eps u =
      mkQ (cos (sqrt (vnorm2 u) / 2)) (sin (sqrt (vnorm2 u) / 2) / sqrt (vnorm2 u) * vx u)
        (sin (sqrt (vnorm2 u) / 2) / sqrt (vnorm2 u) * vy u) (sin (sqrt (vnorm2 u) / 2) / sqrt (vnorm2 u) * vz u)).
    { intros u Hu. unfold exp_quat. destruct (Rlt_dec eps (vnorm2 u * vnorm2 u)); [reflexivity|contradiction]. }
    eapply LQ1_near.
    - apply (near_impl _ _) with (2 := LR_gt _ _ _ eps (LR_mul _ _ _ _ _ _ N N) L). intros h (A & B).
      rewrite (E _ A), (E _ B). split; reflexivity.
    - rewrite (E _ L). destruct F as (F1 & F2 & F3). unfold LQ1. cbn [qw qx qy qz].
      split; [exact Cs|]. split; [exact (LR_mul _ _ _ _ _ _ K F1)|].
      split; [exact (LR_mul _ _ _ _ _ _ K F2)|exact (LR_mul _ _ _ _ _ _ K F3)].
  Qed.

  Lemma L_twist_exp w f f' u g g' : eps < vnorm2 w -> LV w f f' -> LV u g g' ->
    LM (fst (twist_exp eps w u)) (fun h => fst (twist_exp eps (f h) (g h))) (fun h => fst (twist_exp eps (f' h) (g' h))) /\
    LV (snd (twist_exp eps w u)) (fun h => snd (twist_exp eps (f h) (g h))) (fun h => snd (twist_exp eps (f' h) (g' h))).
  Proof.
    intros L F G. pose proof (LR_norm2 _ _ _ F) as N. assert (Np : 0 < vnorm2 w) by lra.
    pose proof (LM_skew _ _ _ F) as S. pose proof (LM_mul _ _ _ _ _ _ S S) as S2.
    pose proof (LR_sqrt _ _ _ Np N) as T. pose proof (sqrt_lt_R0 _ Np) as Sp.
    pose proof (LR_div _ _ _ _ _ _ (Rgt_not_eq _ _ Sp) (LR_sin _ _ _ T) T) as A.
    pose proof (LR_div _ _ _ _ _ _ (Rgt_not_eq _ _ Np) (LR_sub _ _ _ _ _ _ (LR_const 1) (LR_cos _ _ _ T)) N) as B.
    pose proof (LR_div _ _ _ _ _ _ (Rgt_not_eq _ _ Np) (LR_sub _ _ _ _ _ _ (LR_const 1) A) N) as C.
    pose proof (LM_add _ _ _ _ _ _ (LM_add _ _ _ _ _ _ (LM_const i3) (LM_scal _ _ _ _ _ _ A S)) (LM_scal _ _ _ _ _ _ B S2)) as M.
    pose proof (LV_app _ _ _ _ _ _ (LM_add _ _ _ _ _ _ (LM_add _ _ _ _ _ _ (LM_const i3) (LM_scal _ _ _ _ _ _ B S)) (LM_scal _ _ _ _ _ _ C S2)) G) as V.
    pose proof (LR_gt _ _ _ eps N L) as NL.
    assert (E : forall x y, eps < vnorm2 x -> twist_exp eps x y =
      (let A := sin (sqrt (vnorm2 x)) / sqrt (vnorm2 x) in let B := (1 - cos (sqrt (vnorm2 x))) / vnorm2 x in
       let C := (1 - A) / vnorm2 x in
       (add3 (add3 i3 (scal3 A (skew x))) (scal3 B (mul3 (skew x) (skew x))),
        app3 (add3 (add3 i3 (scal3 B (skew x))) (scal3 C (mul3 (skew x) (skew x)))) y))).
    { intros x y H. unfold twist_exp. cbv zeta. destruct (Rlt_dec eps (vnorm2 x)); [reflexivity|contradiction]. }
    rewrite (E _ _ L). cbn [fst snd]. split.
    - eapply LM_near; [|exact M]. apply (near_impl _ _) with (2 := NL). intros h (P & Q).
      rewrite (E _ _ P), (E _ _ Q). split; reflexivity.
    - eapply LV_near; [|exact V]. apply (near_impl _ _) with (2 := NL). intros h (P & Q).
      rewrite (E _ _ P), (E _ _ Q). split; reflexivity.
  Qed.
End Eps.
