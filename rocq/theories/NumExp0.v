(** The exponential of a curve through zero: the exact one and the library's small-angle
    formula agree to second order. *)

From Coq Require Import Reals Lra Lia List Bool Arith.
From Verif Require Import Mat ModelMeta V3 ModelLeaf SpecLeaf LeafProofs Calc SpecDeriv PropsLie NumLip.
Import ListNotations.
Local Open Scope R_scope.

Lemma LR_id : LR 0 (fun h => h) (fun h => h).
Proof.
  exists 1. apply near_all. intros h. rewrite Rminus_0_r. split; [lra|].
  unfold Rminus. rewrite Rplus_opp_r, Rabs_R0. nra.
Qed.

(** Around x0, f within O(h^2) of f'. *)
Lemma LR_from x0 f f' K : LR x0 f' f' -> near (fun h => Rabs (f' h - f h) <= K * (h * h)) -> LR x0 f f'.
Proof.
  intros H N. destruct (LR_pos _ _ _ H) as (L & LP & M). exists (L + Rabs K).
  apply (near_impl2 _ _ _) with (2 := N) (3 := M). intros h A (S & B & _).
  pose proof (sqr_le_abs h S) as Q. pose proof (Rle_abs K) as AK. pose proof (Rabs_pos K) as PK.
  split.
  - replace (f h - x0) with ((f' h - x0) - (f' h - f h)) by ring.
    pose proof (Rabs_triang (f' h - x0) (- (f' h - f h))) as T. rewrite Rabs_Ropp in T. unfold Rminus at 1.
    eapply Rle_trans; [exact T|]. rewrite Rmult_plus_distr_r. apply Rplus_le_compat; [exact B|].
    eapply Rle_trans; [exact A|]. nra.
  - rewrite Rabs_minus_sym. eapply Rle_trans; [exact A|]. nra.
Qed.

Lemma LR_trans x f g k : LR x f g -> LR x g k -> LR x f k.
Proof.
  intros (K & N) (K' & N'). exists (K + Rabs K'). apply (near_impl2 _ _ _) with (2 := N) (3 := N').
  intros h (A & B) (A' & B'). pose proof (Rle_abs K') as Q. pose proof (Rabs_pos K') as P. pose proof (Rabs_pos h) as Ph.
  split; [nra|].
  replace (f h - k h) with ((f h - g h) + (g h - k h)) by ring.
  eapply Rle_trans; [apply Rabs_triang|]. nra.
Qed.

Lemma LR_refl_l x f f' : LR x f f' -> LR x f f.
Proof.
  intros (K & N). exists (Rabs K). apply (near_impl _ _) with (2 := N). intros h (A & _).
  pose proof (Rle_abs K). pose proof (Rabs_pos K). pose proof (Rabs_pos h). split; [nra|].
  unfold Rminus. rewrite Rplus_opp_r, Rabs_R0. nra.
Qed.

(** A quantity of first order squared is of second order. *)
Lemma LR_sq f f' : LR 0 f f' -> exists K, 0 < K /\ near (fun h => Rabs (f h * f h) <= K * (h * h)).
Proof.
  intros H. destruct (LR_pos _ _ _ H) as (K & KP & N). exists (K * K). split; [nra|].
  apply (near_impl _ _) with (2 := N). intros h (_ & A & _). rewrite Rminus_0_r in A. rewrite Rabs_mult.
  replace (h * h) with (Rabs h * Rabs h) by (unfold Rabs; destruct (Rcase_abs h); ring).
  pose proof (Rabs_pos (f h)). pose proof (Rabs_pos h). nra.
Qed.

Lemma LQ_exp0 eps f f' : 0 < eps -> LV v0 f f' ->
  LQ qone (fun h => exp_quat 0 (f h)) (fun h => exp_quat eps (f' h)).
Proof.
  intros He F. apply LQ_of1.
  pose proof (LR_norm2 _ _ _ F) as N2. replace (vnorm2 v0) with 0 in N2 by (v3unf; ring).
  pose proof F as (Fx & Fy & Fz). cbn [vx vy vz v0] in Fx, Fy, Fz.
  set (P := fun v => mkQ (1 - vnorm2 v / 8) ((1/2 + vnorm2 v / 48) * vx v) ((1/2 + vnorm2 v / 48) * vy v) ((1/2 + vnorm2 v / 48) * vz v)).
  (* the polynomial along both curves *)
  assert (PP : LQ1 qone (fun h => P (f h)) (fun h => P (f' h))).
  { assert (S : LR (1/2) (fun h => 1/2 + vnorm2 (f h) / 48) (fun h => 1/2 + vnorm2 (f' h) / 48)).
    { eapply LR_val; [|exact (LR_add _ _ _ _ _ _ (LR_const (1/2)) (LR_div _ _ _ _ _ _ (Rgt_not_eq 48 0 ltac:(lra)) N2 (LR_const 48)))]. lra. }
    split; [|split; [|split]]; unfold P; cbn [qw qx qy qz qone].
    - eapply LR_val; [|exact (LR_sub _ _ _ _ _ _ (LR_const 1) (LR_div _ _ _ _ _ _ (Rgt_not_eq 8 0 ltac:(lra)) N2 (LR_const 8)))]. lra.
    - eapply LR_val; [|exact (LR_mul _ _ _ _ _ _ S Fx)]. ring.
    - eapply LR_val; [|exact (LR_mul _ _ _ _ _ _ S Fy)]. ring.
    - eapply LR_val; [|exact (LR_mul _ _ _ _ _ _ S Fz)]. ring. }
  (* near 0 the code uses the polynomial *)
  assert (Sm : near (fun h => vnorm2 (f h) < 1/2 /\ (vnorm2 (f' h) < eps /\ vnorm2 (f' h) < 1/2))).
  { apply (near_impl2 _ _ _) with (2 := LR_lt _ _ _ eps N2 He) (3 := LR_lt _ _ _ (1/2) N2 ltac:(lra)). tauto. }
  assert (E : near (fun h => exp_quat eps (f' h) = P (f' h))).
  { apply (near_impl _ _) with (2 := Sm). intros h (_ & A & A'). pose proof (vnorm2_pos (f' h)).
    rewrite exp_quat_small; [reflexivity|nra]. }
  (* and the polynomial is close to the exponential *)
  destruct (LR_sq _ _ N2) as (K0 & K0P & B0). destruct (LR_sq _ _ Fx) as (Kx & KxP & Bx). destruct (LR_sq _ _ Fy) as (Ky & KyP & By).
  destruct (LR_sq _ _ Fz) as (Kz & KzP & Bz).
  assert (Cl : near (fun h => let q := P (f h) in let q0 := exp_quat 0 (f h) in
      Rabs (qw q - qw q0) <= K0 * (h * h) /\ Rabs (qx q - qx q0) <= (Kx + Ky + Kz) * (h * h) /\
      Rabs (qy q - qy q0) <= (Kx + Ky + Kz) * (h * h) /\ Rabs (qz q - qz q0) <= (Kx + Ky + Kz) * (h * h))).
  { apply (near_impl2 _ _ _) with (2 := near_and _ _ Sm (near_and _ _ B0 Bx)) (3 := near_and _ _ By Bz).
    intros h ((A & _) & (C0 & Cx)) (Cy & Cz).
    pose proof (vnorm2_pos (f h)) as Q.
    assert (A2 : vnorm2 (f h) * vnorm2 (f h) <= 1/2) by nra.
    destruct (exp_quat_small_close (1/2) (f h) ltac:(lra) A2) as (_ & _ & W & X & Y & Z).
    rewrite (exp_quat_small (1/2) (f h) A2) in W, X, Y, Z. cbv zeta. fold (P (f h)) in W, X, Y, Z.
    assert (N : vnorm2 (f h) = vx (f h) * vx (f h) + vy (f h) * vy (f h) + vz (f h) * vz (f h)) by (unfold vnorm2, vdot; ring).
    rewrite Rabs_right in C0, Cx, Cy, Cz by nra.
    assert (S1 : forall y, Rabs y <= 1 -> vnorm2 (f h) / 24 * Rabs y <= (Kx + Ky + Kz) * (h * h)).
    { intros y Hy. pose proof (Rabs_pos y). nra. }
    assert (S2 : forall y, y * y <= vnorm2 (f h) -> Rabs y <= 1).
    { intros y Hy. assert (y * y <= 1) by lra. apply Rabs_le. nra. }
    split; [nra|].
    split; [eapply Rle_trans; [exact X|]; apply S1, S2; nra|].
    split; [eapply Rle_trans; [exact Y|]; apply S1, S2; nra|eapply Rle_trans; [exact Z|]; apply S1, S2; nra]. }
  destruct PP as (PW & PX & PY & PZ).
  assert (Near : forall (g : Q4 -> R), near (fun h => g (P (f h)) = g (P (f h)) /\ g (P (f' h)) = g (exp_quat eps (f' h)))).
  { intros g. apply (near_impl _ _) with (2 := E). intros h ->. auto. }
  split; [|split; [|split]].
  - eapply LR_trans; [|exact (LR_near _ _ _ _ _ (Near qw) PW)].
    apply (LR_from _ _ _ K0 (LR_refl_l _ _ _ PW)). apply (near_impl _ _) with (2 := Cl). intros h (A & _). exact A.
  - eapply LR_trans; [|exact (LR_near _ _ _ _ _ (Near qx) PX)].
    apply (LR_from _ _ _ (Kx + Ky + Kz) (LR_refl_l _ _ _ PX)). apply (near_impl _ _) with (2 := Cl). intros h (_ & A & _). exact A.
  - eapply LR_trans; [|exact (LR_near _ _ _ _ _ (Near qy) PY)].
    apply (LR_from _ _ _ (Kx + Ky + Kz) (LR_refl_l _ _ _ PY)). apply (near_impl _ _) with (2 := Cl). intros h (_ & _ & A & _). exact A.
  - eapply LR_trans; [|exact (LR_near _ _ _ _ _ (Near qz) PZ)].
    apply (LR_from _ _ _ (Kx + Ky + Kz) (LR_refl_l _ _ _ PZ)). apply (near_impl _ _) with (2 := Cl). intros h (_ & _ & _ & A). exact A.
Qed.
