(** Errors of single operations on doubles, continued: sums, products, norms, products of
    rotations, conversions. *)

From Coq Require Import ZArith Reals List Bool Lra Lia Psatz.
From Flocq Require Import Core BinarySingleNaN.
From Verif Require Import Mat V3 ModelLeaf SpecLeaf ModelFloat SpecFlt FloatProofs FloatDrift FloatExp ModelFloatQ SpecFltQ FloatQuat FloatAct.
From Verif Require Import ModelExpr SpecExpr ModelFloatExpr SpecFltExpr FloatNorm.
Import ListNotations.
Local Open Scope R_scope.

Lemma u_pos : 0 < u. Proof. rewrite u_val. lra. Qed.

(** One rounding of a number of size at most 2 S. *)
Lemma round_size S x : tiny <= S -> Rabs x <= 2 * S -> Rabs (nearest x - x) <= 3 * (u * S).
Proof.
  intros HS Hx. eapply Rle_trans; [apply nearest_err|]. pose proof eta_tiny_u as ET. pose proof u_pos as U.
  assert (u * tiny <= u * S) by (apply Rmult_le_compat_l; lra).
  assert (u * Rabs x <= u * (2 * S)) by (apply Rmult_le_compat_l; lra). pose proof eta_pos. lra.
Qed.

(** ** Numbers *)
Definition sapprox (S e : R) (s : double) (y : R) : Prop := finite s /\ Rabs y <= S /\ Rabs (val s - y) <= e * S.

Lemma sapprox_abs S e s y : sapprox S e s y -> Rabs (val s) <= (1 + e) * S.
Proof. intros (_ & A & B). pose proof (abs_le_dist _ _ _ B). lra. Qed.

Lemma grow_sum e S a b : 0 <= e -> 0 <= S -> a <= e * S -> b <= 512 * (u * S) -> a + b <= ((1 + e) * (1 + / 2 ^ 44) - 1) * S.
Proof.
  intros He HS A B. rewrite unit_44. pose proof u_pos as U.
  replace (((1 + e) * (1 + 512 * u) - 1) * S) with (e * S + 512 * (u * S) + 512 * (e * (u * S))) by ring.
  assert (0 <= e * (u * S)) by (apply Rmult_le_pos; [|apply Rmult_le_pos]; lra). lra.
Qed.

Lemma fadd_step S1 S2 e x y a b : sapprox S1 e x a -> sapprox S2 e y b -> 0 <= e <= / 1000 -> tiny <= S1 -> tiny <= S2 ->
  S1 + S2 <= vast ->
  sapprox (S1 + S2) ((1 + e) * (1 + / 2 ^ 44) - 1) (fadd x y) (a + b) /\
  sapprox (S1 + S2) ((1 + e) * (1 + / 2 ^ 44) - 1) (fsub x y) (a - b).
Proof.
  intros (Fx & Hx & Dx) (Fy & Hy & Dy) He H1 H2 HV. pose proof vast_big as (VB & _ & _). pose proof tiny_pos as T0.
  pose proof (abs_between _ _ _ Dx). pose proof (abs_between _ _ _ Dy). apply Rabs_le_inv in Hx, Hy.
  assert (E1 : e * S1 <= / 1000 * S1) by (apply Rmult_le_compat_r; lra).
  assert (E2 : e * S2 <= / 1000 * S2) by (apply Rmult_le_compat_r; lra).
  assert (B1 : Rabs (val x + val y) <= 2 * (S1 + S2)) by (apply Rabs_le; lra).
  assert (B2 : Rabs (val x - val y) <= 2 * (S1 + S2)) by (apply Rabs_le; lra).
  destruct (fadd_ok x y Fx Fy ltac:(lra)) as [F V]. destruct (fsub_ok x y Fx Fy ltac:(lra)) as [F' V'].
  apply (round_size (S1 + S2)) in B1, B2; try lra. rewrite <- V in B1. rewrite <- V' in B2.
  assert (US : 0 < u * (S1 + S2)) by (apply Rmult_lt_0_compat; [apply u_pos|lra]).
  apply Rabs_le_inv in Dx, Dy.
  split; (split; [assumption|]; split; [apply Rabs_le; lra|]).
  - replace (val (fadd x y) - (a + b)) with ((val x - a + (val y - b)) + (val (fadd x y) - (val x + val y))) by ring.
    eapply Rle_trans; [apply Rabs_triang|]. apply grow_sum; try lra. apply Rabs_le; lra.
  - replace (val (fsub x y) - (a - b)) with ((val x - a - (val y - b)) + (val (fsub x y) - (val x - val y))) by ring.
    eapply Rle_trans; [apply Rabs_triang|]. apply grow_sum; try lra. apply Rabs_le; lra.
Qed.

Lemma prod_err S1 S2 e1 e2 x y a b : 0 <= e1 -> 0 <= e2 -> 0 <= S1 -> 0 <= S2 ->
  Rabs a <= S1 -> Rabs b <= S2 -> Rabs (x - a) <= e1 * S1 -> Rabs (y - b) <= e2 * S2 ->
  Rabs (x * y - a * b) <= ((1 + e1) * (1 + e2) - 1) * (S1 * S2).
Proof.
  intros. replace (x * y - a * b) with ((x - a) * (y - b) + (x - a) * b + a * (y - b)) by ring.
  eapply Rle_trans; [apply Rabs_triang|]. eapply Rle_trans; [apply Rplus_le_compat_r, Rabs_triang|]. rewrite !Rabs_mult.
  pose proof (Rabs_pos (x - a)); pose proof (Rabs_pos (y - b)); pose proof (Rabs_pos a); pose proof (Rabs_pos b).
  assert (Rabs (x - a) * Rabs (y - b) <= (e1 * S1) * (e2 * S2)) by (apply Rmult_le_compat; assumption).
  assert (Rabs (x - a) * Rabs b <= (e1 * S1) * S2) by (apply Rmult_le_compat; assumption).
  assert (Rabs a * Rabs (y - b) <= S1 * (e2 * S2)) by (apply Rmult_le_compat; assumption). lra.
Qed.

Lemma grow_prod e S a b : 0 <= e -> 0 <= S -> a <= e * S -> b <= 512 * (u * S) -> a + b <= ((1 + e) * (1 + / 2 ^ 44) - 1) * S.
Proof. apply grow_sum. Qed.

Lemma two_small e1 e2 : 0 <= e1 <= / 1000 -> 0 <= e2 <= / 1000 -> 0 <= (1 + e1) * (1 + e2) - 1 <= 3 / 1000.
Proof.
  intros A B. replace ((1 + e1) * (1 + e2) - 1) with (e1 + e2 + e1 * e2) by ring.
  assert (0 <= e1 * e2) by (apply Rmult_le_pos; lra).
  assert (e1 * e2 <= / 1000 * / 1000) by (apply Rmult_le_compat; lra). lra.
Qed.

Lemma size_prod S1 S2 : tiny <= S1 -> tiny <= S2 -> S1 <= vast -> S2 <= vast ->
  0 <= S1 * S2 <= Rmax tiny (S1 * S2) /\ tiny <= Rmax tiny (S1 * S2) /\ S1 * S2 <= big / 4000.
Proof.
  intros A B C D. pose proof tiny_pos. pose proof vast_big as (_ & VB & _).
  assert (0 <= S1 * S2) by (apply Rmult_le_pos; lra). assert (S1 * S2 <= vast * vast) by (apply Rmult_le_compat; lra).
  pose proof (Rmax_l tiny (S1 * S2)); pose proof (Rmax_r tiny (S1 * S2)). lra.
Qed.

Lemma fmul_step S1 S2 e1 e2 x y a b : sapprox S1 e1 x a -> sapprox S2 e2 y b -> 0 <= e1 <= / 1000 -> 0 <= e2 <= / 1000 ->
  tiny <= S1 -> tiny <= S2 -> S1 <= vast -> S2 <= vast ->
  sapprox (Rmax tiny (S1 * S2)) ((1 + e1) * (1 + e2) * (1 + / 2 ^ 44) - 1) (fmul x y) (a * b).
Proof.
  intros (Fx & Hx & Dx) (Fy & Hy & Dy) H1 H2 A B C D. pose proof tiny_pos as T0.
  destruct (size_prod S1 S2 A B C D) as ((P0 & P1) & P2 & P3). set (S := Rmax tiny (S1 * S2)) in *.
  pose proof (two_small e1 e2 H1 H2) as E. set (e := (1 + e1) * (1 + e2) - 1) in *.
  pose proof (prod_err S1 S2 e1 e2 (val x) (val y) a b ltac:(lra) ltac:(lra) ltac:(lra) ltac:(lra) Hx Hy Dx Dy) as PE. fold e in PE.
  assert (AB : Rabs (a * b) <= S1 * S2) by (rewrite Rabs_mult; apply Rmult_le_compat; auto; apply Rabs_pos).
  pose proof (abs_le_dist _ _ _ PE) as AD.
  assert (ES : e * (S1 * S2) <= 3 / 1000 * (S1 * S2)) by (apply Rmult_le_compat_r; lra).
  assert (ES2 : e * (S1 * S2) <= e * S) by (apply Rmult_le_compat_l; lra).
  destruct (fmul_ok x y Fx Fy ltac:(lra)) as [F V]. split; [exact F|]. split; [lra|].
  assert (RN : Rabs (val (fmul x y) - val x * val y) <= 3 * (u * S)) by (rewrite V; apply round_size; lra).
  replace (val (fmul x y) - a * b) with ((val x * val y - a * b) + (val (fmul x y) - val x * val y)) by ring.
  eapply Rle_trans; [apply Rabs_triang|].
  replace ((1 + e1) * (1 + e2) * (1 + / 2 ^ 44) - 1) with ((1 + e) * (1 + / 2 ^ 44) - 1) by (unfold e; ring).
  assert (0 < u * S) by (apply Rmult_lt_0_compat; [apply u_pos|lra]). apply grow_sum; lra.
Qed.

(** ** Vectors, component by component *)
Lemma vapprox_comp S e v x : vapprox S e v x ->
  sapprox S e (dx v) (vx x) /\ sapprox S e (dy v) (vy x) /\ sapprox S e (dz v) (vz x).
Proof.
  intros ((F0 & F1 & F2) & Hx & Dv). destruct (comp_le_norm x) as (A & B & C).
  destruct (comp_le_norm (vsub (vval v) x)) as (A' & B' & C').
  split; [|split]; (split; [assumption|]; split; [lra|]); [exact (Rle_trans _ _ _ A' Dv)|exact (Rle_trans _ _ _ B' Dv)|exact (Rle_trans _ _ _ C' Dv)].
Qed.

(** Rounding errors of components, against the exact result on the stored operands. *)
Lemma vround S e w z y : 0 <= e -> 0 <= S -> vfinite w -> vwithin (100 * (u * S)) (vval w) z -> vnorm y <= S ->
  vnorm (vsub z y) <= e * S -> vapprox S ((1 + e) * (1 + / 2 ^ 44) - 1) w y.
Proof.
  intros He HS F W Hy D. split; [exact F|]. split; [exact Hy|]. apply vwithin_norm in W.
  pose proof (vdist_triangle (vval w) z y) as T. eapply Rle_trans; [exact T|]. rewrite Rplus_comm.
  assert (0 <= u * S) by (apply Rmult_le_pos; [left; apply u_pos|lra]). apply grow_sum; auto. lra.
Qed.

Lemma vadd_vsub a b c d : vsub (vadd a b) (vadd c d) = vadd (vsub a c) (vsub b d).
Proof. destruct a, b, c, d; unfold vadd, vsub; cbn; f_equal; ring. Qed.
Lemma vsub_vsub a b c d : vsub (vsub a b) (vsub c d) = vadd (vsub a c) (vopp (vsub b d)).
Proof. destruct a, b, c, d; unfold vadd, vsub, vopp; cbn; f_equal; ring. Qed.
Lemma vsub_opp a b : vsub a b = vadd a (vopp b).
Proof. destruct a, b; unfold vadd, vsub, vopp; cbn; f_equal; ring. Qed.

Lemma vadd_step S1 S2 e v w x y : vapprox S1 e v x -> vapprox S2 e w y -> 0 <= e <= / 1000 -> tiny <= S1 -> tiny <= S2 ->
  S1 + S2 <= vast ->
  vapprox (S1 + S2) ((1 + e) * (1 + / 2 ^ 44) - 1) (dmapv2 fadd v w) (vadd x y) /\
  vapprox (S1 + S2) ((1 + e) * (1 + / 2 ^ 44) - 1) (dmapv2 fsub v w) (vsub x y).
Proof.
  intros A B He H1 H2 HV. pose proof vast_big as (VB & _ & _). pose proof tiny_pos as T0.
  destruct (vapprox_comp _ _ _ _ A) as (a0 & a1 & a2). destruct (vapprox_comp _ _ _ _ B) as (b0 & b1 & b2).
  assert (X : forall p q r s, sapprox S1 e p r -> sapprox S2 e q s ->
     (finite (fadd p q) /\ Rabs (val (fadd p q) - (val p + val q)) <= 100 * (u * (S1 + S2))) /\
     (finite (fsub p q) /\ Rabs (val (fsub p q) - (val p - val q)) <= 100 * (u * (S1 + S2)))).
  { intros p q r s P Q. pose proof (sapprox_abs _ _ _ _ P) as P'. pose proof (sapprox_abs _ _ _ _ Q) as Q'.
    destruct P as (Fp & _ & _). destruct Q as (Fq & _ & _).
    assert (E1 : e * S1 <= / 1000 * S1) by (apply Rmult_le_compat_r; lra).
    assert (E2 : e * S2 <= / 1000 * S2) by (apply Rmult_le_compat_r; lra).
    apply Rabs_le_inv in P', Q'.
    assert (B1 : Rabs (val p + val q) <= 2 * (S1 + S2)) by (apply Rabs_le; lra).
    assert (B2 : Rabs (val p - val q) <= 2 * (S1 + S2)) by (apply Rabs_le; lra).
    destruct (fadd_ok p q Fp Fq ltac:(lra)) as [F V]. destruct (fsub_ok p q Fp Fq ltac:(lra)) as [F' V'].
    apply (round_size (S1 + S2)) in B1, B2; try lra. rewrite <- V in B1. rewrite <- V' in B2.
    assert (0 < u * (S1 + S2)) by (apply Rmult_lt_0_compat; [apply u_pos|lra]).
    split; (split; [assumption|lra]). }
  destruct (X _ _ _ _ a0 b0) as [[f0 e0] [g0 d0]]. destruct (X _ _ _ _ a1 b1) as [[f1 e1] [g1 d1]]. destruct (X _ _ _ _ a2 b2) as [[f2 e2] [g2 d2]].
  destruct A as (_ & Nx & Dx). destruct B as (_ & Ny & Dy).
  split.
  - apply (vround _ e _ (vadd (vval v) (vval w))); try lra.
    + repeat split; assumption.
    + repeat split; assumption.
    + eapply Rle_trans; [apply norm_triangle|lra].
    + rewrite vadd_vsub. eapply Rle_trans; [apply norm_triangle|lra].
  - apply (vround _ e _ (vsub (vval v) (vval w))); try lra.
    + repeat split; assumption.
    + repeat split; assumption.
    + rewrite vsub_opp. eapply Rle_trans; [apply norm_triangle|]. rewrite norm_opp. lra.
    + rewrite vsub_vsub. eapply Rle_trans; [apply norm_triangle|]. rewrite norm_opp. lra.
Qed.

Lemma vopp_step S e v x : vapprox S e v x -> vapprox S e (dmapv fopp v) (vopp x).
Proof.
  intros ((F0 & F1 & F2) & Hx & D). destruct (fopp_ok _ F0) as [G0 E0]. destruct (fopp_ok _ F1) as [G1 E1]. destruct (fopp_ok _ F2) as [G2 E2].
  split; [repeat split; assumption|]. split; [now rewrite norm_opp|].
  replace (vsub (vval (dmapv fopp v)) (vopp x)) with (vopp (vsub (vval v) x)); [now rewrite norm_opp|].
  unfold vval, dmapv, vsub, vopp; cbn [dx dy dz vx vy vz]. rewrite E0, E1, E2. f_equal; ring.
Qed.
Lemma sopp_step S e s y : sapprox S e s y -> sapprox S e (fopp s) (- y).
Proof.
  intros (F & H & D). destruct (fopp_ok _ F) as [G E]. split; [exact G|]. rewrite Rabs_Ropp. split; [exact H|].
  rewrite E. replace (- val s - - y) with (- (val s - y)) by ring. now rewrite Rabs_Ropp.
Qed.

Lemma vscal_diff k a l b : vsub (vscal k a) (vscal l b) = vadd (vscal (k - l) (vsub a b)) (vadd (vscal (k - l) b) (vscal l (vsub a b))).
Proof. destruct a, b; unfold vadd, vsub, vscal; cbn; f_equal; ring. Qed.

Lemma vscale_step S1 S2 e1 e2 s v y x f : sapprox S1 e1 s y -> vapprox S2 e2 v x -> 0 <= e1 <= / 1000 -> 0 <= e2 <= / 1000 ->
  tiny <= S1 -> tiny <= S2 -> S1 <= vast -> S2 <= vast -> (forall t, f t = fmul s t \/ f t = fmul t s) ->
  vapprox (Rmax tiny (S1 * S2)) ((1 + e1) * (1 + e2) * (1 + / 2 ^ 44) - 1) (dmapv f v) (vscal y x).
Proof.
  intros Hs Hv H1 H2 A B C D Hf. pose proof tiny_pos as T0.
  destruct (size_prod S1 S2 A B C D) as ((P0 & P1) & P2 & P3). set (S := Rmax tiny (S1 * S2)) in *.
  pose proof (two_small e1 e2 H1 H2) as E. set (e := (1 + e1) * (1 + e2) - 1) in *.
  replace ((1 + e1) * (1 + e2) * (1 + / 2 ^ 44) - 1) with ((1 + e) * (1 + / 2 ^ 44) - 1) by (unfold e; ring).
  destruct (vapprox_comp _ _ _ _ Hv) as (b0 & b1 & b2).
  assert (X : forall t z, sapprox S2 e2 t z -> finite (f t) /\ Rabs (val (f t) - val s * val t) <= 100 * (u * S)).
  { intros t z Ht. pose proof (sapprox_abs _ _ _ _ Hs) as As. pose proof (sapprox_abs _ _ _ _ Ht) as At.
    assert (Q : Rabs (val s * val t) <= ((1 + e1) * S1) * ((1 + e2) * S2)) by (rewrite Rabs_mult; apply Rmult_le_compat; auto; apply Rabs_pos).
    replace ((1 + e1) * S1 * ((1 + e2) * S2)) with ((1 + e) * (S1 * S2)) in Q by (unfold e; ring).
    assert (e * (S1 * S2) <= 3 / 1000 * (S1 * S2)) by (apply Rmult_le_compat_r; lra).
    destruct Hs as (Fs & _). destruct Ht as (Ft & _).
    assert (US : 0 < u * S) by (apply Rmult_lt_0_compat; [apply u_pos|lra]).
    assert (RN := round_size S (val s * val t) P2 ltac:(lra)).
    destruct (Hf t) as [-> | ->].
    - destruct (fmul_ok s t Fs Ft ltac:(lra)) as [F V]. split; [exact F|]. rewrite V. lra.
    - rewrite (Rmult_comm (val s)) in *. destruct (fmul_ok t s Ft Fs ltac:(lra)) as [F V]. split; [exact F|]. rewrite V. lra. }
  destruct (X _ _ b0) as [f0 r0]. destruct (X _ _ b1) as [f1 r1]. destruct (X _ _ b2) as [f2 r2].
  destruct Hs as (_ & Ny & Dy). destruct Hv as (_ & Nx & Dx).
  assert (NN : Rabs y * vnorm x <= S1 * S2) by (apply Rmult_le_compat; auto; [apply Rabs_pos|apply vnorm_nonneg]).
  apply (vround _ e _ (vscal (val s) (vval v))); try lra.
  - repeat split; assumption.
  - repeat split; assumption.
  - rewrite vscal_norm. lra.
  - rewrite vscal_diff. eapply Rle_trans; [apply norm_triangle|]. eapply Rle_trans; [apply Rplus_le_compat_l, norm_triangle|].
    rewrite !vscal_norm. pose proof (Rabs_pos (val s - y)); pose proof (Rabs_pos y); pose proof (vnorm_nonneg x); pose proof (vnorm_nonneg (vsub (vval v) x)).
    assert (Q1 : Rabs (val s - y) * vnorm (vsub (vval v) x) <= (e1 * S1) * (e2 * S2)) by (apply Rmult_le_compat; assumption).
    assert (Q2 : Rabs (val s - y) * vnorm x <= (e1 * S1) * S2) by (apply Rmult_le_compat; assumption).
    assert (Q3 : Rabs y * vnorm (vsub (vval v) x) <= S1 * (e2 * S2)) by (apply Rmult_le_compat; assumption).
    apply Rle_trans with (e * (S1 * S2)); [unfold e; lra|]. apply Rmult_le_compat_l; lra.
Qed.

Lemma vdot_diff a b x y : vdot a b - vdot x y = vdot (vsub a x) (vsub b y) + (vdot (vsub a x) y + vdot x (vsub b y)).
Proof. destruct a, b, x, y; unfold vdot, vsub; cbn; ring. Qed.
Lemma vdot_abs a b : Rabs (vdot a b) <= vnorm a * vnorm b.
Proof.
  apply Rabs_le. pose proof (cauchy a b) as A. pose proof (cauchy (vopp a) b) as B. rewrite norm_opp in B.
  replace (vdot (vopp a) b) with (- vdot a b) in B by (destruct a, b; unfold vdot, vopp; cbn; ring). lra.
Qed.

Lemma vdot_step o S1 S2 e1 e2 v w x y : vapprox S1 e1 v x -> vapprox S2 e2 w y -> 0 <= e1 <= / 1000 -> 0 <= e2 <= / 1000 ->
  tiny <= S1 -> tiny <= S2 -> S1 <= vast -> S2 <= vast ->
  sapprox (Rmax tiny (S1 * S2)) ((1 + e1) * (1 + e2) * (1 + / 2 ^ 44) - 1) (ddot o v w) (vdot x y).
Proof.
  intros Hv Hw H1 H2 A B C D. pose proof tiny_pos as T0.
  destruct (size_prod S1 S2 A B C D) as ((P0 & P1) & P2 & P3). set (S := Rmax tiny (S1 * S2)) in *.
  pose proof (two_small e1 e2 H1 H2) as E. set (e := (1 + e1) * (1 + e2) - 1) in *.
  replace ((1 + e1) * (1 + e2) * (1 + / 2 ^ 44) - 1) with ((1 + e) * (1 + / 2 ^ 44) - 1) by (unfold e; ring).
  pose proof (vapprox_norm _ _ _ _ Hv) as Nv. pose proof (vapprox_norm _ _ _ _ Hw) as Nw.
  assert (Q : vnorm (vval v) * vnorm (vval w) <= ((1 + e1) * S1) * ((1 + e2) * S2)) by (apply Rmult_le_compat; auto; apply vnorm_nonneg).
  replace ((1 + e1) * S1 * ((1 + e2) * S2)) with ((1 + e) * (S1 * S2)) in Q by (unfold e; ring).
  assert (e * (S1 * S2) <= 3 / 1000 * (S1 * S2)) by (apply Rmult_le_compat_r; lra).
  assert (HES : e * (S1 * S2) <= e * S) by (apply Rmult_le_compat_l; lra).
  destruct Hv as (Fv & Nx & Dx). destruct Hw as (Fw & Ny & Dy).
  destruct (dot_ok o v w (2 * S1 * S2) Fv Fw ltac:(lra) ltac:(lra)) as [F R].
  split; [exact F|]. split.
  { eapply Rle_trans; [apply vdot_abs|]. apply Rle_trans with (S1 * S2); [|lra]. apply Rmult_le_compat; auto; apply vnorm_nonneg. }
  assert (US : 0 < u * S) by (apply Rmult_lt_0_compat; [apply u_pos|lra]).
  assert (R' : Rabs (val (ddot o v w) - vdot (vval v) (vval w)) <= 512 * (u * S)).
  { pose proof eta_tiny_u as ET. pose proof u_pos as U. pose proof eta_pos.
    assert (u * tiny <= u * S) by (apply Rmult_le_compat_l; lra). assert (u * (S1 * S2) <= u * S) by (apply Rmult_le_compat_l; lra).
    eapply Rle_trans; [exact R|]. replace (4 * u * (2 * S1 * S2)) with (8 * (u * (S1 * S2))) by ring. lra. }
  assert (PE : Rabs (vdot (vval v) (vval w) - vdot x y) <= e * (S1 * S2)).
  { rewrite vdot_diff. eapply Rle_trans; [apply Rabs_triang|]. eapply Rle_trans; [apply Rplus_le_compat_l, Rabs_triang|].
    pose proof (vdot_abs (vsub (vval v) x) (vsub (vval w) y)). pose proof (vdot_abs (vsub (vval v) x) y). pose proof (vdot_abs x (vsub (vval w) y)).
    pose proof (vnorm_nonneg x); pose proof (vnorm_nonneg y); pose proof (vnorm_nonneg (vsub (vval v) x)); pose proof (vnorm_nonneg (vsub (vval w) y)).
    assert (Q1 : vnorm (vsub (vval v) x) * vnorm (vsub (vval w) y) <= (e1 * S1) * (e2 * S2)) by (apply Rmult_le_compat; assumption).
    assert (Q2 : vnorm (vsub (vval v) x) * vnorm y <= (e1 * S1) * S2) by (apply Rmult_le_compat; assumption).
    assert (Q3 : vnorm x * vnorm (vsub (vval w) y) <= S1 * (e2 * S2)) by (apply Rmult_le_compat; assumption).
    unfold e. lra. }
  replace (val (ddot o v w) - vdot x y) with ((vdot (vval v) (vval w) - vdot x y) + (val (ddot o v w) - vdot (vval v) (vval w))) by ring.
  eapply Rle_trans; [apply Rabs_triang|]. apply grow_sum; lra.
Qed.
