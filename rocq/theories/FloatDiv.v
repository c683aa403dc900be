(** Errors of single operations on doubles, continued: quotients, unit vectors and arc
    cosines. *)

From Coq Require Import ZArith Reals List Bool Lra Lia Psatz Ratan.
From Flocq Require Import Core BinarySingleNaN.
From Verif Require Import Mat V3 ModelLeaf SpecLeaf LeafProofs ModelFloat SpecFlt FloatProofs FloatDrift FloatExp ModelFloatQ SpecFltQ FloatQuat FloatAct.
From Verif Require Import ModelExpr SpecExpr ModelFloatExpr SpecFltExpr FloatNorm FloatStep FloatStep2 SpecFltLog.
Import ListNotations.
Local Open Scope R_scope.

(** ** Reciprocals *)
Lemma recip_step S e y b : 0 <= e <= / 1000 -> 0 < S -> S <= 2 * Rabs b -> Rabs (y - b) <= e * S ->
  y <> 0 /\ b <> 0 /\ Rabs (/ b) <= 2 / S /\ Rabs (/ y - / b) <= 3 * e * (2 / S).
Proof.
  intros He HS Hb Hd.
  assert (B0 : 0 < Rabs b) by lra.
  assert (ES : e * S <= 2 * e * Rabs b).
  { apply Rle_trans with (e * (2 * Rabs b)); [apply Rmult_le_compat_l; lra|lra]. }
  assert (Y0 : (1 - 2 * e) * Rabs b <= Rabs y).
  { pose proof (Rabs_triang (b - y) y) as T. replace (b - y + y) with b in T by ring.
    rewrite <- (Rabs_Ropp (b - y)) in T. replace (- (b - y)) with (y - b) in T by ring. lra. }
  assert (Y1 : 0 < (1 - 2 * e) * Rabs b) by (apply Rmult_lt_0_compat; lra).
  assert (NY : y <> 0) by (intros ->; rewrite Rabs_R0 in Y0; lra).
  assert (NB : b <> 0) by (intros ->; rewrite Rabs_R0 in B0; lra).
  assert (IB : Rabs (/ b) <= 2 / S).
  { rewrite Rabs_inv. replace (2 / S) with (/ (S / 2)) by (field; lra). apply Rinv_le_contravar; lra. }
  split; [exact NY|]. split; [exact NB|]. split; [exact IB|].
  replace (/ y - / b) with (- (y - b) * / y * / b) by (field; auto).
  rewrite !Rabs_mult, Rabs_Ropp, Rabs_inv.
  assert (Q : Rabs (y - b) * / Rabs y <= 3 * e).
  { apply Rmult_le_reg_r with (Rabs y); [lra|]. rewrite Rmult_assoc, Rinv_l, Rmult_1_r by lra.
    apply Rle_trans with (2 * e * Rabs b); [lra|].
    apply Rle_trans with (3 * e * ((1 - 2 * e) * Rabs b)); [|apply Rmult_le_compat_l; lra].
    replace (3 * e * ((1 - 2 * e) * Rabs b)) with (3 * (1 - 2 * e) * (e * Rabs b)) by ring.
    assert (0 <= e * Rabs b) by (apply Rmult_le_pos; lra).
    assert (2 * (e * Rabs b) <= 3 * (1 - 2 * e) * (e * Rabs b)) by (apply Rmult_le_compat_r; lra). lra. }
  apply Rmult_le_compat; [|apply Rabs_pos|exact Q|exact IB].
  apply Rmult_le_pos; [apply Rabs_pos|]. left. apply Rinv_0_lt_compat. lra.
Qed.

Lemma three_small e1 e2 : 0 <= e1 <= / 1000 -> 0 <= e2 <= / 1000 -> 0 <= (1 + e1) * (1 + 3 * e2) - 1 <= 5 / 1000.
Proof.
  intros A B. replace ((1 + e1) * (1 + 3 * e2) - 1) with (e1 + 3 * e2 + 3 * (e1 * e2)) by ring.
  assert (0 <= e1 * e2) by (apply Rmult_le_pos; lra).
  assert (e1 * e2 <= / 1000 * / 1000) by (apply Rmult_le_compat; lra). lra.
Qed.

Lemma size_quot S1 S2 : tiny <= S1 -> tiny <= S2 -> S1 <= vast -> S2 <= vast ->
  0 <= 2 / S2 * S1 <= Rmax tiny (2 * (S1 / S2)) /\ tiny <= Rmax tiny (2 * (S1 / S2)) /\ 2 / S2 * S1 <= big / 2000.
Proof.
  intros A B C D. pose proof tiny_pos as T0. pose proof vast_big as (_ & VB & _).
  assert (TV : / tiny = vast) by (unfold tiny, vast; rewrite Rinv_inv; reflexivity).
  assert (IS : 0 < / S2 <= vast) by (split; [apply Rinv_0_lt_compat; lra|rewrite <- TV; apply Rinv_le_contravar; lra]).
  assert (Q : S1 * / S2 <= vast * vast) by (apply Rmult_le_compat; lra).
  assert (Q0 : 0 <= S1 * / S2) by (apply Rmult_le_pos; lra).
  replace (2 / S2 * S1) with (2 * (S1 * / S2)) by (field; lra). unfold Rdiv at 1 3.
  pose proof (Rmax_l tiny (2 * (S1 * / S2))); pose proof (Rmax_r tiny (2 * (S1 * / S2))). lra.
Qed.

(** ** Quotients *)
Lemma fdiv_step S1 S2 e1 e2 x y a b : sapprox S1 e1 x a -> sapprox S2 e2 y b -> 0 <= e1 <= / 1000 -> 0 <= e2 <= / 1000 ->
  tiny <= S1 -> tiny <= S2 -> S1 <= vast -> S2 <= vast -> S2 <= 2 * Rabs b ->
  sapprox (Rmax tiny (2 * (S1 / S2))) ((1 + e1) * (1 + 3 * e2) * (1 + / 2 ^ 44) - 1) (fdiv x y) (a / b).
Proof.
  intros Hx Hy H1 H2 A B C D Hb. pose proof tiny_pos as T0.
  destruct (size_quot S1 S2 A B C D) as ((P0 & P1) & P2 & P3). set (S := Rmax tiny (2 * (S1 / S2))) in *.
  pose proof (three_small e1 e2 H1 H2) as E. set (e := (1 + e1) * (1 + 3 * e2) - 1) in *.
  replace ((1 + e1) * (1 + 3 * e2) * (1 + / 2 ^ 44) - 1) with ((1 + e) * (1 + / 2 ^ 44) - 1) by (unfold e; ring).
  destruct Hx as (Fx & Nx & Dx). destruct Hy as (Fy & Ny & Dy).
  destruct (recip_step S2 e2 (val y) b H2 ltac:(lra) Hb Dy) as (NY & NB & IB & ID).
  assert (I0 : 0 <= 2 / S2) by (apply Rmult_le_pos; [lra|left; apply Rinv_0_lt_compat; lra]).
  pose proof (prod_err S1 (2 / S2) e1 (3 * e2) (val x) (/ val y) a (/ b) ltac:(lra) ltac:(lra) ltac:(lra) I0 Nx IB Dx ID) as PE.
  fold e in PE. rewrite (Rmult_comm S1) in PE.
  assert (NN : Rabs (a * / b) <= 2 / S2 * S1).
  { rewrite Rabs_mult, Rmult_comm. apply Rmult_le_compat; auto; apply Rabs_pos. }
  assert (EQ : e * (2 / S2 * S1) <= 5 / 1000 * (2 / S2 * S1)) by (apply Rmult_le_compat_r; lra).
  assert (BV : Rabs (val x / val y) <= 2 * (2 / S2 * S1)) by (pose proof (abs_le_dist _ _ _ PE); unfold Rdiv in *; lra).
  destruct (fdiv_ok x y Fx NY ltac:(lra)) as [F V].
  assert (RN := round_size S (val x / val y) P2 ltac:(lra)).
  split; [exact F|]. split; [unfold Rdiv in *; lra|].
  replace (val (fdiv x y) - a / b) with ((val x * / val y - a * / b) + (val (fdiv x y) - val x / val y)) by (unfold Rdiv; ring).
  eapply Rle_trans; [apply Rabs_triang|]. apply grow_sum; try lra.
  - apply Rle_trans with (e * (2 / S2 * S1)); [exact PE|]. apply Rmult_le_compat_l; lra.
  - rewrite V. assert (US : 0 < u * S) by (apply Rmult_lt_0_compat; [apply u_pos|lra]). lra.
Qed.

Lemma vdiv_step S1 S2 e1 e2 v s x b : vapprox S1 e1 v x -> sapprox S2 e2 s b -> 0 <= e1 <= / 1000 -> 0 <= e2 <= / 1000 ->
  tiny <= S1 -> tiny <= S2 -> S1 <= vast -> S2 <= vast -> S2 <= 2 * Rabs b ->
  vapprox (Rmax tiny (2 * (S1 / S2))) ((1 + e1) * (1 + 3 * e2) * (1 + / 2 ^ 44) - 1) (dmapv (fun t => fdiv t s) v) (vscal (/ b) x).
Proof.
  intros Hv Hy H1 H2 A B C D Hb. pose proof tiny_pos as T0.
  destruct (size_quot S1 S2 A B C D) as ((P0 & P1) & P2 & P3). set (S := Rmax tiny (2 * (S1 / S2))) in *.
  pose proof (three_small e1 e2 H1 H2) as E. set (e := (1 + e1) * (1 + 3 * e2) - 1) in *.
  replace ((1 + e1) * (1 + 3 * e2) * (1 + / 2 ^ 44) - 1) with ((1 + e) * (1 + / 2 ^ 44) - 1) by (unfold e; ring).
  destruct (vapprox_comp _ _ _ _ Hv) as (b0 & b1 & b2).
  destruct Hy as (Fy & Ny & Dy). destruct Hv as (_ & Nx & Dx).
  destruct (recip_step S2 e2 (val s) b H2 ltac:(lra) Hb Dy) as (NY & NB & IB & ID).
  assert (I0 : 0 <= 2 / S2) by (apply Rmult_le_pos; [lra|left; apply Rinv_0_lt_compat; lra]).
  assert (EQ : e * (2 / S2 * S1) <= 5 / 1000 * (2 / S2 * S1)) by (apply Rmult_le_compat_r; lra).
  assert (US : 0 < u * S) by (apply Rmult_lt_0_compat; [apply u_pos|lra]).
  assert (X : forall t z, sapprox S1 e1 t z -> finite (fdiv t s) /\ Rabs (val (fdiv t s) - / val s * val t) <= 100 * (u * S)).
  { intros t z (Ft & Nz & Dz).
    pose proof (prod_err S1 (2 / S2) e1 (3 * e2) (val t) (/ val s) z (/ b) ltac:(lra) ltac:(lra) ltac:(lra) I0 Nz IB Dz ID) as PE.
    fold e in PE. rewrite (Rmult_comm S1) in PE.
    assert (NN : Rabs (z * / b) <= 2 / S2 * S1).
    { rewrite Rabs_mult, Rmult_comm. apply Rmult_le_compat; auto; apply Rabs_pos. }
    assert (BV : Rabs (val t / val s) <= 2 * (2 / S2 * S1)) by (pose proof (abs_le_dist _ _ _ PE); unfold Rdiv in *; lra).
    destruct (fdiv_ok t s Ft NY ltac:(lra)) as [F V].
    assert (RN := round_size S (val t / val s) P2 ltac:(lra)).
    split; [exact F|]. rewrite V. unfold Rdiv in *. rewrite (Rmult_comm (/ val s)). lra. }
  destruct (X _ _ b0) as [f0 r0]. destruct (X _ _ b1) as [f1 r1]. destruct (X _ _ b2) as [f2 r2].
  assert (NN : Rabs (/ b) * vnorm x <= 2 / S2 * S1) by (apply Rmult_le_compat; auto; [apply Rabs_pos|apply vnorm_nonneg]).
  apply (vround _ e _ (vscal (/ val s) (vval v))); try lra.
  - repeat split; assumption.
  - repeat split; assumption.
  - rewrite vscal_norm. lra.
  - rewrite vscal_diff. eapply Rle_trans; [apply norm_triangle|]. eapply Rle_trans; [apply Rplus_le_compat_l, norm_triangle|].
    rewrite !vscal_norm. set (i := / val s) in *. set (j := / b) in *.
    pose proof (Rabs_pos (i - j)); pose proof (Rabs_pos j); pose proof (vnorm_nonneg x); pose proof (vnorm_nonneg (vsub (vval v) x)).
    set (K := 2 / S2) in *.
    assert (Q1 : Rabs (i - j) * vnorm (vsub (vval v) x) <= (3 * e2 * K) * (e1 * S1)) by (apply Rmult_le_compat; assumption).
    assert (Q2 : Rabs (i - j) * vnorm x <= (3 * e2 * K) * S1) by (apply Rmult_le_compat; assumption).
    assert (Q3 : Rabs j * vnorm (vsub (vval v) x) <= K * (e1 * S1)) by (apply Rmult_le_compat; assumption).
    apply Rle_trans with (e * (K * S1)); [unfold e; lra|]. apply Rmult_le_compat_l; lra.
Qed.

(** ** Unit vectors *)
Lemma nearest_zero : nearest 0 = 0. Proof. apply round_0. typeclasses eauto. Qed.

Lemma unit_step o S e v x : vapprox S e v x -> 0 <= e <= / 2000 -> tiny <= S -> S <= vast -> S <= 2 * vnorm x ->
  fgt (ddot o v v) f0 = true /\
  vapprox 2 ((1 + e) * (1 + 3 * ((1 + e) * (1 + / 2 ^ 44) - 1)) * (1 + / 2 ^ 44) - 1)
    (dmapv (fun t => fdiv t (fsqrt (ddot o v v))) v) (vscal (/ vnorm x) x).
Proof.
  intros Hv He HS HV Hx. pose proof tiny_pos as T0. pose proof (norm_step o S e v x Hv ltac:(lra) HS HV) as Hn.
  assert (U44 : 0 < / 2 ^ 44 <= / 1000000).
  { split; [apply Rinv_0_lt_compat, pow_lt; lra|]. apply Rinv_le_contravar; [lra|]. cbn [pow]; lra. }
  assert (E' : 0 <= (1 + e) * (1 + / 2 ^ 44) - 1 <= / 1000).
  { replace ((1 + e) * (1 + / 2 ^ 44) - 1) with (e + / 2 ^ 44 + e * / 2 ^ 44) by ring.
    assert (0 <= e * / 2 ^ 44) by (apply Rmult_le_pos; lra).
    assert (e * / 2 ^ 44 <= / 2000 * / 1000000) by (apply Rmult_le_compat; lra). lra. }
  split.
  - destruct Hn as (F & _ & Dn). apply Rabs_le_inv in Dn.
    assert (((1 + e) * (1 + / 2 ^ 44) - 1) * S <= / 1000 * S) by (apply Rmult_le_compat_r; lra).
    assert (VP : 0 < val (fsqrt (ddot o v v))) by lra.
    pose proof (vapprox_norm _ _ _ _ Hv) as Nv. destruct Hv as (Fv & _ & _).
    assert (HH : vnorm (vval v) <= huge).
    { apply Rle_trans with (2 * vast).
      - assert (e * S <= / 2000 * S) by (apply Rmult_le_compat_r; lra). lra.
      - unfold vast, huge. replace 401%nat with (1 + 400)%nat by reflexivity. rewrite pow_add. lra. }
    destruct (a2_ok o v Fv HH) as [F2 _]. pose proof (a2_nonneg o v Fv HH) as Z0.
    destruct (fsqrt_ok _ F2 Z0) as [_ V].
    assert (Z1 : 0 < val (ddot o v v)).
    { destruct Z0 as [Z0|Z0]; [exact Z0|exfalso]. rewrite V, <- Z0, sqrt_0 in VP. rewrite nearest_zero in VP. lra. }
    assert (V0 : val f0 = 0) by reflexivity. apply fgt_ok; [exact F2|reflexivity|]. rewrite V0. exact Z1.
  - pose proof (vdiv_step S S e _ v _ x _ Hv Hn ltac:(lra) E' HS HS HV HV) as D. rewrite (Rabs_pos_eq (vnorm x)) in D by apply vnorm_nonneg.
    specialize (D Hx). replace (Rmax tiny (2 * (S / S))) with 2 in D; [exact D|].
    replace (2 * (S / S)) with 2 by (field; lra). rewrite Rmax_right; [reflexivity|].
    unfold tiny. apply Rle_trans with (/ 1); [apply Rinv_le_contravar; [lra|]; apply pow_R1_Rle; lra|lra].
Qed.

(** ** Arc cosines *)
Lemma acos_slope x : -0.91 <= x <= 0.91 -> derivable_pt_lim acos x (- / sqrt (1 - Rsqr x)) /\ 0 < / sqrt (1 - Rsqr x) <= 2.5.
Proof.
  intros H. assert (H' : -1 < x < 1) by lra. split.
  - assert (E : derive_pt acos x (derivable_pt_acos _ H') = - / sqrt (1 - Rsqr x)) by (rewrite derive_pt_acos; unfold Rdiv; ring).
    rewrite <- E. exact (proj2_sig (derivable_pt_acos _ H')).
  - assert (Q : 0.4 * 0.4 <= 1 - Rsqr x) by (unfold Rsqr; nra).
    assert (S : 0.4 <= sqrt (1 - Rsqr x)) by (rewrite <- (sqrt_square 0.4) by lra; now apply sqrt_le_1_alt).
    split; [apply Rinv_0_lt_compat; lra|]. replace 2.5 with (/ 0.4) by lra. apply Rinv_le_contravar; lra.
Qed.

Lemma acos_lip x y : -0.91 <= x <= 0.91 -> -0.91 <= y <= 0.91 -> Rabs (acos x - acos y) <= 2.5 * Rabs (x - y).
Proof.
  assert (L : forall x y, -0.91 <= x -> y <= 0.91 -> x < y -> Rabs (acos y - acos x) <= 2.5 * Rabs (y - x)).
  { intros a b Ha Hb Hab. destruct (MVT_cor2 acos (fun t => - / sqrt (1 - Rsqr t)) a b Hab) as (t & E & Ht).
    - intros t Ht. apply acos_slope; lra.
    - rewrite E, Rabs_mult, Rabs_Ropp. apply Rmult_le_compat_r; [apply Rabs_pos|].
      destruct (acos_slope t) as [_ B]; [lra|]. rewrite Rabs_pos_eq; lra. }
  intros Hx Hy. destruct (Rtotal_order x y) as [H|[->|H]].
  - rewrite <- (Rabs_Ropp (acos x - acos y)), <- (Rabs_Ropp (x - y)), !Ropp_minus_distr. apply L; lra.
  - unfold Rminus. rewrite !Rplus_opp_r, Rabs_R0. lra.
  - apply L; lra.
Qed.

Lemma acos_step M S e s y : acos_ulp M -> sapprox S e s y -> 0 <= e <= / 1000 -> 0 <= S <= 4 -> Rabs y <= 9 / 10 ->
  -1 <= y <= 1 /\ sapprox 4 ((1 + 3 * e) * (1 + / 2 ^ 44) - 1) (facos M s) (acos y).
Proof.
  intros [HA _] (F & _ & D) He HS N. pose proof (Rabs_le_inv _ _ N). pose proof (Rabs_le_inv _ _ D).
  assert (ES : e * S <= / 1000 * 4) by (apply Rmult_le_compat; lra).
  assert (EL : e * S <= e * 4) by (apply Rmult_le_compat_l; lra).
  split; [lra|]. destruct (HA s F) as [Fa Va]; [apply Rabs_le; lra|].
  pose proof (acos_lip (val s) y ltac:(lra) ltac:(lra)) as L.
  pose proof (acos_bound y) as Ay. pose proof (acos_bound (val s)) as As. pose proof PI_4 as P4.
  split; [exact Fa|]. split; [rewrite Rabs_pos_eq; lra|].
  replace (val (facos M s) - acos y) with ((acos (val s) - acos y) + (val (facos M s) - acos (val s))) by ring.
  eapply Rle_trans; [apply Rabs_triang|]. apply grow_sum; try lra.
  eapply Rle_trans; [exact Va|]. assert (U2 : / 2 ^ 52 <= 2 * u) by (rewrite u_val; cbn [pow]; lra).
  assert (T : / 2 ^ 1074 <= u).
  { rewrite u_val. replace 1074%nat with (53 + 1021)%nat by reflexivity. rewrite pow_add, Rinv_mult.
    assert (0 < / 2 ^ 1021 <= 1).
    { split; [apply Rinv_0_lt_compat, pow_lt; lra|]. rewrite <- Rinv_1. apply Rinv_le_contravar; [lra|]. apply pow_R1_Rle; lra. }
    assert (0 < / 2 ^ 53) by (apply Rinv_0_lt_compat, pow_lt; lra).
    apply Rle_trans with (/ 2 ^ 53 * 1); [apply Rmult_le_compat_l; lra|]. cbn [pow]; lra. }
  assert (/ 2 ^ 52 * acos (val s) <= 2 * u * 4) by (apply Rmult_le_compat; try lra; left; apply Rinv_0_lt_compat, pow_lt; lra).
  pose proof u_pos. lra.
Qed.
