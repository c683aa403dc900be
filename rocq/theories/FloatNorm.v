(** Errors of single operations on doubles, for operands that carry errors themselves. *)

From Coq Require Import ZArith Reals List Bool Lra Lia Psatz.
From Flocq Require Import Core BinarySingleNaN.
From Verif Require Import Mat V3 ModelLeaf SpecLeaf ModelFloat SpecFlt FloatProofs FloatDrift FloatExp ModelFloatQ SpecFltQ FloatQuat FloatAct.
From Verif Require Import ModelExpr SpecExpr ModelFloatExpr SpecFltExpr.
Import ListNotations.
Local Open Scope R_scope.

(** ** Norms of matrices *)
Definition fnorm2 (m : M3) : R :=
  m00 m * m00 m + m01 m * m01 m + m02 m * m02 m + m10 m * m10 m + m11 m * m11 m + m12 m * m12 m
  + m20 m * m20 m + m21 m * m21 m + m22 m * m22 m.

Lemma fnorm2_nonneg m : 0 <= fnorm2 m.
Proof.
  unfold fnorm2. pose proof (Rle_0_sqr (m00 m)); pose proof (Rle_0_sqr (m01 m)); pose proof (Rle_0_sqr (m02 m));
  pose proof (Rle_0_sqr (m10 m)); pose proof (Rle_0_sqr (m11 m)); pose proof (Rle_0_sqr (m12 m));
  pose proof (Rle_0_sqr (m20 m)); pose proof (Rle_0_sqr (m21 m)); pose proof (Rle_0_sqr (m22 m)).
  unfold Rsqr in *. lra.
Qed.
Lemma fnorm_nonneg m : 0 <= fnorm m. Proof. apply sqrt_pos. Qed.
Lemma fnorm_sq m : fnorm m * fnorm m = fnorm2 m.
Proof. apply sqrt_sqrt, fnorm2_nonneg. Qed.
Lemma fnorm_le_sq m t : 0 <= t -> fnorm2 m <= t * t -> fnorm m <= t.
Proof. intros. change (fnorm m) with (sqrt (fnorm2 m)). rewrite <- (sqrt_square t) by assumption. now apply sqrt_le_1_alt. Qed.

Lemma fnorm2_rows m : fnorm2 m = vnorm2 (mrow0 m) + vnorm2 (mrow1 m) + vnorm2 (mrow2 m).
Proof. unfold fnorm2, vnorm2, vdot, mrow0, mrow1, mrow2; cbn [vx vy vz]. ring. Qed.

(** The norm of the row norms. *)
Definition rows (m : M3) : V3 := mkV (vnorm (mrow0 m)) (vnorm (mrow1 m)) (vnorm (mrow2 m)).
Lemma fnorm_rows m : fnorm m = vnorm (rows m).
Proof.
  change (fnorm m) with (sqrt (fnorm2 m)). unfold vnorm at 1. f_equal. rewrite fnorm2_rows.
  unfold rows, vnorm2 at 4, vdot; cbn [vx vy vz]. rewrite !vnorm_sq. ring.
Qed.

Lemma vnorm_mono a b : Rabs (vx a) <= vx b -> Rabs (vy a) <= vy b -> Rabs (vz a) <= vz b -> vnorm a <= vnorm b.
Proof.
  intros A B C. apply norm_le_sq; [apply vnorm_nonneg|]. rewrite vnorm_sq. unfold vnorm2, vdot.
  rewrite <- (abs_sq (vx a)), <- (abs_sq (vy a)), <- (abs_sq (vz a)).
  pose proof (Rabs_pos (vx a)); pose proof (Rabs_pos (vy a)); pose proof (Rabs_pos (vz a)).
  pose proof (Rmult_le_compat _ _ _ _ H H A A); pose proof (Rmult_le_compat _ _ _ _ H0 H0 B B);
  pose proof (Rmult_le_compat _ _ _ _ H1 H1 C C). lra.
Qed.

Lemma rows_mono a v : vnorm (mrow0 a) <= vx v -> vnorm (mrow1 a) <= vy v -> vnorm (mrow2 a) <= vz v -> fnorm a <= vnorm v.
Proof.
  intros. rewrite fnorm_rows. apply vnorm_mono; unfold rows; cbn [vx vy vz]; rewrite Rabs_pos_eq by apply vnorm_nonneg; assumption.
Qed.

Lemma fnorm_triangle a b : fnorm (add3 a b) <= fnorm a + fnorm b.
Proof.
  rewrite (fnorm_rows a), (fnorm_rows b). eapply Rle_trans; [|apply norm_triangle].
  apply (rows_mono _); unfold rows, vadd; cbn [vx vy vz]; (eapply Rle_trans; [|apply norm_triangle]); right; f_equal; destruct a, b; reflexivity.
Qed.

Lemma fnorm_scale_rows k v : 0 <= k -> vnorm (mkV (k * vx v) (k * vy v) (k * vz v)) = k * vnorm v.
Proof. intros H. change (mkV (k * vx v) (k * vy v) (k * vz v)) with (vscal k v). rewrite vscal_norm, Rabs_pos_eq; auto. Qed.

Lemma fnorm_tr m : fnorm (tr3 m) = fnorm m.
Proof. unfold fnorm. f_equal. destruct m; unfold tr3; cbn; ring. Qed.

(** |X v| <= |X| |v| *)
Lemma fnorm_app x v : vnorm (app3 x v) <= fnorm x * vnorm v.
Proof.
  rewrite fnorm_rows, Rmult_comm.
  rewrite <- fnorm_scale_rows by apply vnorm_nonneg.
  apply vnorm_mono; unfold rows, app3; cbn [vx vy vz]; apply Rabs_le;
  match goal with |- _ <= _ <= vnorm v * vnorm ?r =>
    pose proof (cauchy r v) as A; pose proof (cauchy (vopp r) v) as B; rewrite norm_opp in B;
    unfold vdot, vopp, mrow0, mrow1, mrow2 in A, B; cbn [vx vy vz] in A, B; unfold mrow0, mrow1, mrow2; lra
  end.
Qed.

(** Rows of a product. *)
Lemma mul_row x b :
  mrow0 (mul3 x b) = app3 (tr3 b) (mrow0 x) /\ mrow1 (mul3 x b) = app3 (tr3 b) (mrow1 x) /\
  mrow2 (mul3 x b) = app3 (tr3 b) (mrow2 x).
Proof.
  destruct x, b; unfold mrow0, mrow1, mrow2, mul3, app3, tr3; cbn.
  repeat split; f_equal; ring.
Qed.

Lemma fnorm_mul x b : fnorm (mul3 x b) <= fnorm x * fnorm b.
Proof.
  destruct (mul_row x b) as (A & B & C). rewrite (fnorm_rows x), Rmult_comm, <- fnorm_scale_rows by apply fnorm_nonneg.
  rewrite <- (fnorm_tr b). apply (rows_mono _); unfold rows; cbn [vx vy vz]; rewrite ?A, ?B, ?C; apply fnorm_app.
Qed.

Lemma fnorm_mul_rot_r x m : is_rot m -> fnorm (mul3 x m) = fnorm x.
Proof.
  intros H. destruct (mul_row x m) as (A & B & C). rewrite !fnorm_rows. f_equal. unfold rows. rewrite A, B, C.
  rewrite !norm_rot by (now apply is_rot_tr). reflexivity.
Qed.
Lemma tr_mul a b : tr3 (mul3 a b) = mul3 (tr3 b) (tr3 a).
Proof. destruct a, b; unfold tr3, mul3; cbn; f_equal; ring. Qed.
Lemma fnorm_mul_rot_l x m : is_rot m -> fnorm (mul3 m x) = fnorm x.
Proof. intros H. rewrite <- (fnorm_tr (mul3 m x)), tr_mul, fnorm_mul_rot_r, fnorm_tr; auto. now apply is_rot_tr. Qed.

Lemma fnorm_entry m d : mwithin d m (mkM 0 0 0 0 0 0 0 0 0) -> 0 <= d -> fnorm m <= 3 * d.
Proof.
  intros (a & b & c & e & f & g & h & i & j) Hd. cbn in *. rewrite Rminus_0_r in *.
  apply fnorm_le_sq; [lra|]. unfold fnorm2.
  assert (X : forall t, Rabs t <= d -> t * t <= d * d).
  { intros t T. rewrite <- (abs_sq t). apply Rmult_le_compat; auto; apply Rabs_pos. }
  apply X in a, b, c, e, f, g, h, i, j. lra.
Qed.
Lemma fnorm_within a b d : mwithin d a b -> 0 <= d -> fnorm (sub3 a b) <= 3 * d.
Proof.
  intros W Hd. apply fnorm_entry; auto. unfold mwithin, sub3 in *; cbn in *.
  rewrite !Rminus_0_r. exact W.
Qed.

(** A row or column is not longer than the whole. *)
Lemma row_le_fnorm m : vnorm (mrow0 m) <= fnorm m /\ vnorm (mrow1 m) <= fnorm m /\ vnorm (mrow2 m) <= fnorm m.
Proof.
  rewrite fnorm_rows. destruct (comp_le_norm (rows m)) as (A & B & C). unfold rows in *; cbn [vx vy vz] in *.
  rewrite Rabs_pos_eq in A, B, C by apply vnorm_nonneg. auto.
Qed.

(** ** Sizes *)
Lemma unit_44 : / 2 ^ 44 = 512 * u.
Proof. unfold u. replace 53%nat with (9 + 44)%nat by reflexivity. rewrite pow_add. replace (2 ^ 9) with 512 by ring. field. Qed.
Lemma tiny_pos : 0 < tiny. Proof. apply Rinv_0_lt_compat, pow_lt; lra. Qed.
Lemma eta_tiny_u : 1000 * eta <= u * tiny.
Proof.
  unfold eta, u, tiny. rewrite <- Rinv_mult, <- pow_add.
  replace 1075%nat with (10 + (53 + 400 + 612))%nat by reflexivity. rewrite (pow_add 2 10), (pow_add 2 (53 + 400)).
  replace (2 ^ 10) with 1024 by ring.
  assert (0 < 2 ^ (53 + 400)) by (apply pow_lt; lra). assert (1 <= 2 ^ 612) by (apply pow_R1_Rle; lra).
  generalize dependent (2 ^ (53 + 400)). generalize dependent (2 ^ 612). intros a Ha b Hb.
  rewrite !Rinv_mult. assert (0 < / b) by now apply Rinv_0_lt_compat.
  assert (/ a <= 1) by (rewrite <- Rinv_1; apply Rinv_le_contravar; lra).
  assert (0 < / a) by (apply Rinv_0_lt_compat; lra). nra.
Qed.
Lemma vast_big : 4 * vast <= big / 1000 /\ (vast * vast) * 4 <= big / 1000 /\ 1 <= vast.
Proof.
  unfold vast, big. split; [|split].
  - replace 1000%nat with (400 + (12 + 588))%nat by reflexivity. rewrite (pow_add 2 400), (pow_add 2 12).
    replace (2 ^ 12) with 4096 by ring. assert (1 <= 2 ^ 588) by (apply pow_R1_Rle; lra). assert (0 < 2 ^ 400) by (apply pow_lt; lra).
    generalize dependent (2 ^ 588); generalize dependent (2 ^ 400). intros. nra.
  - rewrite <- pow_add. change (400 + 400)%nat with 800%nat.
    replace 1000%nat with (800 + (12 + 188))%nat by reflexivity. rewrite (pow_add 2 800), (pow_add 2 12).
    replace (2 ^ 12) with 4096 by ring. assert (1 <= 2 ^ 188) by (apply pow_R1_Rle; lra). assert (0 < 2 ^ 800) by (apply pow_lt; lra).
    generalize dependent (2 ^ 188); generalize dependent (2 ^ 800). intros. nra.
  - apply pow_R1_Rle; lra.
Qed.

Lemma vapprox_norm S e v x : vapprox S e v x -> vnorm (vval v) <= (1 + e) * S.
Proof. intros (_ & A & B). pose proof (norm_vsub_le (vval v) x). lra. Qed.

Lemma vsub_split a b c : vsub a c = vadd (vsub a b) (vsub b c).
Proof. destruct a, b, c; unfold vsub, vadd; cbn; f_equal; ring. Qed.
Lemma vdist_triangle a b c : vnorm (vsub a c) <= vnorm (vsub a b) + vnorm (vsub b c).
Proof. rewrite (vsub_split a b c). apply norm_triangle. Qed.
Lemma app_sub m a b : vsub (app3 m a) (app3 m b) = app3 m (vsub a b).
Proof. destruct m, a, b; unfold vsub, app3; cbn; f_equal; ring. Qed.
Lemma app_sub_l m n a : vsub (app3 m a) (app3 n a) = app3 (sub3 m n) a.
Proof. destruct m, n, a; unfold vsub, app3, sub3; cbn; f_equal; ring. Qed.

Lemma abs_dot a b : Rabs (vx a * vx b) + Rabs (vy a * vy b) + Rabs (vz a * vz b) <= vnorm a * vnorm b.
Proof.
  rewrite !Rabs_mult. pose proof (cauchy (vabs a) (vabs b)) as H. rewrite !norm_abs in H. unfold vdot, vabs in H; cbn [vx vy vz] in H. exact H.
Qed.

Lemma dot_ok o a b N : vfinite a -> vfinite b -> vnorm (vval a) * vnorm (vval b) <= N -> N <= big / 8 ->
  finite (ddot o a b) /\ Rabs (val (ddot o a b) - vdot (vval a) (vval b)) <= 4 * u * N + 8 * eta.
Proof.
  intros Fa Fb HN HB. pose proof (abs_dot (vval a) (vval b)) as A. cbn [vval vx vy vz] in A.
  pose proof (Rabs_pos (val (dx a) * val (dx b))); pose proof (Rabs_pos (val (dy a) * val (dy b))); pose proof (Rabs_pos (val (dz a) * val (dz b))).
  destruct (ddot_ok o a b Fa Fb) as [F E]; try lra.
  split; [exact F|]. eapply Rle_trans; [exact E|]. rewrite u_val. lra.
Qed.

(** ** Rotating a vector *)
Lemma app_step o a m e S ev v x : mapprox e a m -> vapprox S ev v x -> e <= / 1000 -> ev <= / 1000 -> 0 <= ev ->
  tiny <= S -> S <= vast ->
  vapprox S ((1 + e) * (1 + ev) * (1 + / 2 ^ 44) - 1) (dapp o a v) (app3 m x).
Proof.
  intros (Fa & Rm & De) (Fv & Hx & Dv) He Hev Hev0 HS HV. rewrite unit_44. pose proof tiny_pos as T0. pose proof eta_tiny_u as ET.
  pose proof vast_big as (VB & _ & _). pose proof (fnorm_nonneg (sub3 (mval a) m)) as E0.
  pose proof (vapprox_norm S ev v x (conj Fv (conj Hx Dv))) as Nv. pose proof (vnorm_nonneg (vval v)) as Nv0.
  assert (Nv2 : vnorm (vval v) <= 1.001 * S) by (pose proof (Rmult_le_compat_r S _ _ ltac:(lra) Hev); lra).
  assert (Hrow : vnorm (mrow0 (mval a)) <= 1.001 /\ vnorm (mrow1 (mval a)) <= 1.001 /\ vnorm (mrow2 (mval a)) <= 1.001).
  { destruct (rot_row_norm m Rm) as (A & B & C). destruct (row_le_fnorm (sub3 (mval a) m)) as (A' & B' & C').
    assert (X : forall p q r, vnorm q = 1 -> vnorm r <= fnorm (sub3 (mval a) m) -> r = vsub p q -> vnorm p <= 1.001).
    { intros p q r Hq Hr E. pose proof (norm_vsub_le p q) as H. rewrite <- E in H. lra. }
    split; [|split]; [exact (X (mrow0 (mval a)) _ _ A A' eq_refl)|exact (X (mrow1 (mval a)) _ _ B B' eq_refl)|exact (X (mrow2 (mval a)) _ _ C C' eq_refl)]. }
  destruct Fa as (F0 & F1 & F2). destruct Hrow as (H0 & H1 & H2).
  assert (Y : forall r, vfinite r -> vnorm (vval r) <= 1.001 ->
     finite (ddot o r v) /\ Rabs (val (ddot o r v) - vdot (vval r) (vval v)) <= 4.1 * u * S).
  { intros r Fr Hr. destruct (dot_ok o r v (1.01 * S) Fr Fv) as [A B].
    - apply Rle_trans with (1.001 * (1.001 * S)); [|lra]. apply Rmult_le_compat; auto; apply vnorm_nonneg.
    - lra.
    - split; [exact A|]. eapply Rle_trans; [exact B|]. 
      assert (u * tiny <= u * S) by (apply Rmult_le_compat_l; [rewrite u_val; lra|exact HS]). rewrite u_val in *. lra. }
  destruct (Y _ F0 H0) as [f0 e0]. destruct (Y _ F1 H1) as [f1 e1]. destruct (Y _ F2 H2) as [f2 e2].
  split; [repeat split; assumption|]. split; [rewrite norm_rot; assumption|].
  assert (W : vwithin (4.1 * u * S) (vval (dapp o a v)) (app3 (mval a) (vval v))).
  { repeat split; assumption. }
  apply vwithin_norm in W. pose proof (vdist_triangle (vval (dapp o a v)) (app3 (mval a) (vval v)) (app3 m x)) as T1.
  pose proof (vdist_triangle (app3 (mval a) (vval v)) (app3 m (vval v)) (app3 m x)) as T2.
  rewrite app_sub_l, app_sub, (norm_rot m _ Rm) in T2. pose proof (fnorm_app (sub3 (mval a) m) (vval v)) as T3.
  assert (T4 : fnorm (sub3 (mval a) m) * vnorm (vval v) <= e * ((1 + ev) * S)) by (apply Rmult_le_compat; auto).
  assert (Z : vnorm (vsub (vval (dapp o a v)) (app3 m x)) <= e * ((1 + ev) * S) + ev * S + 9 * u * S).
  { assert (0 < u * S) by (apply Rmult_lt_0_compat; [rewrite u_val; lra|lra]). lra. }
  eapply Rle_trans; [exact Z|].
  replace (((1 + e) * (1 + ev) * (1 + 512 * u) - 1) * S) with
    (e * ((1 + ev) * S) + ev * S + 512 * ((1 + e) * (1 + ev) * (u * S))) by ring.
  assert (P : 1 * (u * S) <= (1 + e) * (1 + ev) * (u * S)).
  { apply Rmult_le_compat_r; [apply Rmult_le_pos; [rewrite u_val|]; lra|]. 
    replace 1 with (1 * 1) at 1 by ring. apply Rmult_le_compat; lra. }
  assert (0 < u * S) by (apply Rmult_lt_0_compat; [rewrite u_val; lra|lra]). lra.
Qed.

Lemma qdist_norm a b : qdist a b = qnorm (qsub a b).
Proof. reflexivity. Qed.

Lemma act_step o q m e S ev v x : qapprox e q m -> vapprox S ev v x -> e <= / 1000 -> ev <= / 1000 -> 0 <= ev ->
  tiny <= S -> S <= vast ->
  vapprox S ((1 + 9 * e) * (1 + ev) * (1 + / 2 ^ 44) - 1) (dqact o q v) (app3 m x).
Proof.
  intros (Fq & r & Ur & Er & De) (Fv & Hx & Dv) He Hev Hev0 HS HV. rewrite qdist_norm in De. rewrite unit_44.
  pose proof tiny_pos as T0. pose proof eta_tiny_u as ET. pose proof vast_big as (VB & _ & _).
  pose proof (qnorm_nonneg (qsub (qval q) r)) as E0.
  pose proof (vapprox_norm S ev v x (conj Fv (conj Hx Dv))) as Nv. pose proof (vnorm_nonneg (vval v)) as Nv0.
  assert (Nv2 : vnorm (vval v) <= 1.001 * S) by (pose proof (Rmult_le_compat_r S _ _ ltac:(lra) Hev); lra).
  assert (Rm : is_rot m) by (rewrite <- Er; now apply qrot_is_rot).
  assert (Nq : qnorm (qval q) <= 11 / 10).
  { replace (qval q) with (qadd (qsub (qval q) r) r) by (destruct (qval q), r; unfold qadd, qsub; cbn; f_equal; ring).
    eapply Rle_trans; [apply qnorm_triangle|]. rewrite (qnorm_unit r Ur). lra. }
  destruct (act_round o q v Fq Fv Nq ltac:(lra)) as [F W].
  split; [exact F|]. split; [rewrite norm_rot; assumption|].
  apply vwithin_norm in W. pose proof (act_near (qval q) r (vval v) e Ur De ltac:(lra)) as A.
  rewrite (act_rot r), Er in A.
  pose proof (vdist_triangle (vval (dqact o q v)) (act (qval q) (vval v)) (app3 m x)) as T1.
  pose proof (vdist_triangle (act (qval q) (vval v)) (app3 m (vval v)) (app3 m x)) as T2.
  rewrite app_sub, (norm_rot m _ Rm) in T2.
  assert (H46 : / 2 ^ 46 = 128 * u).
  { unfold u. replace 53%nat with (7 + 46)%nat by reflexivity. rewrite pow_add. replace (2 ^ 7) with 128 by ring. field. }
  rewrite H46 in W. assert (US : u * tiny <= u * S) by (apply Rmult_le_compat_l; [rewrite u_val; lra|exact HS]).
  assert (UV : u * vnorm (vval v) <= 1.001 * (u * S)) by (rewrite u_val; lra).
  assert (EN : e * vnorm (vval v) <= e * ((1 + ev) * S)) by (apply Rmult_le_compat_l; lra).
  assert (ES : 0 <= e * ((1 + ev) * S)) by (apply Rmult_le_pos; [lra|apply Rmult_le_pos; lra]).
  assert (Z : vnorm (vsub (vval (dqact o q v)) (app3 m x)) <= 9 * (e * ((1 + ev) * S)) + ev * S + 300 * (u * S)).
  { replace (85 / 10 * e * vnorm (vval v)) with (85 / 10 * (e * vnorm (vval v))) in A by ring.
    replace (128 * u * vnorm (vval v)) with (128 * (u * vnorm (vval v))) in W by ring. pose proof eta_pos. lra. }
  eapply Rle_trans; [exact Z|].
  replace (((1 + 9 * e) * (1 + ev) * (1 + 512 * u) - 1) * S) with
    (9 * (e * ((1 + ev) * S)) + ev * S + 512 * ((1 + 9 * e) * (1 + ev) * (u * S))) by ring.
  assert (P : 1 * (u * S) <= (1 + 9 * e) * (1 + ev) * (u * S)).
  { apply Rmult_le_compat_r; [apply Rmult_le_pos; [rewrite u_val|]; lra|]. 
    replace 1 with (1 * 1) at 1 by ring. apply Rmult_le_compat; lra. }
  assert (0 < u * S) by (apply Rmult_lt_0_compat; [rewrite u_val; lra|lra]). lra.
Qed.
