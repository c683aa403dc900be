(** Errors of single operations on doubles, continued: norms, products of rotations,
    conversions, exponential and logarithm. *)

From Coq Require Import ZArith Reals List Bool Lra Lia Psatz Ratan.
From Flocq Require Import Core BinarySingleNaN.
From Verif Require Import Mat V3 ModelLeaf SpecLeaf LeafProofs ModelFloat SpecFlt FloatProofs FloatDrift FloatExp ModelFloatQ SpecFltQ FloatQuat FloatAct.
From Verif Require Import ModelExpr SpecExpr ModelFloatExpr SpecFltExpr FloatNorm FloatStep PropsExpFlt SpecFltLog FloatLog PropsLie PropsHalfTurn PropsLogAcc.
Import ListNotations.
Local Open Scope R_scope.

(** ** Length of a vector *)
Lemma norm_step o S e v x : vapprox S e v x -> 0 <= e <= / 1000 -> tiny <= S -> S <= vast ->
  sapprox S ((1 + e) * (1 + / 2 ^ 44) - 1) (fsqrt (ddot o v v)) (vnorm x).
Proof.
  intros Hv He HS HV. pose proof (vapprox_norm _ _ _ _ Hv) as Nv. destruct Hv as (Fv & Nx & Dx).
  pose proof tiny_pos as T0. pose proof u_pos as U. pose proof eta_pos as E0.
  pose proof vast_big as (_ & VB & V1).
  set (N := vnorm (vval v)) in *. assert (N0 : 0 <= N) by apply vnorm_nonneg.
  assert (N2 : N <= 1.001 * S) by (assert (e * S <= / 1000 * S) by (apply Rmult_le_compat_r; lra); lra).
  assert (HH : N <= huge).
  { apply Rle_trans with (2 * vast); [lra|]. unfold vast, huge. replace 401%nat with (1 + 400)%nat by reflexivity. rewrite pow_add. lra. }
  destruct (a2_ok o v Fv HH) as [F2 Q]. pose proof (a2_nonneg o v Fv HH) as Z0. fold N in Q.
  destruct (fsqrt_ok _ F2 Z0) as [F V]. set (z := val (ddot o v v)) in *.
  assert (US : 0 < u * S) by (apply Rmult_lt_0_compat; lra).
  assert (EU : 1000 * eta <= (u * S) * (u * S)).
  { assert (u * tiny <= u * S) by (apply Rmult_le_compat_l; lra). assert (0 < u * tiny) by (apply Rmult_lt_0_compat; lra).
    apply Rle_trans with ((u * tiny) * (u * tiny)); [|apply Rmult_le_compat; lra].
    unfold eta, u, tiny. rewrite <- !Rinv_mult, <- !pow_add.
    replace 1075%nat with (10 + (53 + 400 + (53 + 400) + 159))%nat by reflexivity. rewrite (pow_add 2 10), (pow_add 2 (53 + 400 + (53 + 400))).
    replace (2 ^ 10) with 1024 by ring.
    assert (0 < 2 ^ (53 + 400 + (53 + 400))) by (apply pow_lt; lra). assert (1 <= 2 ^ 159) by (apply pow_R1_Rle; lra).
    generalize dependent (2 ^ (53 + 400 + (53 + 400))). generalize dependent (2 ^ 159). intros a Ha b Hb.
    rewrite !Rinv_mult. assert (0 < / b) by now apply Rinv_0_lt_compat.
    assert (/ a <= 1) by (rewrite <- Rinv_1; apply Rinv_le_contravar; lra).
    assert (0 < / a) by (apply Rinv_0_lt_compat; lra). nra. }
  apply abs_between in Q.
  assert (NS : N * N <= N * (1.001 * S)) by (apply Rmult_le_compat_l; lra).
  assert (UN : u * (N * N) <= 1.001 * (N * (u * S))).
  { replace (1.001 * (N * (u * S))) with (u * (N * (1.001 * S))) by ring. apply Rmult_le_compat_l; lra. }
  assert (NU : 0 <= N * (u * S)) by (apply Rmult_le_pos; lra).
  assert (UU : 0 <= u * (N * N)) by (apply Rmult_le_pos; [lra|apply Rmult_le_pos; lra]).
  assert (SQ : Rabs (sqrt z - N) <= 8 * (u * S)).
  { apply Rabs_le. split.
    - destruct (Rle_dec N (8 * (u * S))) as [H|H]; [pose proof (sqrt_pos z); lra|].
      assert (N - 8 * (u * S) <= sqrt z); [|lra]. apply Rsqr_incr_0_var; [|apply sqrt_pos]. rewrite Rsqr_sqrt by exact Z0. unfold Rsqr.
      assert (8 * (u * S) * (8 * (u * S)) <= N * (8 * (u * S))) by (apply Rmult_le_compat_r; lra).
      assert ((u * S) * (u * S) <= N * (u * S)) by (apply Rmult_le_compat_r; lra). lra.
    - assert (sqrt z <= N + 8 * (u * S)); [|lra]. apply Rsqr_incr_0_var; [|lra]. rewrite Rsqr_sqrt by exact Z0. unfold Rsqr. lra. }
  assert (SB : Rabs (sqrt z) <= 2 * S).
  { pose proof (abs_le_dist _ _ _ SQ) as H. rewrite (Rabs_pos_eq N) in H by exact N0.
    assert (u * S <= / 1000 * S) by (apply Rmult_le_compat_r; rewrite ?u_val; lra). lra. }
  pose proof (round_size S _ HS SB) as RN. rewrite <- V in RN.
  split; [exact F|]. split; [rewrite Rabs_pos_eq by apply vnorm_nonneg; exact Nx|].
  pose proof (norm_dist (vval v) x) as ND. fold N in ND.
  replace (val (fsqrt (ddot o v v)) - vnorm x) with ((N - vnorm x) + ((val (fsqrt (ddot o v v)) - sqrt z) + (sqrt z - N))) by ring.
  eapply Rle_trans; [apply Rabs_triang|]. apply grow_sum; try lra. eapply Rle_trans; [apply Rabs_triang|]. lra.
Qed.

(** ** Rotation matrices *)
Lemma mapprox_tr e a m : mapprox e a m -> mapprox e (dtr a) (tr3 m).
Proof.
  intros (((f00 & f01 & f02) & (f10 & f11 & f12) & (f20 & f21 & f22)) & R & D). split; [repeat split; assumption|].
  split; [now apply is_rot_tr|]. rewrite <- (fnorm_tr (sub3 _ _)).
  replace (tr3 (sub3 (mval (dtr a)) (tr3 m))) with (sub3 (mval a) m) by (destruct m; reflexivity). exact D.
Qed.

Lemma sub3_mul a b m n : sub3 (mul3 a b) (mul3 m n) = add3 (mul3 (sub3 a m) b) (mul3 m (sub3 b n)).
Proof. destruct a, b, m, n; unfold sub3, add3, mul3; cbn; f_equal; ring. Qed.
Lemma fdist_triangle a b c : fnorm (sub3 a c) <= fnorm (sub3 a b) + fnorm (sub3 b c).
Proof.
  replace (sub3 a c) with (add3 (sub3 a b) (sub3 b c)) by (destruct a, b, c; unfold sub3, add3; cbn; f_equal; ring). apply fnorm_triangle.
Qed.
Lemma mul_add_r x a b : mul3 x (add3 a b) = add3 (mul3 x a) (mul3 x b).
Proof. destruct a, b, x; unfold add3, mul3; cbn; f_equal; ring. Qed.

Lemma dmul_entries o a b : mfinite a -> mfinite b ->
  (forall r, In r [r0 a; r1 a; r2 a] -> vnorm (vval r) <= 1.01) ->
  (forall r, In r [r0 (dtr b); r1 (dtr b); r2 (dtr b)] -> vnorm (vval r) <= 1.01) ->
  mfinite (dmul o a b) /\ mwithin (5 * u) (mval (dmul o a b)) (mul3 (mval a) (mval b)).
Proof.
  intros (F0 & F1 & F2) FB HA HB. pose proof big_ge.
  assert (FT : vfinite (r0 (dtr b)) /\ vfinite (r1 (dtr b)) /\ vfinite (r2 (dtr b))).
  { destruct FB as ((f00 & f01 & f02) & (f10 & f11 & f12) & (f20 & f21 & f22)). repeat split; assumption. }
  destruct FT as (T0 & T1 & T2).
  assert (X : forall p q, vfinite p -> vfinite q -> vnorm (vval p) <= 1.01 -> vnorm (vval q) <= 1.01 ->
    finite (ddot o q p) /\ Rabs (val (ddot o q p) - vdot (vval p) (vval q)) <= 5 * u).
  { intros p q Fp Fq Hp Hq. destruct (dot_ok o q p 1.1 Fq Fp) as [A B].
    - apply Rle_trans with (1.01 * 1.01); [apply Rmult_le_compat; auto; apply vnorm_nonneg|lra].
    - lra.
    - split; [exact A|]. replace (vdot (vval p) (vval q)) with (vdot (vval q) (vval p)) by (unfold vdot; ring).
      eapply Rle_trans; [exact B|]. pose proof eta_le. rewrite u_val. lra. }
  assert (A0 := HA _ (or_introl eq_refl)). assert (A1 := HA _ (or_intror (or_introl eq_refl))). assert (A2 := HA _ (or_intror (or_intror (or_introl eq_refl)))).
  assert (B0 := HB _ (or_introl eq_refl)). assert (B1 := HB _ (or_intror (or_introl eq_refl))). assert (B2 := HB _ (or_intror (or_intror (or_introl eq_refl)))).
  destruct (X _ _ F0 T0 A0 B0) as [g00 e00]. destruct (X _ _ F0 T1 A0 B1) as [g01 e01]. destruct (X _ _ F0 T2 A0 B2) as [g02 e02].
  destruct (X _ _ F1 T0 A1 B0) as [g10 e10]. destruct (X _ _ F1 T1 A1 B1) as [g11 e11]. destruct (X _ _ F1 T2 A1 B2) as [g12 e12].
  destruct (X _ _ F2 T0 A2 B0) as [g20 e20]. destruct (X _ _ F2 T1 A2 B1) as [g21 e21]. destruct (X _ _ F2 T2 A2 B2) as [g22 e22].
  split; [repeat split; assumption|]. repeat split; assumption.
Qed.

Lemma near_rot_rows e a m : mapprox e a m -> e <= / 1000 -> forall r, In r [r0 a; r1 a; r2 a] -> vnorm (vval r) <= 1.01.
Proof.
  intros (_ & Rm & De) He. destruct (rot_row_norm m Rm) as (A & B & C). destruct (row_le_fnorm (sub3 (mval a) m)) as (A' & B' & C').
  assert (X : forall p q r, vnorm q = 1 -> vnorm r <= fnorm (sub3 (mval a) m) -> r = vsub p q -> vnorm p <= 1.01).
  { intros p q r Hq Hr E. pose proof (norm_vsub_le p q) as H. rewrite <- E in H. lra. }
  intros r [<-|[<-|[<-|[]]]].
  - exact (X (mrow0 (mval a)) _ _ A A' eq_refl).
  - exact (X (mrow1 (mval a)) _ _ B B' eq_refl).
  - exact (X (mrow2 (mval a)) _ _ C C' eq_refl).
Qed.

Lemma mmul_step o e1 e2 a b m n : mapprox e1 a m -> mapprox e2 b n -> e1 <= / 1000 -> e2 <= / 1000 ->
  mapprox ((1 + e1) * (1 + e2) * (1 + / 2 ^ 44) - 1) (dmul o a b) (mul3 m n).
Proof.
  intros Ha Hb H1 H2. pose proof (near_rot_rows _ _ _ Ha H1) as RA. pose proof (near_rot_rows _ _ _ (mapprox_tr _ _ _ Hb) H2) as RB.
  destruct Ha as (Fa & Rm & Da). destruct Hb as (Fb & Rn & Db).
  destruct (dmul_entries o a b Fa Fb RA RB) as [F W]. pose proof u_pos as U.
  split; [exact F|]. split; [now apply is_rot_mul|]. apply fnorm_within in W; [|lra].
  pose proof (fdist_triangle (mval (dmul o a b)) (mul3 (mval a) (mval b)) (mul3 m n)) as T.
  rewrite (sub3_mul (mval a)) in T.
  pose proof (fnorm_triangle (mul3 (sub3 (mval a) m) (mval b)) (mul3 m (sub3 (mval b) n))) as T1.
  rewrite (fnorm_mul_rot_l _ m Rm) in T1.
  assert (EB : mval b = add3 n (sub3 (mval b) n)) by (destruct n, (mval b); unfold add3, sub3; cbn; f_equal; ring).
  pose proof (f_equal fnorm (mul_add_r (sub3 (mval a) m) n (sub3 (mval b) n))) as T0. rewrite <- EB in T0.
  pose proof (fnorm_triangle (mul3 (sub3 (mval a) m) n) (mul3 (sub3 (mval a) m) (sub3 (mval b) n))) as T2.
  rewrite (fnorm_mul_rot_r _ n Rn) in T2. pose proof (fnorm_mul (sub3 (mval a) m) (sub3 (mval b) n)) as T3.
  pose proof (fnorm_nonneg (sub3 (mval a) m)) as P1. pose proof (fnorm_nonneg (sub3 (mval b) n)) as P2.
  assert (T4 : fnorm (sub3 (mval a) m) * fnorm (sub3 (mval b) n) <= e1 * e2) by (apply Rmult_le_compat; assumption).
  rewrite unit_44. replace ((1 + e1) * (1 + e2) * (1 + 512 * u) - 1) with (e1 + e2 + e1 * e2 + 512 * (u * ((1 + e1) * (1 + e2)))) by ring.
  assert (u * 1 <= u * ((1 + e1) * (1 + e2))) by (apply Rmult_le_compat_l; [lra|]; replace 1 with (1 * 1) at 1 by ring; apply Rmult_le_compat; lra).
  lra.
Qed.

(** ** Quaternions *)
Lemma qapprox_conj e q m : qapprox e q m -> qapprox e (dqconj q) (tr3 m).
Proof.
  intros ((Fw & F0 & F1 & F2) & r & Ur & Er & D). destruct (fopp_ok _ F0) as [G0 E0]. destruct (fopp_ok _ F1) as [G1 E1]. destruct (fopp_ok _ F2) as [G2 E2].
  split; [repeat split; assumption|]. exists (qconj r). split; [now apply unitq_conj|]. split; [rewrite qrot_conj; now rewrite Er|].
  eapply Rle_trans; [|exact D]. right. unfold qdist. f_equal. unfold qval, dqconj, dmapv, qconj; cbn [dw dv dx dy dz qw qx qy qz].
  rewrite E0, E1, E2. ring.
Qed.

Lemma qsub_mul a b p r : qsub (qmul a b) (qmul p r) = qadd (qmul (qsub a p) b) (qmul p (qsub b r)).
Proof. destruct a, b, p, r; unfold qsub, qadd, qmul; cbn; f_equal; ring. Qed.
Lemma qdist_triangle a b c : qnorm (qsub a c) <= qnorm (qsub a b) + qnorm (qsub b c).
Proof.
  replace (qsub a c) with (qadd (qsub a b) (qsub b c)) by (destruct a, b, c; unfold qsub, qadd; cbn; f_equal; ring). apply qnorm_triangle.
Qed.
Lemma qnorm_near q r e : unitq r -> qnorm (qsub q r) <= e -> qnorm q <= 1 + e.
Proof.
  intros U D. replace q with (qadd (qsub q r) r) by (destruct q, r; unfold qadd, qsub; cbn; f_equal; ring).
  eapply Rle_trans; [apply qnorm_triangle|]. rewrite (qnorm_unit r U). lra.
Qed.

Lemma qmul_step' o e1 e2 a b m n : sums_four o -> qapprox e1 a m -> qapprox e2 b n -> e1 <= / 1000 -> e2 <= / 1000 ->
  qapprox ((1 + e1) * (1 + e2) * (1 + / 2 ^ 44) - 1) (dqmul o a b) (mul3 m n).
Proof.
  intros Ho (Fa & p & Up & Ep & Da) (Fb & r & Ur & Er & Db) H1 H2. rewrite qdist_norm in Da, Db.
  pose proof (qnorm_near _ _ _ Up Da) as Na. pose proof (qnorm_near _ _ _ Ur Db) as Nb.
  pose proof (qnorm_nonneg (qval a)) as A0. pose proof (qnorm_nonneg (qval b)) as B0. pose proof big_ge.
  assert (NN : qnorm (qval a) * qnorm (qval b) <= 1.1 * 1) by (apply Rle_trans with (1.001 * 1.001); [apply Rmult_le_compat|]; lra).
  destruct (qmul_round o a b Ho Fa Fb ltac:(lra)) as [F W].
  split; [exact F|]. exists (qmul p r). split; [now apply unitq_mul|]. split; [rewrite qrot_mul by assumption; now rewrite Ep, Er|].
  rewrite qdist_norm. apply qwithin_norm in W. pose proof u_pos as U. pose proof eta_le as ET. rewrite unit_44.
  assert (W' : qnorm (qsub (qval (dqmul o a b)) (qmul (qval a) (qval b))) <= 20 * u).
  { eapply Rle_trans; [exact W|]. assert (u * (qnorm (qval a) * qnorm (qval b)) <= u * (1.1 * 1)) by (apply Rmult_le_compat_l; lra).
    rewrite u_val in *. lra. }
  pose proof (qdist_triangle (qval (dqmul o a b)) (qmul (qval a) (qval b)) (qmul p r)) as T. rewrite (qsub_mul (qval a)) in T.
  pose proof (qnorm_triangle (qmul (qsub (qval a) p) (qval b)) (qmul p (qsub (qval b) r))) as T1. rewrite !qnorm_mul, (qnorm_unit p Up) in T1.
  pose proof (qnorm_nonneg (qsub (qval a) p)) as P1. pose proof (qnorm_nonneg (qsub (qval b) r)) as P2.
  assert (T2 : qnorm (qsub (qval a) p) * qnorm (qval b) <= e1 * (1 + e2)) by (apply Rmult_le_compat; lra).
  replace ((1 + e1) * (1 + e2) * (1 + 512 * u) - 1) with (e1 * (1 + e2) + e2 + 512 * (u * ((1 + e1) * (1 + e2)))) by ring.
  assert (u * 1 <= u * ((1 + e1) * (1 + e2))) by (apply Rmult_le_compat_l; [lra|]; replace 1 with (1 * 1) at 1 by ring; apply Rmult_le_compat; lra).
  lra.
Qed.

(** Conversion to a matrix. *)
Lemma qconvert_step o e q m : qapprox e q m -> e <= / 1000 -> mapprox ((1 + 15 * e) * (1 + / 2 ^ 44) - 1) (dqrot o q) m.
Proof.
  intros (Fq & r & Ur & Er & D) He. rewrite qdist_norm in D. pose proof (qnorm_nonneg (qsub (qval q) r)) as D0.
  pose proof (qnorm_near _ _ _ Ur D) as Nq. destruct (rot_round o q Fq ltac:(lra)) as [F W]. pose proof u_pos as U.
  split; [exact F|]. split; [rewrite <- Er; now apply qrot_is_rot|]. apply fnorm_within in W; [|lra].
  assert (N : fnorm (sub3 (qrot (qval q)) m) <= 15 * e).
  { rewrite <- fnorm_tr.
    assert (X : forall w, vnorm w = 1 -> vnorm (app3 (sub3 (qrot (qval q)) m) w) <= 85 / 10 * e).
    { intros w Hw. rewrite <- app_sub_l, <- Er, <- !act_rot. pose proof (act_near (qval q) r w e Ur D ltac:(lra)) as A. rewrite Hw in A. lra. }
    assert (E1 : vnorm (mkV 1 0 0) = 1 /\ vnorm (mkV 0 1 0) = 1 /\ vnorm (mkV 0 0 1) = 1).
    { unfold vnorm, vnorm2, vdot; cbn [vx vy vz]. repeat split; (transitivity (sqrt 1); [f_equal; ring|apply sqrt_1]). }
    destruct E1 as (a & b & c). apply X in a, b, c. set (s := sub3 (qrot (qval q)) m) in *.
    eapply Rle_trans; [apply (rows_mono _ (mkV (85 / 10 * e) (85 / 10 * e) (85 / 10 * e)))|]; cbn [vx vy vz].
    - eapply Rle_trans; [|exact a]. right. f_equal. unfold mrow0, tr3, app3; cbn [m00 m01 m02 m10 m11 m12 m20 m21 m22 vx vy vz]. f_equal; ring.
    - eapply Rle_trans; [|exact b]. right. f_equal. unfold mrow1, tr3, app3; cbn [m00 m01 m02 m10 m11 m12 m20 m21 m22 vx vy vz]. f_equal; ring.
    - eapply Rle_trans; [|exact c]. right. f_equal. unfold mrow2, tr3, app3; cbn [m00 m01 m02 m10 m11 m12 m20 m21 m22 vx vy vz]. f_equal; ring.
    - apply norm_le_sq; [lra|]. unfold vnorm2, vdot; cbn [vx vy vz]. pose proof (Rmult_le_pos e e ltac:(lra) ltac:(lra)). lra. }
  pose proof (fdist_triangle (mval (dqrot o q)) (qrot (qval q)) m) as T. rewrite unit_44.
  replace ((1 + 15 * e) * (1 + 512 * u) - 1) with (15 * e + 512 * (u * (1 + 15 * e))) by ring.
  assert (u * 1 <= u * (1 + 15 * e)) by (apply Rmult_le_compat_l; lra). lra.
Qed.

(** ** The exponential *)
Definition turn (k : R) (v : V3) : Q4 := mkQ (cos (vnorm v / 2)) (k * vx v) (k * vy v) (k * vz v).

Lemma turn_exists x : exists k, k * vnorm x = sin (vnorm x / 2) /\ unitq (turn k x) /\ qrot (turn k x) = so3_exp x.
Proof.
  unfold turn. destruct (Req_EM_T (vnorm x) 0) as [Z|Z].
  - exists 0. rewrite Z. split; [replace (0 / 2) with 0 by field; rewrite sin_0; ring|].
    apply vnorm_eq0 in Z. rewrite Z. rewrite so3_exp_0.
    replace (0 / 2) with 0 by field. rewrite cos_0. unfold unitq. v3unf. split; [field|f_equal; field].
  - exists (sin (vnorm x / 2) / vnorm x). split; [field; exact Z|]. pose proof (vnorm_nonneg x) as N0.
    assert (B0 : 0 < vnorm2 x * vnorm2 x).
    { rewrite <- vnorm_sq. assert (0 < vnorm x * vnorm x) by nra. nra. }
    destruct (exp_quat_correct 0 x) as (U & R); [lra|right; exact B0|].
    unfold exp_quat in U, R. fold (vnorm x) in U, R. destruct (Rlt_dec 0 _) as [_|K]; [|lra].
    exact (conj U R).
Qed.

Lemma turn_lip k l a b : k * vnorm a = sin (vnorm a / 2) -> l * vnorm b = sin (vnorm b / 2) ->
  qnorm (qsub (turn k a) (turn l b)) <= 2 * vnorm (vsub a b).
Proof.
  intros Hk Hl. pose proof (norm_dist a b) as ND. pose proof (vnorm_nonneg a) as A0. pose proof (vnorm_nonneg b) as B0.
  set (d := vnorm (vsub a b)) in *. assert (D0 : 0 <= d) by apply vnorm_nonneg.
  assert (W : Rabs (cos (vnorm a / 2) - cos (vnorm b / 2)) <= d / 2).
  { eapply Rle_trans; [apply cos_lip|]. replace (vnorm a / 2 - vnorm b / 2) with ((vnorm a - vnorm b) * / 2) by field.
    rewrite Rabs_mult, (Rabs_pos_eq (/ 2)) by lra. lra. }
  assert (SL : Rabs (sin (vnorm a / 2) - sin (vnorm b / 2)) <= d / 2).
  { eapply Rle_trans; [apply sin_lip|]. replace (vnorm a / 2 - vnorm b / 2) with ((vnorm a - vnorm b) * / 2) by field.
    rewrite Rabs_mult, (Rabs_pos_eq (/ 2)) by lra. lra. }
  assert (V : vnorm (vsub (vscal k a) (vscal l b)) <= 3 / 2 * d).
  { destruct (Req_EM_T (vnorm a) 0) as [Z|Z].
    - rewrite Z in *. apply vnorm_eq0 in Z.
      replace (vsub (vscal k a) (vscal l b)) with (vscal (- l) b) by (rewrite Z; destruct b; unfold vsub, vscal, v0; cbn; f_equal; ring).
      rewrite norm_scal, Rabs_Ropp. rewrite <- (Rabs_pos_eq (vnorm b)), <- Rabs_mult, Hl by exact B0.
      replace (0 / 2) with 0 in SL by field. rewrite sin_0 in SL.
      replace (0 - sin (vnorm b / 2)) with (- sin (vnorm b / 2)) in SL by ring. rewrite Rabs_Ropp in SL. lra.
    - assert (K : Rabs k <= / 2).
      { apply (Rmult_le_reg_r (vnorm a)); [lra|]. rewrite <- (Rabs_pos_eq (vnorm a)) at 1 by exact A0. rewrite <- Rabs_mult, Hk.
        eapply Rle_trans; [apply abs_sin_le|]. rewrite Rabs_pos_eq; lra. }
      replace (vsub (vscal k a) (vscal l b)) with (vadd (vscal k (vsub a b)) (vscal (k - l) b)) by (destruct a, b; unfold vsub, vadd, vscal; cbn; f_equal; ring).
      eapply Rle_trans; [apply norm_triangle|]. rewrite !norm_scal. fold d.
      assert (Rabs k * d <= / 2 * d) by (apply Rmult_le_compat_r; lra).
      assert (Rabs (k - l) * vnorm b <= d).
      { rewrite <- (Rabs_pos_eq (vnorm b)) by exact B0. rewrite <- Rabs_mult.
        replace ((k - l) * vnorm b) with (k * - (vnorm a - vnorm b) + (k * vnorm a - l * vnorm b)) by ring. rewrite Hk, Hl.
        eapply Rle_trans; [apply Rabs_triang|]. rewrite Rabs_mult, Rabs_Ropp.
        assert (Rabs k * Rabs (vnorm a - vnorm b) <= / 2 * d) by (apply Rmult_le_compat; auto using Rabs_pos). lra. }
      lra. }
  apply qnorm_le_sq; [lra|]. pose proof (vnorm_sq (vsub (vscal k a) (vscal l b))) as E.
  assert (VV : vnorm (vsub (vscal k a) (vscal l b)) * vnorm (vsub (vscal k a) (vscal l b)) <= 3 / 2 * d * (3 / 2 * d)) by (apply Rmult_le_compat; auto using vnorm_nonneg).
  rewrite E in VV. assert (WW : Rabs (cos (vnorm a / 2) - cos (vnorm b / 2)) * Rabs (cos (vnorm a / 2) - cos (vnorm b / 2)) <= d / 2 * (d / 2)) by (apply Rmult_le_compat; auto using Rabs_pos).
  rewrite <- Rabs_mult, Rabs_pos_eq in WW by apply sq_nonneg.
  unfold turn, qsub, qnorm2. cbn [qw qx qy qz]. unfold vnorm2, vdot, vsub, vscal in VV. cbn [vx vy vz] in VV.
  pose proof (sq_nonneg d). lra.
Qed.

Lemma exp_step M o S e v x : one_ulp M -> vapprox S e v x -> 0 <= e <= / 1000 -> S <= 4 ->
  qapprox (8 * e + 8 * / 2 ^ 44) (mkDQ (fst (dexp_quat M o v)) (snd (dexp_quat M o v))) (so3_exp x).
Proof.
  intros HM Hv He HS. pose proof (vapprox_norm _ _ _ _ Hv) as Nv. destruct Hv as (Fv & Nx & Dx).
  pose proof (vnorm_nonneg x) as X0.
  assert (ES : e * S <= 4 * e) by (assert (e * S <= e * 4) by (apply Rmult_le_compat_l; lra); lra).
  assert (HN : vnorm (vval v) <= 2 ^ 401).
  { apply Rle_trans with (2 ^ 3); [lra|]. apply Rle_pow; [lra|lia]. }
  pose proof (c50_exp_unit M o v HM Fv HN) as C. pose proof (exp_explicit M o v HM Fv HN) as X.
  destruct (dexp_quat M o v) as [w q]. cbn [fst snd]. destruct C as (Fw & Fq & _). cbv zeta in X.
  destruct X as (r & (k & Hk & ->) & _ & _ & E0 & E1 & E2 & E3). fold (turn k (vval v)) in E0, E1, E2, E3.
  destruct (turn_exists x) as (l & Hl & Ul & Rl).
  split; [exact (conj Fw Fq)|]. exists (turn l x). split; [exact Ul|]. split; [exact Rl|]. rewrite qdist_norm.
  pose proof (qdist_triangle (qval (mkDQ w q)) (turn k (vval v)) (turn l x)) as T.
  pose proof (turn_lip k l (vval v) x Hk Hl) as L.
  assert (A : qwithin (/ 2 ^ 43 + / 2 ^ 49 * vnorm (vval v)) (qval (mkDQ w q)) (turn k (vval v))) by (repeat split; assumption).
  apply qwithin_norm in A. replace (2 ^ 43) with 8796093022208 in A by ring. replace (2 ^ 49) with 562949953421312 in A by ring.
  replace (2 ^ 44) with 17592186044416 by ring. lra.
Qed.

(** ** The logarithm *)
Lemma cos_3 : 97 / 10000 <= 1 + cos 3.
Proof.
  destruct pi_bounds as [P1 P2]. replace 3 with (PI - (PI - 3)) by ring. rewrite cos_minus, cos_PI, sin_PI.
  destruct (cos_small_bounds (PI - 3)) as [_ U]; [lra|]. set (t := PI - 3) in *.
  assert (T1 : 14159 / 100000 <= t <= 14160 / 100000) by (unfold t; lra).
  assert (14159 / 100000 * (14159 / 100000) <= t * t) by (apply Rmult_le_compat; lra).
  assert (t * t <= 14160 / 100000 * (14160 / 100000)) by (apply Rmult_le_compat; lra).
  assert (t * t * (t * t) <= 14160 / 100000 * (14160 / 100000) * (14160 / 100000 * (14160 / 100000))) by (apply Rmult_le_compat; try lra; apply sq_nonneg).
  replace (t * t * t * t) with (t * t * (t * t)) in U by ring. lra.
Qed.

Lemma exact_log m : is_rot m -> rot_angle m <= 3 -> exists v, log_mat 0 m = Some v /\ vnorm v <= 3 /\ so3_exp v = m.
Proof.
  intros R A. destruct pi_bounds as [P1 P2]. destruct (Req_EM_T (rot_angle m) 0) as [Z|Z].
  - exists v0. assert (m = i3); [|subst m; split; [apply log_i; lra|]; split; [replace (vnorm v0) with 0 by (symmetry; apply vnorm_0); lra|apply so3_exp_0]].
    destruct (rot_from_antisym m R) as (E1 & E2). pose proof (rot_trace_bound m R) as TB.
    unfold rot_angle in Z. set (t := (trace3 m - 1) / 2) in *.
    assert (T : t = 1). { rewrite <- (cos_acos t) by lra. rewrite Z. apply cos_0. }
    rewrite T in E1, E2. replace (1 - 1 * 1) with 0 in E2 by ring.
    assert (S0 : vscal (1 / 2) (uncross (sub3 m (tr3 m))) = v0).
    { apply vnorm_eq0. unfold vnorm. rewrite E2. apply sqrt_0. }
    rewrite S0 in E1. clear -E1. destruct m. unfold scal3, add3, mul3, skew, i3, v0 in *. cbn in E1.
    injection E1. intros. f_equal; lra.
  - assert (0 < rot_angle m) by (unfold rot_angle in *; pose proof (acos_bound ((trace3 m - 1) / 2)); lra).
    destruct (exp_log_general 0 m R) as (v & L & N & E); try lra. { apply Rmult_lt_0_compat; lra. }
    exists v. rewrite N. auto.
Qed.

Lemma fnorm_mwithin e a m : fnorm (sub3 a m) <= e -> mwithin e a m.
Proof.
  intros H. destruct (row_le_fnorm (sub3 a m)) as (A & B & C).
  destruct (comp_le_norm (mrow0 (sub3 a m))) as (a0 & a1 & a2). destruct (comp_le_norm (mrow1 (sub3 a m))) as (b0 & b1 & b2).
  destruct (comp_le_norm (mrow2 (sub3 a m))) as (c0 & c1 & c2).
  repeat split; (eapply Rle_trans; [eassumption|]; lra).
Qed.

Lemma log_step M o e a m : one_ulp M -> acos_ulp M -> mapprox e a m -> 0 <= e <= / 10000 -> rot_angle m <= 3 ->
  exists v, log_mat 0 m = Some v /\ vapprox 4 (1100 * e + 32 * / 2 ^ 44) (dlog_mat M o a) v.
Proof.
  intros HM HA (Fa & Rm & D) He HR. destruct (exact_log m Rm HR) as (v & L & N & E). exists v. split; [exact L|].
  destruct pi_bounds as [P1 P2]. pose proof (vnorm_nonneg v) as N0. pose proof cos_3 as C3.
  assert (CV : cos 3 <= cos (vnorm v)) by (apply cos_decr_1; lra). 
  rewrite <- E in D. apply fnorm_mwithin in D.
  destruct (c54_log_accurate M o a v e HM HA Fa ltac:(lra) ltac:(lra) D) as [F W].
  { replace (2 ^ 50) with 1125899906842624 by ring. lra. }
  split; [exact F|]. split; [lra|]. apply vwithin_norm in W. eapply Rle_trans; [exact W|].
  assert (K : / (1 + cos (vnorm v)) <= 10000 / 97).
  { replace (10000 / 97) with (/ (97 / 10000)) by field. apply Rinv_le_contravar; lra. }
  replace (2 ^ 44) with 17592186044416 by ring. replace (2 ^ 45) with 35184372088832 by ring.
  unfold Rdiv at 1. assert ((20 * e + / 35184372088832) * / (1 + cos (vnorm v)) <= (20 * e + / 35184372088832) * (10000 / 97)) by (apply Rmult_le_compat_l; lra).
  lra.
Qed.
