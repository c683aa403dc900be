(** The logarithm of a rotation matrix computed on doubles: error analysis. *)

From Coq Require Import ZArith Reals Lra Lia Psatz List Bool.
From Flocq Require Import Core BinarySingleNaN.
From Verif Require Import V3 SpecLeaf LeafProofs ModelLeaf ModelFloat SpecFlt SpecFltQ SpecFltLog FloatProofs FloatDrift FloatExp
  FloatLog.
Local Open Scope R_scope.

Local Notation w := (/ 9007199254740992).

Lemma one_ok : finite f1 /\ val f1 = 1.
Proof. destruct (lit_ok 1 0) as [F V]; [lia|lia|]. split; [exact F|]. unfold f1. rewrite V. cbn. ring. Qed.
Lemma half_ok : finite fhalf /\ val fhalf = / 2.
Proof.
  destruct (lit_ok 1 (-1)) as [F V]; [lia|lia|]. split; [exact F|]. unfold fhalf. rewrite V.
  rewrite (bpow_inv_pow 1 : bpow radix2 (-1) = _). rewrite pow_1. ring.
Qed.

(** One rounded sum of approximations. *)
Lemma add_near x y p q e f B : finite x -> finite y -> Rabs (val x - p) <= e -> Rabs (val y - q) <= f ->
  Rabs p + Rabs q + e + f <= B -> B <= 10 ->
  finite (fadd x y) /\ Rabs (val (fadd x y) - (p + q)) <= e + f + w * B + eta.
Proof.
  intros Fx Fy Hx Hy HB B10. pose proof (abs_le_dist _ _ _ Hx). pose proof (abs_le_dist _ _ _ Hy).
  pose proof (Rabs_triang (val x) (val y)). pose proof big_ge.
  destruct (fadd_ok x y Fx Fy) as [F V]; [lra|]. split; [exact F|].
  pose proof (nerr (val x + val y)) as N. rewrite <- V in N.
  apply abs_between in N, Hx, Hy. apply Rabs_le. lra.
Qed.
Lemma sub_near x y p q e f B : finite x -> finite y -> Rabs (val x - p) <= e -> Rabs (val y - q) <= f ->
  Rabs (p - q) + e + f <= B -> B <= 10 ->
  finite (fsub x y) /\ Rabs (val (fsub x y) - (p - q)) <= e + f + w * B + eta.
Proof.
  intros Fx Fy Hx Hy HB B10.
  assert (D : Rabs ((val x - val y) - (p - q)) <= e + f).
  { apply abs_between in Hx, Hy. apply Rabs_le. lra. }
  pose proof (abs_le_dist _ _ _ D). pose proof big_ge.
  destruct (fsub_ok x y Fx Fy) as [F V]; [lra|]. split; [exact F|].
  pose proof (nerr (val x - val y)) as N. rewrite <- V in N.
  apply abs_between in N, D. apply Rabs_le. lra.
Qed.

Lemma trace_near o A R d : mfinite A -> mwithin d (mval A) R -> 0 <= d <= / 16 ->
  Rabs (m00 R) <= 1 -> Rabs (m11 R) <= 1 -> Rabs (m22 R) <= 1 ->
  finite (dtrace o A) /\ Rabs (val (dtrace o A) - trace3 R) <= 3 * d + 7 * w.
Proof.
  intros ((F00 & _) & (_ & F11 & _) & (_ & _ & F22)) (W00 & _ & _ & _ & W11 & _ & _ & _ & W22) Hd R0 R1 R2.
  cbn [mval m00 m11 m22] in W00, W11, W22. pose proof eta_le.
  assert (Z : forall p q e, Rabs p <= 1 -> Rabs q <= 1 -> e >= 0 -> Rabs (p + q) <= 2).
  { intros p q e Hp Hq _. pose proof (Rabs_triang p q). lra. }
  unfold dtrace, trace3. destruct o.
  all: try (
    destruct (add_near (dx (r0 A)) (dy (r1 A)) (m00 R) (m11 R) d d (22 / 10)) as [Fa Ea]; auto; [lra|lra|];
    destruct (add_near (fadd (dx (r0 A)) (dy (r1 A))) (dz (r2 A)) (m00 R + m11 R) (m22 R) (d + d + w * (22 / 10) + eta) d (33 / 10)) as [Fb Eb]; auto;
      [pose proof (Rabs_triang (m00 R) (m11 R)); lra|lra|];
    split; [exact Fb|]; eapply Rle_trans; [exact Eb|]; lra).
  destruct (add_near (dy (r1 A)) (dz (r2 A)) (m11 R) (m22 R) d d (22 / 10)) as [Fa Ea]; auto; [lra|lra|].
  destruct (add_near (dx (r0 A)) (fadd (dy (r1 A)) (dz (r2 A))) (m00 R) (m11 R + m22 R) d (d + d + w * (22 / 10) + eta) (33 / 10)) as [Fb Eb]; auto;
    [pose proof (Rabs_triang (m11 R) (m22 R)); lra|lra|].
  split; [exact Fb|]. rewrite Rplus_assoc. eapply Rle_trans; [exact Eb|]. lra.
Qed.

Lemma cosine_near o A R c d : mfinite A -> mwithin d (mval A) R -> 0 <= d <= / 16 ->
  Rabs (m00 R) <= 1 -> Rabs (m11 R) <= 1 -> Rabs (m22 R) <= 1 -> trace3 R = 1 + 2 * c -> Rabs c <= 1 ->
  finite (fdiv (fsub (dtrace o A) f1) f2) /\
  Rabs (val (fdiv (fsub (dtrace o A) f1) f2) - c) <= 3 / 2 * d + 6 * w.
Proof.
  intros FA W Hd R0 R1 R2 Ht Hc. destruct (trace_near o A R d FA W Hd R0 R1 R2) as [FT ET].
  destruct one_ok as [F1 V1]. destruct f2_ok as [F2 V2]. pose proof eta_le. pose proof big_ge.
  assert (E1 : Rabs (val f1 - 1) <= 0) by (rewrite V1, Rminus_diag_eq, Rabs_R0 by reflexivity; lra).
  destruct (sub_near (dtrace o A) f1 (trace3 R) 1 (3 * d + 7 * w) 0 (24 / 10) FT F1 ET E1) as [FS ES]; [|lra|].
  { replace (trace3 R - 1) with (2 * c) by lra. rewrite Rabs_mult, Rabs_pos_eq by lra. lra. }
  replace (trace3 R - 1) with (2 * c) in ES by lra.
  set (y := fsub (dtrace o A) f1) in *.
  assert (D : Rabs (val y / val f2 - c) <= 3 / 2 * d + (7 + 24 / 10) / 2 * w + eta).
  { rewrite V2. apply abs_between in ES. apply Rabs_le. lra. }
  pose proof (abs_le_dist _ _ _ D).
  destruct (fdiv_ok y f2 FS) as [F V]; [rewrite V2; lra|lra|].
  split; [exact F|]. pose proof (nerr (val y / val f2)) as N. rewrite <- V in N.
  apply abs_between in N, D. apply Rabs_le. lra.
Qed.

(** The exact rotation. *)
Lemma trace_exp v : trace3 (so3_exp v) = 1 + 2 * cos (vnorm v).
Proof.
  destruct (Req_EM_T (vnorm v) 0) as [E|E].
  - rewrite (vnorm_eq0 v E), so3_exp_0, vnorm_0, cos_0. unfold trace3, i3; cbn. ring.
  - rewrite so3_exp_nz by (intros ->; apply E, vnorm_0). rewrite trace_rodrigues, <- vnorm_sq. field. exact E.
Qed.

(** sin t / t, with its limit at zero. *)
Definition sinc (t : R) : R := if Req_EM_T t 0 then 1 else sin t / t.

Lemma skew_exp v : uncross (sub3 (so3_exp v) (tr3 (so3_exp v))) = vscal (2 * sinc (vnorm v)) v.
Proof.
  unfold sinc. destruct (Req_EM_T (vnorm v) 0) as [E|E].
  - rewrite (vnorm_eq0 v E), so3_exp_0. unfold uncross, vscal, v0; v3unf. f_equal; ring.
  - rewrite so3_exp_nz by (intros ->; apply E, vnorm_0). rewrite rodrigues_antisym, uncross_skew. reflexivity.
Qed.

Lemma rot_entry_le m : is_rot m -> Rabs (m00 m) <= 1 /\ Rabs (m11 m) <= 1 /\ Rabs (m22 m) <= 1.
Proof.
  intros H. destruct (rot_row_norm m H) as (N0 & N1 & N2).
  destruct (comp_le_norm (mrow0 m)) as (A & _). destruct (comp_le_norm (mrow1 m)) as (_ & B & _).
  destruct (comp_le_norm (mrow2 m)) as (_ & _ & C). rewrite N0 in A. rewrite N1 in B. rewrite N2 in C. auto.
Qed.

Lemma sinc_bounds t : 0 <= t < PI -> 0 <= sinc t <= 1 /\ sinc t * t = sin t.
Proof.
  intros H. unfold sinc. destruct (Req_EM_T t 0) as [->|N]; [rewrite sin_0; lra|].
  assert (T : 0 < t) by lra. assert (S : 0 < sin t) by (apply sin_gt_0; lra). pose proof (sin_lt_x t T).
  split; [|field; lra]. split.
  - left. apply Rmult_lt_0_compat; [exact S|]. now apply Rinv_0_lt_compat.
  - apply (Rmult_le_reg_r t); [exact T|]. replace (sin t / t * t) with (sin t) by (field; lra). lra.
Qed.

(** ** The coefficient angle / (2 sin angle) *)

Section Coefficient.
  Variable M : libm.
  Hypothesis HM : one_ulp M.
  Variable th : double.
  Hypothesis Fth : finite th.
  Hypothesis Hth : 0 < val th < PI.
  Hypothesis Hc : 100 * w <= 1 + cos (val th).
  Hypothesis Hb : / 1000000000 <= val th.

  Let S := sin (val th).
  Let P := phi (val th).
  Let k := fdiv th (fmul f2 (fsin M th)).

  Lemma S_pos : / 1000000000000000000000000000 <= S <= 1.
  Proof.
    unfold S. assert (0 < sin (val th)) by (apply sin_gt_0; lra). pose proof (SIN_bound (val th)).
    destruct (phi_bound (val th) Hth) as [_ B]. unfold phi in B.
    split; [|lra]. assert (C : 0 < 1 + cos (val th)) by lra.
    apply (Rmult_le_compat_r (sin (val th) * (1 + cos (val th)))) in B; [|left; now apply Rmult_lt_0_compat].
    replace (val th / sin (val th) * (sin (val th) * (1 + cos (val th)))) with (val th * (1 + cos (val th))) in B by (field; lra).
    replace (4 / (1 + cos (val th)) * (sin (val th) * (1 + cos (val th)))) with (4 * sin (val th)) in B by (field; lra).
    assert (/ 1000000000 * (100 * w) <= val th * (1 + cos (val th))) by (apply Rmult_le_compat; lra). lra.
  Qed.

  Lemma denom_ok : finite (fmul f2 (fsin M th)) /\
    2 * S * (1 - 4 * w) <= val (fmul f2 (fsin M th)) <= 2 * S * (1 + 4 * w).
  Proof.
    destruct HM as [HS _]. destruct (HS th Fth) as [F E]. destruct ulp_num as [U1 U2]. rewrite U1, U2 in E.
    pose proof S_pos as SP. fold S in E. rewrite (Rabs_pos_eq S) in E by lra.
    destruct f2_ok as [F2 V2]. pose proof eta_le as He. pose proof big_ge.
    assert (HE : eta <= / 1000000000000000000000000000000 * S).
    { apply Rle_trans with (/ 1000000000000000000000000000000 * / 1000000000000000000000000000).
      - lra.
      - apply Rmult_le_compat_l; lra. }
    apply abs_between in E. set (y := fsin M th) in *.
    assert (Y0 : 0 <= val y) by lra.
    assert (Y2 : 0 <= val f2 * val y <= 4) by (rewrite V2; lra).
    destruct (fmul_ok f2 y F2 F) as [Fm Vm]; [rewrite Rabs_pos_eq by lra; lra|].
    split; [exact Fm|]. pose proof (nerr (val f2 * val y)) as N. rewrite <- Vm in N. apply abs_between in N.
    rewrite Rabs_pos_eq in N by lra. rewrite V2 in N. lra.
  Qed.

  Lemma coef_ok : finite k /\ Rabs (val k - P / 2) <= 3 * w * P.
  Proof.
    destruct denom_ok as [F D]. pose proof S_pos as SP. set (y := fmul f2 (fsin M th)) in *.
    assert (PS : P * S = val th) by (unfold P, S, phi; field; pose proof SP; unfold S in *; lra).
    destruct (phi_bound (val th) Hth) as [P1 P2]. fold P in P1, P2.
    assert (Y : 0 < val y) by lra.
    assert (Q : Rabs (val th / val y - P / 2) <= 17 / 8 * w * P).
    { assert (E : val th / val y - P / 2 = P * (S / val y - 1 / 2)) by (rewrite <- PS; field; lra).
      rewrite E, Rabs_mult, (Rabs_pos_eq P) by lra. rewrite (Rmult_comm _ P). apply Rmult_le_compat_l; [lra|].
      apply Rabs_le. split.
      - apply (Rmult_le_reg_r (val y)); [exact Y|]. replace ((S / val y - 1 / 2) * val y) with (S - val y / 2) by (field; lra). lra.
      - apply (Rmult_le_reg_r (val y)); [exact Y|]. replace ((S / val y - 1 / 2) * val y) with (S - val y / 2) by (field; lra). lra. }
    assert (PB : P <= 4 / (100 * w)).
    { eapply Rle_trans; [exact P2|]. apply Rmult_le_compat_l; [lra|]. apply Rinv_le_contravar; lra. }
    assert (B : 1000000000000000000 <= big).
    { eapply Rle_trans; [|exact big_1]. replace (2 ^ 200) with 1606938044258990275541962092341162602522202993782792835301376 by ring. lra. }
    pose proof (abs_le_dist _ _ _ Q) as AQ. rewrite (Rabs_pos_eq (P / 2)) in AQ by lra. pose proof eta_le.
    destruct (fdiv_ok th y Fth) as [Fk Vk]; [lra|lra|].
    split; [exact Fk|]. pose proof (nerr (val th / val y)) as N. rewrite <- Vk in N. fold k in N.
    apply abs_between in N, Q. apply Rabs_le. lra.
  Qed.
End Coefficient.

(** One component of the result, in the branch for larger angles. *)
Lemma comp_main k P P0 C d e (s : double) sg x t : finite k -> Rabs (val k - P / 2) <= 3 * w * P -> 1 <= P ->
  finite s -> Rabs (val s - sg) <= 2 * d + 3 * w -> 0 <= d <= / 32 -> Rabs sg <= 2 * t -> 0 <= t <= 1 ->
  0 < C <= 2 -> 100 * w <= C -> P <= 42 / 10 / C -> t * Rabs (P - P0) <= 10 * e / C -> P0 / 2 * sg = x ->
  e = 3 / 2 * d + 13 * w ->
  finite (fmul k s) /\ Rabs (val (fmul k s) - x) <= (20 * d + 256 * w) / C.
Proof.
  intros Fk Hk HP Fs Hs Hd Hsg Ht HC HC' HPC Hph Hx ->.
  set (q := / C). assert (q0 : 0 < q) by now apply Rinv_0_lt_compat.
  assert (qC : q * C = 1) by (unfold q; field; lra).
  assert (q1 : / 2 <= q) by (unfold q; apply Rinv_le_contravar; lra).
  assert (qb : q <= 100000000000000).
  { replace 100000000000000 with (/ / 100000000000000) by field. apply Rinv_le_contravar; lra. }
  unfold Rdiv in HPC, Hph. fold q in HPC, Hph. unfold Rdiv. fold q.
  assert (Kb : Rabs (val k) <= 22 / 10 * q).
  { pose proof (abs_le_dist _ _ _ Hk) as K. rewrite (Rabs_pos_eq (P / 2)) in K by lra. lra. }
  assert (Sb : Rabs (val s) <= 21 / 10).
  { pose proof (abs_le_dist _ _ _ Hs) as K. lra. }
  assert (A1 : Rabs (val k * (val s - sg)) <= 22 / 10 * q * (2 * d + 3 * w)).
  { rewrite Rabs_mult. apply Rmult_le_compat; auto using Rabs_pos. }
  assert (A2 : Rabs ((val k - P / 2) * sg) <= 3 * w * P * 2).
  { rewrite Rabs_mult. apply Rmult_le_compat; auto using Rabs_pos. lra. }
  assert (A3 : Rabs ((P - P0) / 2 * sg) <= 10 * (3 / 2 * d + 13 * w) * q).
  { eapply Rle_trans; [|exact Hph]. unfold Rdiv. rewrite !Rabs_mult, (Rabs_pos_eq (/ 2)) by lra.
    rewrite (Rmult_comm t). rewrite Rmult_assoc. apply Rmult_le_compat_l; [apply Rabs_pos|]. lra. }
  assert (E : Rabs (val k * val s - x) <= 22 / 10 * q * (2 * d + 3 * w) + 3 * w * P * 2 + 10 * (3 / 2 * d + 13 * w) * q).
  { rewrite <- Hx. replace (val k * val s - P0 / 2 * sg) with
      (val k * (val s - sg) + (val k - P / 2) * sg + (P - P0) / 2 * sg) by field.
    eapply Rle_trans; [apply Rabs_triang|]. apply Rplus_le_compat; [|exact A3].
    eapply Rle_trans; [apply Rabs_triang|]. now apply Rplus_le_compat. }
  assert (KS : Rabs (val k * val s) <= 22 / 10 * q * (21 / 10)).
  { rewrite Rabs_mult. apply Rmult_le_compat; auto using Rabs_pos. }
  assert (B : 1000000000000000000 <= big).
  { eapply Rle_trans; [|exact big_1]. replace (2 ^ 200) with 1606938044258990275541962092341162602522202993782792835301376 by ring. lra. }
  destruct (fmul_ok k s Fk Fs) as [F V]; [lra|]. split; [exact F|].
  pose proof (nerr (val k * val s)) as N. rewrite <- V in N. pose proof eta_le.
  assert (dq : 0 <= d * q) by (apply Rmult_le_pos; lra).
  assert (X : w * Rabs (val k * val s) <= w * (22 / 10 * q * (21 / 10))) by (apply Rmult_le_compat_l; lra).
  apply abs_between in N, E. apply Rabs_le.
  replace ((20 * d + 256 * w) * q) with (20 * (d * q) + 256 * w * q) by ring.
  replace (22 / 10 * q * (2 * d + 3 * w)) with (44 / 10 * (d * q) + 66 / 10 * w * q) in E by field.
  replace (10 * (3 / 2 * d + 13 * w) * q) with (15 * (d * q) + 130 * w * q) in E by field.
  generalize dependent (d * q). intros. lra.
Qed.

(** ... and in the branch for small angles. *)
Lemma comp_half C d (s : double) sg x g : finite s -> Rabs (val s - sg) <= 2 * d + 3 * w -> 0 <= d <= / 32 ->
  Rabs sg <= 2 -> 0 < C <= 2 -> Rabs (sg / 2 - x) <= g -> g <= d + 8 * w ->
  finite (fmul fhalf s) /\ Rabs (val (fmul fhalf s) - x) <= (20 * d + 256 * w) / C.
Proof.
  intros Fs Hs Hd Hsg HC Hx Hg. destruct half_ok as [Fh Vh].
  assert (q1 : / 2 <= / C) by (apply Rinv_le_contravar; lra). change ((20 * d + 256 * w) / C) with ((20 * d + 256 * w) * / C). set (q := / C) in *.
  pose proof (abs_le_dist _ _ _ Hs) as Sb. pose proof big_ge. pose proof eta_le.
  assert (HB : Rabs (val fhalf * val s) <= 11 / 10) by (rewrite Rabs_mult, Vh, Rabs_pos_eq by lra; lra).
  destruct (fmul_ok fhalf s Fh Fs) as [F V]; [lra|]. split; [exact F|].
  pose proof (nerr (val fhalf * val s)) as N. rewrite <- V in N. rewrite Vh in *.
  assert (X : (20 * d + 256 * w) * / 2 <= (20 * d + 256 * w) * q) by (apply Rmult_le_compat_l; lra).
  apply abs_between in N, Hx, Hs. apply Rabs_le. lra.
Qed.

(** ** All together *)

Section Whole.
  Variable M : libm.
  Hypothesis HM : one_ulp M.
  Hypothesis HA : acos_ulp M.
  Variable o : order.
  Variable A : DM.
  Variable v : V3.
  Variable d : R.
  Hypothesis FA : mfinite A.
  Hypothesis Hv : vnorm v < PI.
  Hypothesis Hd : 0 <= d.
  Hypothesis HW : mwithin d (mval A) (so3_exp v).
  Hypothesis Hc : d + 8 * w <= (1 + cos (vnorm v)) / 64.

  Let t := vnorm v.
  Let c := cos t.
  Let ch := fdiv (fsub (dtrace o A) f1) f2.

  Lemma t_range : 0 <= t < PI. Proof. split; [apply vnorm_nonneg|exact Hv]. Qed.
  Lemma c_range : -1 <= c <= 1. Proof. pose proof (COS_bound t). exact H. Qed.
  Lemma d_small : d <= / 32. Proof. pose proof c_range. fold t c in Hc. lra. Qed.

  Lemma ch_ok : finite ch /\ Rabs (val ch - c) <= 3 / 2 * d + 6 * w.
  Proof.
    destruct (rot_entry_le _ (so3_exp_is_rot v)) as (R0 & R1 & R2). pose proof d_small.
    apply cosine_near with (R := so3_exp v); auto; [lra|apply trace_exp|].
    pose proof c_range. apply Rabs_le. lra.
  Qed.

  (** The three differences of entries. *)
  Lemma skew_ok x y p q : finite x -> finite y -> Rabs (val x - p) <= d -> Rabs (val y - q) <= d -> Rabs (p - q) <= 2 ->
    finite (fsub x y) /\ Rabs (val (fsub x y) - (p - q)) <= 2 * d + 3 * w.
  Proof.
    intros Fx Fy Hx Hy Hpq. pose proof d_small. pose proof eta_le.
    destruct (sub_near x y p q d d (21 / 10) Fx Fy Hx Hy) as [F E]; [lra|lra|]. split; [exact F|]. lra.
  Qed.

  Lemma sg_le x : Rabs x <= t -> Rabs (2 * sinc t * x) <= 2 * sin t.
  Proof.
    intros H. destruct (sinc_bounds t t_range) as [S E]. rewrite <- E.
    rewrite Rabs_mult, (Rabs_pos_eq (2 * sinc t)) by lra.
    replace (2 * (sinc t * t)) with (2 * sinc t * t) by ring. apply Rmult_le_compat_l; lra.
  Qed.

  (** Small angles: returning the differences themselves loses little. *)
  Lemma half_loss x : Rabs x <= t -> 1 - c <= 3 / 2 * d + 9 * w ->
    Rabs (2 * sinc t * x / 2 - x) <= d + 8 * w.
  Proof.
    intros Hx Hs. destruct (sinc_bounds t t_range) as [S E]. pose proof t_range as T. pose proof d_small.
    replace (2 * sinc t * x / 2 - x) with (- ((1 - sinc t) * x)) by field.
    rewrite Rabs_Ropp, Rabs_mult, (Rabs_pos_eq (1 - sinc t)) by lra.
    apply Rle_trans with ((1 - sinc t) * t); [apply Rmult_le_compat_l; lra|].
    replace ((1 - sinc t) * t) with (t - sin t) by (rewrite <- E; ring).
    pose proof (sin_lower t ltac:(lra)) as SL. pose proof (cos_upper t ltac:(lra)) as CU. fold c in CU.
    assert (T2 : t * t <= 3 / 10) by lra. assert (T1 : t <= 6 / 10) by nra.
    assert (t * (t * t) <= 6 / 10 * (6 * (1 - c))) by (apply Rmult_le_compat; nra). lra.
  Qed.

  Lemma halves (s : double) x : finite s -> Rabs x <= t -> Rabs (val s - 2 * sinc t * x) <= 2 * d + 3 * w ->
    1 - c <= 3 / 2 * d + 9 * w ->
    finite (fmul fhalf s) /\ Rabs (val (fmul fhalf s) - x) <= (20 * d + 256 * w) / (1 + c).
  Proof.
    intros Fs Hx Hs Hsm. pose proof d_small. pose proof c_range.
    assert (C : 0 < 1 + c) by (apply cos_gt_m1, t_range).
    apply comp_half with (sg := 2 * sinc t * x) (g := d + 8 * w); auto; try lra.
    - pose proof (sg_le x Hx). pose proof (SIN_bound t). lra.
    - now apply half_loss.
  Qed.

  (** The angle. *)
  Lemma angle_ok : Rabs (val ch) <= 1 ->
    let th := facos M ch in
    finite th /\ - (2 * eta) <= val th < PI /\ Rabs (cos (val th) - c) <= 3 / 2 * d + 13 * w /\
    (val th * val th <= 2 * w * (1 + 4 * w) -> 1 - c <= 3 / 2 * d + 9 * w).
  Proof.
    intros Hch th. destruct HA as [HA1 _]. destruct ch_ok as [Fch Ech].
    destruct (HA1 ch Fch Hch) as [F E]. fold th in F, E. destruct ulp_num as [U1 U2]. rewrite U1, U2 in E.
    pose proof (acos_bound (val ch)) as [B0 B1]. set (a := acos (val ch)) in *.
    assert (Ca : cos a = val ch) by (apply cos_acos; apply Rabs_le_inv in Hch; lra).
    pose proof PI_le. pose proof eta_le. pose proof c_range. pose proof d_small.
    assert (C : 0 < 1 + c) by (apply cos_gt_m1, t_range). fold t c in Hc.
    assert (E' : Rabs (val th - a) <= 64 / 10 * w).
    { eapply Rle_trans; [exact E|]. lra. }
    apply abs_between in E. apply abs_between in Ech.
    (* distance to a half turn *)
    assert (Y : 6 / 10 * (1 + val ch) <= PI - a).
    { pose proof (cos_lower (PI - a)) as L. rewrite Rtrigo_facts.cos_pi_minus in L. rewrite Ca in L.
      assert ((PI - a) * (PI - a) <= PI * (PI - a)) by (apply Rmult_le_compat_r; lra).
      assert (PI * (PI - a) <= 63 / 20 * (PI - a)) by (apply Rmult_le_compat_r; lra). lra. }
    split; [exact F|]. split; [apply abs_between in E'; split; lra|]. split.
    - pose proof (cos_lip (val th) a) as L. rewrite Ca in L. apply abs_between in L. apply Rabs_le. lra.
    - intros Hsm. pose proof (cos_lower (val th)) as L. pose proof (cos_lip (val th) a) as Lp. rewrite Ca in Lp.
      (* cos a is at least 1 - a^2 / 2, and a is nearly the computed angle *)
      assert (T1 : val th <= 15 / 1000000000).
      { destruct (Rle_dec (val th) (15 / 1000000000)) as [K|K]; [exact K|]. exfalso.
        assert (15 / 1000000000 * (15 / 1000000000) <= val th * val th) by (apply Rmult_le_compat; lra). lra. }
      assert (A2 : a <= 152 / 10000000000) by lra.
      assert (A1 : a * a <= 152 / 10000000000 * (152 / 10000000000)) by (apply Rmult_le_compat; lra).
      pose proof (cos_lower a) as La. rewrite Ca in La. lra.
  Qed.

  Lemma large (s : double) x : let th := facos M ch in Rabs (val ch) <= 1 -> fgt (fmul th th) feps = true ->
    finite s -> Rabs x <= t -> Rabs (val s - 2 * sinc t * x) <= 2 * d + 3 * w ->
    finite (fmul (fdiv th (fmul f2 (fsin M th))) s) /\
    Rabs (val (fmul (fdiv th (fmul f2 (fsin M th))) s) - x) <= (20 * d + 256 * w) / (1 + c).
  Proof.
    intros th Hch Hbr Fs Hx Hs. destruct (angle_ok Hch) as (F & T & E & _). fold th in F, T, E.
    pose proof (branch_big th F Hbr) as B. pose proof eta_le as He. pose proof d_small. pose proof c_range.
    pose proof t_range as Tr. assert (C : 0 < 1 + c) by (apply cos_gt_m1, t_range). fold t c in Hc.
    assert (T0 : 0 < val th) by nra. assert (Tb : / 1000000000 <= val th) by nra.
    pose proof (abs_between _ _ _ E) as E'.
    assert (Cth : 100 * w <= 1 + cos (val th)) by lra.
    destruct (coef_ok M HM th F (conj T0 (proj2 T)) Cth Tb) as [Fk Ek].
    destruct (phi_bound (val th) (conj T0 (proj2 T))) as [P1 P2].
    assert (P3 : phi (val th) <= 42 / 10 / (1 + c)).
    { eapply Rle_trans; [exact P2|]. apply (Rmult_le_reg_r ((1 + cos (val th)) * (1 + c))); [apply Rmult_lt_0_compat; lra|].
      replace (4 / (1 + cos (val th)) * ((1 + cos (val th)) * (1 + c))) with (4 * (1 + c)) by (field; lra).
      replace (42 / 10 / (1 + c) * ((1 + cos (val th)) * (1 + c))) with (42 / 10 * (1 + cos (val th))) by (field; lra). lra. }
    destruct (Req_dec t 0) as [Z|NZ].
    - (* no rotation at all *)
      assert (x0 : x = 0).
      { rewrite Z in Hx. pose proof (Rabs_pos x). assert (K : Rabs x = 0) by lra.
        destruct (Req_dec x 0) as [K'|K']; [exact K'|]. apply Rabs_no_R0 in K'. contradiction. }
      apply comp_main with (P := phi (val th)) (P0 := 0) (sg := 2 * sinc t * x) (t := 0) (e := 3 / 2 * d + 13 * w); auto;
        try lra; rewrite ?x0, ?Rmult_0_r, ?Rabs_R0; try lra.
      rewrite Rmult_0_l. apply Rmult_le_pos; [lra|]. left. now apply Rinv_0_lt_compat.
    - assert (Tp : 0 < t < PI) by lra. pose proof (SIN_bound t). assert (St : 0 < sin t) by (apply sin_gt_0; lra).
      apply comp_main with (P := phi (val th)) (P0 := phi t) (sg := 2 * sinc t * x) (t := sin t) (e := 3 / 2 * d + 13 * w); auto;
        try lra.
      + now apply sg_le.
      + apply phi_close; auto; try lra. fold c. lra.
      + unfold phi, sinc. destruct (Req_EM_T t 0); [contradiction|]. field. lra.
  Qed.

  Theorem log_close : vfinite (dlog_mat M o A) /\
    vwithin ((20 * d + 256 * w) / (1 + c)) (vval (dlog_mat M o A)) v.
  Proof.
    destruct (comp_le_norm v) as (N0 & N1 & N2). fold t in N0, N1, N2.
    pose proof (skew_exp v) as SK. fold t in SK.
    destruct FA as ((f00 & f01 & f02) & (f10 & f11 & f12) & (f20 & f21 & f22)).
    destruct HW as (w00 & w01 & w02 & w10 & w11 & w12 & w20 & w21 & w22).
    unfold mval in w01, w02, w10, w12, w20, w21; cbn [m00 m01 m02 m10 m11 m12 m20 m21 m22] in w01, w02, w10, w12, w20, w21.
    set (R := so3_exp v) in *.
    unfold uncross, sub3, tr3, vscal in SK; cbn [m00 m01 m02 m10 m11 m12 m20 m21 m22] in SK. injection SK as S0 S1 S2.
    assert (G : forall x, Rabs x <= t -> Rabs (2 * sinc t * x) <= 2).
    { intros x H. pose proof (sg_le x H). pose proof (SIN_bound t). lra. }
    destruct (skew_ok _ _ _ _ f21 f12 w21 w12) as [F0 E0]; [rewrite S0; auto|].
    destruct (skew_ok _ _ _ _ f02 f20 w02 w20) as [F1 E1]; [rewrite S1; auto|].
    destruct (skew_ok _ _ _ _ f10 f01 w10 w01) as [F2 E2]; [rewrite S2; auto|].
    rewrite S0 in E0. rewrite S1 in E1. rewrite S2 in E2.
    destruct ch_ok as [Fch Ech]. pose proof (abs_between _ _ _ Ech) as Ech'.
    unfold dlog_mat. fold ch.
    destruct (Rle_dec (Rabs (val ch)) 1) as [L|L].
    - destruct (fgt (fmul (facos M ch) (facos M ch)) feps) eqn:Br.
      + destruct (large _ _ L Br F0 N0 E0) as [G0 H0]. destruct (large _ _ L Br F1 N1 E1) as [G1 H1].
        destruct (large _ _ L Br F2 N2 E2) as [G2 H2].
        split; [exact (conj G0 (conj G1 G2))|exact (conj H0 (conj H1 H2))].
      + destruct (angle_ok L) as (Fa & _ & _ & Sm). pose proof (Sm (branch_small _ Fa Br)) as Sm'.
        destruct (halves _ _ F0 N0 E0 Sm') as [G0 H0]. destruct (halves _ _ F1 N1 E1 Sm') as [G1 H1].
        destruct (halves _ _ F2 N2 E2 Sm') as [G2 H2].
        split; [exact (conj G0 (conj G1 G2))|exact (conj H0 (conj H1 H2))].
    - (* the computed cosine exceeds one: acos gives NaN, which is not above the threshold *)
      destruct HA as [_ HA2]. rewrite (HA2 ch Fch) by lra.
      replace (fgt (fmul B754_nan B754_nan) feps) with false by (vm_compute; reflexivity).
      assert (Sm' : 1 - c <= 3 / 2 * d + 9 * w).
      { pose proof c_range. fold t c in Hc.
        destruct (Rle_dec 0 (val ch)) as [K|K]; [rewrite Rabs_pos_eq in L by lra; lra|].
        rewrite Rabs_left in L by lra. exfalso. lra. }
      destruct (halves _ _ F0 N0 E0 Sm') as [G0 H0]. destruct (halves _ _ F1 N1 E1 Sm') as [G1 H1].
      destruct (halves _ _ F2 N2 E2 Sm') as [G2 H2].
      split; [exact (conj G0 (conj G1 G2))|exact (conj H0 (conj H1 H2))].
  Qed.
End Whole.
