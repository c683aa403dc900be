(** C43: the fuzzy comparisons. *)

From Coq Require Import Reals Lra Lia List Bool Arith Ratan.
From Verif Require Import Mat V3 ModelLeaf SpecLeaf LeafProofs ModelExpr SpecExpr ExprProofs
  PropsExpr PropsVec ModelApprox.
Import ListNotations.
Local Open Scope R_scope.

Lemma Rleb_iff x y : Rleb x y = true <-> x <= y.
Proof. unfold Rleb. destruct (Rle_dec x y); split; intros; auto; discriminate. Qed.

(** Every coordinate of the object is at most [prec] in magnitude. *)
Definition small_coords (prec : R) (d : dval) : Prop :=
  forall i, (i < tsize (dkind d))%nat -> Rabs (dcoord d i) <= prec.

Lemma isZero_iff prec v : valid v -> isZero_value prec v = true <-> small_coords prec (den v).
Proof.
  intros V. unfold isZero_value, small_coords. rewrite forallb_forall, valid_dkind by exact V.
  fold (vdim v). rewrite Rabs_R1, Rmult_1_l. split.
  - intros H i Hi. rewrite <- coord_den by exact V. apply Rleb_iff, H, in_seq. lia.
  - intros H i Hi. apply in_seq in Hi. apply Rleb_iff. rewrite coord_den by exact V. apply H. lia.
Qed.

Section A.
  Variable eps : R.
  Hypothesis He : 0 <= eps.

  Lemma eval_valid m e k v : good eps m e k -> eval eps m e = Some v -> valid v.
  Proof.
    intros (K & E & X) H. destruct (eval_sound eps He m e k K E X) as (l & _ & _ & S).
    now destruct (S v H).
  Qed.

  Lemma good_boxminus m x y k : group_kind k = true -> good eps m x k -> good eps m y k ->
    good eps m (XBoxMinus x y) (match k with KRT => KTwist | _ => KRel end).
  Proof.
    intros Hk Gx Gy. destruct k; try discriminate; (eapply good_un; [eapply good_bin;
      [eassumption|eapply good_un; [eassumption|reflexivity|discriminate]|reflexivity]
      |reflexivity|discriminate]).
  Qed.

  (** isApprox of transforms, by the denoted difference. *)
  Lemma approx_group prec m x y k : group_kind k = true -> good eps m x k -> good eps m y k ->
    (isApprox eps prec m x y = true <->
     exists d, deval eps (fun a => den (m a)) (XBoxMinus x y) = Some d /\ small_coords prec d).
  Proof.
    intros Hk Gx Gy. pose proof (good_boxminus m x y k Hk Gx Gy) as G.
    pose proof (good_means eps m _ _ He G) as M. unfold means in M.
    unfold isApprox. rewrite (proj1 Gx), (proj1 Gy).
    assert (S : isApprox eps prec m x y = match eval eps m (XBoxMinus x y) with
              | Some d => isZero_value prec d | None => false end).
    { unfold isApprox. rewrite (proj1 Gx), (proj1 Gy). destruct k; try discriminate; reflexivity. }
    unfold isApprox in S. rewrite (proj1 Gx), (proj1 Gy) in S. rewrite S. clear S.
    destruct (eval eps m (XBoxMinus x y)) as [v|] eqn:Ev.
    - cbn [option_map] in M. rewrite (isZero_iff prec v (eval_valid _ _ _ _ G Ev)). split.
      + intros H. exists (den v). split; [now symmetry|exact H].
      + intros (d & Hd & H). rewrite <- M in Hd. injection Hd as <-. exact H.
    - cbn [option_map] in M. split; [discriminate|]. intros (d & Hd & _). rewrite Hd in M. discriminate.
  Qed.

  Lemma deval_bm_rot m x y X Y :
    deval eps (fun a => den (m a)) x = Some (DRot X) ->
    deval eps (fun a => den (m a)) y = Some (DRot Y) ->
    deval eps (fun a => den (m a)) (XBoxMinus x y) = option_map DRel (log_mat eps (mul3 X (tr3 Y))).
  Proof. intros Hx Hy. unfold XBoxMinus. cbn [deval]. rewrite Hx, Hy. reflexivity. Qed.

  Lemma deval_bm_rt m x y X tx Y ty :
    deval eps (fun a => den (m a)) x = Some (DRT X tx) ->
    deval eps (fun a => den (m a)) y = Some (DRT Y ty) ->
    deval eps (fun a => den (m a)) (XBoxMinus x y)
    = option_map (fun p => DTwist (fst p) (snd p))
        (rt_log eps (mul3 X (tr3 Y)) (vadd (app3 X (vopp (app3 (tr3 Y) ty))) tx)).
  Proof. intros Hx Hy. unfold XBoxMinus. cbn [deval]. rewrite Hx, Hy. reflexivity. Qed.

  (** The logarithm of a rotation has norm equal to the angle, or to its sine in the
      small-angle branch. *)
  Lemma log_mat_norm M v : is_rot M -> log_mat eps M = Some v ->
    let th := rot_angle M in
    (eps < th * th -> th < PI /\ vnorm v = th /\ so3_exp v = M) /\
    (th * th <= eps -> vnorm v = sin th).
  Proof.
    intros HM HL th. pose proof (rot_trace_bound M HM) as TB. unfold rot_angle in th.
    pose proof (acos_bound ((trace3 M - 1) / 2)) as AB. fold th in AB.
    assert (HL' := HL). unfold log_mat in HL'. fold th in HL'.
    destruct (Rle_dec _ _) as [K1|K1]; [|exfalso; apply K1; lra].
    destruct (Rle_dec ((trace3 M - 1) / 2) 1) as [K2|K2]; [|exfalso; apply K2; lra].
    split; intros Ht.
    - destruct (Rlt_dec eps (th * th)); [|contradiction].
      assert (Hpi : th < PI).
      { destruct (Req_dec th PI) as [E|E]; [|lra]. exfalso. rewrite E, sin_PI in HL'.
        unfold odiv in HL'. destruct (Req_EM_T (2 * 0) 0); [discriminate|lra]. }
      destruct (exp_log_general eps M HM He Hpi Ht) as (v' & E1 & E2 & E3).
      rewrite HL in E1. injection E1 as <-. auto.
    - destruct (Rlt_dec eps (th * th)); [lra|]. injection HL' as <-.
      destruct (rot_from_antisym M HM) as (_ & E2).
      replace (uncross (scal3 (1 / 2) (sub3 M (tr3 M))))
        with (vscal (1 / 2) (uncross (sub3 M (tr3 M)))) by (unfold uncross; v3ring).
      unfold vnorm. rewrite E2.
      assert (C : cos th = (trace3 M - 1) / 2) by (apply cos_acos; lra).
      rewrite <- C. pose proof (sin_cos_1 th) as S.
      replace (1 - cos th * cos th) with (sin th * sin th) by lra.
      apply sqrt_square. apply sin_ge_0; lra.
  Qed.

  Lemma log_mat_some M : is_rot M -> rot_angle M < PI -> exists v, log_mat eps M = Some v.
  Proof.
    intros HM Hpi. pose proof (rot_trace_bound M HM) as TB.
    destruct (Rlt_dec eps (rot_angle M * rot_angle M)) as [L|L].
    - destruct (exp_log_general eps M HM He Hpi L) as (v & E & _). eauto.
    - unfold log_mat. destruct (Rle_dec _ _) as [K1|K1]; [|exfalso; apply K1; lra].
      destruct (Rle_dec ((trace3 M - 1) / 2) 1) as [K2|K2]; [|exfalso; apply K2; lra].
      fold (rot_angle M). destruct (Rlt_dec _ _); [contradiction|]. eauto.
  Qed.
End A.

Lemma vget_le_norm v i : Rabs (vget v i) <= vnorm v.
Proof.
  rewrite <- sqrt_Rsqr_abs. apply sqrt_le_1_alt. unfold Rsqr.
  destruct v as [a b c]. unfold vnorm2, vdot. cbn [vx vy vz].
  pose proof (sq_nonneg a). pose proof (sq_nonneg b). pose proof (sq_nonneg c).
  destruct i as [|[|[|i]]]; cbn; lra.
Qed.

Lemma norm_le_coords v p : 0 <= p ->
  (forall i, (i < 3)%nat -> Rabs (vget v i) <= p) -> vnorm v <= sqrt 3 * p.
Proof.
  intros Hp H. unfold vnorm. rewrite <- (sqrt_square p) by exact Hp.
  rewrite <- sqrt_mult_alt by lra. apply sqrt_le_1_alt.
  destruct v as [a b c]. unfold vnorm2, vdot. cbn [vx vy vz].
  assert (Q : forall x, Rabs x <= p -> x * x <= p * p).
  { intros x Hx. apply Rsqr_le_abs_1. rewrite (Rabs_right p) by lra. exact Hx. }
  pose proof (Q a (H 0%nat ltac:(lia))). pose proof (Q b (H 1%nat ltac:(lia))).
  pose proof (Q c (H 2%nat ltac:(lia))). lra.
Qed.

(** ** Transforms *)

(** Equal transforms are accepted whatever their parametrizations and however they are
    computed, for every tolerance. *)
Theorem c43_equal_accepted : forall eps prec m x y k, 0 <= eps -> 0 <= prec ->
  group_kind k = true -> good eps m x k -> good eps m y k ->
  means eps m x = means eps m y -> means eps m x <> None ->
  isApprox eps prec m x y = true.
Proof.
  intros eps prec m x y k He Hp Hk Gx Gy E N.
  rewrite (good_means eps m x k He Gx), (good_means eps m y k He Gy) in E.
  rewrite (good_means eps m x k He Gx) in N.
  apply (approx_group eps He prec m x y k Hk Gx Gy).
  destruct (deval eps (fun a => den (m a)) x) as [d|] eqn:Dx; [|contradiction].
  symmetry in E. destruct (good_deval eps m x k d He Gx Dx) as (Kd & Vd).
  destruct k; try discriminate; destruct d as [| | | | |X|X tx]; try discriminate; cbn in Vd.
  - rewrite (deval_bm_rot eps m x y X X Dx E), rot_mul_tr, log_i by assumption.
    exists (DRel v0). split; [reflexivity|]. intros i Hi. cbn in Hi |- *.
    destruct i as [|[|[|i]]]; cbn; rewrite Rabs_R0; exact Hp.
  - rewrite (deval_bm_rt eps m x y X tx X tx Dx E), rot_mul_tr by assumption.
    replace (vadd (app3 X (vopp (app3 (tr3 X) tx))) tx) with v0.
    2:{ rewrite app3_opp_r, <- app3_mul, rot_mul_tr, app3_i by assumption. v3ring. }
    pose proof (rt_log_exp_0 eps v0 He) as Q. rewrite so3_exp_0, so3_V_0, app3_i in Q. rewrite Q.
    exists (DTwist v0 v0). split; [reflexivity|]. intros i Hi. cbn in Hi |- *.
    destruct i as [|[|[|[|[|[|i]]]]]]; cbn; rewrite Rabs_R0; exact Hp.
Qed.
Print Assumptions c43_equal_accepted.

(** Two rotations whose relative angle is within the tolerance (and not a half turn)
    are accepted. *)
Theorem c43_close_rotations_accepted : forall eps prec m x y X Y, 0 <= eps ->
  good eps m x KRot -> good eps m y KRot ->
  means eps m x = Some (DRot X) -> means eps m y = Some (DRot Y) ->
  rot_angle (mul3 X (tr3 Y)) <= prec -> rot_angle (mul3 X (tr3 Y)) < PI ->
  isApprox eps prec m x y = true.
Proof.
  intros eps prec m x y X Y He Gx Gy Mx My Hp Hpi.
  rewrite (good_means eps m x KRot He Gx) in Mx. rewrite (good_means eps m y KRot He Gy) in My.
  destruct (good_deval _ _ _ _ _ He Gx Mx) as (_ & Vx).
  destruct (good_deval _ _ _ _ _ He Gy My) as (_ & Vy). cbn in Vx, Vy.
  assert (HM : is_rot (mul3 X (tr3 Y))) by auto using is_rot_mul, is_rot_tr.
  apply (approx_group eps He prec m x y KRot eq_refl Gx Gy).
  rewrite (deval_bm_rot eps m x y X Y Mx My).
  destruct (log_mat_some eps He _ HM Hpi) as (v & L). rewrite L. exists (DRel v).
  split; [reflexivity|]. intros i Hi. cbn in Hi |- *.
  apply Rle_trans with (vnorm v); [apply vget_le_norm|].
  destruct (log_mat_norm eps He _ v HM L) as (A & B). set (th := rot_angle (mul3 X (tr3 Y))) in *.
  destruct (Rlt_dec eps (th * th)) as [C|C].
  - destruct (A C) as (_ & -> & _). exact Hp.
  - rewrite B by lra. unfold rot_angle in th.
    pose proof (acos_bound ((trace3 (mul3 X (tr3 Y)) - 1) / 2)) as AB. fold th in AB.
    destruct (proj1 AB) as [D|D]; [pose proof (sin_lt_x th D); lra|]. rewrite <- D, sin_0. lra.
Qed.
Print Assumptions c43_close_rotations_accepted.

(** Two rotations that are accepted differ by an angle of at most sqrt 3 times the
    tolerance, or by an angle in the small-angle range. *)
Theorem c43_accepted_rotations_close : forall eps prec m x y X Y, 0 <= eps -> 0 <= prec ->
  good eps m x KRot -> good eps m y KRot ->
  means eps m x = Some (DRot X) -> means eps m y = Some (DRot Y) ->
  isApprox eps prec m x y = true ->
  rot_angle (mul3 X (tr3 Y)) <= sqrt eps \/ rot_angle (mul3 X (tr3 Y)) <= sqrt 3 * prec.
Proof.
  intros eps prec m x y X Y He Hp Gx Gy Mx My H.
  rewrite (good_means eps m x KRot He Gx) in Mx. rewrite (good_means eps m y KRot He Gy) in My.
  destruct (good_deval _ _ _ _ _ He Gx Mx) as (_ & Vx).
  destruct (good_deval _ _ _ _ _ He Gy My) as (_ & Vy). cbn in Vx, Vy.
  assert (HM : is_rot (mul3 X (tr3 Y))) by auto using is_rot_mul, is_rot_tr.
  apply (approx_group eps He prec m x y KRot eq_refl Gx Gy) in H. destruct H as (d & Hd & S).
  rewrite (deval_bm_rot eps m x y X Y Mx My) in Hd.
  destruct (log_mat eps (mul3 X (tr3 Y))) as [v|] eqn:L; [|discriminate]. injection Hd as <-.
  destruct (log_mat_norm eps He _ v HM L) as (A & B). set (th := rot_angle (mul3 X (tr3 Y))) in *.
  pose proof (acos_bound ((trace3 (mul3 X (tr3 Y)) - 1) / 2)) as AB. fold (rot_angle (mul3 X (tr3 Y))) in AB.
  fold th in AB.
  destruct (Rlt_dec eps (th * th)) as [C|C].
  - right. destruct (A C) as (_ & <- & _). apply norm_le_coords; [exact Hp|].
    intros i Hi. apply (S i Hi).
  - left. rewrite <- (sqrt_square th) by lra. apply sqrt_le_1_alt. lra.
Qed.
Print Assumptions c43_accepted_rotations_close.

Lemma log_mat_tr eps M v : log_mat eps M = Some v -> log_mat eps (tr3 M) = Some (vopp v).
Proof.
  unfold log_mat. replace (trace3 (tr3 M)) with (trace3 M) by (destruct M; reflexivity).
  assert (Q : forall k, uncross (scal3 k (sub3 (tr3 M) (tr3 (tr3 M))))
    = vopp (uncross (scal3 k (sub3 M (tr3 M))))).
  { intros k. unfold uncross. destruct M. v3unf. f_equal; ring. }
  destruct (Rle_dec _ _); [destruct (Rle_dec _ 1); [destruct (Rlt_dec _ _)|]|].
  - destruct (odiv _ _); [|discriminate]. intros [= <-]. now rewrite Q.
  - intros [= <-]. now rewrite Q.
  - intros [= <-]. now rewrite Q.
  - intros [= <-]. now rewrite Q.
Qed.

(** The comparison of rotations is symmetric. *)
Theorem c43_rotations_symmetric : forall eps prec m x y, 0 <= eps ->
  good eps m x KRot -> good eps m y KRot ->
  isApprox eps prec m x y = isApprox eps prec m y x.
Proof.
  intros eps prec m.
  assert (H : forall x y, 0 <= eps -> good eps m x KRot -> good eps m y KRot ->
            isApprox eps prec m x y = true -> isApprox eps prec m y x = true).
  { intros x y He Gx Gy H. apply (approx_group eps He prec m x y KRot eq_refl Gx Gy) in H.
    apply (approx_group eps He prec m y x KRot eq_refl Gy Gx). destruct H as (d & Hd & S).
    destruct (deval eps (fun a => den (m a)) x) as [dx|] eqn:Dx.
    2:{ unfold XBoxMinus in Hd. cbn [deval] in Hd. rewrite Dx in Hd. discriminate. }
    destruct (deval eps (fun a => den (m a)) y) as [dy|] eqn:Dy.
    2:{ unfold XBoxMinus in Hd. cbn [deval] in Hd. rewrite Dx, Dy in Hd. discriminate. }
    destruct (good_deval _ _ _ _ _ He Gx Dx) as (Kx & _). destruct (good_deval _ _ _ _ _ He Gy Dy) as (Ky & _).
    destruct dx as [| | | | |X|]; try discriminate. destruct dy as [| | | | |Y|]; try discriminate.
    rewrite (deval_bm_rot eps m x y X Y Dx Dy) in Hd. rewrite (deval_bm_rot eps m y x Y X Dy Dx).
    destruct (log_mat eps (mul3 X (tr3 Y))) as [v|] eqn:L; [|discriminate]. injection Hd as <-.
    apply log_mat_tr in L. rewrite tr3_mul, tr3_tr in L. rewrite L. exists (DRel (vopp v)).
    split; [reflexivity|]. intros i Hi. specialize (S i Hi). cbn in Hi, S |- *.
    eapply Rle_trans; [|exact S]. right. rewrite <- Rabs_Ropp. f_equal. destruct v, i as [|[|[|i]]]; cbn; ring. }
  intros x y He Gx Gy.
  destruct (isApprox eps prec m x y) eqn:A, (isApprox eps prec m y x) eqn:B; auto.
  - rewrite (H x y He Gx Gy A) in B. discriminate.
  - rewrite (H y x He Gy Gx B) in A. discriminate.
Qed.
Print Assumptions c43_rotations_symmetric.

(** Two rigid transforms that are accepted, and whose relative angle is outside the
    small-angle range, differ by the exponential of a twist whose six coordinates are at
    most the tolerance; the converse holds as well. *)
Theorem c43_transforms_accepted_iff : forall eps prec m x y X tx Y ty, 0 <= eps ->
  good eps m x KRT -> good eps m y KRT ->
  means eps m x = Some (DRT X tx) -> means eps m y = Some (DRT Y ty) ->
  eps < rot_angle (mul3 X (tr3 Y)) * rot_angle (mul3 X (tr3 Y)) ->
  rot_angle (mul3 X (tr3 Y)) < PI ->
  (isApprox eps prec m x y = true <->
   exists w u, vnorm w < PI /\
     X = mul3 (so3_exp w) Y /\ tx = vadd (app3 (so3_exp w) ty) (app3 (so3_V w) u) /\
     forall i, (i < 3)%nat -> Rabs (vget w i) <= prec /\ Rabs (vget u i) <= prec).
Proof.
  intros eps prec m x y X tx Y ty He Gx Gy Mx My Ha Hpi.
  rewrite (good_means eps m x KRT He Gx) in Mx. rewrite (good_means eps m y KRT He Gy) in My.
  destruct (good_deval _ _ _ _ _ He Gx Mx) as (_ & Vx).
  destruct (good_deval _ _ _ _ _ He Gy My) as (_ & Vy). cbn in Vx, Vy.
  rewrite (approx_group eps He prec m x y KRT eq_refl Gx Gy).
  rewrite (deval_bm_rt eps m x y X tx Y ty Mx My).
  assert (HM : is_rot (mul3 X (tr3 Y))) by auto using is_rot_mul, is_rot_tr.
  assert (T : forall E, E = mul3 X (tr3 Y) -> X = mul3 E Y).
  { intros E ->. rewrite mul3_assoc, rot_tr_mul, mul3_i_r by exact Vy. reflexivity. }
  set (t := vadd (app3 X (vopp (app3 (tr3 Y) ty))) tx).
  assert (Et : tx = vadd (app3 (mul3 X (tr3 Y)) ty) t).
  { unfold t. rewrite app3_opp_r, app3_mul. clear. destruct tx.
    generalize (app3 X (app3 (tr3 Y) ty)). intros [? ? ?]. v3unf. f_equal; ring. }
  split.
  - intros (d & Hd & S).
    destruct (rt_exp_log eps _ t He HM Hpi Ha) as (w & u & E1 & E2 & E3 & E4).
    rewrite E1 in Hd. injection Hd as <-. exists w, u. rewrite E2, E3, E4.
    split; [exact Hpi|]. split; [apply T; reflexivity|]. split; [exact Et|].
    intros i Hi. split.
    + specialize (S i ltac:(cbn; lia)). destruct i as [|[|[|i]]]; [exact S..|lia].
    + specialize (S (3 + i)%nat ltac:(cbn; lia)). destruct i as [|[|[|i]]]; [exact S..|lia].
  - intros (w & u & Hw & EX & Etx & S).
    assert (ER : mul3 X (tr3 Y) = so3_exp w)
      by (rewrite EX, mul3_assoc, rot_mul_tr, mul3_i_r by exact Vy; reflexivity).
    rewrite ER in *. rewrite rot_angle_exp in Ha by lra.
    assert (Ev : t = app3 (so3_V w) u).
    { rewrite Etx in Et. clear -Et. destruct (app3 (so3_exp w) ty), (app3 (so3_V w) u), t.
      cbn in Et. injection Et as ? ? ?. f_equal; lra. }
    rewrite Ev, rt_log_exp by (auto; rewrite <- vnorm_sq; exact Ha).
    exists (DTwist w u). split; [reflexivity|]. intros i Hi. cbn in Hi |- *.
    destruct i as [|[|[|i]]]; apply S; lia.
Qed.
Print Assumptions c43_transforms_accepted_iff.

Lemma so3_exp_opp w : so3_exp (vopp w) = tr3 (so3_exp w).
Proof.
  destruct (Req_EM_T (vnorm w) 0) as [E|E].
  - apply vnorm_eq0 in E. subst w. replace (vopp v0) with v0 by v3ring.
    rewrite so3_exp_0. reflexivity.
  - assert (N : vnorm (vopp w) = vnorm w) by (unfold vnorm; f_equal; v3ring).
    unfold so3_exp. rewrite N. destruct (Req_EM_T (vnorm w) 0); [contradiction|].
    unfold rodrigues. set (a := sin _ / _). set (b := (1 - _) / _). clear. clearbody a b.
    destruct w. v3unf. f_equal; ring.
Qed.
Lemma so3_V_opp w : mul3 (so3_exp (vopp w)) (so3_V w) = so3_V (vopp w).
Proof.
  destruct (Req_EM_T (vnorm w) 0) as [E|E].
  - apply vnorm_eq0 in E. subst w. replace (vopp v0) with v0 by v3ring.
    rewrite so3_exp_0, mul3_i_l. reflexivity.
  - assert (W : w <> v0) by (intros ->; apply E, vnorm_0).
    assert (N : vnorm (vopp w) = vnorm w) by (unfold vnorm; f_equal; v3ring).
    assert (N2 : vnorm2 (vopp w) = vnorm2 w) by v3ring.
    assert (W' : vopp w <> v0) by (intros K; apply E; rewrite <- N, K; apply vnorm_0).
    rewrite so3_exp_nz, !so3_V_nz, N, N2 by assumption.
    pose proof (vnorm_sq w) as Sq. set (n := vnorm w) in *. rewrite <- Sq.
    assert (F : forall a b, rodrigues a b (vopp w) = rodrigues (- a) b w).
    { intros a b. unfold rodrigues. clear. destruct w. v3unf. f_equal; ring. }
    rewrite !F, rodrigues_mul, <- Sq. pose proof (sin_cos_1 n) as S.
    f_equal; field_simplify_eq; auto; nra.
Qed.

(** Outside the small-angle range the comparison of rigid transforms is symmetric. *)
Theorem c43_transforms_symmetric_partial : forall eps prec m x y X tx Y ty, 0 <= eps ->
  good eps m x KRT -> good eps m y KRT ->
  means eps m x = Some (DRT X tx) -> means eps m y = Some (DRT Y ty) ->
  eps < rot_angle (mul3 X (tr3 Y)) * rot_angle (mul3 X (tr3 Y)) ->
  rot_angle (mul3 X (tr3 Y)) < PI ->
  isApprox eps prec m x y = isApprox eps prec m y x.
Proof.
  intros eps prec m.
  assert (H : forall x y X tx Y ty, 0 <= eps -> good eps m x KRT -> good eps m y KRT ->
    means eps m x = Some (DRT X tx) -> means eps m y = Some (DRT Y ty) ->
    rot_angle (mul3 Y (tr3 X)) = rot_angle (mul3 X (tr3 Y)) ->
    eps < rot_angle (mul3 X (tr3 Y)) * rot_angle (mul3 X (tr3 Y)) ->
    rot_angle (mul3 X (tr3 Y)) < PI ->
    isApprox eps prec m x y = true -> isApprox eps prec m y x = true).
  { intros x y X tx Y ty He Gx Gy Mx My Es Ha Hpi H.
    apply (c43_transforms_accepted_iff eps prec m x y X tx Y ty) in H; try assumption.
    apply (c43_transforms_accepted_iff eps prec m y x Y ty X tx); try assumption; rewrite ?Es; try assumption.
    destruct H as (w & u & Hw & EX & Et & S). exists (vopp w), (vopp u).
    assert (N : vnorm (vopp w) = vnorm w) by (unfold vnorm; f_equal; v3ring).
    split; [rewrite N; exact Hw|].
    assert (R1 : mul3 (tr3 (so3_exp w)) (so3_exp w) = i3) by apply rot_tr_mul, so3_exp_is_rot.
    split; [rewrite so3_exp_opp, EX, <- mul3_assoc, R1, mul3_i_l; reflexivity|]. split.
    - rewrite <- so3_V_opp, Et, app3_mul, so3_exp_opp, app3_add_r, <- app3_mul, R1, app3_i.
      rewrite !app3_opp_r. generalize (app3 (tr3 (so3_exp w)) (app3 (so3_V w) u)). clear.
      intros [a b c]. destruct ty. v3unf. f_equal; ring.
    - intros i Hi. destruct (S i Hi) as (S1 & S2). clear -S1 S2. rewrite <- Rabs_Ropp in S1, S2.
      split; [eapply Rle_trans; [|exact S1]|eapply Rle_trans; [|exact S2]]; right; f_equal; destruct w, u, i as [|[|[|i]]]; cbn; ring. }
  intros x y X tx Y ty He Gx Gy Mx My Ha Hpi.
  assert (Es : rot_angle (mul3 Y (tr3 X)) = rot_angle (mul3 X (tr3 Y))).
  { unfold rot_angle. do 3 f_equal. destruct X, Y. v3unf. ring. }
  destruct (isApprox eps prec m x y) eqn:A, (isApprox eps prec m y x) eqn:B; auto.
  - rewrite (H x y X tx Y ty) in B; auto.
  - rewrite (H y x Y ty X tx) in A; auto; rewrite Es; auto.
Qed.
Print Assumptions c43_transforms_symmetric_partial.

(** In the small-angle range it is not: for every threshold eps in (0,1) there are two valid
    rigid transforms and a tolerance with x ~ y accepted and y ~ x rejected. *)
Definition rz (a : R) : M3 := mkM (cos a) (- sin a) 0 (sin a) (cos a) 0 0 0 1.

Lemma rz_is_rot a : is_rot (rz a).
Proof. pose proof (sin_cos_1 a). unfold rz, is_rot. split; v3unf; [f_equal; lra|lra]. Qed.

Lemma log_rz eps a : 0 < a < 1 -> a * a <= eps -> log_mat eps (rz a) = Some (mkV 0 0 (sin a)).
Proof.
  intros Ha Hs. pose proof PI2_1. unfold log_mat.
  replace ((trace3 (rz a) - 1) / 2) with (cos a) by (unfold rz, trace3; cbn; field).
  pose proof (COS_bound a).
  destruct (Rle_dec (-1) (cos a)) as [K1|K1]; [|exfalso; apply K1; lra].
  destruct (Rle_dec (cos a) 1) as [K2|K2]; [|exfalso; apply K2; lra].
  rewrite acos_cos by lra. destruct (Rlt_dec _ _); [lra|].
  f_equal. unfold uncross, rz. v3unf. f_equal; field.
Qed.
Lemma log_rz_tr eps a : 0 < a < 1 -> a * a <= eps ->
  log_mat eps (tr3 (rz a)) = Some (mkV 0 0 (- sin a)).
Proof.
  intros Ha Hs. rewrite (log_mat_tr eps (rz a) (mkV 0 0 (sin a))) by now apply log_rz.
  f_equal. v3unf. f_equal; ring.
Qed.
Lemma rt_log_small eps M t s : log_mat eps M = Some (mkV 0 0 s) -> s * s <= eps ->
  rt_log eps M t = Some (mkV 0 0 s, app3 (sub3 i3 (scal3 (1 / 2) (skew (mkV 0 0 s)))) t).
Proof.
  intros L Hs. unfold rt_log. rewrite L.
  destruct (Rlt_dec eps (vnorm2 (mkV 0 0 s))) as [K|K]; [|reflexivity].
  exfalso. unfold vnorm2, vdot in K. cbn in K. lra.
Qed.

Theorem c43_transforms_symmetric_refuted : forall eps, 0 < eps < 1 ->
  exists m x y prec, good eps m x KRT /\ good eps m y KRT /\ 0 < prec /\
    isApprox eps prec m x y = true /\ isApprox eps prec m y x = false.
Proof.
  intros eps He. pose proof PI2_1 as HP. pose (a := sqrt eps / 2).
  pose proof (sqrt_sqrt eps ltac:(lra)) as Hq. pose proof (sqrt_lt_R0 eps ltac:(lra)) as Hq0.
  assert (Ha2 : a * a = eps / 4) by (unfold a; lra).
  assert (Ha0 : 0 < a) by (unfold a; lra).
  assert (Ha12 : a < 1 / 2) by (unfold a; nra).
  assert (Ha1 : a < 1) by lra.
  assert (Hs0 : 0 < sin a) by (apply sin_gt_0; lra).
  assert (Hs1 : sin a < a) by (apply sin_lt_x; lra).
  assert (Hc0 : 0 < cos a) by (apply cos_gt_0; lra).
  pose proof (sin_cos_1 a) as SC.
  assert (Hc1 : cos a < 1) by nra.
  assert (Hss : sin a * sin a <= eps) by nra.
  pose (m := fun k : nat => match k with 0%nat => VMatRT i3 v0 v0 1 | _ => VMatRT (rz a) (mkV 1 0 0) v0 1 end).
  pose (x := XLeaf 0%nat (Plain LMatRT)). pose (y := XLeaf 1%nat (Plain LMatRT)).
  pose (prec := cos a + sin a * sin a / 2).
  assert (Gx : good eps m x KRT)
    by (apply (good_leaf eps m 0%nat (Plain LMatRT)); [reflexivity|repeat split; apply is_rot_i]).
  assert (Gy : good eps m y KRT)
    by (apply (good_leaf eps m 1%nat (Plain LMatRT)); [reflexivity|repeat split; apply rz_is_rot]).
  exists m, x, y, prec. split; [exact Gx|]. split; [exact Gy|].
  split; [unfold prec; nra|].
  split.
  - apply (approx_group eps ltac:(lra) prec m x y KRT eq_refl Gx Gy).
    rewrite (deval_bm_rt eps m x y i3 v0 (rz a) (mkV 1 0 0) eq_refl eq_refl).
    rewrite mul3_i_l.
    rewrite (rt_log_small eps _ _ (- sin a) (log_rz_tr eps a (conj Ha0 Ha1) ltac:(lra)) ltac:(lra)).
    eexists. split; [reflexivity|]. intros i Hi. cbn in Hi.
    assert (C1 : cos a >= 1 - sin a * sin a) by nra.
    assert (S2 : sin a * sin a <= 1 / 4) by nra.
    assert (P1 : 3 / 4 <= prec) by (unfold prec; lra).
    assert (SC2 : 0 < sin a * cos a < sin a) by nra.
    destruct i as [|[|[|[|[|[|i]]]]]]; try lia; cbn; apply Rabs_le;
      try (split; lra); unfold prec in *; split; lra.
  - apply not_true_is_false. intros H.
    apply (approx_group eps ltac:(lra) prec m y x KRT eq_refl Gy Gx) in H.
    destruct H as (d & Hd' & S).
    rewrite (deval_bm_rt eps m y x (rz a) (mkV 1 0 0) i3 v0 eq_refl eq_refl) in Hd'.
    rewrite tr3_i, mul3_i_r in Hd'.
    rewrite (rt_log_small eps _ _ (sin a) (log_rz eps a (conj Ha0 Ha1) ltac:(lra)) ltac:(lra)) in Hd'.
    injection Hd' as <-. specialize (S 3%nat ltac:(cbn; lia)). cbn in S.
    pose proof (Rle_abs (vx (app3 (sub3 i3 (scal3 (1 / 2) (skew (mkV 0 0 (sin a)))))
      (vadd (app3 (rz a) (vopp (app3 i3 v0))) (mkV 1 0 0))))) as Q.
    cbn in Q, S. unfold prec in S. nra.
Qed.
Print Assumptions c43_transforms_symmetric_refuted.

(** ** Vectors, points and scalars *)

Lemma rsum_nonneg n f : (forall i, 0 <= f i) -> 0 <= rsum n f.
Proof. intros H. induction n as [|n IH]; cbn; [lra|]. specialize (H n). lra. Qed.
Lemma Rabs_mult_self a : Rabs a * Rabs a = a * a.
Proof. rewrite <- Rabs_mult. apply Rabs_right, Rle_ge, sq_nonneg. Qed.

Definition dist2 (a b : dval) : R :=
  rsum (tsize (dkind a)) (fun i => (dcoord a i - dcoord b i) * (dcoord a i - dcoord b i)).

(** The comparison is the relative one: the distance is at most the tolerance times the
    smaller of the two norms. *)
Theorem c43_vectors_iff : forall eps prec m x y k dx dy, 0 <= eps -> 0 <= prec ->
  affine_kind k = true -> good eps m x k -> good eps m y k ->
  means eps m x = Some dx -> means eps m y = Some dy ->
  (isApprox eps prec m x y = true <->
   sqrt (dist2 dx dy) <= prec * Rmin (sqrt (dnorm2 dx)) (sqrt (dnorm2 dy))).
Proof.
  intros eps prec m x y k dx dy He Hp Hk Gx Gy Mx My.
  unfold means in Mx, My.
  destruct (eval eps m x) as [vx|] eqn:Ex; [|discriminate].
  destruct (eval eps m y) as [vy|] eqn:Ey; [|discriminate].
  pose proof (eval_valid eps He m x k vx Gx Ex) as Vx.
  pose proof (eval_valid eps He m y k vy Gy Ey) as Vy.
  injection Mx as Mx. injection My as My. subst dx dy.
  assert (Kx : dkind (den vx) = k).
  { pose proof (good_means eps m x k He Gx) as Q. unfold means in Q. rewrite Ex in Q. cbn in Q.
    symmetry in Q. now destruct (good_deval _ _ _ _ _ He Gx Q). }
  assert (Ky : dkind (den vy) = k).
  { pose proof (good_means eps m y k He Gy) as Q. unfold means in Q. rewrite Ey in Q. cbn in Q.
    symmetry in Q. now destruct (good_deval _ _ _ _ _ He Gy Q). }
  assert (Nx : forall v, valid v -> norm2_of v = dnorm2 (den v)).
  { intros v V. unfold norm2_of, dnorm2. rewrite valid_dkind by exact V. fold (vdim v).
    apply rsum_ext. intros i _. now rewrite !coord_den by exact V. }
  assert (D0 : 0 <= dist2 (den vx) (den vy)) by (apply rsum_nonneg; intros; apply sq_nonneg).
  assert (N0 : forall d, 0 <= dnorm2 d) by (intros; apply rsum_nonneg; intros; apply sq_nonneg).
  assert (SM : Rmin (sqrt (dnorm2 (den vx))) (sqrt (dnorm2 (den vy)))
             = sqrt (Rmin (dnorm2 (den vx)) (dnorm2 (den vy)))).
  { unfold Rmin. destruct (Rle_dec (dnorm2 _) _) as [L|L].
    - destruct (Rle_dec (sqrt _) _) as [L'|L']; [reflexivity|].
      exfalso. apply L', sqrt_le_1_alt, L.
    - destruct (Rle_dec (sqrt _) _) as [L'|L']; [|reflexivity].
      apply sqrt_le_0 in L'; auto. contradiction. }
  assert (Q : isApprox eps prec m x y = true <->
              dist2 (den vx) (den vy) <= prec * prec * Rmin (dnorm2 (den vx)) (dnorm2 (den vy))).
  { assert (S : k <> KScalar -> isApprox eps prec m x y = eigen_isApprox prec vx vy).
    { intros N. unfold isApprox. rewrite (proj1 Gx), (proj1 Gy), Ex, Ey.
      destruct k; try discriminate; try contradiction; reflexivity. }
    destruct (kind_eqb k KScalar) eqn:KS.
    - destruct k; try discriminate. unfold isApprox.
      rewrite (proj1 Gx), (proj1 Gy), Ex, Ey. cbn [kind_eqb].
      assert (TX : forall v, dkind (den v) = KScalar -> valid v -> exists s, v = VScalar s).
      { intros v K V. destruct v as [s| | | | | | | | | |l|l]; try discriminate; [eauto| |];
          destruct l; cbn in K, V; try discriminate; contradiction. }
      destruct (TX vx Kx Vx) as (a & ->). destruct (TX vy Ky Vy) as (b & ->).
      rewrite Rleb_iff. unfold dist2, dnorm2. cbn. rewrite !Rplus_0_l.
      assert (SA : forall u, sqrt (u * u) = Rabs u) by (intros; apply sqrt_Rsqr_abs).
      split; intros H.
      + assert (H' : Rsqr (a - b) <= Rsqr (prec * Rmin (Rabs a) (Rabs b))).
        { apply Rsqr_le_abs_1. rewrite (Rabs_right (prec * _)); [exact H|].
          apply Rle_ge, Rmult_le_pos; [exact Hp|]. apply Rmin_glb; apply Rabs_pos. }
        unfold Rsqr in H'. eapply Rle_trans; [exact H'|].
        apply Req_le. unfold Rmin. destruct (Rle_dec (Rabs a) (Rabs b)) as [L|L].
        * destruct (Rle_dec (a * a) (b * b)) as [L'|L'].
          -- rewrite <- (Rabs_mult_self a). ring.
          -- exfalso. apply L'. apply (Rsqr_le_abs_1 a b L).
        * destruct (Rle_dec (a * a) (b * b)) as [L'|L'].
          -- exfalso. apply L. apply (Rsqr_le_abs_0 a b L').
          -- rewrite <- (Rabs_mult_self b). ring.
      + apply sqrt_le_1_alt in H. rewrite SA in H. eapply Rle_trans; [exact H|].
        apply Req_le. rewrite sqrt_mult_alt by apply sq_nonneg. rewrite sqrt_square by exact Hp.
        f_equal. unfold Rmin. destruct (Rle_dec (Rabs a) (Rabs b)) as [L|L].
        * destruct (Rle_dec (a * a) (b * b)) as [L'|L']; [apply SA|].
          exfalso. apply L'. apply (Rsqr_le_abs_1 a b L).
        * destruct (Rle_dec (a * a) (b * b)) as [L'|L']; [|apply SA].
          exfalso. apply L. apply (Rsqr_le_abs_0 a b L').
    - rewrite S by (intros ->; discriminate). unfold eigen_isApprox.
      rewrite Rleb_iff, !Nx by assumption. unfold dist2. rewrite valid_dkind by exact Vx. fold (vdim vx).
      replace (rsum (vdim vx) (fun i => (coord vx i - coord vy i) * (coord vx i - coord vy i)))
        with (rsum (vdim vx) (fun i => (dcoord (den vx) i - dcoord (den vy) i)
                                     * (dcoord (den vx) i - dcoord (den vy) i))); [reflexivity|].
      apply rsum_ext. intros i _. now rewrite !coord_den by assumption. }
  rewrite Q, SM. rewrite <- (sqrt_square prec) at 3 by exact Hp.
  rewrite <- sqrt_mult_alt by apply sq_nonneg. split; intros H.
  - now apply sqrt_le_1_alt.
  - apply sqrt_le_0 in H; auto. apply Rmult_le_pos; [apply sq_nonneg|]. unfold Rmin. destruct (Rle_dec _ _); auto.
Qed.
Print Assumptions c43_vectors_iff.

Lemma dist2_sym a b : dkind a = dkind b -> dist2 a b = dist2 b a.
Proof. intros K. unfold dist2. rewrite K. apply rsum_ext. intros. ring. Qed.
Lemma dist2_self a : dist2 a a = 0.
Proof. unfold dist2. apply rsum_0. intros. ring. Qed.

(** Hence it accepts equal vectors and is symmetric. *)
Theorem c43_vectors_equal_symmetric : forall eps prec m x y k, 0 <= eps -> 0 <= prec ->
  affine_kind k = true -> good eps m x k -> good eps m y k ->
  (means eps m x = means eps m y -> means eps m x <> None -> isApprox eps prec m x y = true) /\
  isApprox eps prec m x y = isApprox eps prec m y x.
Proof.
  intros eps prec m x y k He Hp Hk Gx Gy. split.
  - intros E N. destruct (means eps m x) as [d|] eqn:Mx; [|contradiction]. symmetry in E.
    apply (c43_vectors_iff eps prec m x y k d d); try assumption.
    rewrite dist2_self, sqrt_0. apply Rmult_le_pos; [exact Hp|].
    apply Rmin_glb; apply sqrt_pos.
  - destruct (means eps m x) as [dx|] eqn:Mx, (means eps m y) as [dy|] eqn:My.
    + pose proof (c43_vectors_iff eps prec m x y k dx dy He Hp Hk Gx Gy Mx My) as A.
      pose proof (c43_vectors_iff eps prec m y x k dy dx He Hp Hk Gy Gx My Mx) as B.
      rewrite dist2_sym, Rmin_comm in B.
      * destruct (isApprox eps prec m x y), (isApprox eps prec m y x); auto.
        -- symmetry. apply B, A. reflexivity.
        -- apply A, B. reflexivity.
      * rewrite (good_means _ _ _ _ He Gx) in Mx. rewrite (good_means _ _ _ _ He Gy) in My.
        destruct (good_deval _ _ _ _ _ He Gx Mx) as (-> & _).
        destruct (good_deval _ _ _ _ _ He Gy My) as (-> & _). reflexivity.
    + unfold means in My. destruct (eval eps m y) eqn:Ey; [discriminate|].
      unfold isApprox. rewrite (proj1 Gx), (proj1 Gy), Ey.
      destruct k; try discriminate; cbn; now destruct (eval eps m x) as [[]|].
    + unfold means in Mx. destruct (eval eps m x) eqn:Ex; [discriminate|].
      unfold isApprox. rewrite (proj1 Gx), (proj1 Gy), Ex.
      destruct k; try discriminate; cbn; now destruct (eval eps m y) as [[]|].
    + unfold means in Mx. destruct (eval eps m x) eqn:Ex; [discriminate|].
      unfold isApprox. rewrite (proj1 Gx), (proj1 Gy), Ex.
      destruct k; try discriminate; cbn; now destruct (eval eps m y) as [[]|].
Qed.
Print Assumptions c43_vectors_equal_symmetric.

(** isZero accepts exactly the vectors whose coordinates are all within the tolerance. *)
Theorem c43_isZero_iff : forall eps prec m x k d, 0 <= eps ->
  affine_kind k = true -> good eps m x k -> means eps m x = Some d ->
  (isZero eps prec m x = true <-> small_coords prec d).
Proof.
  intros eps prec m x k d He Hk G M. unfold means in M.
  destruct (eval eps m x) as [v|] eqn:E; [|discriminate]. injection M as M. subst d.
  pose proof (eval_valid eps He m x k v G E) as V.
  assert (K : dkind (den v) = k).
  { pose proof (good_means eps m x k He G) as Q. unfold means in Q. rewrite E in Q. cbn in Q.
    symmetry in Q. now destruct (good_deval _ _ _ _ _ He G Q). }
  unfold isZero. rewrite (proj1 G), E. rewrite <- isZero_iff by exact V.
  destruct k; try discriminate; try reflexivity.
  destruct v as [s| | | | | | | | | |l|l]; try discriminate;
    [|destruct l; cbn in K, V; try discriminate; contradiction..].
  rewrite Rleb_iff. unfold isZero_value. cbn. rewrite Rabs_R1, Rmult_1_l, andb_true_r.
  now rewrite Rleb_iff.
Qed.
Print Assumptions c43_isZero_iff.

(** Instances: a quaternion and a matrix denoting the same quarter turn, a rotation about z
    by 1/2 against the identity, and two vectors. *)
Example c43_example : exists m,
  good (1/4) m (XLeaf 0%nat (Plain LMat)) KRot /\ good (1/4) m (XLeaf 1%nat (Plain LQuat)) KRot /\
  means (1/4) m (XLeaf 0%nat (Plain LMat)) = means (1/4) m (XLeaf 1%nat (Plain LQuat)) /\
  isApprox (1/4) 0 m (XLeaf 0%nat (Plain LMat)) (XLeaf 1%nat (Plain LQuat)) = true /\
  good (1/4) m (XLeaf 2%nat (Plain LTrans)) KTrans /\ good (1/4) m (XLeaf 3%nat (Plain LTrans)) KTrans /\
  isApprox (1/4) (1/2) m (XLeaf 2%nat (Plain LTrans)) (XLeaf 3%nat (Plain LTrans)) = true /\
  isApprox (1/4) (1/8) m (XLeaf 2%nat (Plain LTrans)) (XLeaf 3%nat (Plain LTrans)) = false.
Proof.
  exists (fun a => match a with 0 => VMat (qrot (mkQ 0 0 1 0)) | 1 => VQuat (mkQ 0 0 1 0)
                | 2 => VTrans (mkV 4 0 0) | _ => VTrans (mkV 5 0 0) end%nat).
  match goal with |- good _ ?m' _ _ /\ _ => set (m := m') end.
  assert (G0 : good (1/4) m (XLeaf 0%nat (Plain LMat)) KRot)
    by (apply (good_leaf (1/4) m 0%nat (Plain LMat)); [reflexivity|apply qrot_is_rot, ex_q]).
  assert (G1 : good (1/4) m (XLeaf 1%nat (Plain LQuat)) KRot)
    by (apply (good_leaf (1/4) m 1%nat (Plain LQuat)); [reflexivity|apply ex_q]).
  assert (G2 : good (1/4) m (XLeaf 2%nat (Plain LTrans)) KTrans)
    by (apply (good_leaf (1/4) m 2%nat (Plain LTrans)); [reflexivity|exact I]).
  assert (G3 : good (1/4) m (XLeaf 3%nat (Plain LTrans)) KTrans)
    by (apply (good_leaf (1/4) m 3%nat (Plain LTrans)); [reflexivity|exact I]).
  do 3 (split; [assumption || (rewrite !(good_means (1/4) m _ KRot) by (assumption || lra); reflexivity)|]).
  split; [|do 2 (split; [assumption|]); split].
  - apply (c43_equal_accepted (1/4) 0 m _ _ KRot); try assumption; try lra; try reflexivity;
      rewrite !(good_means (1/4) m _ KRot) by (assumption || lra); try reflexivity; discriminate.
  - eapply (c43_vectors_iff (1/4) (1/2) m _ _ KTrans (DTrans (mkV 4 0 0)) (DTrans (mkV 5 0 0)));
      try assumption; try lra; try reflexivity;
      rewrite ?(good_means (1/4) m _ KTrans) by (assumption || lra); try reflexivity.
    unfold dist2, dnorm2. cbn.
    replace (0 + (4 - 5) * (4 - 5) + (0 - 0) * (0 - 0) + (0 - 0) * (0 - 0)) with (1 * 1) by ring.
    replace (0 + 4 * 4 + 0 * 0 + 0 * 0) with (4 * 4) by ring.
    replace (0 + 5 * 5 + 0 * 0 + 0 * 0) with (5 * 5) by ring.
    rewrite !sqrt_square by lra. unfold Rmin. destruct (Rle_dec 4 5); lra.
  - apply not_true_is_false. intros H.
    apply (c43_vectors_iff (1/4) (1/8) m _ _ KTrans (DTrans (mkV 4 0 0)) (DTrans (mkV 5 0 0))) in H;
      try assumption; try lra; try reflexivity;
      rewrite ?(good_means (1/4) m _ KTrans) by (assumption || lra); try reflexivity.
    revert H. unfold dist2, dnorm2. cbn.
    replace (0 + (4 - 5) * (4 - 5) + (0 - 0) * (0 - 0) + (0 - 0) * (0 - 0)) with (1 * 1) by ring.
    replace (0 + 4 * 4 + 0 * 0 + 0 * 0) with (4 * 4) by ring.
    replace (0 + 5 * 5 + 0 * 0 + 0 * 0) with (5 * 5) by ring.
    rewrite !sqrt_square by lra. unfold Rmin. destruct (Rle_dec 4 5); lra.
Qed.

(** An instance of the rotation bounds: a rotation by 1/8 about z. *)
Example c43_rotation_example : exists m,
  good (1/256) m (XLeaf 0%nat (Plain LMat)) KRot /\ good (1/256) m (XLeaf 1%nat (Plain LMat)) KRot /\
  means (1/256) m (XLeaf 0%nat (Plain LMat)) = Some (DRot (rz (1/8))) /\
  means (1/256) m (XLeaf 1%nat (Plain LMat)) = Some (DRot i3) /\
  rot_angle (mul3 (rz (1/8)) (tr3 i3)) = 1/8.
Proof.
  pose proof PI2_1.
  exists (fun a => match a with 0 => VMat (rz (1/8)) | _ => VMat i3 end%nat).
  match goal with |- good _ ?m' _ _ /\ _ => set (m := m') end.
  assert (G0 : good (1/256) m (XLeaf 0%nat (Plain LMat)) KRot)
    by (apply (good_leaf (1/256) m 0%nat (Plain LMat)); [reflexivity|apply rz_is_rot]).
  assert (G1 : good (1/256) m (XLeaf 1%nat (Plain LMat)) KRot)
    by (apply (good_leaf (1/256) m 1%nat (Plain LMat)); [reflexivity|apply is_rot_i]).
  rewrite !(good_means (1/256) m _ KRot) by (assumption || lra).
  do 2 (split; [assumption|]). do 2 (split; [reflexivity|]).
  rewrite tr3_i, mul3_i_r. unfold rot_angle.
  replace ((trace3 (rz (1/8)) - 1) / 2) with (cos (1/8)) by (unfold rz, trace3; cbn; field).
  apply acos_cos. lra.
Qed.
