(** C12, C17, C18, C20, C21, C22: conversions between parametrizations of rotations,
    exponential and logarithm, and their Jacobians at and near zero. *)

From Coq Require Import Reals Lra Lia List Bool Arith Ratan.
From Verif Require Import Mat ModelMeta ModelJac SpecJac JacProofs V3 ModelLeaf SpecLeaf
  LeafProofs ModelExpr SpecExpr ExprProofs PropsExpr PropsVec Calc SpecDeriv DerivProofs DerivUn
  DerivTree JacDef PropsDeriv.
Import ListNotations.
Local Open Scope R_scope.
Local Open Scope mat_scope.
Local Arguments mvec : simpl never.

(** ** C12: conversions *)

Theorem c12_conversion_preserves : forall v l l', valid v -> vty v = Plain l ->
  kind_of l = kind_of l' -> kind_of l = KRot \/ kind_of l = KRT ->
  exists v', sem_convert l' v = Some v' /\ vty v' = Plain l' /\ valid v' /\ den v' = den v.
Proof.
  intros v l l' V T K _.
  destruct (convert_sound l' v (Plain l')) as (r & E & D & T' & V'); auto.
  - rewrite T. cbn. rewrite <- K. replace (kind_eqb _ _) with true; [reflexivity|].
    symmetry. now apply kind_eqb_eq.
  - exists r. auto.
Qed.
Print Assumptions c12_conversion_preserves.

(** The same through the API: converting the value of any expression. *)
Theorem c12_expression_conversion : forall eps m e k l, 0 <= eps -> good eps m e k -> kind_of l = k ->
  means eps m (XUn (OConvert l) e) = means eps m e.
Proof.
  intros eps m e k l He G K.
  assert (Kr : kind_eqb k k = true) by now apply kind_eqb_eq.
  assert (G' : good eps m (XUn (OConvert l) e) k).
  { apply (good_un eps m (OConvert l) e k k G); [|discriminate]. cbn. now rewrite K, Kr. }
  rewrite (good_means eps m _ k He G'), (good_means eps m _ k He G). cbn [deval].
  destruct (deval eps (fun a => den (m a)) e) as [x|] eqn:D; [|reflexivity].
  destruct (good_deval eps m e k x He G D) as (Kx & _). cbn [dsem_un]. rewrite K, Kx, Kr. reflexivity.
Qed.
Print Assumptions c12_expression_conversion.

Theorem c12_matrix_quaternion_matrix : forall m, is_rot m ->
  exists q, sem_convert LQuat (VMat m) = Some (VQuat q) /\ unitq q /\
    sem_convert LMat (VQuat q) = Some (VMat m).
Proof.
  intros m H. destruct (q_of_mat_correct m H) as (U & E).
  exists (q_of_mat m). cbn. rewrite E. auto.
Qed.
Print Assumptions c12_matrix_quaternion_matrix.

Lemma qrot_eq_sign p q : unitq p -> unitq q -> qrot p = qrot q ->
  p = q \/ p = mkQ (- qw q) (- qx q) (- qy q) (- qz q).
Proof.
  destruct p as [w x y z], q as [w' x' y' z']. unfold unitq. intros U U' E. v3unfh U. v3unfh U'. v3unfh E.
  injection E as E0 E1 E2 E3 E4 E5 E6 E7 E8.
  assert (P1 : w * w = w' * w') by lra. assert (P2 : x * x = x' * x') by lra.
  assert (P3 : y * y = y' * y') by lra. assert (P4 : z * z = z' * z') by lra.
  assert (Q1 : w * x = w' * x') by lra. assert (Q2 : w * y = w' * y') by lra.
  assert (Q3 : w * z = w' * z') by lra. assert (Q4 : x * y = x' * y') by lra.
  assert (Q5 : x * z = x' * z') by lra. assert (Q6 : y * z = y' * z') by lra.
  clear E0 E1 E2 E3 E4 E5 E6 E7 E8.
  assert (S : forall a b, a * a = b * b -> a = b \/ a = - b).
  { intros a b H. assert ((a - b) * (a + b) = 0) by lra.
    apply Rmult_integral in H0. destruct H0; [left|right]; lra. }
  assert (C : forall a b c, a * b = a * c -> a <> 0 -> b = c).
  { intros a b c H N. apply (Rmult_eq_reg_l a); assumption. }
  destruct (Req_EM_T w 0) as [Zw|Nw].
  - assert (Zw' : w' = 0) by (subst w; clear - P1; nra). subst w w'. cbn [qw qx qy qz].
    destruct (Req_EM_T x 0) as [Zx|Nx].
    + assert (Zx' : x' = 0) by (subst x; clear - P2; nra). subst x x'.
      destruct (Req_EM_T y 0) as [Zy|Ny].
      * assert (Zy' : y' = 0) by (subst y; clear - P3; nra). subst y y'.
        destruct (S _ _ P4) as [H|H]; rewrite H; [left|right]; f_equal; ring.
      * destruct (S _ _ P3) as [H|H]; rewrite H in *.
        -- assert (z = z') by (apply (C y'); [exact Q6|exact Ny]). left. congruence.
        -- assert (z = - z'). { apply (C (- y')); [lra|exact Ny]. } right. f_equal; lra.
    + destruct (S _ _ P2) as [H|H]; rewrite H in *.
      * assert (y = y') by (apply (C x'); [exact Q4|exact Nx]).
        assert (z = z') by (apply (C x'); [exact Q5|exact Nx]). left. congruence.
      * assert (y = - y') by (apply (C (- x')); [lra|exact Nx]).
        assert (z = - z') by (apply (C (- x')); [lra|exact Nx]). right. f_equal; lra.
  - destruct (S _ _ P1) as [H|H]; rewrite H in *.
    + assert (x = x') by (apply (C w'); [exact Q1|exact Nw]).
      assert (y = y') by (apply (C w'); [exact Q2|exact Nw]).
      assert (z = z') by (apply (C w'); [exact Q3|exact Nw]). left. congruence.
    + assert (x = - x') by (apply (C (- w')); [lra|exact Nw]).
      assert (y = - y') by (apply (C (- w')); [lra|exact Nw]).
      assert (z = - z') by (apply (C (- w')); [lra|exact Nw]). right. cbn. f_equal; lra.
Qed.

(** quaternion -> matrix -> quaternion gives the quaternion back up to sign. *)
Theorem c12_quaternion_matrix_quaternion : forall q, unitq q ->
  exists q', sem_convert LMat (VQuat q) = Some (VMat (qrot q)) /\
    sem_convert LQuat (VMat (qrot q)) = Some (VQuat q') /\
    (q' = q \/ q' = mkQ (- qw q) (- qx q) (- qy q) (- qz q)).
Proof.
  intros q U. destruct (q_of_mat_correct (qrot q) (qrot_is_rot q U)) as (U' & E).
  exists (q_of_mat (qrot q)). cbn. repeat split. now apply qrot_eq_sign.
Qed.
Print Assumptions c12_quaternion_matrix_quaternion.

Example c12_example : valid (VAA 2 (mkV 0 0 1)) /\ unitq (mkQ (3/5) 0 (-4/5) 0) /\
  is_rot (mkM (-1) 0 0 0 1 0 0 0 (-1)).
Proof. repeat split; try (cbn; unfold unitv, unitq); v3unf; try field; f_equal; ring. Qed.

(** ** C17: exp and log of SO(3) *)

Lemma good_arg eps m o e k : good eps m (XUn o e) k -> exists k', good eps m e k'.
Proof.
  apply good_sub. right. destruct e; left; reflexivity.
Qed.

(** *** The exponential as a motion *)

Lemma dpl_shift f x l : derivable_pt_lim (fun h => f (x + h)) 0 l -> derivable_pt_lim f x l.
Proof.
  intros H. apply (dpl_ext (fun y => f (x + (y - x)))); [intros s; f_equal; ring|].
  eapply dpl_val.
  - apply (dpl_comp (fun y => y - x) (fun h => f (x + h)) x 1 l).
    + eapply dpl_val; [apply dpl_minus; [apply dpl_id|apply dpl_const]|ring].
    + replace (x - x) with 0 by ring. exact H.
  - ring.
Qed.
Lemma m3d_shift f x l : m3_deriv (fun h => f (x + h)) 0 l -> m3_deriv f x l.
Proof.
  intros H. unfold m3_deriv in *. decompose [and] H.
  repeat split;
  lazymatch goal with |- derivable_pt_lim (fun s => ?p (f s)) _ _ =>
    apply (dpl_shift (fun s => p (f s))); assumption end.
Qed.
Lemma v3d_shift f x l : v3_deriv (fun h => f (x + h)) 0 l -> v3_deriv f x l.
Proof.
  intros H. unfold v3_deriv in *. decompose [and] H.
  repeat split;
  lazymatch goal with |- derivable_pt_lim (fun s => ?p (f s)) _ _ =>
    apply (dpl_shift (fun s => p (f s))); assumption end.
Qed.

Lemma rodrigues_axis a b v : app3 (rodrigues a b v) v = v.
Proof. unfold rodrigues. destruct v. v3unf. f_equal; ring. Qed.
Lemma rodrigues_axis_s a b s v : app3 (rodrigues a b (vscal s v)) v = v.
Proof. unfold rodrigues. destruct v. v3unf. f_equal; ring. Qed.
Lemma so3_V_axis s v : app3 (so3_V (vscal s v)) v = v.
Proof. unfold so3_V. destruct (Req_EM_T _ 0); [apply app3_i|apply rodrigues_axis_s]. Qed.

Lemma vscal_0_l v : vscal 0 v = v0.
Proof. destruct v; unfold vscal, v0; cbn; f_equal; ring. Qed.

Lemma v3d_lin_shift s v : v3_deriv (fun h => vscal (s + h) v) 0 v.
Proof.
  eapply v3d_val; [apply v3d_scal; [apply dpl_plus; [apply dpl_const|apply dpl_id]|apply v3d_const]|].
  cbv beta. destruct v; unfold vadd, vscal, v0; cbn; f_equal; ring.
Qed.

Lemma so3_flow_exp v : so3_flow v (fun s => so3_exp (vscal s v)).
Proof.
  split; [rewrite vscal_0_l; apply so3_exp_0|]. intros s. apply (m3d_shift (fun s => so3_exp (vscal s v))).
  pose proof (so3_exp_deriv _ _ (v3d_lin_shift s v)) as H. cbv beta in H.
  rewrite Rplus_0_r, so3_V_axis in H. exact H.
Qed.

Lemma dpl_constant f : (forall s, derivable_pt_lim f s 0) -> forall s, f s = f 0.
Proof.
  intros H. assert (pr : derivable f) by (intros s; exists 0; apply H).
  assert (C : constant f).
  { apply (null_derivative_1 f pr). intros s. apply derive_pt_eq_0. apply H. }
  intros s. apply C.
Qed.
Lemma m3d_constant f : (forall s, m3_deriv f s z3) -> forall s, f s = f 0.
Proof.
  intros H s. unfold m3_deriv in H.
  assert (X : forall p : M3 -> R, (forall s, derivable_pt_lim (fun s => p (f s)) s 0) -> p (f s) = p (f 0)).
  { intros p Hp. apply (dpl_constant (fun s => p (f s)) Hp). }
  assert (E : forall a b : M3, m00 a = m00 b -> m01 a = m01 b -> m02 a = m02 b -> m10 a = m10 b ->
    m11 a = m11 b -> m12 a = m12 b -> m20 a = m20 b -> m21 a = m21 b -> m22 a = m22 b -> a = b).
  { intros [] []. cbn. intros. congruence. }
  apply E; apply X; intros q; apply H.
Qed.
Lemma v3d_constant f : (forall s, v3_deriv f s v0) -> forall s, f s = f 0.
Proof.
  intros H s. unfold v3_deriv in H.
  assert (X : forall p : V3 -> R, (forall s, derivable_pt_lim (fun s => p (f s)) s 0) -> p (f s) = p (f 0)).
  { intros p Hp. apply (dpl_constant (fun s => p (f s)) Hp). }
  assert (E : forall a b : V3, vx a = vx b -> vy a = vy b -> vz a = vz b -> a = b).
  { intros [] []. cbn. intros. congruence. }
  apply E; apply X; intros q; apply H.
Qed.

Lemma flow_cancel F E w : add3 (mul3 (tr3 (mul3 (skew w) F)) E) (mul3 (tr3 F) (mul3 (skew w) E)) = z3.
Proof. v3ring. Qed.

Lemma so3_flow_unique v E : so3_flow v E -> forall s, E s = so3_exp (vscal s v).
Proof.
  intros (E0 & DE) s. destruct (so3_flow_exp v) as (F0 & DF).
  set (F := fun s => so3_exp (vscal s v)) in *.
  assert (C : forall s, mul3 (tr3 (F s)) (E s) = mul3 (tr3 (F 0)) (E 0)).
  { intros q. apply (m3d_constant (fun s => mul3 (tr3 (F s)) (E s))). intros r.
    eapply m3d_val; [apply m3d_mul; [apply m3d_tr, DF|apply DE]|]. cbv beta. apply flow_cancel. }
  specialize (C s). change (F 0 = i3) in F0. rewrite E0, F0 in C. rewrite (mul3_i_r (tr3 i3)) in C.
  change (so3_exp (vscal s v)) with (F s).
  pose proof (rot_mul_tr (F s) (so3_exp_is_rot _)) as RT.
  rewrite <- (mul3_i_l (E s)), <- RT, mul3_assoc, C.
  replace (tr3 i3) with i3 by v3ring. apply mul3_i_r.
Qed.

(** exp(v) is where the motion that starts at the identity and turns with constant
    angular velocity v is after unit time, and there is exactly one such motion. *)
Theorem c17_exp_is_flow : forall eps m e v, 0 <= eps -> good eps m (XUn OExpMap e) KRot ->
  means eps m e = Some (DRel v) ->
  exists E, so3_flow v E /\ (forall F, so3_flow v F -> forall s, F s = E s) /\
    means eps m (XUn OExpMap e) = Some (DRot (E 1)).
Proof.
  intros eps m e v He G Hv. exists (fun s => so3_exp (vscal s v)).
  split; [apply so3_flow_exp|]. split; [intros F HF s; apply so3_flow_unique, HF|].
  destruct (good_arg eps m _ e _ G) as (k & Ge).
  rewrite (good_means eps m _ KRot He G). cbn [deval].
  rewrite <- (good_means eps m e k He Ge), Hv. cbn. rewrite vscal_1. reflexivity.
Qed.
Print Assumptions c17_exp_is_flow.

Theorem c17_exp_is_rotation_by_norm : forall eps m e v, 0 <= eps -> good eps m (XUn OExpMap e) KRot ->
  means eps m e = Some (DRel v) -> v <> v0 ->
  unitv (vscal (/ vnorm v) v) /\
  means eps m (XUn OExpMap e) = Some (DRot (aa_rot (vnorm v) (vscal (/ vnorm v) v))).
Proof.
  intros eps m e v He G Hv Hn. destruct (so3_exp_axis_angle v Hn) as (U & E). split; [exact U|].
  rewrite (good_means eps m _ KRot He G). cbn [deval].
  destruct (good_arg eps m _ e _ G) as (k & Ge). rewrite <- (good_means eps m e k He Ge), Hv. cbn. now rewrite E.
Qed.
Print Assumptions c17_exp_is_rotation_by_norm.

Lemma vnorm2_sq_lt eps v : 0 <= eps < 1 -> eps < vnorm2 v * vnorm2 v -> eps < vnorm2 v.
Proof. intros He H. pose proof (vnorm2_pos v). nra. Qed.

Theorem c17_log_of_exp : forall eps m e v, 0 <= eps < 1 -> good eps m e KRel ->
  means eps m e = Some (DRel v) -> eps < vnorm2 v * vnorm2 v -> vnorm v < PI ->
  means eps m (XUn OLogMap (XUn OExpMap e)) = Some (DRel v).
Proof.
  intros eps m e v He G Hv Hb Hpi. rewrite (good_means eps m e KRel (proj1 He) G) in Hv.
  assert (G1 : good eps m (XUn OExpMap e) KRot).
  { apply (good_exp eps m e KRel KRot G); [reflexivity|]. intros d. rewrite Hv. intros [= <-]. cbn. auto. }
  assert (G2 : good eps m (XUn OLogMap (XUn OExpMap e)) KRel)
    by (apply (good_un eps m OLogMap _ KRot KRel G1); [reflexivity|discriminate]).
  rewrite (good_means eps m _ KRel (proj1 He) G2). cbn [deval]. rewrite Hv. cbn [dsem_un].
  rewrite log_exp_general; [reflexivity|lra|now apply vnorm2_sq_lt|exact Hpi].
Qed.
Print Assumptions c17_log_of_exp.

Theorem c17_exp_of_log : forall eps m e M, 0 <= eps < 1 -> good eps m e KRot ->
  means eps m e = Some (DRot M) ->
  eps < (rot_angle M * rot_angle M) * (rot_angle M * rot_angle M) -> rot_angle M < PI ->
  means eps m (XUn OExpMap (XUn OLogMap e)) = Some (DRot M) /\
  exists v, means eps m (XUn OLogMap e) = Some (DRel v) /\ vnorm v = rot_angle M.
Proof.
  intros eps m e M He G HM Hb Hpi. rewrite (good_means eps m e KRot (proj1 He) G) in HM.
  destruct (good_deval eps m e KRot _ (proj1 He) G HM) as (_ & V). cbn in V.
  assert (Hb2 : eps < rot_angle M * rot_angle M) by (assert (0 <= rot_angle M * rot_angle M) by nra; nra).
  destruct (exp_log_general eps M V (proj1 He) Hpi Hb2) as (v & L & N & X).
  assert (G1 : good eps m (XUn OLogMap e) KRel)
    by (apply (good_un eps m OLogMap _ KRot KRel G); [reflexivity|discriminate]).
  assert (D1 : deval eps (fun a => den (m a)) (XUn OLogMap e) = Some (DRel v)).
  { cbn [deval]. rewrite HM. cbn [dsem_un]. now rewrite L. }
  assert (G2 : good eps m (XUn OExpMap (XUn OLogMap e)) KRot).
  { apply (good_exp eps m _ KRel KRot G1); [reflexivity|]. intros d. rewrite D1. intros [= <-].
    cbn. right. rewrite <- vnorm_sq, N. exact Hb. }
  split.
  - rewrite (good_means eps m _ KRot (proj1 He) G2). change (deval eps (fun a => den (m a)) (XUn OExpMap (XUn OLogMap e)))
      with (match deval eps (fun a => den (m a)) (XUn OLogMap e) with Some d => dsem_un eps OExpMap d | None => None end).
    rewrite D1. cbn. now rewrite X.
  - exists v. rewrite (good_means eps m _ KRel (proj1 He) G1), D1. auto.
Qed.
Print Assumptions c17_exp_of_log.

(** A relative rotation of 2 rad and a quarter turn satisfy the conditions. *)
Example c17_example : good (1/4) ex_m (XLeaf 7 (Plain LRel)) KRel /\
  means (1/4) ex_m (XLeaf 7 (Plain LRel)) = Some (DRel (mkV 2 0 0)) /\
  1/4 < vnorm2 (mkV 2 0 0) * vnorm2 (mkV 2 0 0) /\ vnorm (mkV 2 0 0) < PI /\
  good (1/4) ex_m (XLeaf 1 (Plain LMat)) KRot /\
  rot_angle (mkM 0 (-1) 0 1 0 0 0 0 1) = PI / 2 /\ rot_angle (mkM 0 (-1) 0 1 0 0 0 0 1) < PI /\
  1/4 < (PI / 2 * (PI / 2)) * (PI / 2 * (PI / 2)).
Proof.
  assert (P : 3 / 2 < PI / 2) by (pose proof PI2_3_2; unfold PI2 in *; lra).
  assert (N : vnorm (mkV 2 0 0) = 2).
  { unfold vnorm. replace (vnorm2 (mkV 2 0 0)) with (2 * 2) by (v3unf; ring). apply sqrt_square. lra. }
  assert (An : rot_angle (mkM 0 (-1) 0 1 0 0 0 0 1) = PI / 2).
  { unfold rot_angle. replace ((trace3 _ - 1) / 2) with 0 by (v3unf; field). apply acos_0. }
  split; [apply good_leaf; [reflexivity|exact I]|]. split; [reflexivity|].
  split; [v3unf; lra|]. split; [lra|]. split; [apply good_leaf; [reflexivity|apply ex_rot]|].
  split; [exact An|]. split; [lra|]. assert (2 < PI / 2 * (PI / 2)) by nra. nra.
Qed.

(** ** C20: exp and log of SE(3) *)

Lemma se3_flow_exp w u : se3_flow w u (fun s => so3_exp (vscal s w))
  (fun s => app3 (so3_V (vscal s w)) (vscal s u)).
Proof.
  split; [apply so3_flow_exp|]. split; [rewrite !vscal_0_l, so3_V_0; apply app3_i|].
  intros s. apply (v3d_shift (fun s => app3 (so3_V (vscal s w)) (vscal s u))).
  destruct (Req_EM_T (vnorm w) 0) as [E|E].
  { apply vnorm_eq0 in E. subst w.
    apply (v3d_near (fun h => vscal (s + h) u)).
    - apply near_all. intros h. replace (vscal (s + h) v0) with v0 by (unfold vscal, v0; cbn; f_equal; ring).
      now rewrite so3_V_0, app3_i.
    - eapply v3d_val; [apply v3d_lin_shift|].
      generalize (app3 (so3_V (vscal s v0)) (vscal s u)). intros [? ? ?]. destruct u. v3unf. f_equal; ring. }
  destruct (Req_EM_T s 0) as [-> |Hs].
  { apply (v3d_near (fun h => app3 (so3_V (vscal h w)) (vscal h u))).
    - apply near_all. intros h. now rewrite Rplus_0_l.
    - eapply v3d_val; [apply V_lin_deriv|]. rewrite !vscal_0_l, so3_V_0, app3_i. destruct w, u. v3unf. f_equal; ring. }
  assert (N : 0 < vnorm2 w).
  { rewrite <- vnorm_sq. pose proof (vnorm_nonneg w). nra. }
  assert (Hn : vscal s w <> v0).
  { intros H. pose proof (vnorm2_scal s w) as H'. rewrite H in H'.
    replace (vnorm2 v0) with 0 in H' by (unfold vnorm2, vdot, v0; cbn; ring).
    assert (0 < s * s) by (apply Rsqr_pos_lt; exact Hs).
    pose proof (Rmult_lt_0_compat _ _ H0 N). lra. }
  pose proof (V_deriv _ _ _ _ (v3d_lin_shift s w) (v3d_lin_shift s u)) as D. cbv beta in D.
  rewrite Rplus_0_r in D. specialize (D Hn). rewrite so3_V_axis in D.
  eapply v3d_val; [exact D|]. f_equal.
  (* EB(sw, su) w + V(sw) u = u *)
  rewrite so3_V_cB by exact Hn. unfold EB. destruct (coef_rel _ Hn) as (R1 & R2).
  assert (EA : cA (vscal s w) = 1 - vnorm2 (vscal s w) * cC (vscal s w)) by lra.
  set (B := cB (vscal s w)) in *. set (C := cC (vscal s w)) in *. rewrite EA in *.
  assert (N2 : vnorm2 (vscal s w) <> 0).
  { rewrite vnorm2_scal. assert (0 < s * s) by (apply Rsqr_pos_lt; exact Hs).
    pose proof (Rmult_lt_0_compat _ _ H N). lra. }
  set (n := vnorm2 (vscal s w)) in *.
  assert (Hk : exists k, (1 - n * C - 2 * B) / n = k /\ n * k = 1 - n * C - 2 * B)
    by (exists ((1 - n * C - 2 * B) / n); split; [reflexivity|field; exact N2]).
  assert (Hl : exists k, (B - 3 * C) / n = k /\ n * k = B - 3 * C)
    by (exists ((B - 3 * C) / n); split; [reflexivity|field; exact N2]).
  destruct Hk as (k & -> & Hk). destruct Hl as (l & -> & Hl).
  assert (En : n = s * s * vnorm2 w) by (unfold n; apply vnorm2_scal).
  clear EA R1 R2 D N2 Hn.  clearbody n B C.
  assert (Q : app3 (add3 (add3 (scal3 B (skew (vscal s u)))
        (scal3 C (add3 (outer3 (vscal s w) (vscal s u)) (outer3 (vscal s u) (vscal s w)))))
       (scal3 (vdot (vscal s w) (vscal s u))
          (add3 (add3 (scal3 (C - B) i3) (scal3 k (skew (vscal s w))))
             (scal3 l (outer3 (vscal s w) (vscal s w)))))) w
    = vadd (vscal (s * s * vdot w u * (2 * C - B + s * s * vnorm2 w * l) ) w)
        (vadd (vscal (C * (s * s) * vnorm2 w) u) (vscal (- B * s) (vcross w u)))).
  { clear. destruct w as [w1 w2 w3], u as [u1 u2 u3]. v3unf. f_equal; ring. }
  rewrite Q. rewrite <- En, Hl.
  clear. destruct w as [w1 w2 w3], u as [u1 u2 u3]. unfold rodrigues. v3unf. f_equal; ring.
Qed.

Lemma se3_flow_unique w u E t : se3_flow w u E t ->
  forall s, E s = so3_exp (vscal s w) /\ t s = app3 (so3_V (vscal s w)) (vscal s u).
Proof.
  intros (HE & t0 & Dt) s. split; [apply so3_flow_unique, HE|].
  destruct (se3_flow_exp w u) as (_ & f0 & Df).
  set (f := fun s => app3 (so3_V (vscal s w)) (vscal s u)) in *. change (f 0 = v0) in f0.
  assert (Df' : forall s, v3_deriv f s (vadd (vcross w (f s)) u)) by exact Df.
  change (t s = f s).
  assert (C : forall s, vnorm2 (vsub (t s) (f s)) = vnorm2 (vsub (t 0) (f 0))).
  { apply (dpl_constant (fun s => vnorm2 (vsub (t s) (f s)))). intros r.
    eapply dpl_val; [apply dpl_norm2, v3d_sub; [apply Dt|apply Df']|]. cbv beta.
    generalize (t r), (f r). clear. intros [? ? ?] [? ? ?]. destruct w, u. v3unf. ring. }
  specialize (C s). rewrite t0, f0 in C.
  replace (vnorm2 (vsub v0 v0)) with 0 in C by (v3unf; ring).
  rewrite <- vnorm_sq in C. assert (Z : vsub (t s) (f s) = v0).
  { apply vnorm_eq0. pose proof (vnorm_nonneg (vsub (t s) (f s))). nra. }
  revert Z. generalize (t s), (f s). clear. intros [a b c] [x y z] H.
  unfold vsub, v0 in H. cbn in H. injection H as H1 H2 H3. f_equal; lra.
Qed.

(** exp(w,u) is where the motion that starts at the identity and moves every point x with
    velocity w x x + u is after unit time; there is exactly one such motion. *)
Theorem c20_exp_is_flow : forall eps m e w u, 0 <= eps -> good eps m (XUn OExpMap e) KRT ->
  means eps m e = Some (DTwist w u) ->
  exists E t, se3_flow w u E t /\
    (forall F r, se3_flow w u F r -> forall s, F s = E s /\ r s = t s) /\
    means eps m (XUn OExpMap e) = Some (DRT (E 1) (t 1)).
Proof.
  intros eps m e w u He G Hv.
  exists (fun s => so3_exp (vscal s w)), (fun s => app3 (so3_V (vscal s w)) (vscal s u)).
  split; [apply se3_flow_exp|]. split; [intros F r HF s; apply se3_flow_unique, HF|].
  destruct (good_arg eps m _ e _ G) as (k & Ge).
  rewrite (good_means eps m _ KRT He G). cbn [deval].
  rewrite <- (good_means eps m e k He Ge), Hv. cbn. rewrite !vscal_1. reflexivity.
Qed.
Print Assumptions c20_exp_is_flow.

Theorem c20_log_of_exp : forall eps m e w u, 0 <= eps -> good eps m e KTwist ->
  means eps m e = Some (DTwist w u) -> w = v0 \/ eps < vnorm2 w -> vnorm w < PI ->
  means eps m (XUn OLogMap (XUn OExpMap e)) = Some (DTwist w u).
Proof.
  intros eps m e w u He G Hv Hb Hpi. rewrite (good_means eps m e KTwist He G) in Hv.
  assert (G1 : good eps m (XUn OExpMap e) KRT).
  { apply (good_exp eps m e KTwist KRT G); [reflexivity|]. intros d. rewrite Hv. intros [= <-]. exact Hb. }
  assert (G2 : good eps m (XUn OLogMap (XUn OExpMap e)) KTwist)
    by (apply (good_un eps m OLogMap _ KRT KTwist G1); [reflexivity|discriminate]).
  rewrite (good_means eps m _ KTwist He G2). cbn [deval]. rewrite Hv. cbn [dsem_un].
  destruct Hb as [-> |Hb]; [rewrite rt_log_exp_0 by exact He|rewrite rt_log_exp by assumption]; reflexivity.
Qed.
Print Assumptions c20_log_of_exp.

Theorem c20_exp_of_log : forall eps m e M t, 0 <= eps -> good eps m e KRT ->
  means eps m e = Some (DRT M t) ->
  M = i3 \/ eps < rot_angle M * rot_angle M -> rot_angle M < PI ->
  means eps m (XUn OExpMap (XUn OLogMap e)) = Some (DRT M t).
Proof.
  intros eps m e M t He G HM Hb Hpi. rewrite (good_means eps m e KRT He G) in HM.
  destruct (good_deval eps m e KRT _ He G HM) as (_ & V). cbn in V.
  assert (X : exists w u, rt_log eps M t = Some (w, u) /\ (w = v0 \/ eps < vnorm2 w) /\
    so3_exp w = M /\ app3 (so3_V w) u = t).
  { destruct Hb as [-> |Hb].
    - exists v0, t. pose proof (rt_log_exp_0 eps t He) as L. rewrite so3_exp_0, so3_V_0, app3_i in L.
      rewrite so3_exp_0, so3_V_0, app3_i. repeat split; auto.
    - destruct (rt_exp_log eps M t He V Hpi Hb) as (w & u & L & N & X & Y). exists w, u.
      repeat split; auto. right. rewrite <- vnorm_sq, N. exact Hb. }
  destruct X as (w & u & L & W & X & Y).
  assert (G1 : good eps m (XUn OLogMap e) KTwist)
    by (apply (good_un eps m OLogMap _ KRT KTwist G); [reflexivity|discriminate]).
  assert (D1 : deval eps (fun a => den (m a)) (XUn OLogMap e) = Some (DTwist w u)).
  { cbn [deval]. rewrite HM. cbn [dsem_un]. now rewrite L. }
  assert (G2 : good eps m (XUn OExpMap (XUn OLogMap e)) KRT).
  { apply (good_exp eps m _ KTwist KRT G1); [reflexivity|]. intros d. rewrite D1. intros [= <-]. exact W. }
  rewrite (good_means eps m _ KRT He G2).
  change (deval eps (fun a => den (m a)) (XUn OExpMap (XUn OLogMap e)))
    with (match deval eps (fun a => den (m a)) (XUn OLogMap e) with Some d => dsem_un eps OExpMap d | None => None end).
  rewrite D1. cbn. now rewrite X, Y.
Qed.
Print Assumptions c20_exp_of_log.

Example c20_example : good (1/4) (fun _ => VTwist (mkV 2 0 0) (mkV 1 2 3)) (XLeaf 0 (Plain LTwist)) KTwist /\
  1/4 < vnorm2 (mkV 2 0 0) /\ vnorm (mkV 2 0 0) < PI /\
  good (1/4) (fun _ => VMatRT (mkM 0 (-1) 0 1 0 0 0 0 1) (mkV 1 2 3) v0 1) (XLeaf 0 (Plain LMatRT)) KRT.
Proof.
  destruct c17_example as (_ & _ & _ & N & _). split; [apply good_leaf; [reflexivity|exact I]|].
  split; [v3unf; lra|]. split; [exact N|]. apply good_leaf; [reflexivity|].
  cbn. split; [|split; reflexivity]. split; v3unf; [f_equal; ring|ring].
Qed.

(** *** Below the threshold

    The full C20 claim includes small angles.  There the library drops the second-order
    terms on both sides, and the result is exactly the following, which is not the
    twist one started with. *)

Lemma small_log_mat eps w : 0 <= eps -> log_mat eps (add3 i3 (skew w)) = Some w.
Proof.
  intros He. unfold log_mat.
  replace ((trace3 (add3 i3 (skew w)) - 1) / 2) with 1 by (destruct w; v3unf; field).
  destruct (Rle_dec (-1) 1); [|lra]. destruct (Rle_dec 1 1); [|lra]. rewrite acos_1.
  destruct (Rlt_dec eps (0 * 0)); [lra|]. f_equal. destruct w; unfold uncross; v3unf. f_equal; field.
Qed.

Theorem c20_small_angle_partial : forall eps m a w u, 0 <= eps -> m a = VTwist w u ->
  vnorm2 w <= eps ->
  means eps m (XUn OLogMap (XUn OExpMap (XLeaf a (Plain LTwist)))) =
    Some (DTwist w (vsub u (vscal (1/2) (vcross w u)))).
Proof.
  intros eps m a w u He Ha Hw. unfold means.
  change (eval eps m (XUn OLogMap (XUn OExpMap (XLeaf a (Plain LTwist)))))
    with (eval_p eps m (XUn OLogMap (XUn OExpMap (XLeaf a (Plain LTwist))))).
  cbn. rewrite Ha. cbn. rewrite twist_exp_small by exact Hw. cbn. unfold rt_log.
  rewrite small_log_mat by exact He. destruct (Rlt_dec eps (vnorm2 w)); [lra|]. cbn.
  do 2 f_equal. clear. destruct w as [w1 w2 w3], u as [u1 u2 u3]. v3unf. cbn. f_equal; field.
Qed.
Print Assumptions c20_small_angle_partial.

(** So log(exp(xi)) = xi fails for twists below the threshold, whatever the threshold. *)
Theorem c20_small_angle_refuted : forall eps m a, 0 < eps < 1 ->
  exists w u, vnorm2 w <= eps /\ vnorm w < PI /\
    forall m', m' = upd m a (VTwist w u) ->
    means eps m' (XUn OLogMap (XUn OExpMap (XLeaf a (Plain LTwist)))) <> Some (DTwist w u).
Proof.
  intros eps m a He. exists (mkV eps 0 0), (mkV 0 1 0).
  assert (N : vnorm2 (mkV eps 0 0) = eps * eps) by (v3unf; ring).
  assert (N2 : vnorm2 (mkV eps 0 0) <= eps) by (rewrite N; nra).
  split; [exact N2|]. split.
  { unfold vnorm. rewrite N, sqrt_square by lra. pose proof PI2_3_2. unfold PI2 in *. lra. }
  intros m' ->. rewrite (c20_small_angle_partial eps _ a (mkV eps 0 0) (mkV 0 1 0)); [|lra| |exact N2].
  - intros H. injection H as H. v3unfh H. lra.
  - unfold upd. now rewrite Nat.eqb_refl.
Qed.
Print Assumptions c20_small_angle_refuted.

(** The rotation block it returns there is not a rotation. *)
Theorem c20_small_exp_invalid_refuted : forall eps m a w u, m a = VTwist w u ->
  vnorm2 w <= eps -> w <> v0 ->
  exists M t, means eps m (XUn OExpMap (XLeaf a (Plain LTwist))) = Some (DRT M t) /\ ~ is_rot M.
Proof.
  intros eps m a w u Ha Hw Hn. exists (add3 i3 (skew w)), u. split.
  - unfold means.
    change (eval eps m (XUn OExpMap (XLeaf a (Plain LTwist))))
      with (eval_p eps m (XUn OExpMap (XLeaf a (Plain LTwist)))).
    cbn. rewrite Ha. cbn. rewrite twist_exp_small by exact Hw. reflexivity.
  - intros (R & _). apply Hn. apply vnorm_eq0. unfold vnorm.
    assert (E : 2 * vnorm2 w = 0).
    { replace (2 * vnorm2 w) with (trace3 (mul3 (tr3 (add3 i3 (skew w))) (add3 i3 (skew w))) - 3)
        by (clear; destruct w; v3unf; ring).
      rewrite R. v3unf. ring. }
    replace (vnorm2 w) with 0 by lra. apply sqrt_0.
Qed.
Print Assumptions c20_small_exp_invalid_refuted.

(** ** C18: exp of a small relative rotation *)

Lemma sin_small_bounds a : 0 <= a <= 1 ->
  a - a * a * a / 6 <= sin a <= a - a * a * a / 6 + a * a * a * a * a / 120.
Proof.
  intros Ha. assert (P : 3 / 2 < PI / 2) by (pose proof PI2_3_2; unfold PI2 in *; lra).
  destruct (sin_bound a 0) as (L & U); [lra|lra|].
  unfold sin_approx, sin_term in L, U. cbn -[INR Rmult Rdiv] in L, U. cbn in L, U.
  split; [eapply Rle_trans; [|exact L]|eapply Rle_trans; [exact U|]]; right; field.
Qed.
Lemma cos_small_bounds a : 0 <= a <= 1 ->
  1 - a * a / 2 <= cos a <= 1 - a * a / 2 + a * a * a * a / 24.
Proof.
  intros Ha. assert (P : 3 / 2 < PI / 2) by (pose proof PI2_3_2; unfold PI2 in *; lra).
  destruct (cos_bound a 0) as (L & U); [lra|lra|].
  unfold cos_approx, cos_term in L, U. cbn in L, U.
  split; [eapply Rle_trans; [|exact L]|eapply Rle_trans; [exact U|]]; right; field.
Qed.

Lemma eval_exp_rel eps m a v : m a = VRel v ->
  eval eps m (XUn OExpMap (XLeaf a (Plain LRel))) = Some (VQuat (exp_quat eps v)).
Proof.
  intros Ha. 
  change (eval eps m (XUn OExpMap (XLeaf a (Plain LRel))))
    with (eval_p eps m (XUn OExpMap (XLeaf a (Plain LRel)))).
  cbn. now rewrite Ha.
Qed.

Lemma exp_quat_small eps v : vnorm2 v * vnorm2 v <= eps ->
  exp_quat eps v = mkQ (1 - vnorm2 v / 8) ((1/2 + vnorm2 v / 48) * vx v)
    ((1/2 + vnorm2 v / 48) * vy v) ((1/2 + vnorm2 v / 48) * vz v).
Proof. intros H. unfold exp_quat. destruct (Rlt_dec eps _); [lra|]. reflexivity. Qed.

Lemma exp_quat_small_norm eps v : vnorm2 v * vnorm2 v <= eps ->
  qnorm2 (exp_quat eps v) = 1 + vnorm2 v * vnorm2 v * (7 / 192) + vnorm2 v * vnorm2 v * vnorm2 v / 2304.
Proof. intros H. rewrite exp_quat_small by exact H. clear. destruct v. v3unf. field. Qed.

Lemma exp_quat_small_close eps v : 0 <= eps < 1 -> vnorm2 v * vnorm2 v <= eps ->
  let q := exp_quat eps v in let q0 := exp_quat 0 v in
  unitq q0 /\ qrot q0 = so3_exp v /\
  Rabs (qw q - qw q0) <= vnorm2 v * vnorm2 v / 384 /\
  Rabs (qx q - qx q0) <= vnorm2 v / 24 * Rabs (vx v) /\
  Rabs (qy q - qy q0) <= vnorm2 v / 24 * Rabs (vy v) /\
  Rabs (qz q - qz q0) <= vnorm2 v / 24 * Rabs (vz v).
Proof.
  intros He Hv. cbv zeta.
  pose proof (vnorm2_pos v) as P.
  assert (L1 : vnorm2 v <= 1) by nra.
  destruct (Req_EM_T (vnorm v) 0) as [Z|Z].
  { apply vnorm_eq0 in Z. subst v. destruct (exp_quat_correct 0 v0) as (U & R); [lra|left; reflexivity|].
    split; [exact U|]. split; [exact R|].
    rewrite exp_quat_small by exact Hv.
    rewrite exp_quat_small by (replace (vnorm2 v0) with 0 by (v3unf; ring); lra).
    unfold Rminus. cbn. rewrite !Rplus_opp_r, Rabs_R0.
    replace (vnorm2 v0) with 0 by (v3unf; ring). lra. }
  assert (N : 0 < vnorm v) by (pose proof (vnorm_nonneg v); lra).
  assert (N1 : vnorm v <= 1) by (pose proof (vnorm_sq v); nra).
  assert (B0 : 0 < vnorm2 v * vnorm2 v).
  { rewrite <- vnorm_sq. assert (0 < vnorm v * vnorm v) by nra. nra. }
  destruct (exp_quat_correct 0 v) as (U & R); [lra|right; exact B0|].
  split; [exact U|]. split; [exact R|].
  rewrite exp_quat_small by exact Hv. unfold exp_quat. fold (vnorm v).
  destruct (Rlt_dec 0 _) as [_|K]; [|lra]. cbn [fst snd qw qx qy qz].
  pose proof (sin_small_bounds (vnorm v / 2)) as S. pose proof (cos_small_bounds (vnorm v / 2)) as C.
  destruct S as (S1 & S2); [lra|]. destruct C as (C1 & C2); [lra|].
  rewrite <- vnorm_sq in *. set (n := vnorm v) in *.
  assert (E : Rabs (1 / 2 + n * n / 48 - sin (n / 2) / n) <= n * n / 24).
  { assert (A1 : 1/2 - n * n / 48 <= sin (n / 2) / n).
    { apply (Rmult_le_reg_r n); [exact N|]. replace (sin (n / 2) / n * n) with (sin (n / 2)) by (field; lra). lra. }
    assert (A2 : sin (n / 2) / n <= 1/2 - n * n / 48 + n * n * n * n / 3840).
    { apply (Rmult_le_reg_r n); [exact N|]. replace (sin (n / 2) / n * n) with (sin (n / 2)) by (field; lra). lra. }
    assert (n * n * (n * n) <= n * n * 1) by (apply Rmult_le_compat_l; nra).
    apply Rabs_le. nra. }
  split; [apply Rabs_le; nra|].
  assert (X : forall x, Rabs ((1 / 2 + n * n / 48) * x - sin (n / 2) / n * x) <= n * n / 24 * Rabs x).
  { intros x. rewrite <- Rmult_minus_distr_r, Rabs_mult. apply Rmult_le_compat_r; [apply Rabs_pos|exact E]. }
  repeat split; apply X.
Qed.

(** What holds: the quaternion's squared norm is between 1 and 1 + eps/20, and its
    coordinates are within |v|^4/384 and |v|^2/24 |v_i| of a unit quaternion of the exact
    exponential.  Missing from C18: unit norm, and an error of the order of the first
    dropped Taylor terms; both are refuted below. *)
Theorem c18_small_angle_close_partial : forall eps m a v, 0 <= eps < 1 -> m a = VRel v ->
  vnorm2 v * vnorm2 v <= eps ->
  exists q q0, eval eps m (XUn OExpMap (XLeaf a (Plain LRel))) = Some (VQuat q) /\
    1 <= qnorm2 q <= 1 + eps / 20 /\
    unitq q0 /\ qrot q0 = so3_exp v /\
    Rabs (qw q - qw q0) <= vnorm2 v * vnorm2 v / 384 /\
    Rabs (qx q - qx q0) <= vnorm2 v / 24 * Rabs (vx v) /\
    Rabs (qy q - qy q0) <= vnorm2 v / 24 * Rabs (vy v) /\
    Rabs (qz q - qz q0) <= vnorm2 v / 24 * Rabs (vz v).
Proof.
  intros eps m a v He Ha Hv. exists (exp_quat eps v), (exp_quat 0 v).
  split; [now apply eval_exp_rel|].
  pose proof (vnorm2_pos v) as P.
  assert (L1 : vnorm2 v <= 1) by nra.
  split.
  { rewrite exp_quat_small_norm by exact Hv. split.
    - assert (0 <= vnorm2 v * vnorm2 v * vnorm2 v) by (apply Rmult_le_pos; [nra|lra]). nra.
    - assert (vnorm2 v * vnorm2 v * vnorm2 v <= vnorm2 v * vnorm2 v * 1)
        by (apply Rmult_le_compat_l; [nra|lra]). nra. }
  exact (exp_quat_small_close eps v He Hv).
Qed.
Print Assumptions c18_small_angle_close_partial.

Example c18_example : (1/10000) * (1/10000) <= 1/10000 /\ vnorm2 (mkV (1/100) 0 0) = 1/10000.
Proof. split; [lra|v3unf; field]. Qed.

(** The quaternion is never unit, except for the zero vector. *)
Theorem c18_unit_norm_refuted : forall eps m a v, m a = VRel v -> v <> v0 ->
  vnorm2 v * vnorm2 v <= eps ->
  exists q, eval eps m (XUn OExpMap (XLeaf a (Plain LRel))) = Some (VQuat q) /\ ~ unitq q.
Proof.
  intros eps m a v Ha Hn Hv. exists (exp_quat eps v). split; [now apply eval_exp_rel|].
  unfold unitq. rewrite exp_quat_small_norm by exact Hv.
  pose proof (vnorm_neq0 v Hn). assert (0 < vnorm2 v) by (rewrite <- vnorm_sq; nra).
  assert (0 < vnorm2 v * vnorm2 v) by nra.
  assert (0 < vnorm2 v * vnorm2 v * vnorm2 v) by (apply Rmult_lt_0_compat; lra). lra.
Qed.
Print Assumptions c18_unit_norm_refuted.

(** Its distance to the exact exponential is of third order, not of the (fifth) order of
    the dropped Taylor term: the sign of the second coefficient is wrong.  With the right
    sign the error would be at most |v|^5/3840. *)
Theorem c18_error_refuted : forall eps m a n, 0 <= eps < 1 -> 0 < n -> n * n * (n * n) <= eps ->
  m a = VRel (mkV n 0 0) ->
  exists q, eval eps m (XUn OExpMap (XLeaf a (Plain LRel))) = Some (VQuat q) /\
    qx q - sin (n / 2) >= n * n * n / 25 /\
    Rabs ((1/2 - n * n / 48) * n - sin (n / 2)) <= n * n * n * n * n / 3840.
Proof.
  intros eps m a n He Hn Hv Ha. exists (exp_quat eps (mkV n 0 0)). split; [now apply eval_exp_rel|].
  assert (N : vnorm2 (mkV n 0 0) = n * n) by (v3unf; ring).
  rewrite exp_quat_small by (rewrite N; exact Hv). rewrite N. cbn [qx vx].
  assert (n * n <= 1) by nra. assert (n <= 1) by nra.
  destruct (sin_small_bounds (n / 2)) as (S1 & S2); [lra|].
  assert (0 < n * n * n) by (apply Rmult_lt_0_compat; nra).
  assert (n * n * n * (n * n) <= n * n * n * 1) by (apply Rmult_le_compat_l; lra).
  split; [nra|]. apply Rabs_le. split; nra.
Qed.
Print Assumptions c18_error_refuted.

(** ** C20 below the threshold: exp(log(T)) <> T *)

Theorem c20_small_exp_of_log_refuted : forall eps m a, 0 < eps < 1 ->
  exists M t, is_rot M /\ 0 < rot_angle M < PI /\
    means eps (upd m a (VMatRT M t v0 1)) (XUn OExpMap (XUn OLogMap (XLeaf a (Plain LMatRT)))) <> Some (DRT M t).
Proof.
  intros eps m a He.
  assert (Hpi : 3 < PI) by (pose proof PI2_3_2; unfold PI2 in *; lra).
  set (w := mkV eps 0 0). assert (N2 : vnorm2 w = eps * eps) by (unfold w; v3unf; ring).
  assert (N : vnorm w = eps) by (unfold vnorm; rewrite N2; apply sqrt_square; lra).
  assert (W : w <> v0) by (intros H; injection H; lra).
  assert (An : rot_angle (so3_exp w) = eps) by (rewrite rot_angle_exp, N; [reflexivity|lra]).
  exists (so3_exp w), v0. split; [apply so3_exp_is_rot|]. split; [rewrite An; lra|].
  unfold means.
  change (eval eps (upd m a (VMatRT (so3_exp w) v0 v0 1)) (XUn OExpMap (XUn OLogMap (XLeaf a (Plain LMatRT)))))
    with (eval_p eps (upd m a (VMatRT (so3_exp w) v0 v0 1)) (XUn OExpMap (XUn OLogMap (XLeaf a (Plain LMatRT))))).
  cbn -[so3_exp rt_log twist_exp]. unfold upd. rewrite Nat.eqb_refl. cbn -[so3_exp rt_log twist_exp].
  unfold rt_log. rewrite log_exp_small; [|lra|exact W|rewrite N2; nra|lra].
  set (w' := vscal _ w).
  assert (E : exists x, w' = mkV x 0 0 /\ x * x <= eps * eps).
  { exists (sin eps / eps * eps). unfold w'. rewrite N. unfold w. split.
    - unfold vscal. cbn. f_equal; ring.
    - replace (sin eps / eps * eps) with (sin eps) by (field; lra).
      destruct (sin_small_bounds eps) as (S1 & S2); [lra|].
      assert (0 < eps * eps * eps) by (apply Rmult_lt_0_compat; nra).
      assert (eps * eps * eps * (eps * eps) <= eps * eps * eps * 1) by (apply Rmult_le_compat_l; nra).
      assert (0 <= sin eps <= eps) by nra. nra. }
  destruct E as (x & -> & Hx).
  assert (Nx : vnorm2 (mkV x 0 0) = x * x) by (v3unf; ring).
  destruct (Rlt_dec eps _) as [K|_]; [rewrite Nx in K; nra|]. cbn -[so3_exp twist_exp].
  rewrite twist_exp_small by (rewrite Nx; nra).
  intros H. injection H as H _.
  assert (D : trace3 (add3 i3 (skew (mkV x 0 0))) = trace3 (so3_exp w)) by now rewrite H.
  assert (T : (trace3 (so3_exp w) - 1) / 2 = 1) by (rewrite <- D; v3unf; field).
  unfold rot_angle in An. rewrite T, acos_1 in An. lra.
Qed.
Print Assumptions c20_small_exp_of_log_refuted.
