(** 3-vectors, 3x3 matrices and quaternions over the reals (support; the reading of
    the Eigen operations used by the library).  The Eigen formulas are:
    - [qmul], [qconj], [qact] (Quaternion::_transformVector), [qrot]
      (QuaternionBase::toRotationMatrix),
    - [aa_rot] (AngleAxis::toRotationMatrix),
    - dense sums, products, transpose, trace, dot, cross. *)

From Coq Require Import Reals Lra.
Local Open Scope R_scope.

Record V3 := mkV { vx : R; vy : R; vz : R }.
Record M3 := mkM { m00 : R; m01 : R; m02 : R;
                   m10 : R; m11 : R; m12 : R;
                   m20 : R; m21 : R; m22 : R }.
Record Q4 := mkQ { qw : R; qx : R; qy : R; qz : R }.

Definition v0 : V3 := mkV 0 0 0.
Definition vadd (a b : V3) := mkV (vx a + vx b) (vy a + vy b) (vz a + vz b).
Definition vsub (a b : V3) := mkV (vx a - vx b) (vy a - vy b) (vz a - vz b).
Definition vopp (a : V3) := mkV (- vx a) (- vy a) (- vz a).
Definition vscal (s : R) (a : V3) := mkV (s * vx a) (s * vy a) (s * vz a).
Definition vdot (a b : V3) : R := vx a * vx b + vy a * vy b + vz a * vz b.
Definition vcross (a b : V3) := mkV (vy a * vz b - vz a * vy b)
                                    (vz a * vx b - vx a * vz b)
                                    (vx a * vy b - vy a * vx b).
Definition vnorm2 (a : V3) : R := vdot a a.
Definition vnorm (a : V3) : R := sqrt (vnorm2 a).

Definition i3 : M3 := mkM 1 0 0 0 1 0 0 0 1.
Definition z3 : M3 := mkM 0 0 0 0 0 0 0 0 0.
Definition add3 (a b : M3) := mkM (m00 a + m00 b) (m01 a + m01 b) (m02 a + m02 b)
                                  (m10 a + m10 b) (m11 a + m11 b) (m12 a + m12 b)
                                  (m20 a + m20 b) (m21 a + m21 b) (m22 a + m22 b).
Definition sub3 (a b : M3) := mkM (m00 a - m00 b) (m01 a - m01 b) (m02 a - m02 b)
                                  (m10 a - m10 b) (m11 a - m11 b) (m12 a - m12 b)
                                  (m20 a - m20 b) (m21 a - m21 b) (m22 a - m22 b).
Definition opp3 (a : M3) := mkM (- m00 a) (- m01 a) (- m02 a)
                                (- m10 a) (- m11 a) (- m12 a)
                                (- m20 a) (- m21 a) (- m22 a).
Definition scal3 (s : R) (a : M3) := mkM (s * m00 a) (s * m01 a) (s * m02 a)
                                         (s * m10 a) (s * m11 a) (s * m12 a)
                                         (s * m20 a) (s * m21 a) (s * m22 a).
Definition mul3 (a b : M3) : M3 :=
  mkM (m00 a * m00 b + m01 a * m10 b + m02 a * m20 b)
      (m00 a * m01 b + m01 a * m11 b + m02 a * m21 b)
      (m00 a * m02 b + m01 a * m12 b + m02 a * m22 b)
      (m10 a * m00 b + m11 a * m10 b + m12 a * m20 b)
      (m10 a * m01 b + m11 a * m11 b + m12 a * m21 b)
      (m10 a * m02 b + m11 a * m12 b + m12 a * m22 b)
      (m20 a * m00 b + m21 a * m10 b + m22 a * m20 b)
      (m20 a * m01 b + m21 a * m11 b + m22 a * m21 b)
      (m20 a * m02 b + m21 a * m12 b + m22 a * m22 b).
Definition tr3 (a : M3) := mkM (m00 a) (m10 a) (m20 a)
                               (m01 a) (m11 a) (m21 a)
                               (m02 a) (m12 a) (m22 a).
Definition app3 (a : M3) (v : V3) := mkV (m00 a * vx v + m01 a * vy v + m02 a * vz v)
                                         (m10 a * vx v + m11 a * vy v + m12 a * vz v)
                                         (m20 a * vx v + m21 a * vy v + m22 a * vz v).
Definition trace3 (a : M3) := m00 a + m11 a + m22 a.
Definition det3 (a : M3) :=
  m00 a * (m11 a * m22 a - m12 a * m21 a)
  - m01 a * (m10 a * m22 a - m12 a * m20 a)
  + m02 a * (m10 a * m21 a - m11 a * m20 a).
Definition outer3 (a b : V3) := mkM (vx a * vx b) (vx a * vy b) (vx a * vz b)
                                    (vy a * vx b) (vy a * vy b) (vy a * vz b)
                                    (vz a * vx b) (vz a * vy b) (vz a * vz b).
(** The skew-symmetric matrix of the cross product. *)
Definition skew (v : V3) := mkM 0 (- vz v) (vy v)
                                (vz v) 0 (- vx v)
                                (- vy v) (vx v) 0.

Definition qone : Q4 := mkQ 1 0 0 0.
Definition qvec (q : Q4) : V3 := mkV (qx q) (qy q) (qz q).
Definition qnorm2 (q : Q4) : R := qw q * qw q + qx q * qx q + qy q * qy q + qz q * qz q.
Definition qconj (q : Q4) := mkQ (qw q) (- qx q) (- qy q) (- qz q).
Definition qmul (a b : Q4) :=
  mkQ (qw a * qw b - qx a * qx b - qy a * qy b - qz a * qz b)
      (qw a * qx b + qx a * qw b + qy a * qz b - qz a * qy b)
      (qw a * qy b + qy a * qw b + qz a * qx b - qx a * qz b)
      (qw a * qz b + qz a * qw b + qx a * qy b - qy a * qx b).
(** toRotationMatrix *)
Definition qrot (q : Q4) : M3 :=
  mkM (1 - (2 * qy q * qy q + 2 * qz q * qz q))
      (2 * qx q * qy q - 2 * qw q * qz q)
      (2 * qx q * qz q + 2 * qw q * qy q)
      (2 * qx q * qy q + 2 * qw q * qz q)
      (1 - (2 * qx q * qx q + 2 * qz q * qz q))
      (2 * qy q * qz q - 2 * qw q * qx q)
      (2 * qx q * qz q - 2 * qw q * qy q)
      (2 * qy q * qz q + 2 * qw q * qx q)
      (1 - (2 * qx q * qx q + 2 * qy q * qy q)).
(** _transformVector: uv = 2 vec x v; v + w uv + vec x uv *)
Definition qact (q : Q4) (v : V3) : V3 :=
  let uv := vcross (qvec q) v in
  let uv := vadd uv uv in
  vadd (vadd v (vscal (qw q) uv)) (vcross (qvec q) uv).
(** AngleAxis::toRotationMatrix *)
Definition aa_rot (angle : R) (ax : V3) : M3 :=
  let s := sin angle in
  let c := cos angle in
  let c1 := vscal (1 - c) ax in
  let sa := vscal s ax in
  mkM (vx c1 * vx ax + c)        (vx c1 * vy ax - vz sa)  (vx c1 * vz ax + vy sa)
      (vx c1 * vy ax + vz sa)    (vy c1 * vy ax + c)      (vy c1 * vz ax - vx sa)
      (vx c1 * vz ax - vy sa)    (vy c1 * vz ax + vx sa)  (vz c1 * vz ax + c).

(** ** Validity *)
Definition is_rot (m : M3) : Prop := mul3 (tr3 m) m = i3 /\ det3 m = 1.
Definition unitq (q : Q4) : Prop := qnorm2 q = 1.
Definition unitv (v : V3) : Prop := vnorm2 v = 1.

(** ** Algebra *)

Ltac v3unf := cbv beta iota zeta delta [qact qvec vadd vsub vopp vscal vdot vcross vnorm2
  add3 sub3 opp3 scal3 mul3 tr3 app3 trace3 det3 outer3 skew qmul qconj qrot
  qnorm2 v0 i3 z3 qone vx vy vz m00 m01 m02 m10 m11 m12 m20 m21 m22 qw qx qy qz].
Ltac v3unfh H := cbv beta iota zeta delta [qact qvec vadd vsub vopp vscal vdot vcross
  vnorm2 add3 sub3 opp3 scal3 mul3 tr3 app3 trace3 det3 outer3 skew qmul qconj qrot
  qnorm2 v0 i3 z3 qone vx vy vz m00 m01 m02 m10 m11 m12 m20 m21 m22 qw qx qy qz] in H.
Ltac v3des := repeat match goal with
  | v : V3 |- _ => destruct v
  | m : M3 |- _ => destruct m
  | q : Q4 |- _ => destruct q end.
Ltac v3ring := intros; v3des; v3unf; try (f_equal; ring); try ring.

Lemma v3_ext a b : vx a = vx b -> vy a = vy b -> vz a = vz b -> a = b.
Proof. destruct a, b; simpl; intros; subst; reflexivity. Qed.

Lemma mul3_assoc a b c : mul3 (mul3 a b) c = mul3 a (mul3 b c). Proof. v3ring. Qed.
Lemma mul3_i_l a : mul3 i3 a = a. Proof. v3ring. Qed.
Lemma mul3_i_r a : mul3 a i3 = a. Proof. v3ring. Qed.
Lemma mul3_z_l a : mul3 z3 a = z3. Proof. v3ring. Qed.
Lemma mul3_z_r a : mul3 a z3 = z3. Proof. v3ring. Qed.
Lemma mul3_add_l a b c : mul3 (add3 a b) c = add3 (mul3 a c) (mul3 b c). Proof. v3ring. Qed.
Lemma mul3_add_r a b c : mul3 a (add3 b c) = add3 (mul3 a b) (mul3 a c). Proof. v3ring. Qed.
Lemma mul3_opp_l a b : mul3 (opp3 a) b = opp3 (mul3 a b). Proof. v3ring. Qed.
Lemma mul3_opp_r a b : mul3 a (opp3 b) = opp3 (mul3 a b). Proof. v3ring. Qed.
Lemma mul3_scal_l s a b : mul3 (scal3 s a) b = scal3 s (mul3 a b). Proof. v3ring. Qed.
Lemma mul3_scal_r s a b : mul3 a (scal3 s b) = scal3 s (mul3 a b). Proof. v3ring. Qed.
Lemma add3_z_l a : add3 z3 a = a. Proof. v3ring. Qed.
Lemma add3_z_r a : add3 a z3 = a. Proof. v3ring. Qed.
Lemma add3_comm a b : add3 a b = add3 b a. Proof. v3ring. Qed.
Lemma add3_assoc a b c : add3 (add3 a b) c = add3 a (add3 b c). Proof. v3ring. Qed.
Lemma tr3_mul a b : tr3 (mul3 a b) = mul3 (tr3 b) (tr3 a). Proof. v3ring. Qed.
Lemma tr3_tr a : tr3 (tr3 a) = a. Proof. v3ring. Qed.
Lemma tr3_i : tr3 i3 = i3. Proof. reflexivity. Qed.
Lemma det3_mul a b : det3 (mul3 a b) = det3 a * det3 b. Proof. v3ring. Qed.
Lemma det3_tr a : det3 (tr3 a) = det3 a. Proof. v3ring. Qed.
Lemma app3_mul a b v : app3 (mul3 a b) v = app3 a (app3 b v). Proof. v3ring. Qed.
Lemma app3_i v : app3 i3 v = v. Proof. v3ring. Qed.
Lemma app3_z v : app3 z3 v = v0. Proof. v3ring. Qed.
Lemma app3_0 m : app3 m v0 = v0. Proof. v3ring. Qed.
Lemma app3_add_r a v w : app3 a (vadd v w) = vadd (app3 a v) (app3 a w). Proof. v3ring. Qed.
Lemma app3_sub_r a v w : app3 a (vsub v w) = vsub (app3 a v) (app3 a w). Proof. v3ring. Qed.
Lemma app3_opp_r a v : app3 a (vopp v) = vopp (app3 a v). Proof. v3ring. Qed.
Lemma app3_opp_l a v : app3 (opp3 a) v = vopp (app3 a v). Proof. v3ring. Qed.
Lemma app3_scal_r a s v : app3 a (vscal s v) = vscal s (app3 a v). Proof. v3ring. Qed.
Lemma app3_scal_l a s v : app3 (scal3 s a) v = vscal s (app3 a v). Proof. v3ring. Qed.
Lemma app3_add_l a b v : app3 (add3 a b) v = vadd (app3 a v) (app3 b v). Proof. v3ring. Qed.
Lemma app3_sub_l a b v : app3 (sub3 a b) v = vsub (app3 a v) (app3 b v). Proof. v3ring. Qed.
Lemma skew_app v w : app3 (skew v) w = vcross v w. Proof. v3ring. Qed.
Lemma skew_tr v : tr3 (skew v) = skew (vopp v). Proof. v3ring. Qed.
Lemma skew_opp v : skew (vopp v) = opp3 (skew v). Proof. v3ring. Qed.
Lemma skew_add v w : skew (vadd v w) = add3 (skew v) (skew w). Proof. v3ring. Qed.
Lemma skew_scal s v : skew (vscal s v) = scal3 s (skew v). Proof. v3ring. Qed.
Lemma skew_inj v w : skew v = skew w -> v = w.
Proof. v3des; v3unf. intros H. injection H as E1 E2 E3 E4 E5 E6. f_equal; lra. Qed.
Lemma vadd_0_l v : vadd v0 v = v. Proof. v3ring. Qed.
Lemma vadd_0_r v : vadd v v0 = v. Proof. v3ring. Qed.
Lemma vadd_comm v w : vadd v w = vadd w v. Proof. v3ring. Qed.
Lemma vadd_assoc u v w : vadd (vadd u v) w = vadd u (vadd v w). Proof. v3ring. Qed.
Lemma vcross_self v : vcross v v = v0. Proof. v3ring. Qed.
Lemma vcross_anti v w : vcross v w = vopp (vcross w v). Proof. v3ring. Qed.
Lemma vopp_opp v : vopp (vopp v) = v. Proof. v3ring. Qed.
Lemma vscal_scal s t v : vscal s (vscal t v) = vscal (s * t) v. Proof. v3ring. Qed.
Lemma vscal_1 v : vscal 1 v = v. Proof. v3ring. Qed.
Lemma vscal_0 v : vscal 0 v = v0. Proof. v3ring. Qed.

Lemma vnorm2_pos v : 0 <= vnorm2 v.
Proof.
  destruct v as [x y z]; v3unf.
  pose proof (Rle_0_sqr x); pose proof (Rle_0_sqr y); pose proof (Rle_0_sqr z).
  unfold Rsqr in *; lra.
Qed.

Lemma vnorm2_eq0 v : vnorm2 v = 0 -> v = v0.
Proof.
  destruct v as [x y z]; v3unf. intros H.
  pose proof (Rle_0_sqr x) as Hx; pose proof (Rle_0_sqr y) as Hy;
  pose proof (Rle_0_sqr z) as Hz; unfold Rsqr in *.
  assert (x * x = 0 /\ y * y = 0 /\ z * z = 0) as (H1 & H2 & H3) by lra.
  f_equal; nra.
Qed.

Lemma vnorm_sq v : vnorm v * vnorm v = vnorm2 v.
Proof. unfold vnorm. apply sqrt_sqrt, vnorm2_pos. Qed.

Lemma vnorm_nonneg v : 0 <= vnorm v.
Proof. apply sqrt_pos. Qed.

(** ** Rotations *)

Definition adj3 (m : M3) : M3 :=
  mkM (m11 m * m22 m - m12 m * m21 m) (m02 m * m21 m - m01 m * m22 m)
        (m01 m * m12 m - m02 m * m11 m)
      (m12 m * m20 m - m10 m * m22 m) (m00 m * m22 m - m02 m * m20 m)
        (m02 m * m10 m - m00 m * m12 m)
      (m10 m * m21 m - m11 m * m20 m) (m01 m * m20 m - m00 m * m21 m)
        (m00 m * m11 m - m01 m * m10 m).

Lemma adj3_r m : mul3 m (adj3 m) = scal3 (det3 m) i3.
Proof. unfold adj3. v3ring. Qed.

Lemma rot_adj m : is_rot m -> tr3 m = adj3 m.
Proof.
  intros (H1 & H2).
  rewrite <- (mul3_i_r (tr3 m)).
  replace i3 with (mul3 m (adj3 m)).
  - rewrite <- mul3_assoc, H1. apply mul3_i_l.
  - rewrite adj3_r, H2. v3ring.
Qed.

Lemma rot_mul_tr m : is_rot m -> mul3 m (tr3 m) = i3.
Proof.
  intros H. rewrite (rot_adj m H), adj3_r. destruct H as (_ & ->). v3ring.
Qed.

Lemma rot_tr_mul m : is_rot m -> mul3 (tr3 m) m = i3.
Proof. intros (H & _). exact H. Qed.

Lemma is_rot_tr m : is_rot m -> is_rot (tr3 m).
Proof.
  intros H. split.
  - rewrite tr3_tr. apply rot_mul_tr, H.
  - rewrite det3_tr. apply H.
Qed.

Lemma is_rot_mul a b : is_rot a -> is_rot b -> is_rot (mul3 a b).
Proof.
  intros (Ha1 & Ha2) (Hb1 & Hb2). split.
  - rewrite tr3_mul, mul3_assoc, <- (mul3_assoc (tr3 a)), Ha1, mul3_i_l. exact Hb1.
  - rewrite det3_mul, Ha2, Hb2. ring.
Qed.

Lemma is_rot_i : is_rot i3.
Proof. split; v3unf; [f_equal|]; ring. Qed.

Lemma rot_cross m v w : is_rot m ->
  app3 m (vcross v w) = vcross (app3 m v) (app3 m w).
Proof.
  intros H. apply rot_adj in H. destruct m, v, w. unfold adj3 in H. v3unfh H. v3unf.
  injection H as E1 E2 E3 E4 E5 E6 E7 E8 E9. f_equal.
  - rewrite E1 at 1. rewrite E4 at 1. rewrite E7 at 1. ring.
  - rewrite E2 at 1. rewrite E5 at 1. rewrite E8 at 1. ring.
  - rewrite E3 at 1. rewrite E6 at 1. rewrite E9 at 1. ring.
Qed.

Lemma rot_skew m v : is_rot m ->
  mul3 m (skew v) = mul3 (skew (app3 m v)) m.
Proof.
  intros H.
  assert (E : forall w, app3 (mul3 m (skew v)) w = app3 (mul3 (skew (app3 m v)) m) w).
  { intros w. rewrite !app3_mul, !skew_app. apply rot_cross, H. }
  pose proof (E (mkV 1 0 0)) as E1. pose proof (E (mkV 0 1 0)) as E2.
  pose proof (E (mkV 0 0 1)) as E3.
  destruct (mul3 m (skew v)), (mul3 (skew (app3 m v)) m).
  v3unfh E1; v3unfh E2; v3unfh E3. injection E1 as ? ? ?; injection E2 as ? ? ?; injection E3 as ? ? ?; f_equal; lra.
Qed.

Lemma rot_dot m v w : is_rot m -> vdot (app3 m v) (app3 m w) = vdot v w.
Proof.
  intros (H & _).
  assert (E : vdot (app3 m v) (app3 m w) = vdot v (app3 (mul3 (tr3 m) m) w))
    by (clear H; v3ring).
  rewrite E, H, app3_i. reflexivity.
Qed.

Lemma rot_norm2 m v : is_rot m -> vnorm2 (app3 m v) = vnorm2 v.
Proof. apply rot_dot. Qed.

Lemma m3_ext a b : (forall v, app3 a v = app3 b v) -> a = b.
Proof.
  intros E.
  pose proof (E (mkV 1 0 0)) as E1. pose proof (E (mkV 0 1 0)) as E2.
  pose proof (E (mkV 0 0 1)) as E3.
  destruct a, b. v3unf. injection E1 as ? ? ?; injection E2 as ? ? ?; injection E3 as ? ? ?; f_equal; lra.
Qed.

(** ** Quaternions *)

Lemma qnorm2_mul a b : qnorm2 (qmul a b) = qnorm2 a * qnorm2 b.
Proof. v3ring. Qed.
Lemma qnorm2_conj a : qnorm2 (qconj a) = qnorm2 a.
Proof. v3ring. Qed.
Lemma unitq_mul a b : unitq a -> unitq b -> unitq (qmul a b).
Proof. unfold unitq. intros Ha Hb. rewrite qnorm2_mul, Ha, Hb. ring. Qed.
Lemma unitq_conj a : unitq a -> unitq (qconj a).
Proof. unfold unitq. rewrite qnorm2_conj. auto. Qed.
Lemma unitq_one : unitq qone.
Proof. unfold unitq. v3unf. ring. Qed.
Lemma qmul_assoc a b c : qmul (qmul a b) c = qmul a (qmul b c).
Proof. v3ring. Qed.
Lemma qmul_one_l a : qmul qone a = a. Proof. v3ring. Qed.
Lemma qmul_one_r a : qmul a qone = a. Proof. v3ring. Qed.

Lemma qact_rot q v : qact q v = app3 (qrot q) v.
Proof. v3ring. Qed.

Lemma qrot_conj q : qrot (qconj q) = tr3 (qrot q).
Proof. v3ring. Qed.

Lemma qrot_one : qrot qone = i3.
Proof. v3unf. f_equal; ring. Qed.

(** Homogeneous form, used to prove multiplicativity. *)
Definition qroth (q : Q4) : M3 :=
  let w := qw q in let x := qx q in let y := qy q in let z := qz q in
  mkM (w*w + x*x - y*y - z*z) (2*x*y - 2*w*z) (2*x*z + 2*w*y)
      (2*x*y + 2*w*z) (w*w - x*x + y*y - z*z) (2*y*z - 2*w*x)
      (2*x*z - 2*w*y) (2*y*z + 2*w*x) (w*w - x*x - y*y + z*z).

Lemma qrot_h q : unitq q -> qrot q = qroth q.
Proof.
  unfold unitq, qroth. destruct q as [w x y z]; v3unf. intros H.
  f_equal; lra.
Qed.

Lemma qroth_mul a b : qroth (qmul a b) = mul3 (qroth a) (qroth b).
Proof. unfold qroth. v3ring. Qed.

Lemma qrot_mul a b : unitq a -> unitq b -> qrot (qmul a b) = mul3 (qrot a) (qrot b).
Proof.
  intros Ha Hb. rewrite !qrot_h by auto using unitq_mul. apply qroth_mul.
Qed.

Lemma qrot_is_rot q : unitq q -> is_rot (qrot q).
Proof.
  intros H. rewrite qrot_h by auto. unfold unitq in H.
  assert (E : mul3 (tr3 (qroth q)) (qroth q) = scal3 (qnorm2 q * qnorm2 q) i3)
    by (clear H; unfold qroth; v3ring).
  assert (D : det3 (qroth q) = qnorm2 q * qnorm2 q * qnorm2 q)
    by (clear H E; unfold qroth; v3ring).
  split.
  - rewrite E, H. clear. v3unf. f_equal; ring.
  - rewrite D, H. ring.
Qed.

(** ** Rodrigues / angle-axis *)

Definition rodrigues (s c1 : R) (a : V3) : M3 :=
  add3 i3 (add3 (scal3 s (skew a)) (scal3 c1 (mul3 (skew a) (skew a)))).

Lemma aa_rot_rodrigues angle a : unitv a ->
  aa_rot angle a = rodrigues (sin angle) (1 - cos angle) a.
Proof.
  unfold unitv, aa_rot, rodrigues, vnorm2. generalize (sin angle), (cos angle).
  destruct a as [x y z]; v3unf. intros s c H.
  assert (Hx : x * x = 1 - y * y - z * z) by lra.
  f_equal; try ring; ring_simplify; replace (x ^ 2) with (1 - y * y - z * z) by lra; ring.
Qed.

Lemma aa_rot_opp angle a : aa_rot (- angle) a = tr3 (aa_rot angle a).
Proof. unfold aa_rot. rewrite sin_neg, cos_neg. v3ring. Qed.

Lemma rodrigues_tr_mul s c1 a :
  mul3 (tr3 (rodrigues s c1 a)) (rodrigues s c1 a)
  = add3 i3 (scal3 (2 * c1 - s * s - c1 * c1 * vnorm2 a) (mul3 (skew a) (skew a))).
Proof. unfold rodrigues. v3ring. Qed.

Lemma rodrigues_det s c1 a :
  det3 (rodrigues s c1 a) = (1 - c1 * vnorm2 a) * (1 - c1 * vnorm2 a) + s * s * vnorm2 a.
Proof. unfold rodrigues. v3ring. Qed.

(** [s], [c1] satisfying [s^2 n + (1 - c1 n)^2 = 1], where [n = |a|^2]. *)
Lemma rodrigues_is_rot_gen s c1 a : 2 * c1 = s * s + c1 * c1 * vnorm2 a ->
  is_rot (rodrigues s c1 a).
Proof.
  intros H. split.
  - rewrite rodrigues_tr_mul.
    replace (2 * c1 - s * s - c1 * c1 * vnorm2 a) with 0 by lra. v3ring.
  - rewrite rodrigues_det. generalize dependent (vnorm2 a). intros n H.
    replace (s * s) with (2 * c1 - c1 * c1 * n) by lra. ring.
Qed.

Lemma rodrigues_is_rot s c a : unitv a -> s * s + c * c = 1 ->
  is_rot (rodrigues s (1 - c) a).
Proof.
  intros H Hs. apply rodrigues_is_rot_gen. rewrite H. lra.
Qed.

Lemma aa_rot_is_rot angle a : unitv a -> is_rot (aa_rot angle a).
Proof.
  intros H. rewrite aa_rot_rodrigues by auto. apply rodrigues_is_rot; auto.
  pose proof (sin2_cos2 angle). unfold Rsqr in *. lra.
Qed.

Lemma aa_rot_0 a : aa_rot 0 a = i3.
Proof. unfold aa_rot. rewrite sin_0, cos_0. v3ring. Qed.

(** A unit quaternion from a half angle and an axis. *)
Lemma qrot_half h a : unitv a ->
  qrot (mkQ (cos h) (sin h * vx a) (sin h * vy a) (sin h * vz a)) = aa_rot (2 * h) a.
Proof.
  intros H. rewrite aa_rot_rodrigues by auto.
  rewrite sin_2a, cos_2a_sin. unfold unitv, rodrigues in *.
  pose proof (sin2_cos2 h) as E. unfold Rsqr in E. revert E.
  generalize (sin h), (cos h). destruct a as [x y z]; v3unf. intros s c E.
  f_equal; ring.
Qed.

Lemma unitq_half h a : unitv a ->
  unitq (mkQ (cos h) (sin h * vx a) (sin h * vy a) (sin h * vz a)).
Proof.
  pose proof (sin2_cos2 h) as E. unfold Rsqr in E. revert E.
  unfold unitv, unitq. generalize (sin h), (cos h). destruct a as [x y z]; v3unf.
  intros s c E H.
  transitivity (c * c + s * s * (x * x + y * y + z * z)); [ring | rewrite H; lra].
Qed.

Lemma sq_nonneg x : 0 <= x * x.
Proof. apply (Rle_0_sqr x). Qed.

Lemma sq_le_1 x : x * x <= 1 -> -1 <= x <= 1.
Proof. intros H. split; nra. Qed.

(** Cofactor and orthonormality equations of a rotation, entrywise. *)
Lemma rot_trace_id m : is_rot m ->
  (m01 m - m10 m) * (m01 m - m10 m) + (m02 m - m20 m) * (m02 m - m20 m)
  + (m12 m - m21 m) * (m12 m - m21 m) = (3 - trace3 m) * (1 + trace3 m).
Proof.
  intros H. pose proof (rot_adj m H) as A. destruct H as (H & D).
  destruct m as [a b c d e f g h i]; unfold adj3 in A; v3unfh A; v3unfh H; clear D; v3unf.
  injection H as E1 E2 E3 E4 E5 E6 E7 E8 E9.
  injection A as A1 A2 A3 A4 A5 A6 A7 A8 A9.
  clear E2 E3 E4 E6 E7 E8 A2 A3 A4 A6 A7 A8.
  assert (Hbd : b * d = a * e - i) by lra.
  assert (Hcg : c * g = a * i - e) by lra.
  assert (Hfh : f * h = e * i - a) by lra. lra.
Qed.

Lemma rot_diag_le m : is_rot m -> m00 m <= 1 /\ m11 m <= 1 /\ m22 m <= 1.
Proof.
  intros (H & _). destruct m as [a b c d e f g h i]; v3unfh H; v3unf.
  injection H as E1 _ _ _ E5 _ _ _ E9.
  pose proof (sq_nonneg d); pose proof (sq_nonneg g); pose proof (sq_nonneg b);
  pose proof (sq_nonneg h); pose proof (sq_nonneg c); pose proof (sq_nonneg f).
  repeat split; apply sq_le_1; lra.
Qed.

Lemma rot_trace_bound m : is_rot m -> -1 <= (trace3 m - 1) / 2 <= 1.
Proof.
  intros H. pose proof (rot_trace_id m H) as E. pose proof (rot_diag_le m H) as L.
  unfold trace3 in *.
  pose proof (sq_nonneg (m01 m - m10 m)) as S1; pose proof (sq_nonneg (m02 m - m20 m)) as S2;
  pose proof (sq_nonneg (m12 m - m21 m)) as S3.
  set (t := m00 m + m11 m + m22 m) in *.
  split; [|unfold t; lra].
  assert (P : 0 <= (3 - t) * (1 + t)) by lra.
  assert (t <= 3) by (unfold t; lra).
  destruct (Req_dec t 3) as [H3|H3]; [lra|].
  assert (0 <= 1 + t).
  { clear - P H0 H3. nra. }
  lra.
Qed.
