(** C35, C36, C37. *)

From Coq Require Import Reals Lra Lia List Bool Arith Ratan.
From Verif Require Import Mat V3 ModelLeaf SpecLeaf LeafProofs ModelUtil SpecUtil.
Import ListNotations.
Local Open Scope R_scope.
Local Open Scope mat_scope.

(** ** C35 *)

Lemma lt3 i : (i < 3)%nat -> i = 0%nat \/ i = 1%nat \/ i = 2%nat.
Proof. lia. Qed.

Lemma of_m3_cross v : cm_dense (crossMatrix v) == of_m3 (skew v).
Proof.
  split; [reflexivity|]. split; [reflexivity|]. cbn [mrows mcols cm_dense crossMatrix].
  intros i j Hi Hj.
  destruct (lt3 i Hi) as [-> | [-> | ->]], (lt3 j Hj) as [-> | [-> | ->]]; reflexivity.
Qed.

Theorem c35_dense : forall v, is_cross_matrix (cm_dense (crossMatrix v)) v.
Proof.
  intros v. split; [split; reflexivity|]. intros w i Hi.
  destruct v as [a b c], w as [x y z].
  destruct (lt3 i Hi) as [-> | [-> | ->]]; unfold mvec, mnth; cbn; ring.
Qed.

Lemma dense_shape v : has_shape 3 3 (cm_dense (crossMatrix v)).
Proof. split; reflexivity. Qed.

Lemma mnth_dense v i j : (i < 3)%nat -> (j < 3)%nat ->
  mnth (cm_dense (crossMatrix v)) i j = mget (cm_dense (crossMatrix v)) i j.
Proof. intros. apply mnth_in; assumption. Qed.

Lemma mvec_col A B i j : mget (A ** B) i j = mvec A (fun k => mnth B k j) i.
Proof. reflexivity. Qed.

Lemma vget_mcol A j k : (k < 3)%nat -> vget (mcol A j) k = mnth A k j.
Proof. intros H. destruct (lt3 k H) as [-> | [-> | ->]]; reflexivity. Qed.
Lemma vget_mrow A i k : (k < 3)%nat -> vget (mrow A i) k = mnth A i k.
Proof. intros H. destruct (lt3 k H) as [-> | [-> | ->]]; reflexivity. Qed.

Lemma mvec_ext A f g i : (forall k, (k < mcols A)%nat -> f k = g k) -> mvec A f i = mvec A g i.
Proof.
  intros H. unfold mvec. apply rsum_ext. intros k Hk. rewrite H by assumption. reflexivity.
Qed.

(** A cross-product matrix times a matrix with three rows crosses each column. *)
Lemma is_cross_mul C v A : is_cross_matrix C v -> mrows A = 3%nat ->
  C ** A == Mat 3 (mcols A) (fun i j => vget (vcross v (mcol A j)) i).
Proof.
  intros [[HR HC] H] HA. split; [exact HR|]. split; [reflexivity|].
  cbn [mrows mcols mmul]. intros i j Hi Hj. rewrite mvec_col. cbn [mget].
  rewrite HR in Hi. rewrite <- H by assumption. apply mvec_ext. intros k Hk. rewrite HC in Hk.
  symmetry. apply vget_mcol. assumption.
Qed.

Lemma vcross_flip v w i : vget (vcross w (vopp v)) i = vget (vcross v w) i.
Proof.
  f_equal. clear i. destruct v, w. unfold vcross, vopp. cbn. f_equal; ring.
Qed.

Lemma skew_tr_mnth v i j : (i < 3)%nat -> (j < 3)%nat ->
  mnth (cm_dense (crossMatrix v)) i j = - mnth (cm_dense (crossMatrix v)) j i.
Proof.
  intros Hi Hj. destruct v as [a b c].
  destruct (lt3 i Hi) as [-> | [-> | ->]], (lt3 j Hj) as [-> | [-> | ->]];
    unfold mnth; cbn; ring.
Qed.

Lemma cross_mat_dense v A : mrows A = 3%nat ->
  cross_mat (crossMatrix v) A == cm_dense (crossMatrix v) ** A.
Proof.
  intros HA. rewrite (is_cross_mul _ v) by (assumption || apply c35_dense).
  split; [reflexivity|]. split; [reflexivity|]. intros i j _ _.
  cbn [mget cross_mat colwise_cross cm_vec crossMatrix]. apply vcross_flip.
Qed.

Lemma negcross_mat_dense v A : mrows A = 3%nat ->
  negcross_mat v A == cm_dense (crossMatrix (vopp v)) ** A.
Proof.
  intros HA. rewrite <- cross_mat_dense by assumption.
  split; [reflexivity|]. split; [reflexivity|]. intros i j _ _. cbn [mget cross_mat
    negcross_mat colwise_cross cm_vec crossMatrix]. rewrite vopp_opp. reflexivity.
Qed.

Lemma mat_cross_dense v A : mcols A = 3%nat ->
  mat_cross A (crossMatrix v) == A ** cm_dense (crossMatrix v).
Proof.
  intros HA. split; [reflexivity|]. split; [reflexivity|].
  cbn [mrows mcols mat_cross rowwise_cross]. intros i j Hi Hj.
  cbn [mget mmul rowwise_cross mat_cross cm_vec crossMatrix]. rewrite HA.
  transitivity (- vget (vcross v (mrow A i)) j).
  - rewrite <- vcross_flip. destruct (mrow A i) as [x y z], v as [a b c].
    destruct (lt3 j Hj) as [-> | [-> | ->]]; cbn; ring.
  - destruct (c35_dense v) as [_ H]. rewrite <- H by assumption. unfold mvec.
    change (mcols (cm_dense (crossMatrix v))) with 3%nat.
    replace (- rsum 3 (fun k => mnth (cm_dense (crossMatrix v)) j k * vget (mrow A i) k))
      with ((-1) * rsum 3 (fun k => mnth (cm_dense (crossMatrix v)) j k * vget (mrow A i) k))
      by ring.
    rewrite <- rsum_scal_l. apply rsum_ext. intros k Hk. rewrite vget_mrow by assumption.
    fold (crossMatrix v). rewrite (skew_tr_mnth v j k) by assumption. ring.
Qed.

(** Every specialised operation on CrossMatrix agrees with the dense 3x3 matrix of the
    cross product: negation, product with a column vector, with a row vector, with any
    3xN matrix (also for the cross matrix of a negated expression), with any Nx3 matrix
    and with another cross matrix. *)
Theorem c35_operations : forall v w A B,
  mrows A = 3%nat -> mcols B = 3%nat ->
  let V := cm_dense (crossMatrix v) in
  is_cross_matrix V v /\
  cm_dense (cross_neg (crossMatrix v)) == mopp V /\
  mcolumn (cross_vec (crossMatrix v) w) == V ** mcolumn w /\
  mrowvec (vec_cross w (crossMatrix v)) == mrowvec w ** V /\
  cross_mat (crossMatrix v) A == V ** A /\
  negcross_mat v A == cm_dense (cross_neg (crossMatrix v)) ** A /\
  mat_cross B (crossMatrix v) == B ** V /\
  cross_cross (crossMatrix w) (crossMatrix v) == cm_dense (crossMatrix w) ** V.
Proof.
  intros v w A B HA HB. cbv zeta.
  split; [apply c35_dense|]. split; [|split; [|split; [|split; [|split; [|split]]]]].
  - split; [reflexivity|]. split; [reflexivity|]. cbn [mrows mcols cross_neg crossMatrix cm_dense].
    intros i j Hi Hj. destruct v as [a b c].
    destruct (lt3 i Hi) as [-> | [-> | ->]], (lt3 j Hj) as [-> | [-> | ->]];
      unfold mopp, mnth; cbn; ring.
  - rewrite (is_cross_mul _ v) by (reflexivity || apply c35_dense).
    split; [reflexivity|]. split; [reflexivity|]. intros i j _ Hj. cbn [mcols mcolumn] in Hj.
    assert (j = 0%nat) by lia. subst j. cbn [mget mcolumn]. destruct w. reflexivity.
  - rewrite <- (mat_cross_dense v (mrowvec w)) by reflexivity.
    split; [reflexivity|]. split; [reflexivity|]. intros i j Hi _. cbn [mrows mrowvec] in Hi.
    assert (i = 0%nat) by lia. subst i. destruct w. reflexivity.
  - apply cross_mat_dense. assumption.
  - apply negcross_mat_dense. assumption.
  - apply mat_cross_dense. assumption.
  - apply (mat_cross_dense v (cm_dense (crossMatrix w))). reflexivity.
Qed.

(** uncrossMatrix undoes crossMatrix, and crossMatrix undoes uncrossMatrix on every
    skew-symmetric matrix. *)
Theorem c35_uncross :
  (forall v, uncrossMatrix (cm_dense (crossMatrix v)) = v) /\
  (forall A, skew_symmetric A -> cm_dense (crossMatrix (uncrossMatrix A)) == A).
Proof.
  split.
  - intros [a b c]. reflexivity.
  - intros A [[HR HC] H]. split; [symmetry; exact HR|]. split; [symmetry; exact HC|].
    cbn [mrows mcols cm_dense crossMatrix]. intros i j Hi Hj.
    rewrite <- (mnth_in A i j) by (rewrite ?HR, ?HC; assumption).
    assert (D : forall k, (k < 3)%nat -> mnth A k k = 0)
      by (intros k Hk; pose proof (H k k Hk Hk); lra).
    destruct (lt3 i Hi) as [-> | [-> | ->]], (lt3 j Hj) as [-> | [-> | ->]];
      cbn -[mnth]; rewrite ?D by lia; try reflexivity; symmetry; apply H; lia.
Qed.

Example c35_example : forall v, skew_symmetric (cm_dense (crossMatrix v)).
Proof. intros v. split; [split; reflexivity|]. intros. apply skew_tr_mnth; assumption. Qed.

(** ** C36 *)

Lemma jdense_rows a : mrows (jdense a) = jrows a.
Proof. destruct a; reflexivity. Qed.
Lemma jdense_cols a : mcols (jdense a) = jcols a.
Proof. destruct a; reflexivity. Qed.

Lemma jcm_dense a c : jcm a = Some c ->
  exists v, c = crossMatrix v /\ jdense a == cm_dense (crossMatrix v).
Proof.
  destruct a; cbn; intros H; inversion H; subst; eexists; (split; [reflexivity|]);
    symmetry; apply of_m3_cross.
Qed.

Lemma mcolumn_mcol B : mrows B = 3%nat -> mcols B = 1%nat -> mcolumn (mcol B 0) == B.
Proof.
  intros HR HC. split; [symmetry; exact HR|]. split; [symmetry; exact HC|].
  cbn [mrows mcols mcolumn]. intros i j Hi Hj. assert (j = 0%nat) by lia. subst j.
  cbn [mget mcolumn]. rewrite vget_mcol by assumption. apply mnth_in; [rewrite HR | rewrite HC]; lia.
Qed.
Lemma mrowvec_mrow B : mcols B = 3%nat -> mrows B = 1%nat -> mrowvec (mrow B 0) == B.
Proof.
  intros HC HR. split; [symmetry; exact HR|]. split; [symmetry; exact HC|].
  cbn [mrows mcols mrowvec]. intros i j Hi Hj. assert (i = 0%nat) by lia. subst i.
  cbn [mget mrowvec]. rewrite vget_mrow by assumption. apply mnth_in; [rewrite HR | rewrite HC]; lia.
Qed.

(** Whatever overload of operator* is selected for two Jacobian factors, the result is
    the dense product; a product is rejected exactly when the inner dimensions differ. *)
Theorem c36_products : forall a b,
  (mcols (jdense a) = mrows (jdense b) ->
     exists c, jmul a b = Some c /\ jdense c == jdense a ** jdense b) /\
  (mcols (jdense a) <> mrows (jdense b) -> jmul a b = None).
Proof.
  intros a b. rewrite jdense_cols, jdense_rows. unfold jmul. split; intros H.
  2:{ rewrite (proj2 (Nat.eqb_neq _ _) H). reflexivity. }
  rewrite (proj2 (Nat.eqb_eq _ _) H).
  assert (Hr : mrows (jdense b) = jcols a) by (rewrite jdense_rows; auto).
  assert (Hc : mcols (jdense a) = jrows b) by (rewrite jdense_cols; auto).
  assert (CR : forall a, (exists v, a = JCross v) \/ (exists v, a = JNegCross v) ->
            exists v, jcm a = Some (crossMatrix v) /\ jdense a == cm_dense (crossMatrix v)).
  { intros x [[v ->] | [v ->]]; cbn; eexists; (split; [reflexivity|]); symmetry; apply of_m3_cross. }
  destruct a as [n|v|v|A], b as [k|w|w|B];
    try (eexists; split; [reflexivity|]; cbn [jdense jcols jrows] in *;
         symmetry; first [apply mmul_mid_l | apply mmul_mid_r]; cbn; congruence);
    cbn [jcm jdense jcols jrows] in *.
  - eexists; split; [reflexivity|]. cbn [jdense]. rewrite <- !of_m3_cross.
    apply (mat_cross_dense w (cm_dense (crossMatrix v))). reflexivity.
  - eexists; split; [reflexivity|]. cbn [jdense]. rewrite <- !of_m3_cross.
    apply (mat_cross_dense (vopp w) (cm_dense (crossMatrix v))). reflexivity.
  - destruct (mcols B =? 1)%nat eqn:E.
    + apply Nat.eqb_eq in E. eexists; split; [reflexivity|]. cbn [jdense].
      destruct (c35_operations v (mcol B 0) B (mid 3) Hr eq_refl) as (_ & _ & K & _).
      rewrite K, <- of_m3_cross, mcolumn_mcol by assumption. reflexivity.
    + eexists; split; [reflexivity|]. cbn [jdense]. rewrite <- of_m3_cross.
      apply cross_mat_dense. assumption.
  - eexists; split; [reflexivity|]. cbn [jdense]. rewrite <- !of_m3_cross.
    apply (mat_cross_dense w (cm_dense (crossMatrix (vopp v)))). reflexivity.
  - eexists; split; [reflexivity|]. cbn [jdense]. rewrite <- !of_m3_cross.
    apply (mat_cross_dense (vopp w) (cm_dense (crossMatrix (vopp v)))). reflexivity.
  - destruct (mcols B =? 1)%nat eqn:E.
    + apply Nat.eqb_eq in E. eexists; split; [reflexivity|]. cbn [jdense].
      destruct (c35_operations (vopp v) (mcol B 0) B (mid 3) Hr eq_refl) as (_ & _ & K & _).
      rewrite K, <- of_m3_cross, mcolumn_mcol by assumption. reflexivity.
    + eexists; split; [reflexivity|]. cbn [jdense]. rewrite <- of_m3_cross.
      apply negcross_mat_dense. assumption.
  - destruct (mrows A =? 1)%nat eqn:E.
    + apply Nat.eqb_eq in E. eexists; split; [reflexivity|]. cbn [jdense].
      destruct (c35_operations w (mrow A 0) (mid 3) A eq_refl Hc) as (_ & _ & _ & K & _).
      rewrite K, <- of_m3_cross, mrowvec_mrow by assumption. reflexivity.
    + eexists; split; [reflexivity|]. cbn [jdense]. rewrite <- of_m3_cross.
      apply mat_cross_dense. assumption.
  - destruct (mrows A =? 1)%nat eqn:E.
    + apply Nat.eqb_eq in E. eexists; split; [reflexivity|]. cbn [jdense].
      destruct (c35_operations (vopp w) (mrow A 0) (mid 3) A eq_refl Hc) as (_ & _ & _ & K & _).
      rewrite K, <- of_m3_cross, mrowvec_mrow by assumption. reflexivity.
    + eexists; split; [reflexivity|]. cbn [jdense]. rewrite <- of_m3_cross.
      apply mat_cross_dense. assumption.
  - eexists; split; [reflexivity|]. reflexivity.
Qed.

(** The symbolic identity is neutral on both sides, without touching the other factor. *)
Theorem c36_neutral : forall n a,
  (mrows (jdense a) = n -> jmul (JIdent n) a = Some a /\ mid n ** jdense a == jdense a) /\
  (mcols (jdense a) = n -> exists c, jmul a (JIdent n) = Some c /\ jdense c == jdense a
                           /\ jdense a ** mid n == jdense a).
Proof.
  intros n a. split; intros H.
  - split.
    + unfold jmul. cbn [jcols]. rewrite jdense_rows in H. rewrite H, Nat.eqb_refl. reflexivity.
    + apply mmul_mid_l. auto.
  - assert (K : jdense a ** mid n == jdense a) by (apply mmul_mid_r; auto).
    destruct (proj1 (c36_products a (JIdent n)) H) as [c [Hc Hd]]. exists c.
    split; [assumption|]. split; [|assumption]. rewrite Hd. exact K.
Qed.

(** Hence any chain of Jacobian factors, in whatever order the evaluators multiply it and
    with whatever symbolic identities are skipped, gives the dense product. *)
Theorem c36_chains : forall p, jprod_ok p ->
  exists j, jeval p = Some j /\ jdense j == jprod_dense p.
Proof.
  induction p as [a | l IHl r IHr].
  - intros _. exists a. split; reflexivity.
  - intros (Hl & Hr & Hd). destruct (IHl Hl) as [a [Ea Da]], (IHr Hr) as [b [Eb Db]].
    cbn [jeval]. rewrite Ea, Eb. rewrite <- Da, <- Db in Hd.
    destruct (proj1 (c36_products a b) Hd) as [c [Ec Dc]].
    exists c. split; [exact Ec|]. cbn [jprod_dense]. rewrite Dc, Da, Db. reflexivity.
Qed.

Example c36_example : forall v w,
  jprod_ok (JMul (JMul (JP (JIdent 3)) (JP (JNegCross v)))
                 (JMul (JP (JCross w)) (JP (JDense (mcolumn v))))).
Proof. intros. cbn. repeat split. Qed.

(** ** C37 *)

(** Whatever three numbers the random source returns in [0,1], the random quaternion is a
    unit quaternion, and the random value of any leaf type is a valid value of that
    type. *)
Theorem c37_random_valid : forall s u1 u2, 0 <= s <= 1 ->
  qnorm2 (randomQuaternion s u1 u2) = 1 /\
  forall l f, exists v, random l s u1 u2 f = Some v /\ vty v = Plain l /\ valid v.
Proof.
  intros s u1 u2 Hs.
  assert (U : qnorm2 (randomQuaternion s u1 u2) = 1).
  { unfold randomQuaternion, qnorm2. cbn [qw qx qy qz].
    pose proof (sqrt_sqrt (1 - s)) as A1. pose proof (sqrt_sqrt s) as A2.
    transitivity ((Rsqr (sin (2 * PI * u2)) + Rsqr (cos (2 * PI * u2))) * (sqrt s * sqrt s)
      + (Rsqr (sin (2 * PI * u1)) + Rsqr (cos (2 * PI * u1))) * (sqrt (1 - s) * sqrt (1 - s))).
    { unfold Rsqr. ring. }
    rewrite !sin2_cos2, A1, A2 by lra. ring. }
  split; [exact U|]. intros l f. destruct l; cbn [random mkvec];
    try (eexists; split; [reflexivity|]; split; [reflexivity|]; exact I).
  - eexists; split; [reflexivity|]. split; [reflexivity|]. exact U.
  - eexists; split; [reflexivity|]. split; [reflexivity|]. apply qrot_is_rot. exact U.
  - destruct (aa_of_q_correct _ U) as [K _].
    destruct (aa_of_q (randomQuaternion s u1 u2)) as [an ax].
    eexists; split; [reflexivity|]. split; [reflexivity|]. exact K.
  - eexists; split; [reflexivity|]. split; [reflexivity|]. cbn.
    split; [apply qrot_is_rot; exact U|]. split; reflexivity.
  - eexists; split; [reflexivity|]. split; [reflexivity|]. exact U.
Qed.

(** Conversely every unit quaternion is produced by some outcome of the random source:
    no rotation is excluded. *)
Lemma circle_point x y r : 0 <= r -> x * x + y * y = r ->
  exists u, 0 <= u <= 1 /\ x = cos (2 * PI * u) * sqrt r /\ y = sin (2 * PI * u) * sqrt r.
Proof.
  intros Hr H. pose proof PI_RGT_0 as Hpi.
  pose proof (sqrt_sqrt r Hr) as Hq. pose proof (sqrt_pos r) as Hp.
  destruct (Req_dec r 0) as [E | E].
  { exists 0. split; [lra|]. subst r. assert (sqrt (x * x + y * y) = 0) as ->.
    { rewrite E. apply sqrt_0. }
    assert (0 <= x * x) by apply sq_nonneg. assert (0 <= y * y) by apply sq_nonneg.
    split; rewrite Rmult_0_r; apply Rsqr_0_uniq; unfold Rsqr; lra. }
  assert (Hs : 0 < sqrt r) by (apply sqrt_lt_R0; lra).
  set (a := x / sqrt r). set (b := y / sqrt r).
  assert (Hab : a * a + b * b = 1).
  { unfold a, b. transitivity ((x * x + y * y) / (sqrt r * sqrt r)); [field; lra|].
    rewrite Hq, H. field. assumption. }
  assert (Ha : -1 <= a <= 1).
  { apply sq_le_1. pose proof (sq_nonneg b). lra. }
  assert (Xa : x = a * sqrt r) by (unfold a; field; lra).
  assert (Yb : y = b * sqrt r) by (unfold b; field; lra).
  destruct (acos_bound a) as [B1 B2].
  assert (Hsin : sin (acos a) = Rabs b).
  { rewrite sin_acos by lra. rewrite <- sqrt_Rsqr_abs. f_equal. unfold Rsqr. lra. }
  destruct (Rle_dec 0 b) as [Hb | Hb].
  - exists (acos a / (2 * PI)). split; [split|].
    + apply Rmult_le_pos; [assumption|]. left. apply Rinv_0_lt_compat. lra.
    + apply (Rmult_le_reg_r (2 * PI)); [lra|]. unfold Rdiv. rewrite Rmult_assoc, Rinv_l by lra. lra.
    + replace (2 * PI * (acos a / (2 * PI))) with (acos a) by (field; lra).
      rewrite cos_acos by lra. rewrite Hsin, Rabs_right by lra. split; assumption.
  - exists (1 - acos a / (2 * PI)). split; [split|].
    + assert (acos a / (2 * PI) <= 1); [|lra].
      apply (Rmult_le_reg_r (2 * PI)); [lra|]. unfold Rdiv. rewrite Rmult_assoc, Rinv_l by lra. lra.
    + assert (0 <= acos a / (2 * PI)); [|lra].
      apply Rmult_le_pos; [assumption|]. left. apply Rinv_0_lt_compat. lra.
    + replace (2 * PI * (1 - acos a / (2 * PI))) with (- acos a + 2 * PI) by (field; lra).
      rewrite cos_plus, sin_plus, cos_2PI, sin_2PI, cos_neg, sin_neg, cos_acos by lra.
      rewrite Hsin, Rabs_left by lra. split; [rewrite Xa | rewrite Yb]; ring.
Qed.

Theorem c37_random_surjective : forall q, qnorm2 q = 1 ->
  exists s u1 u2, 0 <= s <= 1 /\ 0 <= u1 <= 1 /\ 0 <= u2 <= 1 /\ randomQuaternion s u1 u2 = q.
Proof.
  intros [w x y z] H. unfold qnorm2 in H. cbn in H.
  pose proof (sq_nonneg w). pose proof (sq_nonneg x). pose proof (sq_nonneg y).
  pose proof (sq_nonneg z).
  destruct (circle_point w z (w * w + z * z)) as (u2 & B2 & C2 & S2); [lra | reflexivity |].
  destruct (circle_point y x (1 - (w * w + z * z))) as (u1 & B1 & C1 & S1); [lra | lra |].
  exists (w * w + z * z), u1, u2. repeat split; try lra.
  unfold randomQuaternion. f_equal; symmetry; assumption.
Qed.

Print Assumptions c35_operations.
Print Assumptions c36_chains.
Print Assumptions c37_random_surjective.
