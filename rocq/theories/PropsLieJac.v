(** C21, C22: the Jacobians of exp and log as matrices. *)

From Coq Require Import Reals Lra Lia List Bool Arith Ratan.
From Verif Require Import Mat ModelMeta ModelJac SpecJac JacProofs V3 ModelLeaf SpecLeaf
  LeafProofs ModelExpr SpecExpr ExprProofs PropsExpr PropsVec Calc SpecDeriv DerivProofs DerivUn
  DerivTree JacDef PropsDeriv PropsLie.
Import ListNotations.
Local Open Scope R_scope.
Local Open Scope mat_scope.
Local Arguments mvec : simpl never.

(** ** C21 *)

Lemma mat_is_mid n A : has_shape n n A -> (forall d i, (i < n)%nat -> mvec A d i = d i) -> A == mid n.
Proof.
  intros (R & C) H. split; [exact R|]. split; [exact C|]. intros i j Hi Hj.
  rewrite R in Hi. rewrite C in Hj.
  specialize (H (fun q : nat => if (q =? j)%nat then 1 else 0) i Hi).
  unfold mvec in H. rewrite (rsum_single _ j) in H.
  - rewrite Nat.eqb_refl, Rmult_1_r in H. rewrite mnth_in in H by congruence.
    rewrite H. cbn. reflexivity.
  - congruence.
  - intros q _ Hq. destruct (Nat.eqb_spec q j); [contradiction|ring].
Qed.

Lemma inverse_chain eps m a b ta tb o1 o2 J1 J2 n1 n2 :
  is_derivative eps m (XUn o1 (XLeaf a ta)) a J1 ->
  is_derivative eps m (XUn o2 (XLeaf b tb)) b J2 ->
  dsem_un eps o1 (den (m a)) = Some (den (m b)) -> dvalid (den (m a)) ->
  (forall c d, c 0 = den (m a) -> moves c d ->
     near (fun s => exists y, dsem_un eps o1 (c s) = Some y /\ dsem_un eps o2 y = Some (c s))) ->
  tsize (dkind (den (m a))) = n1 -> has_shape n2 n1 J1 -> has_shape n1 n2 J2 ->
  mmul J2 J1 == mid n1.
Proof.
  intros D1 D2 E V Inv K S1 S2. apply mat_is_mid; [split; [apply S2|apply S1]|].
  intros d i Hi. rewrite mvec_mmul by (destruct S1 as (R1 & _), S2 as (_ & C2); congruence).
  set (c := dpert (den (m a)) d).
  assert (C0 : c 0 = den (m a)) by apply dpert_0.
  pose proof (dpert_moves (den (m a)) d V) as M. fold c in M.
  destruct (D1 c d C0 M) as (r & Nr & Mr).
  cbn [deval] in Nr. unfold dupd in Nr. rewrite Nat.eqb_refl in Nr.
  assert (R0 : r 0 = den (m b)).
  { pose proof (near_0 _ Nr) as Z. cbv beta in Z. rewrite C0, E in Z. congruence. }
  pose proof (D2 r (mvec J1 d) R0 Mr) as M2.
  assert (M3 : moves_opt (fun s => Some (c s)) (mvec J2 (mvec J1 d))).
  { apply (mo_near _ _ _) with (2 := M2). cbn [deval]. unfold dupd. rewrite Nat.eqb_refl.
    apply (near_impl2 _ _ _) with (2 := Nr) (3 := Inv c d C0 M). intros s A (y & B & C). congruence. }
  assert (M4 : moves_opt (fun s => Some (c s)) d).
  { exists c. split; [apply near_all; reflexivity|exact M]. }
  apply (moves_opt_unique (fun s => Some (c s)) (den (m a)) _ _ M3 M4).
  - now rewrite C0.
  - rewrite K. exact Hi.
Qed.

Lemma inv_log_exp eps v : 0 <= eps < 1 -> eps < vnorm2 v -> vnorm v < PI ->
  forall c d, c 0 = DRel v -> moves c d ->
  near (fun s => exists y, dsem_un eps OExpMap (c s) = Some y /\ dsem_un eps OLogMap y = Some (c s)).
Proof.
  intros He Hv Hpi c d C0 M.
  assert (K0 : dkind (c 0) = KRel) by now rewrite C0.
  destruct (moves_vec _ _ KRel M K0 eq_refl) as (N & D).
  pose proof (vec_v3 _ _ _ (or_introl eq_refl : tsize KRel = 3%nat \/ _) D) as V3d.
  assert (E0 : dvec (c 0) = v) by (rewrite C0; destruct v; reflexivity).
  pose proof (dpl_norm2 _ _ _ V3d) as Dn.
  assert (N1 : near (fun s => eps < vnorm2 (dvec (c s)))) by (apply (dpl_near_gt _ _ _ Dn); rewrite E0; exact Hv).
  assert (N2 : near (fun s => vnorm2 (dvec (c s)) < PI * PI)).
  { apply (dpl_near_lt _ _ _ Dn). rewrite E0, <- vnorm_sq. pose proof (vnorm_nonneg v). nra. }
  apply (near_impl2 _ _ _) with (2 := near_and _ _ N1 N2) (3 := N).
  intros s (A & B) K. rewrite (k_rel _ K). cbn [dsem_un].
  eexists. split; [reflexivity|]. cbn. rewrite log_exp_general; [reflexivity|lra|exact A|].
  rewrite <- vnorm_sq in B. pose proof (vnorm_nonneg (dvec (c s))). pose proof PI_RGT_0. nra.
Qed.

Lemma inv_exp_log eps M0 : 0 <= eps < 1 -> is_rot M0 -> eps < rot_angle M0 * rot_angle M0 -> rot_angle M0 < PI ->
  forall c d, c 0 = DRot M0 -> moves c d ->
  near (fun s => exists y, dsem_un eps OLogMap (c s) = Some y /\ dsem_un eps OExpMap y = Some (c s)).
Proof.
  intros He HM Hb Hpi c d C0 M.
  assert (K0 : dkind (c 0) = KRot) by now rewrite C0.
  destruct (moves_rot _ _ M K0) as (N & D).
  pose proof (near_impl _ _ (fun s H => proj2 H) N) as NR.
  assert (E0 : drot (c 0) = M0) by now rewrite C0.
  pose proof (log_curve_eq eps (proj1 He) _ _ NR D) as LE. cbv beta in LE. rewrite E0 in LE.
  specialize (LE Hb Hpi).
  apply (near_impl2 _ _ _) with (2 := N) (3 := LE). intros s (A & _) (B & X & _).
  rewrite A. cbn [dsem_un]. rewrite B. eexists. split; [reflexivity|]. cbn [dsem_un]. now rewrite X.
Qed.

Lemma inv_log_exp_rt eps w u : 0 <= eps < 1 -> eps < vnorm2 w -> vnorm w < PI ->
  forall c d, c 0 = DTwist w u -> moves c d ->
  near (fun s => exists y, dsem_un eps OExpMap (c s) = Some y /\ dsem_un eps OLogMap y = Some (c s)).
Proof.
  intros He Hv Hpi c d C0 M.
  assert (K0 : dkind (c 0) = KTwist) by now rewrite C0.
  destruct (moves_vec _ _ KTwist M K0 eq_refl) as (N & D).
  pose proof (vec_v3 _ _ _ (or_intror eq_refl : _ \/ KTwist = KTwist) D) as V3d.
  assert (E0 : dvec (c 0) = w) by (rewrite C0; destruct w; reflexivity).
  pose proof (dpl_norm2 _ _ _ V3d) as Dn.
  assert (N1 : near (fun s => eps < vnorm2 (dvec (c s)))) by (apply (dpl_near_gt _ _ _ Dn); rewrite E0; exact Hv).
  assert (N2 : near (fun s => vnorm2 (dvec (c s)) < PI * PI)).
  { apply (dpl_near_lt _ _ _ Dn). rewrite E0, <- vnorm_sq. pose proof (vnorm_nonneg w). nra. }
  apply (near_impl2 _ _ _) with (2 := near_and _ _ N1 N2) (3 := N).
  intros s (A & B) K. rewrite (k_twist _ K). cbn [dsem_un].
  eexists. split; [reflexivity|]. cbn [dsem_un]. rewrite rt_log_exp; [reflexivity|lra|exact A|].
  rewrite <- vnorm_sq in B. pose proof (vnorm_nonneg (dvec (c s))). pose proof PI_RGT_0. nra.
Qed.

Lemma inv_exp_log_rt eps M0 t0 : 0 <= eps < 1 -> is_rot M0 -> eps < rot_angle M0 * rot_angle M0 -> rot_angle M0 < PI ->
  forall c d, c 0 = DRT M0 t0 -> moves c d ->
  near (fun s => exists y, dsem_un eps OLogMap (c s) = Some y /\ dsem_un eps OExpMap y = Some (c s)).
Proof.
  intros He HM Hb Hpi c d C0 M.
  assert (K0 : dkind (c 0) = KRT) by now rewrite C0.
  destruct (moves_rt _ _ M K0) as (N & D & Dt).
  pose proof (near_impl _ _ (fun s H => proj2 H) N) as NR.
  assert (E0 : drot (c 0) = M0) by now rewrite C0.
  pose proof (tlog_near eps (proj1 He) _ (fun s => dtr (c s)) _ NR D) as LE. cbv beta in LE. rewrite E0 in LE.
  specialize (LE Hb Hpi).
  apply (near_impl2 _ _ _) with (2 := N) (3 := LE). intros s (A & _) (B & X & Y).
  rewrite A. cbn [dsem_un]. rewrite B. eexists. split; [reflexivity|]. cbn [dsem_un fst snd]. now rewrite X, Y.
Qed.

(** The matrices jacobian() returns for exp at v and for log at exp(v) are inverses of
    each other, whatever the parametrization of the rotation. *)
Theorem c21_rotation_jacobians_inverse : forall eps na m a b v l, 0 <= eps < 1 ->
  m a = VRel v -> vty (m b) = Plain l -> kind_of l = KRot -> valid (m b) ->
  means eps m (XUn OExpMap (XLeaf a (Plain LRel))) = Some (den (m b)) ->
  eps < vnorm2 v * vnorm2 v -> vnorm v < PI ->
  exists Je Jl,
    expr_jacobian eps na m (XUn OExpMap (XLeaf a (Plain LRel))) (leaf_obj a (Plain LRel)) = Some (Ok Je) /\
    expr_jacobian eps na m (XUn OLogMap (XLeaf b (Plain l))) (leaf_obj b (Plain l)) = Some (Ok Jl) /\
    Jl ** Je == mid 3 /\ Je ** Jl == mid 3.
Proof.
  intros eps na m a b v l He Ha Hb Kl Vb Hm Hv Hpi.
  assert (Hv2 : eps < vnorm2 v) by now apply vnorm2_sq_lt.
  assert (G1 : good eps m (XUn OExpMap (XLeaf a (Plain LRel))) KRot).
  { apply (good_exp eps m _ KRel KRot); [apply good_leaf; rewrite Ha; [reflexivity|exact I]|reflexivity|].
    intros x. cbn. rewrite Ha. intros [= <-]. cbn. auto. }
  assert (DE : dsem_un eps OExpMap (den (m a)) = Some (den (m b))).
  { rewrite (good_means eps m _ KRot (proj1 He) G1) in Hm. exact Hm. }
  assert (DB : den (m b) = DRot (so3_exp v)) by (rewrite Ha in DE; cbn in DE; congruence).
  assert (G2 : good eps m (XUn OLogMap (XLeaf b (Plain l))) KRel).
  { apply (good_un eps m OLogMap _ KRot KRel); [|reflexivity|discriminate].
    rewrite <- Kl. change (kind_of l) with (ty_kind (Plain l)). now apply good_leaf. }
  assert (DL : dsem_un eps OLogMap (den (m b)) = Some (den (m a))).
  { rewrite DB, Ha. cbn. now rewrite log_exp_general by lra. }
  assert (Hm2 : means eps m (XUn OLogMap (XLeaf b (Plain l))) = Some (den (m a))).
  { rewrite (good_means eps m _ KRel (proj1 He) G2). exact DL. }
  assert (An : rot_angle (so3_exp v) = vnorm v) by (apply rot_angle_exp; lra).
  destruct (c01_jacobian_is_derivative eps na m _ KRot a LRel _ He G1 Hm) as (_ & Je & A1 & A2 & A3);
    [cbn; tauto|rewrite Ha; reflexivity| |].
  { cbn [smooth]. split; [exact I|]. intros _ x. cbn. rewrite Ha. intros [= <-]. exact I. }
  destruct (c01_jacobian_is_derivative eps na m _ KRel b l _ He G2 Hm2) as (_ & Jl & B1 & B2 & B3);
    [cbn; tauto|exact Hb| |].
  { cbn [smooth]. split; [exact I|]. intros _ x. cbn [deval]. rewrite DB. intros [= <-]. cbn [smooth_un].
    rewrite An, vnorm_sq. auto. }
  exists Je, Jl. rewrite Kl in B2. repeat (split; [assumption|]). split.
  - apply (inverse_chain eps m a b _ _ OExpMap OLogMap Je Jl 3 3 A3 B3 DE); auto.
    + rewrite Ha. exact I.
    + rewrite Ha. now apply inv_log_exp.
    + rewrite Ha. reflexivity.
  - apply (inverse_chain eps m b a _ _ OLogMap OExpMap Jl Je 3 3 B3 A3 DL); auto.
    + now apply valid_dvalid.
    + rewrite DB. apply inv_exp_log; auto; [apply so3_exp_is_rot|rewrite An, vnorm_sq; exact Hv2|rewrite An; exact Hpi].
    + rewrite DB. reflexivity.
Qed.
Print Assumptions c21_rotation_jacobians_inverse.

Theorem c21_rigid_jacobians_inverse : forall eps na m a b w u l, 0 <= eps < 1 ->
  m a = VTwist w u -> vty (m b) = Plain l -> kind_of l = KRT -> valid (m b) ->
  means eps m (XUn OExpMap (XLeaf a (Plain LTwist))) = Some (den (m b)) ->
  eps < vnorm2 w -> vnorm w < PI ->
  exists Je Jl,
    expr_jacobian eps na m (XUn OExpMap (XLeaf a (Plain LTwist))) (leaf_obj a (Plain LTwist)) = Some (Ok Je) /\
    expr_jacobian eps na m (XUn OLogMap (XLeaf b (Plain l))) (leaf_obj b (Plain l)) = Some (Ok Jl) /\
    Jl ** Je == mid 6 /\ Je ** Jl == mid 6.
Proof.
  intros eps na m a b w u l He Ha Hb Kl Vb Hm Hv Hpi.
  assert (W0 : w <> v0).
  { intros ->. revert Hv. replace (vnorm2 v0) with 0 by (v3unf; ring). lra. }
  assert (G1 : good eps m (XUn OExpMap (XLeaf a (Plain LTwist))) KRT).
  { apply (good_exp eps m _ KTwist KRT); [apply good_leaf; rewrite Ha; [reflexivity|exact I]|reflexivity|].
    intros x. cbn. rewrite Ha. intros [= <-]. cbn. auto. }
  assert (DE : dsem_un eps OExpMap (den (m a)) = Some (den (m b))).
  { rewrite (good_means eps m _ KRT (proj1 He) G1) in Hm. exact Hm. }
  assert (DB : den (m b) = DRT (so3_exp w) (app3 (so3_V w) u)) by (rewrite Ha in DE; cbn in DE; congruence).
  assert (G2 : good eps m (XUn OLogMap (XLeaf b (Plain l))) KTwist).
  { apply (good_un eps m OLogMap _ KRT KTwist); [|reflexivity|discriminate].
    rewrite <- Kl. change (kind_of l) with (ty_kind (Plain l)). now apply good_leaf. }
  assert (DL : dsem_un eps OLogMap (den (m b)) = Some (den (m a))).
  { rewrite DB, Ha. cbn [dsem_un]. now rewrite rt_log_exp by lra. }
  assert (Hm2 : means eps m (XUn OLogMap (XLeaf b (Plain l))) = Some (den (m a))).
  { rewrite (good_means eps m _ KTwist (proj1 He) G2). exact DL. }
  assert (An : rot_angle (so3_exp w) = vnorm w) by (apply rot_angle_exp; lra).
  destruct (c01_jacobian_is_derivative eps na m _ KRT a LTwist _ He G1 Hm) as (_ & Je & A1 & A2 & A3);
    [cbn; tauto|rewrite Ha; reflexivity| |].
  { cbn [smooth]. split; [exact I|]. intros _ x. cbn. rewrite Ha. intros [= <-]. exact W0. }
  destruct (c01_jacobian_is_derivative eps na m _ KTwist b l _ He G2 Hm2) as (_ & Jl & B1 & B2 & B3);
    [cbn; tauto|exact Hb| |].
  { cbn [smooth]. split; [exact I|]. intros _ x. cbn [deval]. rewrite DB. intros [= <-]. cbn [smooth_un].
    rewrite An, vnorm_sq. auto. }
  exists Je, Jl. rewrite Kl in B2. repeat (split; [assumption|]). split.
  - apply (inverse_chain eps m a b _ _ OExpMap OLogMap Je Jl 6 6 A3 B3 DE); auto.
    + rewrite Ha. exact I.
    + rewrite Ha. now apply inv_log_exp_rt.
    + rewrite Ha. reflexivity.
  - apply (inverse_chain eps m b a _ _ OLogMap OExpMap Jl Je 6 6 B3 A3 DL); auto.
    + now apply valid_dvalid.
    + rewrite DB. apply inv_exp_log_rt; auto; [apply so3_exp_is_rot|rewrite An, vnorm_sq; exact Hv|rewrite An; exact Hpi].
    + rewrite DB. reflexivity.
Qed.
Print Assumptions c21_rigid_jacobians_inverse.

(** *** The local Jacobian formulas, up to angle 2 pi *)

Lemma of_m3_mul A B : of_m3 A ** of_m3 B == of_m3 (mul3 A B).
Proof.
  split; [reflexivity|]. split; [reflexivity|]. cbn [mrows mcols mmul of_m3]. intros i j Hi Hj.
  do 3 (destruct i as [|i]; [do 3 (destruct j as [|j]; [cbn; ring|]); lia|]). lia.
Qed.
Lemma of_m3_i : of_m3 i3 == mid 3.
Proof.
  split; [reflexivity|]. split; [reflexivity|]. cbn [mrows mcols of_m3]. intros i j Hi Hj.
  do 3 (destruct i as [|i]; [do 3 (destruct j as [|j]; [reflexivity|]); lia|]). lia.
Qed.
Lemma of_blocks_mul a c d a' c' d' :
  of_blocks a z3 c d ** of_blocks a' z3 c' d'
  == of_blocks (mul3 a a') z3 (add3 (mul3 c a') (mul3 d c')) (mul3 d d').
Proof.
  split; [reflexivity|]. split; [reflexivity|]. cbn [mrows mcols mmul of_blocks]. intros i j Hi Hj.
  do 6 (destruct i as [|i]; [do 6 (destruct j as [|j]; [cbn; ring|]); lia|]). lia.
Qed.
Lemma of_blocks_i : of_blocks i3 z3 z3 i3 == mid 6.
Proof.
  split; [reflexivity|]. split; [reflexivity|]. cbn [mrows mcols of_blocks]. intros i j Hi Hj.
  do 6 (destruct i as [|i]; [do 6 (destruct j as [|j]; [reflexivity|]); lia|]). lia.
Qed.

(** For a rotation vector v in the general branch and any rotation value representing
    exp(v), the local exp Jacobian at v and the local log Jacobian for the logarithm v are
    inverse, for every angle below 2 pi. *)
Theorem c21_local_rotation : forall eps v val rhs, 0 <= eps ->
  eps < vnorm2 v -> vnorm v < 2 * PI -> valid val -> vkind val = KRot ->
  den val = DRot (so3_exp v) -> vkind rhs = KRot ->
  exists Je Jl, jac_un eps OExpMap val (VRel v) = Some Je /\ jac_un eps OLogMap (VRel v) rhs = Some Jl /\
    Jl ** Je == mid 3 /\ Je ** Jl == mid 3.
Proof.
  intros eps v val rhs He Hv Hpi V K D Kr.
  assert (W0 : v <> v0).
  { intros ->. revert Hv. replace (vnorm2 v0) with 0 by (v3unf; ring). lra. }
  destruct (V_Vinv v W0 Hpi) as (E1 & E2).
  exists (of_m3 (so3_V v)), (of_m3 (so3_Vinv v)).
  assert (RM : rot_matrix val = Some (so3_exp v)).
  { destruct val as [| | | | | | | | | |l|l]; try discriminate K; cbn in D |- *; try congruence.
    - unfold vkind in K. cbn in K. unfold ty_kind in K. cbn in K. rewrite K in D |- *. congruence.
    - cbn in V. unfold vkind in K. cbn in K. unfold ty_kind in K. cbn in K. rewrite K in V. contradiction. }
  split; [cbn [jac_un]; destruct val; cbn [rot_matrix] in RM |- *; rewrite ?RM, ?exp_rot_jac_V by assumption;
          try reflexivity; try discriminate RM|].
  all: try (injection RM as ->; now rewrite exp_rot_jac_V by assumption).
  split; [cbn [jac_un]; rewrite Kr, log_rot_jac_Vinv by assumption; reflexivity|].
  rewrite !of_m3_mul, E1, E2. split; apply of_m3_i.
Qed.
Print Assumptions c21_local_rotation.

Theorem c21_local_rigid : forall eps w u t r c rhs, 0 <= eps ->
  eps < vnorm2 w -> vnorm w < 2 * PI -> vkind rhs = KRT ->
  exists Je Jl, jac_un eps OExpMap (VMatRT (so3_exp w) t r c) (VTwist w u) = Some Je /\
    jac_un eps OLogMap (VTwist w u) rhs = Some Jl /\
    Jl ** Je == mid 6 /\ Je ** Jl == mid 6.
Proof.
  intros eps w u t r c rhs He Hw Hpi Kr.
  assert (W0 : w <> v0).
  { intros ->. revert Hw. replace (vnorm2 v0) with 0 by (v3unf; ring). lra. }
  destruct (V_Vinv w W0 Hpi) as (E1 & E2).
  set (V := so3_V w) in *. set (D := so3_Vinv w) in *. set (B := EB w u).
  exists (of_blocks V z3 B V), (of_blocks D z3 (mul3 (mul3 (opp3 D) B) D) D).
  split; [cbn [jac_un]; now rewrite eade_B_EB, exp_rot_jac_V by assumption|].
  split; [cbn [jac_un]; now rewrite Kr, eade_B_EB, log_rot_jac_Vinv by assumption|].
  rewrite !of_blocks_mul, E1, E2.
  assert (Z1 : add3 (mul3 (mul3 (mul3 (opp3 D) B) D) V) (mul3 D B) = z3).
  { rewrite (mul3_assoc (mul3 (opp3 D) B) D V), E2, mul3_i_r, mul3_opp_l.
    clear. generalize (mul3 D B). intros [? ? ? ? ? ? ? ? ?]. v3unf. f_equal; ring. }
  assert (Z2 : add3 (mul3 B D) (mul3 V (mul3 (mul3 (opp3 D) B) D)) = z3).
  { rewrite <- (mul3_assoc V (mul3 (opp3 D) B) D), <- (mul3_assoc V (opp3 D) B), mul3_opp_r, E1.
    clear. v3ring. }
  rewrite Z1, Z2. split; apply of_blocks_i.
Qed.
Print Assumptions c21_local_rigid.

(** A turn of 2 rad satisfies the conditions of c21. *)
Example c21_example : let v := mkV 2 0 0 in 1/4 < vnorm2 v * vnorm2 v /\ 1/4 < vnorm2 v /\ vnorm v < PI.
Proof.
  cbv zeta. destruct c17_example as (_ & _ & A & B & _). destruct c20_example as (_ & C & _). auto.
Qed.

(** ** C22: Jacobians at zero *)

(** *** V and the logarithm near zero *)

Definition eC (v : V3) : R := if Req_EM_T (vnorm v) 0 then 1 / 6 else cC v.

Lemma so3_V_e v : so3_V v = rodrigues (eB v) (eC v) v.
Proof.
  unfold eC, eB. destruct (Req_EM_T (vnorm v) 0) as [E|E].
  - rewrite (vnorm_eq0 _ E), so3_V_0, rodrigues_at_0. reflexivity.
  - apply so3_V_cB. intros ->. apply E, vnorm_0.
Qed.

Lemma eC_bound v : vnorm v <= 1 -> Rabs (eC v) <= 1 / 6.
Proof.
  intros H. unfold eC. destruct (Req_EM_T (vnorm v) 0) as [E|E]; [rewrite Rabs_pos_eq; lra|].
  unfold cC, cA. rewrite <- vnorm_sq. pose proof (vnorm_nonneg v). set (n := vnorm v) in *.
  destruct (sin_small_bounds n) as (L & U); [lra|].
  assert (P : 0 < n * n * n) by (apply Rmult_lt_0_compat; nra).
  replace ((1 - sin n / n) / (n * n)) with ((n - sin n) / (n * n * n)) by (field; lra).
  assert (Q : n * n * n * (n * n) <= n * n * n * 1) by (apply Rmult_le_compat_l; nra).
  rewrite Rabs_pos_eq.
  - apply (Rmult_le_reg_r (n * n * n)); [exact P|].
    replace ((n - sin n) / (n * n * n) * (n * n * n)) with (n - sin n) by (field; lra). lra.
  - apply Rmult_le_pos; [nra|]. left. now apply Rinv_0_lt_compat.
Qed.

Lemma eB_limit e : 0 < e -> exists d, 0 < d /\ forall v, vnorm2 v < d -> Rabs (2 * eB v - 1) < e.
Proof.
  intros He. destruct (eA_limit (Rmin 1 (e / 3))) as (d & Hd & H); [apply Rmin_pos; lra|].
  exists d. split; [exact Hd|]. intros v Hv.
  assert (K : 2 * eB v = eA (vscal (1/2) v) * eA (vscal (1/2) v)).
  { unfold eA, eB. assert (N : vnorm (vscal (1/2) v) = vnorm v / 2).
    { unfold vnorm. rewrite vnorm2_scal. rewrite sqrt_mult_alt by lra.
      rewrite sqrt_square by lra. field. }
    rewrite N. destruct (Req_EM_T (vnorm v) 0) as [E|E], (Req_EM_T (vnorm v / 2) 0) as [E'|E']; try lra.
    unfold cA, cB. rewrite N, <- vnorm_sq, cos_half_1. field. lra. }
  rewrite K. specialize (H (vscal (1/2) v)). rewrite vnorm2_scal in H.
  assert (B : Rabs (eA (vscal (1 / 2) v) - 1) < Rmin 1 (e / 3)).
  { apply H. pose proof (vnorm2_pos v). lra. }
  set (x := eA (vscal (1/2) v)) in *. pose proof (Rmin_l 1 (e/3)). pose proof (Rmin_r 1 (e/3)).
  replace (x * x - 1) with ((x - 1) * (x + 1)) by ring. rewrite Rabs_mult.
  assert (B2 : Rabs (x + 1) < 3).
  { replace (x + 1) with ((x - 1) + 2) by ring. eapply Rle_lt_trans; [apply Rabs_triang|].
    rewrite (Rabs_pos_eq 2) by lra. lra. }
  pose proof (Rabs_pos (x - 1)). pose proof (Rabs_pos (x + 1)). nra.
Qed.

Lemma v3d_cross f g a b : v3_deriv f 0 a -> v3_deriv g 0 b ->
  v3_deriv (fun s => vcross (f s) (g s)) 0 (vadd (vcross a (g 0)) (vcross (f 0) b)).
Proof.
  intros F G. pose proof (v3d_app _ _ _ _ _ (m3d_skew _ _ _ F) G) as H. cbv beta in H.
  rewrite !skew_app in H. eapply v3d_near; [|exact H]. apply near_all. intros s. apply skew_app.
Qed.

Lemma V_deriv_0 f g d u : v3_deriv f 0 d -> v3_deriv g 0 u -> f 0 = v0 ->
  v3_deriv (fun s => app3 (so3_V (f s)) (g s)) 0 (vadd u (vscal (1/2) (vcross d (g 0)))).
Proof.
  intros D G H.
  apply (v3d_near (fun s => vadd (g s) (vadd (vscal (eB (f s)) (vcross (f s) (g s)))
      (vscal (eC (f s)) (vcross (f s) (vcross (f s) (g s))))))).
  { apply near_all. intros s. rewrite so3_V_e. unfold rodrigues. generalize (eB (f s)), (eC (f s)), (f s), (g s).
    clear. intros p q [? ? ?] [? ? ?]. v3unf. f_equal; ring. }
  assert (LB : forall e, 0 < e -> near (fun s => Rabs (2 * eB (f s) - 1) < e)).
  { intros e He. destruct (eB_limit e He) as (q & Hq & HA).
    apply (near_impl (fun s => vnorm2 (f s) < q)); [auto|].
    eapply (dpl_near_lt (fun s => vnorm2 (f s))); [apply dpl_norm2, D|]. rewrite H.
    replace (vnorm2 v0) with 0 by (v3unf; ring). exact Hq. }
  assert (LC : near (fun s => Rabs (eC (f s)) <= 1/6)).
  { apply (near_impl (fun s => vnorm2 (f s) < 1)).
    - intros s Hs. apply eC_bound. rewrite <- vnorm_sq in Hs. pose proof (vnorm_nonneg (f s)). nra.
    - eapply (dpl_near_lt (fun s => vnorm2 (f s))); [apply dpl_norm2, D|]. rewrite H.
      replace (vnorm2 v0) with 0 by (v3unf; ring). lra. }
  pose proof (v3d_cross _ _ _ _ D G) as C1. cbv beta in C1.
  pose proof (v3d_cross _ _ _ _ D C1) as C2. cbv beta in C2.
  rewrite H in C1, C2.
  assert (P1 : v3_deriv (fun s => vscal (eB (f s)) (vcross (f s) (g s))) 0 (vscal (1/2) (vcross d (g 0)))).
  { assert (X : forall (h : R -> R) l, h 0 = 0 -> derivable_pt_lim h 0 l ->
        derivable_pt_lim (fun s => eB (f s) * h s) 0 (1/2 * l)).
    { intros h l H0 Hd. apply (dpl_ext (fun s => 1/2 * ((2 * eB (f s)) * h s))); [intros s; field|].
      eapply dpl_val; [apply dpl_mult; [apply dpl_const|apply (dpl_prod_1 h (fun s => 2 * eB (f s)) l H0 Hd LB)]|].
      cbv beta. ring. }
    destruct C1 as (X1 & X2 & X3). repeat split.
    - eapply dpl_val; [refine (X (fun s => vx (vcross (f s) (g s))) _ _ X1); rewrite H; v3unf; ring|].
      clear. generalize (g 0). intros [? ? ?]. destruct d, u. v3unf. field.
    - eapply dpl_val; [refine (X (fun s => vy (vcross (f s) (g s))) _ _ X2); rewrite H; v3unf; ring|].
      clear. generalize (g 0). intros [? ? ?]. destruct d, u. v3unf. field.
    - eapply dpl_val; [refine (X (fun s => vz (vcross (f s) (g s))) _ _ X3); rewrite H; v3unf; ring|].
      clear. generalize (g 0). intros [? ? ?]. destruct d, u. v3unf. field. }
  assert (P2 : v3_deriv (fun s => vscal (eC (f s)) (vcross (f s) (vcross (f s) (g s)))) 0 v0).
  { assert (X : forall (h : R -> R) l, h 0 = 0 -> derivable_pt_lim h 0 l -> l = 0 ->
        derivable_pt_lim (fun s => eC (f s) * h s) 0 0).
    { intros h l H0 Hd ->. apply (dpl_prod_bounded h (fun s => eC (f s)) (1/6) H0 Hd LC). }
    destruct C2 as (X1 & X2 & X3).
    assert (Z : vadd (vcross d (vcross v0 (g 0))) (vcross v0 (vadd (vcross d (g 0)) (vcross v0 u))) = v0).
    { clear. generalize (g 0). intros [? ? ?]. destruct d, u. v3unf. f_equal; ring. }
    rewrite Z in X1, X2, X3. repeat split; (eapply X; [|eassumption|reflexivity]); rewrite H; v3unf; ring. }
  eapply v3d_val; [apply v3d_add; [exact G|apply v3d_add; [exact P1|exact P2]]|].
  cbv beta. f_equal. clear. generalize (vscal (1/2) (vcross d (g 0))). intros [? ? ?]. v3unf. f_equal; ring.
Qed.

Definition slog (M : M3) : V3 := uncross (scal3 (1/2) (sub3 M (tr3 M))).

Lemma log_small_near eps M D : 0 < eps -> near (fun s => is_rot (M s)) -> m3_deriv M 0 D -> M 0 = i3 ->
  near (fun s => log_mat eps (M s) = Some (slog (M s)) /\ vnorm2 (slog (M s)) < eps).
Proof.
  intros He NR DM M0.
  set (b := Rmin 1 (sqrt eps)).
  assert (Sq : 0 < sqrt eps) by now apply sqrt_lt_R0.
  assert (Bp : 0 < b) by (apply Rmin_pos; lra).
  assert (B1 : b <= 1) by apply Rmin_l. assert (Bs : b <= sqrt eps) by apply Rmin_r.
  assert (Hpi : 3 / 2 < PI / 2) by (pose proof PI2_3_2; unfold PI2 in *; lra).
  assert (Cb : cos b < 1).
  { rewrite <- cos_0. apply cos_decreasing_1; lra. }
  assert (NT : near (fun s => 2 * cos b + 1 < trace3 (M s))).
  { apply (dpl_near_gt _ _ _ (dpl_trace _ _ _ DM)). rewrite M0. v3unf. lra. }
  assert (NV : near (fun s => vnorm2 (slog (M s)) < eps)).
  { assert (VD : v3_deriv (fun s => slog (M s)) 0 (uncross (add3 (scal3 0 (sub3 (M 0) (tr3 (M 0)))) (scal3 (1/2) (sub3 D (tr3 D)))))).
    { unfold slog. apply (v3d_uncross (fun s => scal3 (1/2) (sub3 (M s) (tr3 (M s))))). apply (m3d_scal (fun _ => 1/2)).
      - apply dpl_const.
      - apply m3d_sub; [exact DM|apply m3d_tr, DM]. }
    apply (dpl_near_lt _ _ _ (dpl_norm2 _ _ _ VD)). rewrite M0. unfold slog, uncross. v3unf.
    match goal with |- ?x < _ => replace x with 0 by field end. exact He. }
  apply (near_impl2 _ _ _) with (2 := near_and _ _ NR NT) (3 := NV). intros s (R & T) V. split; [|exact V].
  pose proof (rot_trace_bound _ R) as TB. unfold log_mat.
  destruct (Rle_dec (-1) _) as [K1|K1]; [|exfalso; apply K1; lra].
  destruct (Rle_dec _ 1) as [K2|K2]; [|exfalso; apply K2; lra].
  set (x := (trace3 (M s) - 1) / 2) in *.
  assert (Hx : cos b < x) by (unfold x; lra).
  assert (A : acos x < b).
  { apply Rnot_le_lt. intros K. pose proof (acos_bound x).
    assert (cos (acos x) <= cos b).
    { destruct (Req_dec b (acos x)) as [<- |E]; [lra|]. left. apply cos_decreasing_1; lra. }
    rewrite cos_acos in H0 by lra. lra. }
  destruct (Rlt_dec eps _) as [K3|_]; [|reflexivity].
  exfalso. pose proof (acos_bound x). assert (acos x * acos x <= sqrt eps * sqrt eps) by nra.
  rewrite sqrt_sqrt in H0 by lra. lra.
Qed.

Lemma slog_deriv M d : m3_deriv M 0 (mul3 (skew d) (M 0)) -> M 0 = i3 ->
  v3_deriv (fun s => slog (M s)) 0 d.
Proof.
  intros DM M0. rewrite M0, mul3_i_r in DM.
  eapply v3d_val.
  - unfold slog. apply (v3d_uncross (fun s => scal3 (1/2) (sub3 (M s) (tr3 (M s))))). apply (m3d_scal (fun _ => 1/2)).
    + apply dpl_const.
    + apply m3d_sub; [exact DM|apply m3d_tr, DM].
  - cbv beta. rewrite M0. clear. destruct d. unfold uncross. v3unf. f_equal; field.
Qed.
Lemma slog_i : slog i3 = v0.
Proof. unfold slog, uncross. v3unf. f_equal; field. Qed.

Lemma is_rot_i : is_rot i3.
Proof. split; v3unf; [f_equal; ring|ring]. Qed.

(** *** exp at the zero relative rotation: the Jacobian is the identity *)
Theorem c22_exp_rotation_at_zero : forall eps na m a, 0 <= eps < 1 -> m a = VRel v0 ->
  let e := XUn OExpMap (XLeaf a (Plain LRel)) in
  expr_jacobian_defined eps m e a = true /\
  exists J, expr_jacobian eps na m e (leaf_obj a (Plain LRel)) = Some (Ok J) /\
    J == mid 3 /\ is_derivative eps m e a J.
Proof.
  intros eps na m a He Ha e.
  assert (G1 : good eps m e KRot).
  { apply (good_exp eps m _ KRel KRot); [apply good_leaf; rewrite Ha; [reflexivity|exact I]|reflexivity|].
    intros x. cbn. rewrite Ha. intros [= <-]. left. reflexivity. }
  assert (Hm : means eps m e = Some (DRot (so3_exp v0))).
  { rewrite (good_means eps m e KRot (proj1 He) G1). unfold e. cbn. now rewrite Ha. }
  destruct (c01_jacobian_is_derivative eps na m e KRot a LRel _ He G1 Hm) as (D & J & A1 & A2 & A3);
    [cbn; tauto|rewrite Ha; reflexivity| |].
  { cbn [smooth]. split; [exact I|]. intros _ x. cbn. rewrite Ha. intros [= <-]. exact I. }
  split; [exact D|]. exists J. split; [exact A1|]. split; [|exact A3].
  apply (c01_derivative_unique eps m e KRot a LRel _ J (mid 3) He G1 Hm); auto.
  - cbn. tauto.
  - rewrite Ha. reflexivity.
  - split; reflexivity.
  - intros c d C0 M. assert (K0 : dkind (c 0) = KRel) by (rewrite C0, Ha; reflexivity).
    destruct (moves_vec _ _ KRel M K0 eq_refl) as (N & Dv).
    pose proof (vec_v3 _ _ _ (or_introl eq_refl : tsize KRel = 3%nat \/ _) Dv) as V3d.
    assert (E0 : dvec (c 0) = v0) by (rewrite C0, Ha; reflexivity).
    apply (mo_rot _ (fun s => so3_exp (dvec (c s))) _ (tv d)).
    + apply (near_impl _ _) with (2 := N). intros s A. cbn [deval e]. unfold dupd. rewrite Nat.eqb_refl.
      rewrite (k_rel _ A). split; [reflexivity|apply so3_exp_is_rot].
    + eapply m3d_val; [apply (so3_exp_deriv_0 _ _ V3d E0)|]. rewrite E0, so3_exp_0, mul3_i_r. reflexivity.
    + unfold tv. rewrite !mvec_mid by lia. reflexivity.
Qed.
Print Assumptions c22_exp_rotation_at_zero.

(** *** log at the identity rotation: differentiable with derivative I, but the Jacobian
    the library computes is 0/0, in every parametrization. *)
Theorem c22_log_at_identity_refuted : forall eps m a l, 0 < eps < 1 ->
  vty (m a) = Plain l -> kind_of l = KRot -> valid (m a) -> den (m a) = DRot i3 ->
  let e := XUn OLogMap (XLeaf a (Plain l)) in
  means eps m e = Some (DRel v0) /\
  is_derivative eps m e a (mid 3) /\ expr_jacobian_defined eps m e a = false.
Proof.
  intros eps m a l He Hl Kl V D e.
  assert (G : good eps m e KRel).
  { apply (good_un eps m OLogMap _ KRot KRel); [|reflexivity|discriminate].
    rewrite <- Kl. change (kind_of l) with (ty_kind (Plain l)). now apply good_leaf. }
  split.
  { rewrite (good_means eps m e KRel (Rlt_le _ _ (proj1 He)) G). unfold e. cbn. rewrite D. cbn. now rewrite log_i by lra. }
  split.
  - intros c d C0 M. rewrite D in C0.
    assert (K0 : dkind (c 0) = KRot) by (rewrite C0; reflexivity).
    destruct (moves_rot _ _ M K0) as (N & DM).
    pose proof (near_impl _ _ (fun s H => proj2 H) N) as NR. cbv beta in NR.
    assert (E0 : drot (c 0) = i3) by now rewrite C0.
    pose proof (log_small_near eps (fun s => drot (c s)) _ (proj1 He) NR DM E0) as L.
    apply (mo_v3 _ KRel DRel (fun s => slog (drot (c s))) _ (tv d)); [reflexivity|reflexivity|reflexivity| | |].
    + apply (near_impl2 _ _ _) with (2 := N) (3 := L). intros s (A & _) (B & _).
      unfold e. cbn [deval]. unfold dupd. rewrite Nat.eqb_refl, A. cbn. now rewrite B.
    + apply (slog_deriv (fun s => drot (c s))); assumption.
    + unfold tv. rewrite !mvec_mid by lia. reflexivity.
  - unfold expr_jacobian_defined, e.
    destruct (m a) as [| | | | |q|M|an ax| | |i|i] eqn:Em; cbn in Hl; try discriminate Hl;
      injection Hl as <-; try discriminate Kl; unfold den in D;
      match type of D with DRot ?x = _ => assert (D' : x = i3) by congruence end; cbn -[log_mat qrot aa_rot]; rewrite Nat.eqb_refl, ?Em; cbn -[log_mat qrot aa_rot];
      rewrite ?D', log_i by lra; cbn -[log_rot_jac]; now rewrite log_rot_jac_0.
Qed.
Print Assumptions c22_log_at_identity_refuted.

Lemma tv_blocks a b c e d : tv (mvec (of_blocks a b c e) d) = vadd (app3 a (tv d)) (app3 b (tw d)).
Proof. unfold tv at 1. rewrite !mvec_blocks by lia. reflexivity. Qed.
Lemma tw_blocks a b c e d : tw (mvec (of_blocks a b c e) d) = vadd (app3 c (tv d)) (app3 e (tw d)).
Proof. unfold tw at 1. rewrite !mvec_blocks by lia. reflexivity. Qed.

(** *** Same for rigid transforms with no rotation. *)
Theorem c22_log_rigid_refuted : forall eps m a l t, 0 < eps < 1 ->
  vty (m a) = Plain l -> kind_of l = KRT -> valid (m a) -> den (m a) = DRT i3 t ->
  let e := XUn OLogMap (XLeaf a (Plain l)) in
  means eps m e = Some (DTwist v0 t) /\
  is_derivative eps m e a (of_blocks i3 z3 (scal3 (-1/2) (skew t)) i3) /\
  expr_jacobian_defined eps m e a = false.
Proof.
  intros eps m a l t He Hl Kl V D e.
  assert (G : good eps m e KTwist).
  { apply (good_un eps m OLogMap _ KRT KTwist); [|reflexivity|discriminate].
    rewrite <- Kl. change (kind_of l) with (ty_kind (Plain l)). now apply good_leaf. }
  assert (L0 : rt_log eps i3 t = Some (v0, t)).
  { pose proof (rt_log_exp_0 eps t (Rlt_le _ _ (proj1 He))) as L. now rewrite so3_exp_0, so3_V_0, app3_i in L. }
  split.
  { rewrite (good_means eps m e KTwist (Rlt_le _ _ (proj1 He)) G). unfold e. cbn [deval]. rewrite D.
    cbn [dsem_un]. now rewrite L0. }
  split.
  - intros c d C0 M. rewrite D in C0.
    assert (K0 : dkind (c 0) = KRT) by (rewrite C0; reflexivity).
    destruct (moves_rt _ _ M K0) as (N & DM & Dt).
    pose proof (near_impl _ _ (fun s H => proj2 H) N) as NR. cbv beta in NR.
    assert (E0 : drot (c 0) = i3) by now rewrite C0.
    assert (T0 : dtr (c 0) = t) by now rewrite C0.
    pose proof (log_small_near eps (fun s => drot (c s)) _ (proj1 He) NR DM E0) as L.
    pose proof (slog_deriv (fun s => drot (c s)) (tv d) DM E0) as SD.
    set (sl := fun s => slog (drot (c s))) in *.
    apply (mo_twist _ sl (fun s => app3 (sub3 i3 (scal3 (1/2) (skew (sl s)))) (dtr (c s))) _ (tv d)
      (vadd (vscal (1/2) (vcross (tv d) t)) (tw d))).
    + apply (near_impl2 _ _ _) with (2 := N) (3 := L). intros s (A & _) (B & B2).
      unfold e. cbn [deval]. unfold dupd. rewrite Nat.eqb_refl, A. cbn [dsem_un].
      unfold rt_log. rewrite B. fold (sl s) in B2 |- *. destruct (Rlt_dec eps (vnorm2 (sl s))); [lra|]. reflexivity.
    + exact SD.
    + eapply v3d_val.
      * apply (v3d_app (fun s => sub3 i3 (scal3 (1/2) (skew (sl s))))); [|exact Dt].
        apply m3d_sub; [apply m3d_const|]. apply (m3d_scal (fun _ => 1/2)); [apply dpl_const|].
        apply m3d_skew. exact SD.
      * cbv beta. rewrite T0. assert (S0 : sl 0 = v0) by (unfold sl; rewrite E0; apply slog_i).
        rewrite S0. clear. destruct t as [t1 t2 t3]. generalize (tv d), (tw d). intros [? ? ?] [? ? ?].
        v3unf. f_equal; field.
    + rewrite tv_blocks, app3_i, app3_z. clear. generalize (tv d). intros [? ? ?]. v3unf. f_equal; ring.
    + rewrite tw_blocks, app3_i. clear. destruct t as [t1 t2 t3]. generalize (tv d), (tw d).
      intros [? ? ?] [? ? ?]. v3unf. f_equal; field.
  - unfold expr_jacobian_defined, e.
    destruct (m a) as [| | | | | | | |M tt rr cc|q tt|i|i] eqn:Em; cbn in Hl; try discriminate Hl;
      injection Hl as <-; try discriminate Kl; unfold den in D;
      match type of D with DRT ?x ?y = _ => assert (D1 : x = i3) by congruence; assert (D2 : y = t) by congruence end;
      cbn -[rt_log qrot]; rewrite Nat.eqb_refl, ?Em; cbn -[rt_log qrot];
      rewrite ?D1, ?D2, L0; cbn -[log_rot_jac eade_B]; now rewrite log_rot_jac_0.
Qed.
Print Assumptions c22_log_rigid_refuted.

(** *** exp at a twist with no rotation. *)
Theorem c22_exp_rigid_refuted : forall eps m a u, 0 <= eps -> m a = VTwist v0 u ->
  let e := XUn OExpMap (XLeaf a (Plain LTwist)) in
  means eps m e = Some (DRT i3 u) /\
  is_derivative eps m e a (of_blocks i3 z3 (scal3 (1/2) (skew u)) i3) /\
  expr_jacobian_defined eps m e a = false.
Proof.
  intros eps m a u He Ha e.
  assert (G : good eps m e KRT).
  { apply (good_exp eps m _ KTwist KRT); [apply good_leaf; rewrite Ha; [reflexivity|exact I]|reflexivity|].
    intros x. cbn. rewrite Ha. intros [= <-]. left. reflexivity. }
  split.
  { rewrite (good_means eps m e KRT He G). unfold e. cbn [deval]. rewrite Ha. cbn [den dsem_un].
    now rewrite so3_exp_0, so3_V_0, app3_i. }
  split.
  - intros c d C0 M. rewrite Ha in C0. cbn [den] in C0.
    assert (K0 : dkind (c 0) = KTwist) by (rewrite C0; reflexivity).
    destruct (moves_vec _ _ KTwist M K0 eq_refl) as (N & Dv).
    pose proof (vec_v3 _ _ _ (or_intror eq_refl : _ \/ KTwist = KTwist) Dv) as V3d.
    pose proof (vec_v3' _ _ Dv) as V3d'.
    assert (E0 : dvec (c 0) = v0) by (rewrite C0; reflexivity).
    assert (E0' : dvec2 (c 0) = u) by (rewrite C0; destruct u; reflexivity).
    apply (mo_rt _ (fun s => so3_exp (dvec (c s))) (fun s => app3 (so3_V (dvec (c s))) (dvec2 (c s))) _ (tv d)
      (vadd (tw d) (vscal (-1/2) (vcross (tv d) u)))).
    + apply (near_impl _ _) with (2 := N). intros s A. unfold e. cbn [deval]. unfold dupd. rewrite Nat.eqb_refl.
      rewrite (k_twist _ A). split; [reflexivity|apply so3_exp_is_rot].
    + eapply m3d_val; [apply (so3_exp_deriv_0 _ _ V3d E0)|]. rewrite E0, so3_exp_0, mul3_i_r. reflexivity.
    + eapply v3d_val; [apply (V_deriv_0 _ _ _ _ V3d V3d' E0)|]. rewrite E0, E0', so3_V_0, app3_i.
      clear. destruct u as [u1 u2 u3]. generalize (tv d), (tw d). intros [? ? ?] [? ? ?]. v3unf. f_equal; field.
    + rewrite tv_blocks, app3_i, app3_z. clear. generalize (tv d). intros [? ? ?]. v3unf. f_equal; ring.
    + rewrite tw_blocks, app3_i. clear. destruct u as [u1 u2 u3]. generalize (tv d), (tw d).
      intros [? ? ?] [? ? ?]. v3unf. f_equal; field.
  - unfold expr_jacobian_defined, e. cbn -[twist_exp]. rewrite Nat.eqb_refl, Ha. cbn -[twist_exp eade_B].
    now rewrite eade_B_0.
Qed.
Print Assumptions c22_exp_rigid_refuted.
