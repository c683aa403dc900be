(** C09: numerical Jacobians. *)

From Coq Require Import Reals Lra Lia List Bool Arith Ratan.
From Verif Require Import Mat ModelMeta ModelJac SpecJac V3 ModelLeaf SpecLeaf LeafProofs ModelExpr SpecExpr
  ExprProofs PropsExpr Calc SpecDeriv DerivProofs DerivTree PropsDeriv ModelCompound ModelNum SpecNum NumProofs NumLimit.
Import ListNotations.
Local Open Scope R_scope.
Local Open Scope mat_scope.

Local Arguments mvec : simpl never.

Lemma dval_upd eps m a v e d h : den v = dpert (den (m a)) d h ->
  deval eps (fun b => den (upd m a v b)) e = perturbed eps m e a d h.
Proof.
  intros H. unfold perturbed. apply deval_ext.
  - clear. induction e; cbn; auto.
  - intros b _. unfold upd, dupd. destruct (Nat.eqb_spec b a); [exact H|reflexivity].
Qed.

Lemma env_upd m a v e l : vty (m a) = Plain l -> vty v = Plain l -> valid v -> env_ok m e -> env_ok (upd m a v) e.
Proof.
  intros Tm Tv V. induction e as [b t|o e IH|o e1 IH1 e2 IH2]; cbn; [|auto|intuition].
  intros (T & Vb). unfold upd. destruct (Nat.eqb_spec b a) as [->|]; [|auto]. split; [congruence|exact V].
Qed.

(** The argument of the exponential in x [+] (h e_j) is outside the small-angle
    approximation (or zero); void for vectors. *)
Definition exact_step (eps : R) (l : lty) (j : nat) (h : R) : Prop :=
  group_kind (kind_of l) = true -> exp_exact eps (displacement (kind_of l) (fun i => h * dir j i)).

(** Column j is (f(x [+] h e_j) [-] f(x)) / h. *)
Theorem c09_columns_are_difference_quotients : forall eps na m e k a l h x (ys : nat -> dval) (fs : nat -> nat -> R),
  0 <= eps -> good eps m e k -> means eps m e = Some x -> vty (m a) = Plain l -> valid (m a) -> na <> a ->
  (forall j, (j < tsize (kind_of l))%nat ->
     exact_step eps l j h /\
     exps_exact eps (dupd (fun b => den (m b)) a (dpert (den (m a)) (dir j) h)) e /\
     perturbed eps m e a (dir j) h = Some (ys j) /\ ddiff eps (ys j) x = Some (fs j)) ->
  exists J, numericalJacobian eps h na m e a l = Some J /\ has_shape (tsize k) (tsize (kind_of l)) J /\
    forall i j, (i < tsize k)%nat -> (j < tsize (kind_of l))%nat -> mget J i j = fs j i / h.
Proof.
  intros eps na m e k a l h x ys fs He G Hx Hl Va Na H.
  unfold numericalJacobian.
  destruct (prepare_total e k (proj1 G)) as (p0 & t & P & W & Kt). rewrite P.
  destruct (prepare_to_total e (ty_leaf t) k (proj1 G) Kt) as (p & P').
  change (Plain (ty_leaf t)) with (plain_output t) in P'. rewrite P'.
  assert (Ev : eval eps m e = eval_p eps m p).
  { unfold eval, evaluateTo. now rewrite P, P'. }
  destruct (prepare_to_sound eps He m e _ _ _ k P' (proj1 G) (proj1 (proj2 G)) (proj2 (proj2 G))) as (_ & Sn).
  rewrite <- (good_means eps m e k He G), Hx in Sn.
  destruct (sound_value _ _ _ Sn) as (v & Hv & Dv & Tv & Vv). rewrite Hv.
  destruct (prepare_to_prepared eps m He e k p _ (ty_leaf t) P' G) as ([A1 A2 A3 A4 A5 A6] & _).
  assert (Col : forall j, (j < tsize (kind_of l))%nat -> exists c,
     num_column eps na a h m p v j = Some c /\ forall i, (i < tsize k)%nat -> c i = fs j i / h).
  { intros j Hj. destruct (H j Hj) as (X & Xe & Py & Pd).
    destruct (add_delta_ok eps l (m a) j h He Va Hl X) as (v' & Ev' & Vv' & Tv' & Dv').
    assert (G' : good eps (upd m a v') e k).
    { split; [apply G|]. split; [eapply env_upd; eauto; apply G|].
      apply (exps_exact_ext eps (dupd (fun b => den (m b)) a (dpert (den (m a)) (dir j) h)) _ e e).
      - clear. induction e; cbn; auto.
      - intros b _. unfold upd, dupd. destruct (Nat.eqb_spec b a); [now symmetry|reflexivity].
      - exact Xe. }
    destruct (prepare_to_prepared eps (upd m a v') He e k p _ (ty_leaf t) P' G') as ([B1 B2 B3 B4 B5 B6] & _).
    rewrite (dval_upd eps m a v' e _ _ Dv'), Py in B5.
    destruct (with_delta_ok eps m na a j h l v' He Na Hl Ev' Vv' Tv' p _ (ys j) A1 A3 B3 B4 B5)
      as (_ & w & Ew & Dw & Vw & Tw).
    unfold num_column. rewrite Ew. cbn [plain_output ty_leaf] in *.
    destruct (minus_ok eps (ty_leaf t) w v (fs j) He Vw Vv Tw Tv) as (d & Ed & Cd); [congruence|].
    rewrite Ed. cbn. eexists. split; [reflexivity|]. intros i Hi. cbv beta. rewrite Cd; [reflexivity|].
    change (kind_of (ty_leaf t)) with (ty_kind t). now rewrite Kt. }
  destruct (all_some_choice (num_column eps na a h m p v) (tsize (kind_of l))) as (cs & E & L & N).
  { intros j Hj. destruct (Col j Hj) as (c & Hc & _). eauto. }
  rewrite E. cbn [option_map]. eexists. split; [reflexivity|]. split; [rewrite Kt; split; reflexivity|].
  intros i j Hi Hj. cbn [mget].
  destruct (Col j Hj) as (c & Hc & Ec). rewrite (N j (fun _ => 0) Hj) in Hc. injection Hc as Hc.
  rewrite <- (Ec i Hi), <- Hc. reflexivity.
Qed.

(** *** Convergence *)

Lemma near_forall_lt n (P : nat -> R -> Prop) : (forall j, (j < n)%nat -> near (P j)) ->
  near (fun s => forall j, (j < n)%nat -> P j s).
Proof.
  induction n as [|n IH]; intros H.
  - apply near_all. intros s j Hj. lia.
  - apply (near_impl2 _ _ _) with (2 := IH (fun j Hj => H j (Nat.lt_lt_succ_r _ _ Hj))) (3 := H n (Nat.lt_succ_diag_r n)).
    intros s A B j Hj. destruct (Nat.eq_dec j n) as [->|]; [exact B|apply A; lia].
Qed.

Lemma quotient_near f l tau : derivable_pt_lim f 0 l -> f 0 = 0 -> 0 < tau ->
  near (fun h => h <> 0 -> Rabs (f h / h - l) < tau).
Proof.
  intros D F T. destruct (D tau T) as (d & H). exists d. split; [apply cond_pos|].
  intros h Hh Nz. specialize (H h Nz Hh). rewrite F, Rplus_0_l in H. now replace (f h - 0) with (f h) in H by ring.
Qed.

Lemma mvec_dir J j i : (i < mrows J)%nat -> (j < mcols J)%nat -> mvec J (dir j) i = mget J i j.
Proof.
  intros Hi Hj. unfold mvec. rewrite (rsum_single _ j).
  - unfold dir. rewrite Nat.eqb_refl, mnth_in by assumption. ring.
  - exact Hj.
  - intros q _ Hq. unfold dir. destruct (Nat.eqb_spec q j); [contradiction|ring].
Qed.

Lemma exp_exact_0 d : exp_exact 0 d.
Proof.
  assert (P : forall v, v = v0 \/ 0 < vnorm2 v).
  { intros v. destruct (Req_dec (vnorm2 v) 0) as [E|E].
    - left. apply vnorm_eq0. unfold vnorm. rewrite E. apply sqrt_0.
    - right. assert (0 <= vnorm2 v) by (rewrite <- vnorm_sq; apply sq_nonneg). lra. }
  destruct d; cbn; auto. destruct (P v) as [->|H]; [now left|right; nra].
Qed.

Lemma unop_exp_dec (o : unop) : {o = OExpMap} + {o <> OExpMap}.
Proof. destruct o; (left; reflexivity) || (right; discriminate). Qed.

Lemma subexpr_refl e : subexpr e e.
Proof. destruct e; cbn; auto. Qed.

(** Exponentials applied to sub-expressions containing the object at [a] are strictly
    outside the library's small-angle approximations. *)
Fixpoint exps_strict (eps : R) (m : nat -> dval) (a : nat) (e : expr) : Prop :=
  match e with
  | XLeaf _ _ => True
  | XUn o e =>
      exps_strict eps m a e /\
      (o = OExpMap -> In a (leaf_addrs e) -> forall d, deval eps m e = Some d -> exp_strict eps d)
  | XBin _ l r => exps_strict eps m a l /\ exps_strict eps m a r
  end.

(** Near the current value, exponentials stay outside the small-angle branch. *)
Lemma near_exact eps m a l c d : 0 <= eps < 1 -> vty (m a) = Plain l -> c 0 = den (m a) -> moves c d ->
  forall e k x, good eps m e k -> means eps m e = Some x ->
  smooth eps (fun b => den (m b)) a e -> exps_strict eps (fun b => den (m b)) a e ->
  near (fun s => exps_exact eps (dupd (fun b => den (m b)) a (c s)) e).
Proof.
  intros He Hl C0 M. induction e as [b t|o e IH|o e1 IH1 e2 IH2]; intros k x G Hx Hs St.
  - apply near_all. intros s. exact I.
  - destruct (good_sub eps m e (XUn o e) (or_intror (subexpr_refl e)) k G) as (k' & G').
    rewrite (good_means eps m _ k (proj1 He) G) in Hx. cbn [deval] in Hx.
    destruct (deval eps (fun b => den (m b)) e) as [y|] eqn:Ey; [|discriminate].
    assert (Hy : means eps m e = Some y) by (rewrite (good_means eps m e k' (proj1 He) G'); exact Ey).
    destruct Hs as (Hs & _). destruct St as (St & Sx).
    pose proof (IH k' y G' Hy Hs St) as N.
    destruct (unop_exp_dec o) as [->|No].
    2:{ apply (near_impl _ _) with (2 := N). intros s E. split; [exact E|]. destruct o; auto. contradiction. }
    destruct (List.in_dec Nat.eq_dec a (leaf_addrs e)) as [Ia|Ia].
    + destruct (c01_jacobian_is_derivative eps 0%nat m e k' a l y He G' Hy Ia Hl Hs) as (_ & J & _ & _ & D).
      destruct (D c d C0 M) as (r & Nr & Mr).
      pose proof (near_0 _ Nr) as R0. cbv beta in R0.
      rewrite (core_at0 eps m e k' a y He G' Hy c C0) in R0. injection R0 as R0.
      assert (NX : near (fun s => exp_exact eps (r s))).
      { specialize (Sx eq_refl Ia y Ey).
        pose proof (moves_kind _ _ Mr) as Nk. rewrite <- R0 in Nk.
        destruct y as [z|v|v|v|w u|mm|mm t]; cbn [dkind] in Nk.
        all: try (apply (near_impl _ _) with (2 := Nk); intros s Ks; destruct (r s); try discriminate Ks; exact I).
        - destruct (moves_vec r _ KRel Mr (f_equal dkind (eq_sym R0)) eq_refl) as (_ & Dv).
          assert (D3 : v3_deriv (fun s => mkV (dcoord (r s) 0%nat) (dcoord (r s) 1%nat) (dcoord (r s) 2%nat)) 0
              (tv (mvec J d))).
          { repeat split; apply Dv; cbn; lia. }
          pose proof (dpl_norm2 _ _ _ D3) as D4.
          pose proof (dpl_mult _ _ _ _ _ D4 D4) as D5.
          assert (Z : eps < vnorm2 (mkV (dcoord (r 0) 0%nat) (dcoord (r 0) 1%nat) (dcoord (r 0) 2%nat)) *
                       vnorm2 (mkV (dcoord (r 0) 0%nat) (dcoord (r 0) 1%nat) (dcoord (r 0) 2%nat))).
          { rewrite <- R0. cbn in Sx. destruct v. exact Sx. }
          apply (near_impl2 _ _ _) with (2 := Nk) (3 := dpl_near_gt _ _ _ D5 Z). intros s Ks Hz.
          destruct (r s); try discriminate Ks. right. cbn in Hz. destruct v0. exact Hz.
        - destruct (moves_vec r _ KTwist Mr (f_equal dkind (eq_sym R0)) eq_refl) as (_ & Dv).
          assert (D3 : v3_deriv (fun s => mkV (dcoord (r s) 0%nat) (dcoord (r s) 1%nat) (dcoord (r s) 2%nat)) 0
              (tv (mvec J d))).
          { repeat split; apply Dv; cbn; lia. }
          pose proof (dpl_norm2 _ _ _ D3) as D4.
          assert (Z : eps < vnorm2 (mkV (dcoord (r 0) 0%nat) (dcoord (r 0) 1%nat) (dcoord (r 0) 2%nat))).
          { rewrite <- R0. cbn in Sx. destruct w. exact Sx. }
          apply (near_impl2 _ _ _) with (2 := Nk) (3 := dpl_near_gt _ _ _ D4 Z). intros s Ks Hz.
          destruct (r s); try discriminate Ks. right. cbn in Hz. destruct w0. exact Hz. }
      apply (near_impl2 _ _ _) with (2 := near_and _ _ N Nr) (3 := NX). intros s (E & Er) X. split; [exact E|].
      intros d0 H0. rewrite Er in H0. injection H0 as <-. exact X.
    + apply (near_impl _ _) with (2 := N). intros s E. split; [exact E|].
      intros d0 H0. destruct G as (_ & _ & (_ & GX)). cbn in GX. apply GX. rewrite <- H0. apply deval_ext.
      * clear. induction e; cbn; auto.
      * intros b Hb. unfold dupd. destruct (Nat.eqb_spec b a) as [->|]; [contradiction|reflexivity].
  - destruct (good_sub eps m e1 (XBin o e1 e2) (or_intror (or_introl (subexpr_refl e1))) k G) as (k1 & G1).
    destruct (good_sub eps m e2 (XBin o e1 e2) (or_intror (or_intror (subexpr_refl e2))) k G) as (k2 & G2).
    rewrite (good_means eps m _ k (proj1 He) G) in Hx. cbn [deval] in Hx.
    destruct (deval eps (fun b => den (m b)) e1) as [y1|] eqn:E1; [|discriminate].
    destruct (deval eps (fun b => den (m b)) e2) as [y2|] eqn:E2; [|discriminate].
    destruct Hs as (Hs1 & Hs2 & _). destruct St as (St1 & St2).
    apply (near_impl2 _ _ _) with
      (2 := IH1 k1 y1 G1 (eq_trans (good_means eps m e1 k1 (proj1 He) G1) E1) Hs1 St1)
      (3 := IH2 k2 y2 G2 (eq_trans (good_means eps m e2 k2 (proj1 He) G2) E2) Hs2 St2).
    intros s A B. split; assumption.
Qed.

(** Finding: the step the code uses, sqrt(eps), always selects the small-angle
    approximation of exp when the target is a rotation (or, for the rotational
    coordinates, a rigid transform), so the columns are those of the approximation. *)
Theorem c09_code_step_is_small_angle : forall eps l j, 0 < eps < 1 ->
  group_kind (kind_of l) = true -> (j < 3)%nat -> ~ exact_step eps l j (sqrt eps).
Proof.
  intros eps l j He Gk Hj X. specialize (X Gk).
  pose proof (sqrt_lt_R0 eps (proj1 He)) as S. pose proof (sqrt_sqrt eps (Rlt_le _ _ (proj1 He))) as SS.
  assert (Nv : vnorm2 (tv (fun i => sqrt eps * dir j i)) = eps).
  { unfold tv, dir, vnorm2, vdot. cbn [vx vy vz]. destruct j as [|[|[|j]]]; cbn; [nra..|lia]. }
  assert (Nz : tv (fun i => sqrt eps * dir j i) <> v0).
  { intros E. rewrite E in Nv. unfold vnorm2, vdot, v0 in Nv. cbn in Nv. lra. }
  destruct (kind_of l); try discriminate Gk; cbn [displacement exp_exact] in X;
    (destruct X as [X|X]; [contradiction|]); rewrite Nv in X; nra.
Qed.
Print Assumptions c09_code_step_is_small_angle.

(** The hypotheses of the difference-quotient theorem are met at every small step. *)
Example c09_quotient_example : near (fun h => h <> 0 -> exists x ys fs,
  means (1/4) ex_m ex_d1 = Some x /\ forall j, (j < 3)%nat ->
     exact_step (1/4) LRel j h /\
     exps_exact (1/4) (dupd (fun b => den (ex_m b)) 7 (dpert (den (ex_m 7%nat)) (dir j) h)) ex_d1 /\
     perturbed (1/4) ex_m ex_d1 7 (dir j) h = Some (ys j) /\ ddiff (1/4) (ys j) x = Some (fs j)).
Proof.
  assert (He : 0 <= 1/4 < 1) by lra.
  assert (exists x, means (1/4) ex_m ex_d1 = Some x) as (x & Hx).
  { rewrite (good_means (1/4) ex_m ex_d1 KScalar (proj1 He) ex_d1_good). cbn. eexists; reflexivity. }
  assert (exists r, x = DScalar r) as (r & ->).
  { pose proof (good_deval (1/4) ex_m ex_d1 KScalar x (proj1 He) ex_d1_good
      (core_x _ _ _ _ _ He ex_d1_good Hx)) as (K & _). destruct x; try discriminate K. eauto. }
  assert (N : near (fun h => forall j, (j < 3)%nat ->
    exps_exact (1/4) (dupd (fun b => den (ex_m b)) 7 (dpert (den (ex_m 7%nat)) (dir j) h)) ex_d1)).
  { apply near_forall_lt. intros j Hj.
    apply (near_exact (1/4) ex_m 7 LRel _ (dir j) He eq_refl (dpert_0 _ _)
      (dpert_moves (den (ex_m 7%nat)) (dir j) I) ex_d1 KScalar _ ex_d1_good Hx (ex_d1_smooth 7)).
    unfold ex_d1. cbn [exps_strict leaf_addrs]. repeat split; try discriminate.
    intros _ _ d [= <-]. cbn [exp_strict ex_m den]. v3unf. lra. }
  apply (near_impl _ _) with (2 := N). intros h E _.
  exists (DScalar r).
  assert (Y : forall j, exists y, perturbed (1/4) ex_m ex_d1 7 (dir j) h = Some (DScalar y)).
  { intros j. unfold perturbed, ex_d1. cbn [deval dupd Nat.eqb ex_m den dpert dsem_un dsem_bin option_map]. eexists. reflexivity. }
  exists (fun j => match perturbed (1/4) ex_m ex_d1 7 (dir j) h with Some y => y | None => DScalar 0 end).
  exists (fun j => match perturbed (1/4) ex_m ex_d1 7 (dir j) h with
                   | Some y => fun i => dcoord y i - dcoord (DScalar r) i | None => fun _ => 0 end).
  split; [exact Hx|]. intros j Hj. split; [intros Gk; discriminate|]. split; [apply E, Hj|].
  destruct (Y j) as (y & ->). split; reflexivity.
Qed.
Print Assumptions c09_columns_are_difference_quotients.
