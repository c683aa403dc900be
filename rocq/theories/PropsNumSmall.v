(** C09: numerical Jacobians converge to the library's Jacobians for every target, with
    the library's small-angle exponential in the displacement. *)

From Coq Require Import Reals Lra Lia List Bool Arith.
From Verif Require Import Mat ModelMeta ModelJac SpecJac V3 ModelLeaf SpecLeaf LeafProofs ModelExpr SpecExpr
  ExprProofs PropsExpr Calc SpecDeriv DerivProofs DerivTree PropsDeriv ModelCompound ModelNum SpecNum
  NumProofs NumLimit PropsNum NumLip NumVal NumTree NumStep.
Import ListNotations.
Local Open Scope R_scope.
Local Open Scope mat_scope.

Local Arguments mvec : simpl never.

(** Exponentials applied to sub-expressions containing the object at [a] are strictly
    outside the library's small-angle approximations, or of exactly zero relative
    rotations. *)
Fixpoint exps_regular (eps : R) (m : nat -> dval) (a : nat) (e : expr) : Prop :=
  match e with
  | XLeaf _ _ => True
  | XUn o e =>
      exps_regular eps m a e /\
      (o = OExpMap -> In a (leaf_addrs e) -> forall d, deval eps m e = Some d ->
        exp_strict eps d \/ d = DRel v0)
  | XBin _ l r => exps_regular eps m a l /\ exps_regular eps m a r
  end.

(** The hypotheses of differentiability, as conditions on the operations. *)
Lemma smooth_conds eps m a e : smooth eps m a e -> exps_regular eps m a e -> conds eps (fun b => b = a) m e.
Proof.
  induction e as [b t|o e IH|o e1 IH1 e2 IH2]; cbn [smooth exps_regular conds].
  - auto.
  - intros (S1 & S2) (X1 & X2). split; [auto|]. intros (b & -> & Hb) d Hd.
    specialize (S2 Hb d Hd). unfold cond_un. destruct o; auto; destruct d; auto.
    all: cbn in S2; auto. all: exact (X2 eq_refl Hb _ Hd).
  - intros (S1 & S2 & _) (X1 & X2). auto.
Qed.

(** Exponentials: the formula of the library is exact at the point, and a twist's is
    differentiable. *)
Lemma exact_regular eps m a e : exps_exact eps m e -> smooth eps m a e -> exps_regular eps m a e.
Proof.
  induction e as [b t|o e IH|o e1 IH1 e2 IH2]; cbn [smooth exps_regular exps_exact].
  - auto.
  - intros (X1 & X2) (S1 & S2). split; [auto|]. intros -> Ha d Hd. specialize (X2 d Hd). specialize (S2 Ha d Hd).
    destruct d; cbn [exp_exact exp_strict smooth_un] in *; auto; destruct X2 as [->|X2]; auto; now destruct S2.
  - intros (X1 & X2) (S1 & S2 & _). auto.
Qed.

(** One difference quotient: the exact coordinate [f], the computed one [g]. *)
Lemma LR_quotient x f g l tau : derivable_pt_lim f 0 l -> f 0 = 0 -> LR x f g -> 0 < tau ->
  near (fun h => h <> 0 -> Rabs (g h / h - l) < tau).
Proof.
  intros D F0 L Ht. destruct (LR_pos _ _ _ L) as (K & KP & N).
  assert (P : 0 < tau / (2 * K)) by (apply Rdiv_lt_0_compat; lra).
  apply (near_impl2 _ _ _) with (2 := quotient_near f l (tau / 2) D F0 ltac:(lra)) (3 := near_and _ _ N (near_small _ P)).
  intros h A ((B1 & _ & B2) & C) Nz. specialize (A Nz).
  assert (Hp : 0 < Rabs h) by now apply Rabs_pos_lt.
  assert (Q : Rabs (f h / h - g h / h) <= K * Rabs h).
  { replace (f h / h - g h / h) with ((f h - g h) / h) by (field; exact Nz).
    unfold Rdiv. rewrite Rabs_mult, Rabs_inv. apply (Rmult_le_reg_r (Rabs h)); [exact Hp|].
    rewrite Rmult_assoc, Rinv_l, Rmult_1_r by lra.
    replace (K * Rabs h * Rabs h) with (K * (h * h)); [exact B2|].
    unfold Rabs; destruct (Rcase_abs h); ring. }
  assert (Q2 : K * Rabs h < tau / 2).
  { apply (Rmult_lt_compat_l K) in C; [|exact KP]. replace (K * (tau / (2 * K))) with (tau / 2) in C by (field; lra). exact C. }
  replace (g h / h - l) with ((f h / h - l) - (f h / h - g h / h)) by ring.
  pose proof (Rabs_triang (f h / h - l) (- (f h / h - g h / h))) as T. rewrite Rabs_Ropp in T. unfold Rminus at 1. lra.
Qed.

Section Conv.
  Variables (eps : R) (na : nat) (m : env) (e : expr) (k : kind) (a : nat) (l : lty) (x : dval) (J : mat).
  Hypothesis He : 0 < eps < 1.
  Hypothesis G : good eps m e k.
  Hypothesis Hx : means eps m e = Some x.
  Hypothesis V : valid (m a).
  Hypothesis Hl : vty (m a) = Plain l.
  Hypothesis Hna : na <> a.
  Hypothesis HJ : has_shape (tsize k) (tsize (kind_of l)) J.
  Hypothesis DJ : is_derivative eps m e a J.
  Hypothesis Hs : smooth eps (fun b => den (m b)) a e.
  Let Hst : exps_regular eps (fun b => den (m b)) a e := exact_regular eps _ a e (proj2 (proj2 G)) Hs.

  Lemma He0 : 0 <= eps < 1.
  Proof. lra. Qed.

  Variables (lt : lty) (p : expr) (v : value).
  Hypothesis Klt : kind_of lt = k.
  Hypothesis Hp : prepare_to (Plain lt) e = Some (p, Plain lt).
  Hypothesis Hv : eval_p eps m p = Some v.
  Hypothesis Dv : den v = x.
  Hypothesis Tv : vty v = Plain lt.
  Hypothesis Vv : valid v.

  Lemma minus_conds w : valid w -> vty w = Plain lt -> den w = x ->
    conds eps (fun _ => True) (fun b => den (two_leaves w v b))
      (minus_expr (kind_of lt) (XLeaf 0 (Plain lt)) (XLeaf 1 (Plain lt))).
  Proof.
    intros Vw Tw Dw. unfold minus_expr, XBoxMinus.
    assert (R : forall M, is_rot M -> mul3 M (tr3 M) = i3) by (intros M HM; apply rot_mul_tr, HM).
    assert (D : den (two_leaves w v 0%nat) = x /\ den (two_leaves w v 1%nat) = x) by (split; assumption).
    assert (Kx : dkind x = kind_of lt).
    { rewrite <- Dv, valid_dkind by exact Vv. unfold vkind. now rewrite Tv. }
    assert (Ix : dvalid x) by (rewrite <- Dv; now apply valid_dvalid).
    destruct (kind_of lt); try (split; exact I); cbn [conds deval]; (split; [split; [exact I|split; [exact I|intros _ d _; exact I]]|]);
      intros _ d; destruct D as (-> & ->); destruct x as [| | | | |M|M t]; try discriminate Kx;
      cbn [dsem_un dsem_bin kind_bin dkind dcompose].
    - intros [= <-]. right. now apply R.
    - intros [= <-]. right. now apply R, Ix.
  Qed.


  (** One column: the exact differences [f] of the values, and the differences [g] the
      library computes. *)
  Lemma column_agrees j : (j < tsize (kind_of l))%nat -> exists f g db,
    near (fun h => exists y, perturbed eps m e a (dir j) h = Some y /\ ddiff eps y x = Some (f h)) /\
    (forall i, (i < tsize k)%nat -> derivable_pt_lim (fun s => f s i) 0 (mget J i j) /\ f 0 i = 0) /\
    near (fun h => num_column eps na a h m p v j = Some (fun i => g h i / h)) /\
    near (fun h => exists w dw, with_delta eps na a j h m p = Some (w, Plain lt) /\
      evaluateTo eps (Plain (tangent_leaf lt)) (two_leaves w v)
        (minus_expr (kind_of lt) (XLeaf 0 (Plain lt)) (XLeaf 1 (Plain lt))) = Some dw /\
      vty dw = Plain (tangent_leaf lt) /\ vty w = Plain lt /\ g h = coord dw) /\
    forall i, (i < tsize k)%nat -> LR (db i) (fun h => f h i) (fun h => g h i).
  Proof.
    intros Hj.
    pose proof (core_x _ _ _ _ _ He0 G Hx) as Hx'.
    pose proof (good_deval eps m e k x (proj1 He0) G Hx') as (Kx & _).
    destruct (step_curves eps He l (m a) j V Hl) as (b0 & c & c' & Vb & Tb & Db & Cc & N).
    pose proof (dpert_0 (den (m a)) (dir j)) as C0.
    pose proof (dpert_moves _ (dir j) (valid_dvalid _ V)) as M0.
    (* the exact values and differences *)
    destruct (DJ (dpert (den (m a)) (dir j)) (dir j) C0 M0) as (y & Ny & My).
    pose proof (near_0 _ Ny) as Y0. cbv beta in Y0.
    rewrite (core_at0 eps m e k a x He0 G Hx _ C0) in Y0. injection Y0 as Y0.
    destruct (ddiff_moves eps y _ (proj1 He0) My) as (f & Nf & Df).
    rewrite <- Y0 in Nf, Df. rewrite Kx in Df.
    (* the displaced environments *)
    destruct (prepare_to_prepared eps m (proj1 He0) e k p _ lt Hp G) as ([A1 A2 A3 A4 A5 A6] & _).
    assert (Tc : near (fun h => vty (c h) = Plain l)).
    { destruct Cc as (T & _). rewrite Tb in T. exact (near_impl _ _ (fun h a => proj1 a) T). }
    assert (NP : near (fun h => deval eps (fun b => den (upd m a (c h) b)) p = Some (y h))).
    { apply (near_impl2 _ _ _) with (2 := near_and _ _ N Tc) (3 := Ny). intros h ((Vh & Dh & _) & Th) Eh.
      assert (Ok : env_ok (upd m a (c h)) e) by (eapply env_upd; eauto; apply G).
      destruct (prepare_to_preparedx eps (proj1 He) (upd m a (c h)) e k p _ lt Hp (proj1 G) Ok) as ([B1 B2 B3] & _).
      rewrite B3, (dval_upd eps m a (c h) e _ _ Dh). exact Eh. }
    (* evaluation with the offset *)
    destruct (CR_with_leaf eps (proj1 He) m a l Hl b0 c c' Vb Tb Db (near_impl _ _ (fun h a => proj1 a) N) Cc
      p (Plain lt) x A1 A3 A4) as (w & Ew & Dw & Vw & Tw & u & u' & Nu & Nuv & Cu).
    { apply (near_impl _ _) with (2 := NP). intros h ->. discriminate. }
    { apply (prepare_to_conds eps (proj1 He) _ m e p (Plain lt) lt k Hp G Klt). now apply smooth_conds; [exact Hs|exact Hst]. }
    { rewrite A5. exact Hx'. }
    cbn [plain_output ty_leaf] in Tw.
    assert (Nw : near (fun h => valid (u h) /\ vty (u h) = Plain lt /\ den (u h) = y h)).
    { apply (near_impl2 _ _ _) with (2 := near_and _ _ (near_and _ _ N Tc) NP) (3 := Nu).
      intros h (((Vh & _) & Th) & Eh) (Uh & _).
      destruct (with_leaf_ok eps (proj1 He) m a l Hl (c h) p Vh Th (Plain lt) (y h) A1 A3 Eh) as (_ & z & Ez & Dz & Vz & Tz).
      rewrite Uh in Ez. injection Ez as ->. auto. }
    (* the difference *)
    set (em := minus_expr (kind_of lt) (XLeaf 0 (Plain lt)) (XLeaf 1 (Plain lt))).
    assert (Ke : ekind em = Some (kind_of (tangent_leaf lt))) by (unfold em; destruct lt; reflexivity).
    assert (Ok : forall w', valid w' -> vty w' = Plain lt -> env_ok (two_leaves w' v) em)
      by (intros w' V' T'; unfold em, minus_expr, XBoxMinus; destruct (kind_of lt); cbn; auto).
    assert (Xm : forall w', exps_exact eps (fun i => den (two_leaves w' v i)) em)
      by (intros w'; unfold em, minus_expr, XBoxMinus; destruct (kind_of lt); cbn; auto).
    assert (Db0 : exists d0, deval eps (fun b => den (two_leaves w v b)) em = Some d0).
    { pose proof (near_0 _ Nf) as F0. cbv beta in F0. rewrite <- Y0 in F0.
      destruct (minus_ok eps lt w v (f 0) (proj1 He0) Vw Vv Tw Tv) as (d & Ed & _); [congruence|].
      pose proof (evaluateTo_sound eps (proj1 He0) (two_leaves w v) em _ _ Ke eq_refl (Ok w Vw Tw) (Xm w)) as (S & _).
      fold em in Ed. rewrite Ed in S. cbn in S. eauto. }
    destruct Db0 as (d0 & Db0).
    destruct (CR_evaluateTo eps (proj1 He) (two_leaves w v) (fun h => two_leaves (u h) v) (fun h => two_leaves (u' h) v)
      em (tangent_leaf lt) d0 Ke (Ok w Vw Tw)) as (db & _ & _ & _ & Tdb & D & D' & ND & _ & CD).
    { apply (near_impl _ _) with (2 := Nw). intros h (Vh & Th & _). now apply Ok. }
    { assert (Lv : leaf_addrs em = [0%nat; 1%nat]) by (unfold em, minus_expr, XBoxMinus; destruct (kind_of lt); reflexivity).
      rewrite Lv. intros b [<-|[<-|[]]]; [exact Cu|exact (CR_const v)]. }
    { apply Xm. }
    { now apply minus_conds. }
    { exact Db0. }
    destruct CD as (TD & CDc & _).
    assert (TU : near (fun h => vty (u' h) = Plain lt)).
    { destruct Cu as (T & _). rewrite Tw in T. exact (near_impl _ _ (fun h a => proj2 a) T). }
    exists f, (fun h => coord (D' h)), (coord db).
    split; [|split; [|split; [|split]]].
    - apply (near_impl2 _ _ _) with (2 := Ny) (3 := Nf). intros h A B. exists (y h). split; [exact A|exact B].
    - intros i Hi. destruct (Df i Hi) as (Di & F0).
      rewrite (mvec_dir J j i) in Di by (rewrite ?(proj1 HJ), ?(proj2 HJ); assumption). auto.
    - apply (near_impl2 _ _ _) with (2 := near_and _ _ N Nu) (3 := ND).
      intros h ((_ & _ & Ah) & (_ & Uh)) (_ & Eh).
      unfold num_column. rewrite (with_delta_leaf eps (proj1 He) m a l Hl na j h (c' h) p Hna A3 Ah), Uh.
      cbn [ty_leaf]. fold em. rewrite Eh. reflexivity.
    - apply (near_impl2 _ _ _) with (2 := near_and _ _ (near_and _ _ N Nu) TU) (3 := near_and _ _ ND TD).
      intros h (((_ & _ & Ah) & (_ & Uh)) & Tu) ((_ & Eh) & (_ & Td)).
      exists (u' h), (D' h). split.
      + rewrite (with_delta_leaf eps (proj1 He) m a l Hl na j h (c' h) p Hna A3 Ah). exact Uh.
      + split; [exact Eh|]. split; [now rewrite Td|auto].
    - intros i Hi. eapply LR_near; [|apply (CDc i)].
      apply (near_impl2 _ _ _) with (2 := near_and _ _ ND Nw) (3 := Nf). intros h ((Eh & _) & (Vh & Th & Dh)) Fh.
      split; [|reflexivity].
      rewrite (evaluateTo_x_exact eps (proj1 He) _ em _ Ke (Ok _ Vh Th) (Xm _)) in Eh.
      destruct (minus_ok eps lt (u h) v (f h) (proj1 He0) Vh Vv Th Tv) as (d & Ed & Cd); [congruence|].
      fold em in Ed. rewrite Eh in Ed. injection Ed as ->. apply Cd. now rewrite Klt.
  Qed.

  Lemma column_converges j tau : (j < tsize (kind_of l))%nat -> 0 < tau -> near (fun h => h <> 0 ->
    exists c, num_column eps na a h m p v j = Some c /\
      forall i, (i < tsize k)%nat -> Rabs (c i - mget J i j) < tau).
  Proof.
    intros Hj Ht. destruct (column_agrees j Hj) as (f & g & db & _ & Df & Ng & _ & L).
    assert (Nq : near (fun h => forall i, (i < tsize k)%nat -> h <> 0 -> Rabs (g h i / h - mget J i j) < tau)).
    { apply near_forall_lt. intros i Hi. destruct (Df i Hi) as (Di & F0).
      exact (LR_quotient (db i) (fun s => f s i) (fun s => g s i) _ tau Di F0 (L i Hi) Ht). }
    apply (near_impl2 _ _ _) with (2 := Ng) (3 := Nq). intros h Eh Qh Nz.
    rewrite Eh. eexists. split; [reflexivity|]. intros i Hi. now apply Qh.
  Qed.

  (** Each column within K|h| of the exact difference quotient. *)
  Lemma column_quotient j : (j < tsize (kind_of l))%nat -> exists K, 0 < K /\ near (fun h => h <> 0 ->
    exists c y d, num_column eps na a h m p v j = Some c /\
      perturbed eps m e a (dir j) h = Some y /\ ddiff eps y x = Some d /\
      forall i, (i < tsize k)%nat -> Rabs (c i - d i / h) <= K * Rabs h).
  Proof.
    intros Hj. destruct (column_agrees j Hj) as (f & g & db & Nf & _ & Ng & _ & L).
    assert (exists K, 0 < K /\ near (fun h => h <> 0 -> forall i, (i < tsize k)%nat -> Rabs (g h i / h - f h i / h) <= K * Rabs h))
      as (K & KP & NK).
    { clear - L. induction (tsize k) as [|n IH].
      - exists 1. split; [lra|]. apply near_all. intros h _ i Hi. lia.
      - destruct IH as (K & KP & NK); [intros i Hi; apply L; lia|].
        destruct (LR_pos _ _ _ (L n ltac:(lia))) as (K' & KP' & N'). exists (K + K'). split; [lra|].
        apply (near_impl2 _ _ _) with (2 := NK) (3 := N'). intros h A (_ & _ & B) Nz i Hi.
        pose proof (Rabs_pos h) as Ph.
        destruct (Nat.eq_dec i n) as [->|Ne]; [|eapply Rle_trans; [apply (A Nz i); lia|nra]].
        assert (Hp : 0 < Rabs h) by now apply Rabs_pos_lt.
        replace (g h n / h - f h n / h) with (- ((f h n - g h n) / h)) by (field; exact Nz).
        unfold Rdiv. rewrite Rabs_Ropp, Rabs_mult, Rabs_inv.
        apply (Rmult_le_reg_r (Rabs h)); [exact Hp|].
        rewrite Rmult_assoc, Rinv_l, Rmult_1_r by lra.
        assert (Q : h * h = Rabs h * Rabs h) by (unfold Rabs; destruct (Rcase_abs h); ring).
        rewrite Q in B. nra. }
    exists K. split; [exact KP|].
    apply (near_impl2 _ _ _) with (2 := near_and _ _ Nf Ng) (3 := NK). intros h ((y & Ey & Dy) & Eg) Hk Nz.
    eexists _, y, (f h). split; [exact Eg|]. split; [exact Ey|]. split; [exact Dy|]. intros i Hi. now apply Hk.
  Qed.
End Conv.

(** As the step tends to zero the numerical Jacobian converges to the one jacobian()
    returns: every target (rotations and rigid transforms included), every threshold of
    the library's small-angle approximations. *)
Theorem c09_numerical_jacobian_converges : forall eps na m e k a l x, 0 < eps < 1 ->
  good eps m e k -> means eps m e = Some x -> In a (leaf_addrs e) -> vty (m a) = Plain l -> na <> a ->
  smooth eps (fun b => den (m b)) a e ->
  exists J, expr_jacobian eps na m e (leaf_obj a (Plain l)) = Some (Ok J) /\
  has_shape (tsize k) (tsize (kind_of l)) J /\
  forall tau, 0 < tau -> near (fun h => h <> 0 ->
    exists N, numericalJacobian eps h na m e a l = Some N /\ has_shape (tsize k) (tsize (kind_of l)) N /\
      forall i j, (i < tsize k)%nat -> (j < tsize (kind_of l))%nat -> Rabs (mget N i j - mget J i j) < tau).
Proof.
  intros eps na m e k a l x He G Hx Ha Hl Hna Hs.
  assert (He' : 0 <= eps < 1) by lra.
  destruct (c01_jacobian_is_derivative eps na m e k a l x He' G Hx Ha Hl Hs) as (_ & J & EJ & SJ & DJ).
  exists J. split; [exact EJ|]. split; [exact SJ|]. intros tau Ht.
  unfold numericalJacobian.
  destruct (prepare_total e k (proj1 G)) as (p0 & t & P & W & Kt). rewrite P.
  destruct (prepare_to_total e (ty_leaf t) k (proj1 G) Kt) as (p & P').
  change (plain_output t) with (Plain (ty_leaf t)). rewrite P'.
  destruct (prepare_to_sound eps (proj1 He') m e _ _ _ k P' (proj1 G) (proj1 (proj2 G)) (proj2 (proj2 G))) as (_ & Sn).
  rewrite <- (good_means eps m e k (proj1 He') G), Hx in Sn.
  destruct (sound_value _ _ _ Sn) as (v & Hv & Dv & Tv & Vv). rewrite Hv.
  assert (Kl : kind_of (ty_leaf t) = k) by exact Kt.
  apply (near_impl (fun h => forall j, (j < tsize (kind_of l))%nat -> h <> 0 ->
    exists c, num_column eps na a h m p v j = Some c /\
      forall i, (i < tsize k)%nat -> Rabs (c i - mget J i j) < tau)).
  2:{ apply near_forall_lt. intros j Hj.
      exact (column_converges eps na m e k a l x J He G Hx (core_m eps m e k a G Ha) Hl Hna SJ DJ Hs (ty_leaf t) p v Kl P' Dv Tv Vv j tau Hj Ht). }
  intros h Col Nz.
  destruct (all_some_choice (num_column eps na a h m p v) (tsize (kind_of l))) as (cs & E & L & N).
  { intros j Hj. destruct (Col j Hj Nz) as (c & Hc & _). eauto. }
  rewrite E. cbn [option_map]. eexists. split; [reflexivity|]. split; [rewrite Kt; split; reflexivity|].
  intros i j Hi Hj. cbn [mget].
  destruct (Col j Hj Nz) as (c & Hc & Ec). rewrite (N j (fun _ => 0) Hj) in Hc. injection Hc as Hc.
  rewrite Hc. now apply Ec.
Qed.
Print Assumptions c09_numerical_jacobian_converges.

(** The hypotheses are met: |exp(phi) * (q^-1 * (R v))| with respect to the rotation
    matrix R. *)
Example c09_rotation_target_example : exists J, expr_jacobian (1/4) 100 ex_m ex_d1 (leaf_obj 1 (Plain LMat)) = Some (Ok J) /\
  has_shape 1 3 J /\
  forall tau, 0 < tau -> near (fun h => h <> 0 ->
    exists N, numericalJacobian (1/4) h 100 ex_m ex_d1 1 LMat = Some N /\ has_shape 1 3 N /\
      forall i j, (i < 1)%nat -> (j < 3)%nat -> Rabs (mget N i j - mget J i j) < tau).
Proof.
  assert (He : 0 < 1/4 < 1) by lra.
  assert (exists x, means (1/4) ex_m ex_d1 = Some x) as (x & Hx).
  { rewrite (good_means (1/4) ex_m ex_d1 KScalar ltac:(lra) ex_d1_good). cbn. eexists; reflexivity. }
  apply (c09_numerical_jacobian_converges (1/4) 100 ex_m ex_d1 KScalar 1 LMat x He ex_d1_good Hx);
    [cbn; tauto|reflexivity|lia|apply ex_d1_smooth].
Qed.

(** Each column is the difference quotient (f(x [+] h e_j) [-] f(x)) / h, up to an error of
    order h: the library's own displacement x [+] h e_j is computed with its small-angle
    exponential.  (Exactly the quotient for larger steps:
    c09_columns_are_difference_quotients.) *)
Theorem c09_small_step_quotients : forall eps na m e k a l x, 0 < eps < 1 ->
  good eps m e k -> means eps m e = Some x -> In a (leaf_addrs e) -> vty (m a) = Plain l -> na <> a ->
  smooth eps (fun b => den (m b)) a e ->
  exists K, 0 < K /\ near (fun h => h <> 0 ->
    exists N, numericalJacobian eps h na m e a l = Some N /\ has_shape (tsize k) (tsize (kind_of l)) N /\
      forall j, (j < tsize (kind_of l))%nat -> exists y d,
        perturbed eps m e a (dir j) h = Some y /\ ddiff eps y x = Some d /\
        forall i, (i < tsize k)%nat -> Rabs (mget N i j - d i / h) <= K * Rabs h).
Proof.
  intros eps na m e k a l x He G Hx Ha Hl Hna Hs.
  assert (He' : 0 <= eps < 1) by lra.
  destruct (c01_jacobian_is_derivative eps na m e k a l x He' G Hx Ha Hl Hs) as (_ & J & EJ & SJ & DJ).
  unfold numericalJacobian.
  destruct (prepare_total e k (proj1 G)) as (p0 & t & P & W & Kt). rewrite P.
  destruct (prepare_to_total e (ty_leaf t) k (proj1 G) Kt) as (p & P').
  change (plain_output t) with (Plain (ty_leaf t)). rewrite P'.
  destruct (prepare_to_sound eps (proj1 He') m e _ _ _ k P' (proj1 G) (proj1 (proj2 G)) (proj2 (proj2 G))) as (_ & Sn).
  rewrite <- (good_means eps m e k (proj1 He') G), Hx in Sn.
  destruct (sound_value _ _ _ Sn) as (v & Hv & Dv & Tv & Vv). rewrite Hv.
  assert (Kl : kind_of (ty_leaf t) = k) by exact Kt.
  assert (exists K, 0 < K /\ near (fun h => h <> 0 -> forall j, (j < tsize (kind_of l))%nat ->
    exists c y d, num_column eps na a h m p v j = Some c /\
      perturbed eps m e a (dir j) h = Some y /\ ddiff eps y x = Some d /\
      forall i, (i < tsize k)%nat -> Rabs (c i - d i / h) <= K * Rabs h)) as (K & KP & NK).
  { pose proof (column_quotient eps na m e k a l x J He G Hx (core_m eps m e k a G Ha) Hl Hna SJ DJ Hs (ty_leaf t) p v Kl P' Dv Tv Vv) as Q.
    clear - Q. revert Q. induction (tsize (kind_of l)) as [|n IH]; intros Q.
    - exists 1. split; [lra|]. apply near_all. intros h _ j Hj. lia.
    - destruct (IH (fun j Hj => Q j (Nat.lt_lt_succ_r _ _ Hj))) as (K & KP & NK).
      destruct (Q n ltac:(lia)) as (K' & KP' & N'). exists (K + K'). split; [lra|].
      apply (near_impl2 _ _ _) with (2 := NK) (3 := N'). intros h A B Nz j Hj. pose proof (Rabs_pos h) as Ph.
      destruct (Nat.eq_dec j n) as [->|Ne].
      + destruct (B Nz) as (c & y & d & E1 & E2 & E3 & Bd). exists c, y, d. repeat (split; [assumption|]).
        intros i Hi. eapply Rle_trans; [now apply Bd|nra].
      + destruct (A Nz j ltac:(lia)) as (c & y & d & E1 & E2 & E3 & Bd). exists c, y, d. repeat (split; [assumption|]).
        intros i Hi. eapply Rle_trans; [now apply Bd|nra]. }
  exists K. split; [exact KP|]. apply (near_impl _ _) with (2 := NK). intros h Col Nz. specialize (Col Nz).
  destruct (all_some_choice (num_column eps na a h m p v) (tsize (kind_of l))) as (cs & E & L & N).
  { intros j Hj. destruct (Col j Hj) as (c & _ & _ & Hc & _). eauto. }
  rewrite E. cbn [option_map]. eexists. split; [reflexivity|]. split; [rewrite Kt; split; reflexivity|].
  intros j Hj. destruct (Col j Hj) as (c & y & d & Hc & E1 & E2 & Bd). exists y, d. split; [exact E1|]. split; [exact E2|].
  intros i Hi. cbn [mget]. rewrite (N j (fun _ => 0) Hj) in Hc. injection Hc as Hc. rewrite Hc. now apply Bd.
Qed.
Print Assumptions c09_small_step_quotients.

(** The hypotheses are met with an exponential at exactly zero: T * (exp(phi) * v) with
    respect to phi = 0, where the library uses its small-angle formula throughout. *)
Definition ex_z : env := fun a =>
  match a with
  | 1%nat => VRel v0
  | 2%nat => VTrans (mkV 1 2 3)
  | _ => VCompRT (mkQ 0 0 1 0) (mkV 4 5 6)
  end.
Definition ex_ze : expr :=
  XBin OTransform (XLeaf 3 (Plain LCompRT))
    (XBin ORotate (XUn OExpMap (XLeaf 1 (Plain LRel))) (XLeaf 2 (Plain LTrans))).

Lemma ex_z_good : good (1/4) ex_z ex_ze KTrans.
Proof.
  split; [reflexivity|]. split.
  - cbn. repeat split; auto. v3unf. unfold unitq, qnorm2. cbn. lra.
  - cbn [exps_exact ex_ze]. repeat split. intros d [= <-]. left. reflexivity.
Qed.

Example c09_zero_exp_example :
  (exists J, expr_jacobian (1/4) 100 ex_z ex_ze (leaf_obj 1 (Plain LRel)) = Some (Ok J) /\
    has_shape 3 3 J /\
    forall tau, 0 < tau -> near (fun h => h <> 0 ->
      exists N, numericalJacobian (1/4) h 100 ex_z ex_ze 1 LRel = Some N /\ has_shape 3 3 N /\
        forall i j, (i < 3)%nat -> (j < 3)%nat -> Rabs (mget N i j - mget J i j) < tau)) /\
  exists x K, 0 < K /\ near (fun h => h <> 0 ->
    exists N, numericalJacobian (1/4) h 100 ex_z ex_ze 1 LRel = Some N /\ has_shape 3 3 N /\
      forall j, (j < 3)%nat -> exists y d,
        perturbed (1/4) ex_z ex_ze 1 (dir j) h = Some y /\ ddiff (1/4) y x = Some d /\
        forall i, (i < 3)%nat -> Rabs (mget N i j - d i / h) <= K * Rabs h).
Proof.
  assert (He : 0 < 1/4 < 1) by lra.
  assert (exists x, means (1/4) ex_z ex_ze = Some x) as (x & Hx).
  { rewrite (good_means (1/4) ex_z ex_ze KTrans ltac:(lra) ex_z_good). cbn. eexists; reflexivity. }
  assert (S : smooth (1/4) (fun b => den (ex_z b)) 1 ex_ze).
  { cbn. repeat split; intros; try discriminate. injection H0 as <-. exact I. }
  split.
  - apply (c09_numerical_jacobian_converges (1/4) 100 ex_z ex_ze KTrans 1 LRel x He ex_z_good Hx);
      [cbn; tauto|reflexivity|lia|exact S].
  - exists x. apply (c09_small_step_quotients (1/4) 100 ex_z ex_ze KTrans 1 LRel x He ex_z_good Hx);
      [cbn; tauto|reflexivity|lia|exact S].
Qed.
