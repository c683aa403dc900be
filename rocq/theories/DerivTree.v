(** The chain rule over the evaluated tree: the Jacobian of a prepared expression is the
    derivative of the function it denotes. *)

From Coq Require Import Reals Lra Lia List Bool Arith.
From Verif Require Import Mat ModelMeta ModelJac SpecJac JacProofs V3 ModelLeaf SpecLeaf LeafProofs
  ModelExpr SpecExpr ExprProofs PropsExpr Calc SpecDeriv DerivProofs DerivUn.
Import ListNotations.
Local Open Scope R_scope.
Local Open Scope mat_scope.

Local Arguments mvec : simpl never.

Lemma mo_near c c' d : near (fun s => c s = c' s) -> moves_opt c d -> moves_opt c' d.
Proof.
  intros N (r & H & M). exists r. split; [|exact M].
  apply (near_impl2 _ _ _) with (2 := N) (3 := H). intros s A B. congruence.
Qed.

Lemma mo_bind c r (f : dval -> option dval) d : near (fun s => c s = Some (r s)) -> moves_opt (fun s => f (r s)) d ->
  moves_opt (fun s => match c s with Some x => f x | None => None end) d.
Proof.
  intros N H. apply mo_near with (2 := H). apply (near_impl _ _) with (2 := N).
  intros s ->. reflexivity.
Qed.
Lemma mo_bind2 c1 r1 c2 r2 (f : dval -> dval -> option dval) d : near (fun s => c1 s = Some (r1 s)) ->
  near (fun s => c2 s = Some (r2 s)) -> moves_opt (fun s => f (r1 s) (r2 s)) d ->
  moves_opt (fun s => match c1 s, c2 s with Some x, Some y => f x y | _, _ => None end) d.
Proof.
  intros N1 N2 H. apply mo_near with (2 := H). apply (near_impl2 _ _ _) with (2 := N1) (3 := N2).
  intros s -> ->. reflexivity.
Qed.

Lemma mo_const x d : dvalid x -> zero_below (tsize (dkind x)) d -> moves_opt (fun _ => Some x) d.
Proof.
  intros V Z. exists (fun _ => x). split; [apply near_all; reflexivity|]. now apply moves_const.
Qed.

Lemma moves_ext r d d' : moves r d -> (forall i, (i < tsize (dkind (r 0%R)))%nat -> d i = d' i) ->
  moves r d'.
Proof.
  intros (N & D) E. split; [exact N|].
  destruct (dkind (r 0)) eqn:K; cbn in E; try (intros i Hi; rewrite <- E by exact Hi; now apply D).
  - replace (tv d') with (tv d) by (unfold tv; rewrite !E by lia; reflexivity). exact D.
  - replace (tv d') with (tv d) by (unfold tv; rewrite !E by lia; reflexivity).
    replace (tw d') with (tw d) by (unfold tw; rewrite !E by lia; reflexivity). exact D.
Qed.

Lemma adj_zero x d : zero_below (tsize (dkind x)) d -> forall i, (i < tsize (dkind x))%nat -> adj x d i = 0.
Proof.
  intros Z i Hi. destruct x; cbn in Z, Hi; try (apply Z; exact Hi).
  - cbn. replace (tv d) with v0 by (unfold tv, v0; rewrite !Z by lia; reflexivity).
    lt3 i; cbn; ring.
  - cbn. replace (tv d) with v0 by (unfold tv, v0; rewrite !Z by lia; reflexivity).
    replace (tw d) with v0 by (unfold tw, v0; rewrite !Z by lia; reflexivity).
    lt6 i; cbn; ring.
Qed.

Lemma ddl_zero o x y z d : dsem_bin o x y = Some z -> zero_below (tsize (dkind x)) d ->
  forall i, (i < tsize (dkind z))%nat -> ddl o x y z d i = 0.
Proof.
  intros D Z i Hi. apply dsem_bin_kind in D.
  assert (X : tsize (dkind x) = tsize (dkind z) -> d i = 0) by (intros E; apply Z; rewrite E; exact Hi).
  assert (Y : d 0%nat = 0) by (apply Z, tsize_pos).
  destruct o; cbn [ddl].
  - apply X. destruct (dkind x), (dkind y); cbn in D; try discriminate D; injection D as <-; reflexivity.
  - assert (E : dkind y = dkind x /\ dkind y = dkind z)
      by (destruct (dkind x), (dkind y); cbn in D; try discriminate D; injection D as <-; auto).
    destruct E as (E1 & E2). apply adj_zero; [rewrite E1; exact Z|rewrite E2; exact Hi].
  - assert (E : dkind x = KRot /\ dkind z = KTrans)
      by (destruct (dkind x), (dkind y); cbn in D; try discriminate D; injection D as <-; auto).
    destruct E as (E1 & E2). rewrite E1 in Z. rewrite E2 in Hi. cbn in Z, Hi.
    replace (tv d) with v0 by (unfold tv, v0; rewrite !Z by lia; reflexivity). lt3 i; cbn; ring.
  - assert (E : dkind x = KRT /\ dkind z = KTrans)
      by (destruct (dkind x), (dkind y); cbn in D; try discriminate D; injection D as <-; auto).
    destruct E as (E1 & E2). rewrite E1 in Z. rewrite E2 in Hi. cbn in Z, Hi.
    replace (tv d) with v0 by (unfold tv, v0; rewrite !Z by lia; reflexivity).
    replace (tw d) with v0 by (unfold tw, v0; rewrite !Z by lia; reflexivity). lt3 i; cbn; ring.
  - apply X. apply (kind_bin_affine _ _ _ _ D). auto.
  - apply X. apply (kind_bin_affine _ _ _ _ D). auto.
  - rewrite Y. ring.
  - rewrite X; [ring|]. destruct (dkind x), (dkind y); cbn in D; try discriminate D; injection D as <-; reflexivity.
  - rewrite X; [ring|]. destruct (dkind x), (dkind y); cbn in D; try discriminate D; injection D as <-; reflexivity.
  - rewrite Y. ring.
  - rewrite Y. ring.
  - apply rsum_0. intros j Hj. rewrite Z by exact Hj. ring.
Qed.

Lemma ddr_zero o x y z d : dsem_bin o x y = Some z -> zero_below (tsize (dkind y)) d ->
  forall i, (i < tsize (dkind z))%nat -> ddr o x y z d i = 0.
Proof.
  intros D Z i Hi. apply dsem_bin_kind in D.
  assert (X : tsize (dkind y) = tsize (dkind z) -> d i = 0) by (intros E; apply Z; rewrite E; exact Hi).
  assert (Y : d 0%nat = 0) by (apply Z, tsize_pos).
  destruct o; cbn [ddr].
  - assert (E : dkind x = dkind y /\ dkind x = dkind z)
      by (destruct (dkind x), (dkind y); cbn in D; try discriminate D; injection D as <-; auto).
    destruct E as (E1 & E2). apply adj_zero; [rewrite E1; exact Z|rewrite E2; exact Hi].
  - apply X. destruct (dkind x), (dkind y); cbn in D; try discriminate D; injection D as <-; reflexivity.
  - assert (E : dkind y = KTrans /\ dkind z = KTrans)
      by (destruct (dkind x), (dkind y); cbn in D; try discriminate D; injection D as <-; auto).
    destruct E as (E1 & E2). rewrite E1 in Z. rewrite E2 in Hi. cbn in Z, Hi.
    replace (tv d) with v0 by (unfold tv, v0; rewrite !Z by lia; reflexivity). lt3 i; cbn; ring.
  - assert (E : dkind y = KTrans /\ dkind z = KTrans)
      by (destruct (dkind x), (dkind y); cbn in D; try discriminate D; injection D as <-; auto).
    destruct E as (E1 & E2). rewrite E1 in Z. rewrite E2 in Hi. cbn in Z, Hi.
    replace (tv d) with v0 by (unfold tv, v0; rewrite !Z by lia; reflexivity). lt3 i; cbn; ring.
  - apply X. apply (kind_bin_affine _ _ _ _ D). auto.
  - rewrite X; [ring|]. apply (kind_bin_affine _ _ _ _ D). auto.
  - rewrite X; [ring|]. destruct (dkind x), (dkind y); cbn in D; try discriminate D; injection D as <-; reflexivity.
  - rewrite Y. ring.
  - rewrite Y. ring.
  - rewrite Y. ring.
  - rewrite Y. ring.
  - apply rsum_0. intros j Hj. rewrite Z; [ring|].
    destruct (dkind x), (dkind y); cbn in D; try discriminate D; exact Hj.
Qed.

(** A result of a symbolic type comes from operands of symbolic types only. *)
Lemma ty_un_plain o t r : ty_un o t = Some r -> (exists l, t = Plain l) -> exists l, r = Plain l.
Proof.
  intros H (l & ->). revert H.
  destruct o; cbn; destruct l; cbn; intros H; try discriminate H;
    try (injection H as <-; eexists; reflexivity);
    destruct (kind_eqb _ _); try discriminate H; injection H as <-; eexists; reflexivity.
Qed.
Definition plainb (t : ty) : bool := match t with Plain _ => true | _ => false end.
Lemma ty_bin_plain_check :
  forallb (fun o => forallb (fun a => forallb (fun b =>
    if plainb a || plainb b
    then match ty_bin o a b with Some r => plainb r | None => true end
    else true) all_ty) all_ty) all_bin = true.
Proof. vm_compute. reflexivity. Qed.
Lemma plainb_iff t : plainb t = true <-> exists l, t = Plain l.
Proof. destruct t; cbn; split; eauto; try discriminate; intros (l0 & E); discriminate. Qed.
Lemma ty_bin_plain o a b r : ty_bin o a b = Some r -> (exists l, a = Plain l) \/ (exists l, b = Plain l) ->
  exists l, r = Plain l.
Proof.
  intros H P. pose proof ty_bin_plain_check as C. rewrite forallb_forall in C.
  specialize (C o (all_bin_in o)). rewrite forallb_forall in C. specialize (C a (all_ty_in a)).
  rewrite forallb_forall in C. specialize (C b (all_ty_in b)). cbv beta in C. rewrite H in C.
  replace (plainb a || plainb b) with true in C; [now apply plainb_iff|].
  destruct P as [P|P]; apply plainb_iff in P; rewrite P; [reflexivity|]. symmetry. apply orb_true_r.
Qed.

Lemma vdim_pos v : (0 < vdim v)%nat.
Proof. apply tsize_pos. Qed.

Section Tree.
  Variable eps : R.
  Hypothesis eps_lo : 0 <= eps.
  Hypothesis eps_hi : eps < 1.
  Variables (na : nat) (m : env) (a : nat) (l : lty) (c : R -> dval) (d : nat -> R).
  Hypothesis c0 : c 0 = den (m a).
  Hypothesis Tm : vty (m a) = Plain l.
  Hypothesis Mv : moves c d.

  Let tgt := leaf_obj a (Plain l).
  Let den0 : nat -> dval := fun b => den (m b).

  Record inv_at (f : R -> option dval) (A : Prop) (p : expr) (t : ty) (v : value) (T : etree)
    : Prop := Inv {
    i_tree : tree eps na m p = Some (v, T);
    i_ty : vty v = t; i_valid : valid v; i_wf : wf_tree T; i_dim : edim T = vdim v;
    i_0 : f 0 = Some (den v);
    i_in : In tgt (leaves T) <-> A;
    i_plain : In tgt (leaves T) -> exists l', t = Plain l';
    i_const : ~ In tgt (leaves T) -> forall s, f s = f 0;
    i_moves : moves_opt f (mvec (true_jacobian tgt T) d)
  }.
  Definition inv f A p t := exists v T, inv_at f A p t v T.

  Lemma in_dec T : {In tgt (leaves T)} + {~ In tgt (leaves T)}.
  Proof. apply in_dec, leaf_eq_dec. Qed.

  (* Without the target below it, a node contributes nothing. *)
  Lemma absent_moves f v T : valid v -> edim T = vdim v -> f 0 = Some (den v) ->
    ~ In tgt (leaves T) -> (forall s, f s = f 0) -> moves_opt f (mvec (true_jacobian tgt T) d).
  Proof.
    intros V D F0 N C.
    apply mo_near with (c := fun _ => Some (den v)); [apply near_all; intros s; now rewrite C|].
    apply mo_const; [now apply valid_dvalid|].
    intros i Hi. rewrite true_jacobian_absent by exact N. apply mvec_mzero.
  Qed.
  Lemma absent_zero T n : ~ In tgt (leaves T) -> zero_below n (mvec (true_jacobian tgt T) d).
  Proof. intros N i Hi. rewrite true_jacobian_absent by exact N. apply mvec_mzero. Qed.

  Lemma true_jac_un n J T i : has_shape n (edim T) J -> (0 < n)%nat -> wf_tree T ->
    mvec (true_jacobian tgt (EUn na n J T)) d i = mvec J (mvec (true_jacobian tgt T) d) i.
  Proof.
    intros S P W. rewrite <- mvec_mmul.
    - apply mvec_meq. rewrite !true_jacobian_sel. apply sel_jacobian_un; [cbn; auto|apply obj_sel_dim].
    - destruct S as (_ & ->). destruct (true_jacobian_shape tgt T W) as (-> & _). reflexivity.
  Qed.
  Lemma true_jac_bin n JL JR T1 T2 i : has_shape n (edim T1) JL -> has_shape n (edim T2) JR ->
    (0 < n)%nat -> wf_tree T1 -> wf_tree T2 ->
    mvec (true_jacobian tgt (EBin na n JL JR T1 T2)) d i
    = mvec JL (mvec (true_jacobian tgt T1) d) i + mvec JR (mvec (true_jacobian tgt T2) d) i.
  Proof.
    intros S1 S2 P W1 W2.
    pose proof (true_jacobian_shape tgt T1 W1) as (R1 & C1).
    pose proof (true_jacobian_shape tgt T2 W2) as (R2 & C2).
    rewrite <- !mvec_mmul.
    - rewrite <- mvec_madd.
      + apply mvec_meq. rewrite !true_jacobian_sel. apply sel_jacobian_bin; [cbn; auto| |]; apply obj_sel_dim.
      + cbn. destruct S1, S2. congruence.
      + cbn. congruence.
    - destruct S2 as (_ & ->). now rewrite R2.
    - destruct S1 as (_ & ->). now rewrite R1.
  Qed.

  Lemma inv_convert f A p t t' : can_convert t t' = true -> inv f A p t -> inv f A (xconvert t' p) t'.
  Proof.
    intros Hc (v & T & [I1 I2 I3 I4 I5 I6 I7 I8 I9 I10]).
    destruct (can_convert_inv _ _ Hc) as (l' & -> & Ht). rewrite <- I2 in Ht.
    destruct (convert_sound l' v _ Ht I3) as (r & E & D & T' & V').
    assert (Kk : vdim r = vdim v).
    { unfold vdim. rewrite <- (valid_dkind r V'), <- (valid_dkind v I3), D. reflexivity. }
    assert (Kl : tsize (kind_of l') = vdim r) by (unfold vdim, vkind; rewrite T'; reflexivity).
    exists r, (EUn na (vdim r) (mid (tsize (kind_of l'))) T). constructor; auto.
    - cbn [xconvert tree]. rewrite I1. cbn [sem_un jac_un orzero]. rewrite E. reflexivity.
    - cbn. rewrite Kl, I5, Kk. repeat split; auto. apply vdim_pos.
    - now rewrite D.
    - intros _. eauto.
    - apply (mo_ext _ _ _ (dkind (den v)) I10).
      + intros x Hx. rewrite I6 in Hx. congruence.
      + rewrite valid_dkind by exact I3. fold (vdim v). rewrite <- Kk. intros i Hi.
        rewrite true_jac_un; [|rewrite Kl, I5, Kk; split; reflexivity|apply vdim_pos|exact I4].
        rewrite mvec_mid; [reflexivity|]. now rewrite Kl.
  Qed.

  Lemma inv_un o f (A : Prop) p t r x : inv f A p t -> ty_un o t = Some r ->
    (o = OExpMap -> forall d', f 0 = Some d' -> exp_exact eps d') ->
    (A -> forall x, f 0 = Some x -> smooth_un eps o x) ->
    match f 0 with Some y => dsem_un eps o y | None => None end = Some x ->
    inv (fun s => match f s with Some y => dsem_un eps o y | None => None end) A (XUn o p) r.
  Proof.
    intros (v & T & [I1 I2 I3 I4 I5 I6 I7 I8 I9 I10]) Ht He Hsm Hd.
    rewrite I6 in Hd. rewrite <- I2 in Ht.
    pose proof (fun E => He E _ I6) as He'.
    destruct (un_sound eps eps_lo o v r Ht I3 He') as (S1 & S2).
    rewrite Hd in S1. destruct (sem_un eps o v) as [val|] eqn:Sv; [|discriminate S1].
    cbn in S1. injection S1 as S1. destruct (S2 val eq_refl) as (T' & V').
    pose proof (jac_un_shape eps eps_lo o v val r I3 Ht Sv He') as Sh.
    set (J := orzero (jac_un eps o val v) (vdim val) (vdim v)) in *.
    rewrite <- I5 in Sh.
    exists val, (EUn na (vdim val) J T).
    assert (F0 : match f 0 with Some y => dsem_un eps o y | None => None end = Some (den val))
      by (rewrite I6, Hd, S1; reflexivity).
    assert (Cn : ~ In tgt (leaves T) -> forall s,
       match f s with Some y => dsem_un eps o y | None => None end
       = match f 0 with Some y => dsem_un eps o y | None => None end).
    { intros N s. now rewrite (I9 N s). }
    constructor; auto.
    - cbn [tree]. rewrite I1, Sv. reflexivity.
    - cbn. auto using vdim_pos.
    - cbn. intros H. apply (ty_un_plain _ _ _ Ht). rewrite I2. exact (I8 H).
    - destruct (in_dec T) as [H|N].
      + destruct I10 as (rr & N1 & M1).
        assert (R0 : rr 0 = den v) by (pose proof (near_0 _ N1) as X; cbv beta in X; congruence).
        assert (Pl : is_plain v) by (destruct (I8 H) as (l' & ->); exists l'; exact I2).
        apply (mo_bind _ rr _ _ N1).
        pose proof (un_moves eps eps_lo eps_hi o v val r I3 Ht Sv He' rr _ Pl
          (Hsm (proj1 I7 H) _ I6) R0 M1) as U.
        apply (mo_ext _ _ _ (vkind val) U).
        * rewrite R0, Hd. intros y Ey. injection Ey as <-. rewrite <- S1. now apply valid_dkind.
        * intros i Hi. symmetry. apply true_jac_un; auto using vdim_pos.
      + apply absent_moves with (v := val); auto.
  Qed.

  Lemma inv_bin o f g (A B : Prop) p1 p2 t1 t2 r x : inv f A p1 t1 -> inv g B p2 t2 ->
    ty_bin o t1 t2 = Some r ->
    (B -> o = ORotate \/ o = OTransform -> forall i, t1 <> Ident i) ->
    match f 0, g 0 with Some y, Some z => dsem_bin o y z | _, _ => None end = Some x ->
    inv (fun s => match f s, g s with Some y, Some z => dsem_bin o y z | _, _ => None end)
      (A \/ B) (XBin o p1 p2) r.
  Proof.
    intros (v & T & [I1 I2 I3 I4 I5 I6 I7 I8 I9 I10]) (v' & T2 & [K1 K2 K3 K4 K5 K6 K7 K8 K9 K10])
      Ht Hrot Hd.
    rewrite I6, K6 in Hd. rewrite <- I2, <- K2 in Ht.
    destruct (bin_sound o v v' r Ht I3 K3) as (S1 & S2).
    rewrite Hd in S1. destruct (sem_bin o v v') as [val|] eqn:Sv; [|discriminate S1].
    cbn in S1. injection S1 as S1. destruct (S2 val eq_refl) as (T' & V').
    pose proof (jac_bin_shape o v v' val r I3 K3 Ht Sv) as (ShL & ShR).
    set (JL := orzero (jac_l o val v v') (vdim val) (vdim v)) in *.
    set (JR := orzero (jac_r o val v v') (vdim val) (vdim v')) in *.
    pose proof ShL as ShL'. pose proof ShR as ShR'.
    rewrite <- I5 in ShL. rewrite <- K5 in ShR.
    exists val, (EBin na (vdim val) JL JR T T2).
    assert (F0 : match f 0, g 0 with Some y, Some z => dsem_bin o y z | _, _ => None end = Some (den val))
      by (rewrite I6, K6, Hd, S1; reflexivity).
    assert (Li : In tgt (leaves (EBin na (vdim val) JL JR T T2)) <->
      In tgt (leaves T) \/ In tgt (leaves T2)) by (cbn; apply in_app_iff).
    assert (Cn : ~ In tgt (leaves T) -> ~ In tgt (leaves T2) -> forall s,
       match f s, g s with Some y, Some z => dsem_bin o y z | _, _ => None end
       = match f 0, g 0 with Some y, Some z => dsem_bin o y z | _, _ => None end).
    { intros N N' s. now rewrite (I9 N s), (K9 N' s). }
    constructor; auto.
    - cbn [tree]. rewrite I1, K1, Sv. reflexivity.
    - cbn. auto using vdim_pos.
    - rewrite Li, I7, K7. reflexivity.
    - rewrite Li. intros H. apply (ty_bin_plain _ _ _ _ Ht). rewrite I2, K2.
      destruct H as [H|H]; [left; exact (I8 H)|right; exact (K8 H)].
    - rewrite Li. intros N. apply Cn; tauto.
    - destruct I10 as (r1 & N1 & M1). destruct K10 as (r2 & N2 & M2).
      assert (R1 : r1 0 = den v) by (pose proof (near_0 _ N1) as X; cbv beta in X; congruence).
      assert (R2 : r2 0 = den v') by (pose proof (near_0 _ N2) as X; cbv beta in X; congruence).
      apply (mo_bind2 _ r1 _ r2 _ _ N1 N2).
      assert (Z : dsem_bin o (r1 0) (r2 0) = Some (den val)) by (rewrite R1, R2, Hd, S1; reflexivity).
      pose proof (dbin_moves o r1 r2 _ _ _ M1 M2 Z) as U.
      apply (mo_ext _ _ _ (vkind val) U).
      + rewrite Z. intros y Ey. injection Ey as <-. now apply valid_dkind.
      + intros i Hi. rewrite true_jac_bin by auto using vdim_pos.
        rewrite R1, R2 in Z |- *.
        assert (Hi' : (i < tsize (dkind (den val)))%nat) by (rewrite valid_dkind by exact V'; exact Hi).
        f_equal.
        * destruct (in_dec T) as [H|N].
          -- symmetry. apply (jacl_ok o v v' val r); auto.
             destruct (I8 H) as (l' & ->). exists l'. exact I2.
          -- rewrite (ddl_zero o _ _ _ _ Z) by (auto using absent_zero).
             symmetry. apply mvec_zero. intros j Hj. now apply (absent_zero T (mcols JL)).
        * destruct (in_dec T2) as [H|N].
          -- symmetry. apply (jacr_ok o v v' val r); auto.
             ++ destruct (K8 H) as (l' & ->). exists l'. exact K2.
             ++ intros Ho. specialize (Hrot (proj1 K7 H) Ho). rewrite I2 in Ht. unfold is_plain.
                rewrite I2. destruct t1 as [l1|l1|l1]; [eauto|exfalso; eapply Hrot; reflexivity|].
                destruct Ho as [-> | ->]; discriminate Ht.
          -- rewrite (ddr_zero o _ _ _ _ Z) by (auto using absent_zero).
             symmetry. apply mvec_zero. intros j Hj. now apply (absent_zero T2 (mcols JR)).
  Qed.

  Let denv (s : R) : nat -> dval := dupd den0 a (c s).

  Lemma denv_0 : forall b, denv 0 b = den (m b).
  Proof. intros b. unfold denv, dupd. destruct (Nat.eqb_spec b a); [subst; exact c0|reflexivity]. Qed.

  Lemma deval_0 e : deval eps (denv 0) e = deval eps den0 e.
  Proof.
    apply deval_ext; [|intros; apply denv_0].
    induction e; cbn; auto.
  Qed.

  Theorem tree_moves e : forall p t x, prepare e = Some (p, t) -> env_ok m e ->
    exps_exact eps den0 e -> smooth eps den0 a e -> deval eps den0 e = Some x ->
    inv (fun s => deval eps (denv s) e) (In a (leaf_addrs e)) p t.
  Proof.
    induction e as [b t0|o e IH|o e1 IH1 e2 IH2]; intros p t x Hp Henv Hexp Hsm Hx.
    - cbn in Hp. injection Hp as <- <-. cbn in Henv. destruct Henv as (Tb & Vb).
      exists (m b), (ELeaf (leaf_obj b t0)).
      assert (E0 : deval eps (denv 0) (XLeaf b t0) = Some (den (m b))) by (cbn; now rewrite denv_0).
      assert (In' : In tgt (leaves (ELeaf (leaf_obj b t0))) <-> b = a).
      { cbn. split.
        - intros [E|[]]. unfold tgt, leaf_obj in E. congruence.
        - intros ->. left. unfold tgt. congruence. }
      assert (Cn : ~ In tgt (leaves (ELeaf (leaf_obj b t0))) -> forall s,
         deval eps (denv s) (XLeaf b t0) = deval eps (denv 0) (XLeaf b t0)).
      { rewrite In'. intros N s. cbn. unfold denv, dupd. destruct (Nat.eqb_spec b a); [contradiction|reflexivity]. }
      assert (Di : edim (ELeaf (leaf_obj b t0)) = vdim (m b)) by (unfold vdim, vkind; rewrite Tb; reflexivity).
      constructor; auto.
      + cbn. apply tsize_pos.
      + rewrite In'. cbn. tauto.
      + rewrite In'. intros ->. rewrite <- Tb. eauto.
      + destruct (in_dec (ELeaf (leaf_obj b t0))) as [H|N].
        * pose proof (proj1 In' H) as ->.
          assert (E : leaf_obj a t0 = tgt) by (unfold tgt; congruence). rewrite E.
          exists c. split.
          -- apply near_all. intros s. cbn. unfold denv, dupd. now rewrite Nat.eqb_refl.
          -- apply (moves_ext _ _ _ Mv). intros i Hi. rewrite (mvec_meq _ _ _ _ (true_jacobian_leaf_same tgt)).
             rewrite mvec_mid; [reflexivity|]. rewrite c0, valid_dkind in Hi by exact Vb.
             unfold vkind in Hi. rewrite Tm in Hi. exact Hi.
        * apply absent_moves with (v := m b); auto.
    - cbn in Hp. destruct (prepare e) as [[p' t']|] eqn:P; [|discriminate].
      cbn in Henv, Hexp, Hsm. destruct Hexp as (Hexp & Hxx). destruct Hsm as (Hs1 & Hs2).
      cbn [deval] in Hx. destruct (deval eps den0 e) as [x'|] eqn:Dx; [|discriminate].
      specialize (IH _ _ x' eq_refl Henv Hexp Hs1 eq_refl).
      cbn [leaf_addrs deval].
      assert (H1 : o = OExpMap -> forall d', deval eps (denv 0) e = Some d' -> exp_exact eps d').
      { intros -> d'. rewrite deval_0, Dx. exact (Hxx d'). }
      assert (H2 : In a (leaf_addrs e) -> forall x, deval eps (denv 0) e = Some x -> smooth_un eps o x).
      { intros Ha y. rewrite deval_0, Dx. exact (Hs2 Ha y). }
      assert (H3 : match deval eps (denv 0) e with Some y => dsem_un eps o y | None => None end = Some x)
        by (rewrite deval_0, Dx; exact Hx).
      destruct (choose_unary _ _ _ _) as [[|t'']|] eqn:C; [| |discriminate].
      + destruct (ty_un o t') eqn:T; [|discriminate]. injection Hp as <- <-.
        eapply inv_un; eassumption.
      + unfold choose_unary in C. destruct (is_some (ty_un o t')); [discriminate|].
        destruct (first_true _ _) as [y|] eqn:F; [|discriminate]. injection C as ->.
        apply first_true_some in F. destruct F as (F & _). apply andb_prop in F as (F1 & F2).
        destruct (ty_un o t'') eqn:T; [|discriminate]. injection Hp as <- <-.
        eapply inv_un; [eapply inv_convert; eassumption| | | |]; eassumption.
    - cbn in Hp. destruct (prepare e1) as [[p1 t1]|] eqn:P1; [|discriminate].
      destruct (prepare e2) as [[p2 t2]|] eqn:P2; [|discriminate].
      cbn in Henv, Hexp, Hsm. destruct Henv as (Hl & Hr). destruct Hexp as (Xl & Xr).
      destruct Hsm as (Sl & Sr & Hrot). rewrite P1 in Hrot. cbn in Hrot.
      cbn [deval] in Hx. destruct (deval eps den0 e1) as [x1|] eqn:D1; [|discriminate].
      destruct (deval eps den0 e2) as [x2|] eqn:D2; [|discriminate].
      specialize (IH1 _ _ x1 eq_refl Hl Xl Sl eq_refl). specialize (IH2 _ _ x2 eq_refl Hr Xr Sr eq_refl).
      cbn [leaf_addrs deval].
      assert (H3 : match deval eps (denv 0) e1, deval eps (denv 0) e2 with
                   Some y, Some z => dsem_bin o y z | _, _ => None end = Some x)
        by (rewrite !deval_0, D1, D2; exact Hx).
      assert (Rt : In a (leaf_addrs e2) -> o = ORotate \/ o = OTransform -> forall i, t1 <> Ident i).
      { intros Ha Ho i ->. exact (Hrot Ha Ho i eq_refl). }
      assert (Fin : forall q1 s1 q2 s2 r, inv (fun s => deval eps (denv s) e1) (In a (leaf_addrs e1)) q1 s1 ->
        inv (fun s => deval eps (denv s) e2) (In a (leaf_addrs e2)) q2 s2 -> ty_bin o s1 s2 = Some r ->
        (s1 = t1 \/ exists l', s1 = Plain l') ->
        inv (fun s => match deval eps (denv s) e1, deval eps (denv s) e2 with
                   Some y, Some z => dsem_bin o y z | _, _ => None end)
          (In a (leaf_addrs e1 ++ leaf_addrs e2)%list) (XBin o q1 q2) r).
      { intros q1 s1 q2 s2 r J1 J2 Tb Or.
        destruct (inv_bin o _ _ _ _ q1 q2 s1 s2 r x J1 J2 Tb) as (v & T & I); [|exact H3|].
        - destruct Or as [-> |(l' & ->)]; [exact Rt|]. intros; discriminate.
        - exists v, T. destruct I. constructor; auto. rewrite in_app_iff. assumption. }
      destruct (choose_binary _ _ _ _ _ _) as [[|tr'|tl'|tl' tr']|] eqn:C; [| | | |discriminate].
      + destruct (ty_bin o t1 t2) eqn:T; [|discriminate]. injection Hp as <- <-.
        eapply Fin; eauto.
      + destruct (ty_bin o t1 tr') eqn:T; [|discriminate]. injection Hp as <- <-.
        eapply Fin; [exact IH1|eapply inv_convert; [|exact IH2]|exact T|auto].
        unfold choose_binary in C. destruct (is_some _); [discriminate|].
        destruct (first_true _ (convert_to t2)) as [y|] eqn:F.
        * injection C as ->. apply first_true_some in F. destruct F as (F & _).
          apply andb_prop in F. tauto.
        * destruct (first_true _ (convert_to t1)); [discriminate|].
          destruct (first_true _ (cartesian _ _)); discriminate.
      + destruct (ty_bin o tl' t2) eqn:T; [|discriminate]. injection Hp as <- <-.
        assert (Cc : can_convert t1 tl' = true).
        { unfold choose_binary in C. destruct (is_some _); [discriminate|].
          destruct (first_true _ (convert_to t2)) as [y|]; [discriminate|].
          destruct (first_true _ (convert_to t1)) as [y|] eqn:F.
          - injection C as ->. apply first_true_some in F. destruct F as (F & _).
            apply andb_prop in F. tauto.
          - destruct (first_true _ (cartesian _ _)); discriminate. }
        eapply Fin; [eapply inv_convert; [exact Cc|exact IH1]|exact IH2|exact T|].
        right. destruct (can_convert_inv _ _ Cc) as (l' & -> & _). eauto.
      + destruct (ty_bin o tl' tr') eqn:T; [|discriminate]. injection Hp as <- <-.
        unfold choose_binary in C. destruct (is_some _); [discriminate|].
        destruct (first_true _ (convert_to t2)) as [y|]; [discriminate|].
        destruct (first_true _ (convert_to t1)) as [y|]; [discriminate|].
        destruct (first_true _ (cartesian _ _)) as [[y z]|] eqn:F; [|discriminate].
        injection C as -> ->. apply first_true_some in F. destruct F as (F & _). cbn in F.
        apply andb_prop in F as (F & _). apply andb_prop in F as (F1 & F2).
        eapply Fin; [eapply inv_convert; [exact F1|exact IH1]|eapply inv_convert; [exact F2|exact IH2]|exact T|].
        right. destruct (can_convert_inv _ _ F1) as (l' & -> & _). eauto.
  Qed.
End Tree.
