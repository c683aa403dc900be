(** C01: the Jacobians are the derivatives of the evaluated expression. *)

From Coq Require Import Reals Lra Lia List Bool Arith Ratan.
From Verif Require Import Mat ModelMeta ModelJac SpecJac JacProofs NaryProofs V3 ModelLeaf SpecLeaf
  LeafProofs ModelExpr SpecExpr ExprProofs PropsExpr Calc SpecDeriv DerivProofs DerivUn DerivTree JacDef.
Import ListNotations.
Local Open Scope R_scope.
Local Open Scope mat_scope.

Local Arguments mvec : simpl never.

(** *** The box-plus motion moves with its velocity *)

Lemma v3d_lin v x : v3_deriv (fun s => vscal s v) x v.
Proof.
  eapply v3d_val; [apply v3d_scal; [apply dpl_id|apply v3d_const]|]. cbv beta.
  destruct v; unfold vadd, vscal, v0; cbn; f_equal; ring.
Qed.

Lemma vnorm2_scal s w : vnorm2 (vscal s w) = s * s * vnorm2 w.
Proof. destruct w; unfold vnorm2, vdot, vscal; cbn; ring. Qed.

(** V(s w)(s u) has velocity u at s = 0. *)
Lemma V_lin_deriv w u : v3_deriv (fun s => app3 (so3_V (vscal s w)) (vscal s u)) 0 u.
Proof.
  destruct (Req_EM_T (vnorm w) 0) as [E|E].
  { apply vnorm_eq0 in E. subst w.
    apply (v3d_near (fun s => vscal s u)); [|apply v3d_lin]. apply near_all. intros s.
    replace (vscal s v0) with v0 by (unfold vscal, v0; cbn; f_equal; ring).
    now rewrite so3_V_0, app3_i. }
  assert (N : 0 < vnorm2 w).
  { rewrite <- vnorm_sq. pose proof (vnorm_nonneg w). nra. }
  set (a := vcross w u). set (b := vscal (/ vnorm2 w) (vcross w (vcross w u))).
  pose proof (v3d_lin w 0) as Dl.
  assert (LA : forall e, 0 < e -> near (fun s => Rabs (eA (vscal s w) - 1) < e)).
  { intros e He. destruct (eA_limit e He) as (q & Hq & HA).
    apply (near_impl (fun s => vnorm2 (vscal s w) < q)); [auto|].
    eapply (dpl_near_lt (fun s => vnorm2 (vscal s w))); [apply dpl_norm2, Dl|].
    rewrite vnorm2_scal. lra. }
  assert (D1 : derivable_pt_lim (fun s => eA (vscal s w) * s) 0 1)
    by (apply (dpl_prod_1 (fun s => s)); [reflexivity|apply dpl_id|exact LA]).
  assert (D2 : derivable_pt_lim (fun s => eB (vscal s w) * (s * s)) 0 0).
  { apply dpl_prod_bounded with (M := 1 / 2); [ring| |apply near_all; intros; apply eB_bound].
    eapply dpl_val; [apply dpl_mult; apply dpl_id|]. cbv beta. ring. }
  apply (v3d_near (fun s => vadd (vscal s u) (vadd (vscal (eB (vscal s w) * (s * s)) a)
                              (vscal (s - eA (vscal s w) * s) b)))).
  - apply near_all. intros s.
    destruct (Req_EM_T s 0) as [-> |Hs].
    { replace (vscal 0 w) with v0 by (destruct w; unfold vscal, v0; cbn; f_equal; ring).
      rewrite so3_V_0, app3_i. generalize a, b, (eA v0), (eB v0). clear.
      intros [? ? ?] [? ? ?] x y. destruct u. unfold vadd, vscal; cbn; f_equal; ring. }
    assert (Hn : vscal s w <> v0).
    { intros H. pose proof (vnorm2_scal s w) as H'. rewrite H in H'.
      replace (vnorm2 v0) with 0 in H' by (unfold vnorm2, vdot, v0; cbn; ring).
      assert (0 < s * s) by (apply Rsqr_pos_lt; exact Hs).
      pose proof (Rmult_lt_0_compat _ _ H0 N). lra. }
    assert (Hz : vnorm (vscal s w) <> 0) by (intros H; apply Hn, vnorm_eq0, H).
    rewrite so3_V_cB by exact Hn. unfold cC, eA, eB.
    destruct (Req_EM_T (vnorm (vscal s w)) 0) as [H|_]; [contradiction|].
    rewrite vnorm2_scal. unfold a, b. generalize (cB (vscal s w)), (cA (vscal s w)).
    clear - N Hs. intros x y. generalize dependent (vnorm2 w). intros k N.
    destruct w as [w1 w2 w3], u as [u1 u2 u3]. unfold rodrigues. v3unf. f_equal; field; lra.
  - eapply v3d_val.
    + apply v3d_add; [apply v3d_lin|apply v3d_add; apply v3d_scal; try apply v3d_const];
        [exact D2|apply dpl_minus; [apply dpl_id|exact D1]].
    + cbv beta. generalize a, b. clear. intros [? ? ?] [? ? ?]. destruct u.
      unfold vadd, vscal, v0; cbn; f_equal; ring.
Qed.

Lemma dpert_0 x d : dpert x d 0 = x.
Proof.
  assert (Z : forall v, vscal 0 v = v0) by (intros []; unfold vscal, v0; cbn; f_equal; ring).
  assert (A : forall v, vadd v v0 = v) by (intros []; unfold vadd, v0; cbn; f_equal; ring).
  destruct x; cbn; rewrite ?Z, ?A, ?so3_exp_0, ?so3_V_0, ?mul3_i_l, ?app3_i, ?A; try reflexivity.
  f_equal. ring.
Qed.

Lemma v3d_line v w : v3_deriv (fun s => vadd v (vscal s w)) 0 w.
Proof.
  eapply v3d_val; [apply v3d_add; [apply v3d_const|apply v3d_lin]|].
  destruct w; unfold vadd, v0; cbn; f_equal; ring.
Qed.

Lemma dpert_moves x d : dvalid x -> moves (dpert x d) d.
Proof.
  intros V.
  assert (N : near (fun s => dkind (dpert x d s) = dkind (dpert x d 0) /\ dvalid (dpert x d s))).
  { apply near_all. intros s. rewrite dpert_0. destruct x; cbn; split; auto;
      apply is_rot_mul; auto; apply so3_exp_is_rot. }
  split; [exact N|]. rewrite dpert_0.
  pose proof (so3_exp_deriv _ _ (v3d_lin (tv d) 0)) as DE. cbv beta in DE.
  assert (Z : forall v, vscal 0 v = v0) by (intros []; unfold vscal, v0; cbn; f_equal; ring).
  rewrite Z, so3_V_0, app3_i, so3_exp_0, mul3_i_r in DE.
  assert (L : forall y w i, (i < 3)%nat -> v3_deriv (fun s => vadd y (vscal s (tv w))) 0 (tv w) ->
     derivable_pt_lim (fun s => vget (vadd y (vscal s (tv w))) i) 0 (w i)).
  { intros y w i Hi (A & B & C). lt3 i; assumption. }
  destruct x; cbn [dkind]; cbn in V.
  - intros i Hi. cbn in Hi. destruct i; [|lia]. cbn.
    eapply dpl_val; [apply dpl_plus; [apply dpl_const|apply dpl_mult; [apply dpl_id|apply dpl_const]]|]. cbv beta. ring.
  - intros i Hi. pose proof (v3d_line v (tv d)) as (A & B & C). cbn in A, B, C, Hi. lt3 i; assumption.
  - intros i Hi. pose proof (v3d_line v (tv d)) as (A & B & C). cbn in A, B, C, Hi. lt3 i; assumption.
  - intros i Hi. pose proof (v3d_line v (tv d)) as (A & B & C). cbn in A, B, C, Hi. lt3 i; assumption.
  - intros i Hi. pose proof (v3d_line w (tv d)) as (A & B & C). pose proof (v3d_line u (tw d)) as (A' & B' & C').
    cbn in A, B, C, A', B', C', Hi. lt6 i; assumption.
  - cbn [dpert drot]. eapply m3d_val; [apply m3d_mul; [exact DE|apply m3d_const]|]. cbv beta.
    rewrite Z, so3_exp_0. generalize (skew (tv d)). clear. intros. v3ring.
  - cbn [dpert drot dtr]. split.
    + eapply m3d_val; [apply m3d_mul; [exact DE|apply m3d_const]|]. cbv beta.
      rewrite Z, so3_exp_0. generalize (skew (tv d)). clear. intros. v3ring.
    + eapply v3d_val; [apply v3d_add; [apply v3d_app; [exact DE|apply v3d_const]|apply V_lin_deriv]|].
      cbv beta. rewrite Z, so3_exp_0, skew_app. generalize (tv d), (tw d). clear. intros. v3ring.
Qed.
(** *** A motion has one velocity *)

Lemma moves_near r r' d : near (fun s => r s = r' s) -> moves r d -> moves r' d.
Proof.
  intros N (H & D). pose proof (near_0 _ N) as E0. cbv beta in E0.
  assert (N' : near (fun s => dkind (r' s) = dkind (r' 0) /\ dvalid (r' s))).
  { apply (near_impl2 _ _ _) with (2 := N) (3 := H). intros s <- (A & B). rewrite <- E0. auto. }
  split; [exact N'|]. rewrite <- E0.
  assert (R : forall A (f : dval -> A), near (fun s => f (r s) = f (r' s))).
  { intros A f. apply (near_impl _ _) with (2 := N). intros s ->. reflexivity. }
  destruct (dkind (r 0)); try (intros i Hi; apply (dpl_near _ _ _ (R _ (fun x => dcoord x i))), D, Hi).
  - exact (m3d_near _ _ _ (R _ drot) D).
  - destruct D as (D1 & D2). split.
    + exact (m3d_near _ _ _ (R _ drot) D1).
    + exact (v3d_near _ _ _ (R _ dtr) D2).
Qed.

Lemma tv_inj d d' : tv d = tv d' -> forall i, (i < 3)%nat -> d i = d' i.
Proof. unfold tv. intros E i Hi. injection E as E1 E2 E3. lt3 i; assumption. Qed.

Lemma moves_unique r d d' : moves r d -> moves r d' ->
  forall i, (i < tsize (dkind (r 0%R)))%nat -> d i = d' i.
Proof.
  intros M M'. destruct (dkind (r 0)) eqn:K.
  1-5: destruct M as (_ & D), M' as (_ & D'); rewrite K in D, D';
    intros i Hi; exact (dpl_unique _ _ _ _ (D i Hi) (D' i Hi)).
  - destruct (moves_rot _ _ M K) as (N & D). destruct (moves_rot _ _ M' K) as (_ & D').
    pose proof (near_0 _ N) as (_ & R0).
    apply tv_inj. apply (rot_mul_inj _ _ _ R0). exact (m3d_unique _ _ _ _ D D').
  - destruct (moves_rt _ _ M K) as (N & D & T). destruct (moves_rt _ _ M' K) as (_ & D' & T').
    pose proof (near_0 _ N) as (_ & R0).
    assert (E : tv d = tv d') by (apply (rot_mul_inj _ _ _ R0); exact (m3d_unique _ _ _ _ D D')).
    assert (E' : tw d = tw d').
    { pose proof (v3d_unique _ _ _ _ T T') as X. rewrite E in X. revert X.
      generalize (vcross (tv d') (dtr (r 0))), (tw d), (tw d'). clear. intros [x y z] [a b c] [a' b' c'].
      unfold vadd. cbn. intros [= H1 H2 H3]. f_equal; lra. }
    unfold tv in E. unfold tw in E'. injection E as E1 E2 E3. injection E' as E4 E5 E6.
    cbn. intros i Hi. lt6 i; assumption.
Qed.

Lemma moves_opt_unique f x d d' : moves_opt f d -> moves_opt f d' -> f 0 = Some x ->
  forall i, (i < tsize (dkind x))%nat -> d i = d' i.
Proof.
  intros (r & N & M) (r' & N' & M') F0.
  assert (E : near (fun s => r s = r' s)).
  { apply (near_impl2 _ _ _) with (2 := N) (3 := N'). intros s A B. congruence. }
  pose proof (near_0 _ N) as X. cbv beta in X.
  intros i Hi. apply (moves_unique r').
  - exact (moves_near _ _ _ E M).
  - exact M'.
  - pose proof (near_0 _ E) as Y. cbv beta in Y. rewrite <- Y. congruence.
Qed.

(** *** Trees of prepared expressions *)

Fixpoint xleaves (e : expr) : list (nat * ty) :=
  match e with
  | XLeaf a t => [(a, t)]
  | XUn _ e => xleaves e
  | XBin _ l r => xleaves l ++ xleaves r
  end%list.

Lemma xconvert_leaves t p : xleaves (xconvert t p) = xleaves p.
Proof. destruct t; reflexivity. Qed.

Lemma prepare_leaves e : forall p t, prepare e = Some (p, t) -> xleaves p = xleaves e.
Proof.
  induction e as [b t0|o e IH|o e1 IH1 e2 IH2]; intros p t Hp; cbn in Hp.
  - injection Hp as <- <-. reflexivity.
  - destruct (prepare e) as [[p' t']|]; [|discriminate]. specialize (IH _ _ eq_refl).
    destruct (choose_unary _ _ _ _) as [[|t'']|]; [| |discriminate];
      [destruct (ty_un o t')|destruct (ty_un o t'')]; try discriminate; injection Hp as <- <-;
      cbn; rewrite ?xconvert_leaves; exact IH.
  - destruct (prepare e1) as [[p1 t1]|]; [|discriminate].
    destruct (prepare e2) as [[p2 t2]|]; [|discriminate].
    specialize (IH1 _ _ eq_refl). specialize (IH2 _ _ eq_refl).
    destruct (choose_binary _ _ _ _ _ _) as [[|tr'|tl'|tl' tr']|]; [| | | |discriminate];
      match type of Hp with context [ty_bin o ?x ?y] => destruct (ty_bin o x y) end;
      try discriminate; injection Hp as <- <-; cbn; rewrite ?xconvert_leaves, IH1, IH2; reflexivity.
Qed.

Lemma prepare_to_leaves dest e p t : prepare_to dest e = Some (p, t) -> xleaves p = xleaves e.
Proof.
  unfold prepare_to. destruct (prepare e) as [[p0 t0]|] eqn:E; [|discriminate].
  destruct (ty_eqb dest t0).
  - intros [= <- <-]. eapply prepare_leaves; eauto.
  - destruct dest; try discriminate. intros H. apply prepare_leaves in H. exact H.
Qed.

Lemma tree_leaves eps na m p : forall v T, tree eps na m p = Some (v, T) ->
  leaves T = map (fun x => leaf_obj (fst x) (snd x)) (xleaves p) /\
  (forall x, In x (node_addrs T) -> x = na).
Proof.
  induction p as [b t0|o p IH|o p1 IH1 p2 IH2]; intros v T H; cbn in H.
  - injection H as <- <-. split; [reflexivity|]. intros x [].
  - destruct (tree eps na m p) as [[v' T']|]; [|discriminate].
    destruct (IH _ _ eq_refl) as (L & N).
    destruct (sem_un eps o v'); [|discriminate]. injection H as <- <-. split; [exact L|].
    cbn. intros x [<-|Hx]; auto.
  - destruct (tree eps na m p1) as [[v1 T1]|]; [|discriminate].
    destruct (tree eps na m p2) as [[v2 T2]|]; [|discriminate].
    destruct (IH1 _ _ eq_refl) as (L1 & N1). destruct (IH2 _ _ eq_refl) as (L2 & N2).
    destruct (sem_bin o v1 v2); [|discriminate]. injection H as <- <-. split.
    + cbn. rewrite map_app. congruence.
    + cbn. intros x [<-|Hx]; [reflexivity|]. apply in_app_iff in Hx as [Hx|Hx]; auto.
Qed.

Lemma xleaves_addrs e : map fst (xleaves e) = leaf_addrs e.
Proof. induction e; cbn; auto. rewrite map_app. congruence. Qed.
Lemma xleaves_ty m e : env_ok m e -> forall x, In x (xleaves e) -> snd x = vty (m (fst x)).
Proof.
  induction e; cbn; intros H x Hx.
  - destruct Hx as [<-|[]]. cbn. symmetry. tauto.
  - auto.
  - apply in_app_iff in Hx as [Hx|Hx]; [apply IHe1|apply IHe2]; tauto.
Qed.
Lemma tree_leaves_env eps na m p e v T : env_ok m e -> xleaves p = xleaves e ->
  tree eps na m p = Some (v, T) -> leaves T = map (fun b => leaf_obj b (vty (m b))) (leaf_addrs e).
Proof.
  intros H X E. destruct (tree_leaves _ _ _ _ _ _ E) as (L & _). rewrite L, X, <- xleaves_addrs, map_map.
  apply map_ext_in. intros x Hx. now rewrite (xleaves_ty m e H x Hx).
Qed.

Section Core.
  Variables (eps : R) (na : nat) (m : env) (e : expr) (k : kind) (a : nat) (l : lty) (x : dval).
  Hypothesis He : 0 <= eps < 1.
  Hypothesis G : good eps m e k.
  Hypothesis Hx : means eps m e = Some x.
  Hypothesis Ha : In a (leaf_addrs e).
  Hypothesis Hl : vty (m a) = Plain l.
  Hypothesis Hs : smooth eps (fun b => den (m b)) a e.

  Let tgt := leaf_obj a (Plain l).

  Lemma core_x : deval eps (fun b => den (m b)) e = Some x.
  Proof. rewrite <- (good_means eps m e k (proj1 He) G). exact Hx. Qed.

  Lemma core_m : valid (m a).
  Proof.
    destruct G as (_ & E & _). revert E Ha. clear. induction e; cbn.
    - intros H [<-|[]]. tauto.
    - auto.
    - intros (A & B) H. apply in_app_iff in H as [H|H]; auto.
  Qed.

  Lemma core_at0 c : c 0 = den (m a) ->
    deval eps (dupd (fun b => den (m b)) a (c 0)) e = Some x.
  Proof.
    intros C. rewrite <- core_x. apply deval_ext.
    - clear. induction e; cbn; auto.
    - intros b _. unfold dupd. destruct (Nat.eqb_spec b a); [subst; exact C|reflexivity].
  Qed.

  Lemma core_prepare p t : prepare e = Some (p, t) -> exists v T,
    tree eps na m p = Some (v, T) /\ wf_tree T /\ edim T = vdim v /\ vkind v = k /\ valid v /\
    In tgt (leaves T) /\ is_derivative eps m e a (true_jacobian tgt T).
  Proof.
    intros P. destruct G as (Gk & Ge & Gx).
    assert (Inv : forall c d, c 0 = den (m a) -> moves c d ->
      inv eps na m a l d (fun s => deval eps (dupd (fun b => den (m b)) a (c s)) e)
        (In a (leaf_addrs e)) p t).
    { intros c d C M. apply (tree_moves eps (proj1 He) (proj2 He) na m a l c d C Hl M e p t x); auto.
      apply core_x. }
    destruct (Inv (dpert (den (m a)) (fun _ => 0)) (fun _ => 0)) as (v & T & I);
      [apply dpert_0|apply dpert_moves, valid_dvalid, core_m|].
    exists v, T. destruct I as [I1 I2 I3 I4 I5 I6 I7 I8 I9 I10].
    assert (Kv : vkind v = k).
    { unfold vkind. rewrite I2. exact (proj2 (prepare_kind _ _ _ _ P Gk)). }
    repeat split; auto.
    - apply I7, Ha.
    - intros c d C M. destruct (Inv c d C M) as (v' & T' & J). destruct J as [J1 _ _ _ _ _ _ _ _ J10].
      rewrite I1 in J1. injection J1 as <- <-. exact J10.
  Qed.
End Core.

Lemma core_convert eps na m e k a l x l' p t : 0 <= eps < 1 -> good eps m e k ->
  means eps m e = Some x -> In a (leaf_addrs e) -> vty (m a) = Plain l ->
  smooth eps (fun b => den (m b)) a e -> kind_of l' = k ->
  prepare (XUn (OConvert l') e) = Some (p, t) -> exists v T,
    tree eps na m p = Some (v, T) /\ wf_tree T /\ edim T = vdim v /\ vkind v = k /\ valid v /\
    In (leaf_obj a (Plain l)) (leaves T) /\
    is_derivative eps m e a (true_jacobian (leaf_obj a (Plain l)) T).
Proof.
  intros He G Hx Ha Hl Hs Kl P.
  assert (Kr : kind_eqb k k = true) by now apply kind_eqb_eq.
  pose proof (good_deval eps m e k x (proj1 He) G (core_x _ _ _ _ _ He G Hx)) as (Kx & Vx).
  assert (G' : good eps m (XUn (OConvert l') e) k).
  { apply (good_un eps m (OConvert l') e k k G); [|discriminate]. cbn. now rewrite Kl, Kr. }
  assert (Hx' : means eps m (XUn (OConvert l') e) = Some x).
  { rewrite (good_means eps m _ k (proj1 He) G'). cbn [deval]. rewrite (core_x _ _ _ _ _ He G Hx).
    cbn [dsem_un]. rewrite Kl, Kx, Kr. reflexivity. }
  assert (Hs' : smooth eps (fun b => den (m b)) a (XUn (OConvert l') e)).
  { cbn. split; [exact Hs|]. intros _ y _. destruct y; exact I. }
  destruct (core_prepare eps na m (XUn (OConvert l') e) k a l x He G' Hx' Ha Hl Hs' p t P)
    as (v & T & H1 & H2 & H3 & H4 & H5 & H6 & H7).
  exists v, T. repeat split; auto.
  intros c d C M. destruct (H7 c d C M) as (r & N & Mr). exists r. split; [|exact Mr].
  pose proof (moves_kind _ _ Mr) as Nk.
  pose proof (near_0 _ N) as E0. cbv beta in E0.
  rewrite (core_at0 eps m (XUn (OConvert l') e) k a x He G' Hx' c C) in E0. injection E0 as E0.
  apply (near_impl2 _ _ _) with (2 := N) (3 := Nk). intros s A B. cbn [deval] in A.
  destruct (deval eps (dupd (fun b => den (m b)) a (c s)) e) as [y|]; [|discriminate].
  cbn [dsem_un] in A. destruct (kind_eqb (kind_of l') (dkind y)); [|discriminate]. exact A.
Qed.

(** *** C01 *)

Theorem c01_jacobian_is_derivative : forall eps na m e k a l x, 0 <= eps < 1 ->
  good eps m e k -> means eps m e = Some x ->
  In a (leaf_addrs e) -> vty (m a) = Plain l -> smooth eps (fun b => den (m b)) a e ->
  expr_jacobian_defined eps m e a = true /\
  exists J, expr_jacobian eps na m e (leaf_obj a (Plain l)) = Some (Ok J) /\
    has_shape (tsize k) (tsize (kind_of l)) J /\ is_derivative eps m e a J.
Proof.
  intros eps na m e k a l x He G Hx Ha Hl Hs.
  split.
  { unfold expr_jacobian_defined. destruct (prepare_total e k (proj1 G)) as (p & t & P & _ & _).
    rewrite P. destruct G as (Gk & Ge & Gx).
    destruct (smooth_defined eps (proj1 He) m a l Hl e p t x P Ge Gx Hs) as (v & _ & _ & _ & _ & _ & D);
      [|exact D]. apply (core_x eps m e k x He); auto. repeat split; assumption. }
  destruct (prepare_total e k (proj1 G)) as (p & t & P & _ & _).
  destruct (core_prepare eps na m e k a l x He G Hx Ha Hl Hs p t P)
    as (v & T & H1 & H2 & H3 & H4 & H5 & H6 & H7).
  destruct (jacobian_correct _ T H2 H6) as (J & EJ & HJ).
  exists J. unfold expr_jacobian. rewrite P, H1, EJ. split; [reflexivity|]. split.
  - pose proof (true_jacobian_shape (leaf_obj a (Plain l)) T H2) as (A & B).
    destruct HJ as (R & C & _). rewrite A in R. rewrite B in C. rewrite H3 in R. unfold vdim in R.
    rewrite H4 in R. split; assumption.
  - intros c d C M. pose proof (H7 c d C M) as U.
    apply (mo_ext _ _ _ k U).
    + intros y Ey. rewrite (core_at0 eps m e k a x He G Hx c C) in Ey. injection Ey as <-.
      apply (good_deval eps m e k x (proj1 He) G (core_x _ _ _ _ _ He G Hx)).
    + intros i _. apply mvec_meq. symmetry. exact HJ.
Qed.
Print Assumptions c01_jacobian_is_derivative.

(** The property determines the matrix: the derivative is unique. *)
Theorem c01_derivative_unique : forall eps m e k a l x J J', 0 <= eps < 1 ->
  good eps m e k -> means eps m e = Some x ->
  In a (leaf_addrs e) -> vty (m a) = Plain l ->
  has_shape (tsize k) (tsize (kind_of l)) J -> has_shape (tsize k) (tsize (kind_of l)) J' ->
  is_derivative eps m e a J -> is_derivative eps m e a J' -> J == J'.
Proof.
  intros eps m e k a l x J J' He G Hx Ha Hl (R & C) (R' & C') D D'.
  pose proof (core_m eps m e k a G Ha) as V.
  pose proof (good_deval eps m e k x (proj1 He) G (core_x _ _ _ _ _ He G Hx)) as (Kx & _).
  split; [congruence|]. split; [congruence|]. intros i j Hi Hj.
  set (d := fun q : nat => if (q =? j)%nat then 1 else 0).
  set (c := dpert (den (m a)) d).
  assert (C0 : c 0 = den (m a)) by apply dpert_0.
  pose proof (dpert_moves (den (m a)) d (valid_dvalid _ V)) as M.
  pose proof (moves_opt_unique _ x _ _ (D c d C0 M) (D' c d C0 M)
    (core_at0 eps m e k a x He G Hx c C0)) as U.
  rewrite Kx, <- R in U. specialize (U i Hi).
  assert (S : forall A, mcols A = mcols J -> mvec A d i = mnth A i j).
  { intros A E. unfold mvec. rewrite (rsum_single _ j).
    - unfold d. rewrite Nat.eqb_refl. ring.
    - rewrite E. exact Hj.
    - intros q _ Hq. unfold d. destruct (Nat.eqb_spec q j); [contradiction|ring]. }
  rewrite !S in U by congruence. rewrite !mnth_in in U; [exact U| | | |]; congruence.
Qed.
Print Assumptions c01_derivative_unique.

Lemma is_derivative_meq eps m e k a x J J' : 0 <= eps < 1 -> good eps m e k ->
  means eps m e = Some x -> J == J' -> is_derivative eps m e a J -> is_derivative eps m e a J'.
Proof.
  intros He G Hx E D c d C M. apply (mo_ext _ _ _ k (D c d C M)).
  - intros y Ey. rewrite (core_at0 eps m e k a x He G Hx c C) in Ey. injection Ey as <-.
    apply (good_deval eps m e k x (proj1 He) G (core_x _ _ _ _ _ He G Hx)).
  - intros i _. now apply mvec_meq.
Qed.

(** The tree used by the calls that also return the value. *)
Lemma core_prepare_to eps na m e k a l x p t p' t' : 0 <= eps < 1 -> good eps m e k ->
  means eps m e = Some x -> In a (leaf_addrs e) -> vty (m a) = Plain l ->
  smooth eps (fun b => den (m b)) a e ->
  prepare e = Some (p, t) -> prepare_to (plain_output t) e = Some (p', t') -> exists v T,
    tree eps na m p' = Some (v, T) /\ wf_tree T /\ edim T = vdim v /\ vkind v = k /\ valid v /\
    In (leaf_obj a (Plain l)) (leaves T) /\
    is_derivative eps m e a (true_jacobian (leaf_obj a (Plain l)) T).
Proof.
  intros He G Hx Ha Hl Hs P P'. pose proof (prepare_kind _ _ _ _ P (proj1 G)) as (_ & K).
  unfold prepare_to in P'. rewrite P in P'. destruct (ty_eqb (plain_output t) t).
  - injection P' as <- <-. exact (core_prepare eps na m e k a l x He G Hx Ha Hl Hs p t P).
  - cbn in P'. apply (core_convert eps na m e k a l x (ty_leaf t) p' t'); auto.
Qed.

(** evalWithJacobians(x), the dynamic forward and the dynamic reverse calls return a
    matrix equal to that of jacobian(x), hence the derivative.  (For the dynamic calls,
    which identify objects by bare address: provided no operation node shares the
    target's address.) *)
Theorem c01_other_modes_same_matrix : forall eps na g m e k a l x J, 0 <= eps < 1 ->
  good eps m e k -> means eps m e = Some x ->
  In a (leaf_addrs e) -> vty (m a) = Plain l -> smooth eps (fun b => den (m b)) a e ->
  expr_jacobian eps na m e (leaf_obj a (Plain l)) = Some (Ok J) ->
  (exists v J1, expr_evalWithJacobian eps na m e (leaf_obj a (Plain l)) = Some (v, Ok J1) /\
     den v = x /\ J1 == J) /\
  (na <> a -> exists v J2,
     expr_evaluateWithDynamic eps na m e (leaf_obj a (Plain l)) = Some (v, J2) /\
     den v = x /\ J2 == J) /\
  (exists v mm J3,
     expr_evaluateWithDynamicReverse eps g na m e = Some (v, Some mm) /\ den v = x /\
     mm_at mm a = Some J3 /\ J3 == J).
Proof.
  intros eps na g m e k a l x J He G Hx Ha Hl Hs HJ.
  destruct (c01_jacobian_is_derivative eps na m e k a l x He G Hx Ha Hl Hs) as (_ & J0 & E0 & S0 & D0).
  rewrite HJ in E0. injection E0 as <-.
  destruct (prepare_total e k (proj1 G)) as (p & t & P & _ & Kt).
  destruct (prepare_to_total e (ty_leaf t) k (proj1 G) Kt) as (p' & P').
  change (Plain (ty_leaf t)) with (plain_output t) in P'.
  destruct (core_prepare_to eps na m e k a l x p t p' _ He G Hx Ha Hl Hs P P')
    as (v & T & H1 & H2 & H3 & H4 & H5 & H6 & H7).
  set (tgt := leaf_obj a (Plain l)) in *.
  assert (Sh : has_shape (tsize k) (tsize (kind_of l)) (true_jacobian tgt T)).
  { pose proof (true_jacobian_shape tgt T H2) as X. rewrite H3 in X. unfold vdim in X.
    rewrite H4 in X. exact X. }
  assert (EQ : true_jacobian tgt T == J)
    by exact (c01_derivative_unique eps m e k a l x _ _ He G Hx Ha Hl Sh S0 H7 D0).
  assert (Dv : den v = x).
  { pose proof (prepare_to_sound eps (proj1 He) m e _ _ _ k P' (proj1 G)) as X.
    destruct X as (_ & X1 & _); [apply G|apply G|].
    rewrite <- (tree_value eps na m p'), H1, (core_x _ _ _ _ _ He G Hx) in X1. cbn in X1. congruence. }
  pose proof (tree_leaves_env eps na m p' e v T (proj1 (proj2 G)) (prepare_to_leaves _ _ _ _ P') H1) as L.
  assert (Un : forall q, In q (leaves T) -> l_addr q = a -> q = tgt).
  { rewrite L. intros q Hq Eq. apply in_map_iff in Hq as (b & <- & _). cbn in Eq. subst b.
    rewrite Hl. reflexivity. }
  split; [|split].
  - destruct (evalWithJacobian_correct tgt T H2 H6) as (J1 & E1 & Q1).
    exists v, J1. unfold expr_evalWithJacobian. rewrite P, P', H1, E1. split; [reflexivity|].
    split; [exact Dv|]. now rewrite Q1.
  - intros Hna. exists v, (evaluateDynamicJacobian tgt T). unfold expr_evaluateWithDynamic.
    rewrite P, P', H1. split; [reflexivity|]. split; [exact Dv|].
    rewrite evaluateDynamicJacobian_correct; [exact EQ|exact H2| |apply tsize_pos].
    split; [|exact Un]. intros Hi. apply Hna. symmetry.
    exact (proj2 (tree_leaves _ _ _ _ _ _ H1) _ Hi).
  - destruct (dynreverse_correct g T H2) as (mm & Hm & M1 & _).
    { intros q q' Hq Hq' E. rewrite L in Hq, Hq'. apply in_map_iff in Hq as (b & <- & _).
      apply in_map_iff in Hq' as (b' & <- & _). cbn in E. now subst b'. }
    destruct (M1 tgt H6) as (J3 & E3 & Q3). exists v, mm, J3.
    unfold expr_evaluateWithDynamicReverse. rewrite P, P', H1, Hm. split; [reflexivity|].
    split; [exact Dv|]. split; [exact E3|]. now rewrite Q3.
Qed.
Print Assumptions c01_other_modes_same_matrix.

(** evalWithJacobians(): one matrix per leaf, in order of the leaves; each is the
    derivative with respect to its leaf. *)
Theorem c01_reverse_is_derivative : forall eps na m e k x, 0 <= eps < 1 ->
  good eps m e k -> means eps m e = Some x ->
  NoDup (map (fun b => vty (m b)) (leaf_addrs e)) ->
  (exists a l, In a (leaf_addrs e) /\ vty (m a) = Plain l /\ smooth eps (fun b => den (m b)) a e) ->
  exists v js, expr_evalWithJacobians eps na m e = Some (v, Some js) /\ den v = x /\
    length js = length (leaf_addrs e) /\
    forall i a l, nth_error (leaf_addrs e) i = Some a -> vty (m a) = Plain l ->
      smooth eps (fun b => den (m b)) a e ->
      exists J, nth_error js i = Some J /\ has_shape (tsize k) (tsize (kind_of l)) J /\
        is_derivative eps m e a J.
Proof.
  intros eps na m e k x He G Hx Hn (a0 & l0 & Ha0 & Hl0 & Hs0).
  destruct (prepare_total e k (proj1 G)) as (p & t & P & _ & Kt).
  destruct (prepare_to_total e (ty_leaf t) k (proj1 G) Kt) as (p' & P').
  change (Plain (ty_leaf t)) with (plain_output t) in P'.
  destruct (core_prepare_to eps na m e k a0 l0 x p t p' _ He G Hx Ha0 Hl0 Hs0 P P')
    as (v & T & H1 & H2 & H3 & H4 & H5 & H6 & H7).
  assert (Dv : den v = x).
  { pose proof (prepare_to_sound eps (proj1 He) m e _ _ _ k P' (proj1 G)) as X.
    destruct X as (_ & X1 & _); [apply G|apply G|].
    rewrite <- (tree_value eps na m p'), H1, (core_x _ _ _ _ _ He G Hx) in X1. cbn in X1. congruence. }
  pose proof (tree_leaves_env eps na m p' e v T (proj1 (proj2 G)) (prepare_to_leaves _ _ _ _ P') H1) as L.
  assert (U : unique_types T).
  { unfold unique_types. rewrite L, map_map. cbn [l_type leaf_obj]. clear - Hn.
    induction (leaf_addrs e) as [|b q IH]; cbn in *; [constructor|].
    inversion Hn as [|? ? N1 N2]; subst. constructor; [|auto].
    intros H. apply N1. apply in_map_iff in H as (b' & E & Hb'). apply in_map_iff. exists b'.
    split; [|exact Hb'].
    revert E. generalize (vty (m b')), (vty (m b)). clear. intros t1 t2 E.
    assert (C : ty_code t1 = ty_code t2) by congruence. clear E. revert C.
    destruct t1 as [l|l|l], t2 as [l'|l'|l']; destruct l, l'; cbn; intros C;
      first [reflexivity|exfalso; discriminate C]. }
  destruct (reverse_correct T H2 U) as (js & Ejs & Heq).
  exists v, js. unfold expr_evalWithJacobians. rewrite P, P', H1, Ejs. split; [reflexivity|].
  split; [exact Dv|].
  assert (Len : length js = length (leaf_addrs e)).
  { rewrite <- (map_length (fun b => leaf_obj b (vty (m b))) (leaf_addrs e)), <- L.
    rewrite <- (map_length (fun t => true_jacobian t T) (leaves T)).
    clear - Heq. induction Heq; cbn; auto. }
  split; [exact Len|]. intros i a l Hi Hl Hs.
  pose proof (nth_error_In _ _ Hi) as Ha.
  destruct (core_prepare_to eps na m e k a l x p t p' _ He G Hx Ha Hl Hs P P')
    as (v' & T' & K1 & _ & _ & _ & _ & _ & K7).
  rewrite H1 in K1. injection K1 as <- <-.
  assert (Hn' : nth_error (map (fun t => true_jacobian t T) (leaves T)) i
     = Some (true_jacobian (leaf_obj a (Plain l)) T)).
  { rewrite L, map_map, nth_error_map, Hi. cbn. now rewrite Hl. }
  assert (X : exists J, nth_error js i = Some J /\ J == true_jacobian (leaf_obj a (Plain l)) T).
  { revert Hn'. generalize (true_jacobian (leaf_obj a (Plain l)) T) as B. clear - Heq. revert i.
    induction Heq as [|y z q q' Hyz _ IH]; intros [|i] B Hn; cbn in *; try discriminate.
    - injection Hn as <-. eauto.
    - eauto. }
  destruct X as (J & EJ & QJ). exists J. split; [exact EJ|]. split.
  - destruct QJ as (R & C & _). pose proof (true_jacobian_shape (leaf_obj a (Plain l)) T H2) as (R' & C').
    rewrite R' in R. rewrite C' in C. rewrite H3 in R. unfold vdim in R. rewrite H4 in R. split; assumption.
  - apply (is_derivative_meq eps m e k a x (true_jacobian (leaf_obj a (Plain l)) T)); auto.
    now symmetry.
Qed.
Print Assumptions c01_reverse_is_derivative.

(** The value that eval() returns moves with velocity J d when the leaf object itself is
    changed along a curve of valid values (with exponentials in their exact branch). *)
Theorem c01_computed_value_moves : forall eps na m e k a l x, 0 <= eps < 1 ->
  good eps m e k -> means eps m e = Some x ->
  In a (leaf_addrs e) -> vty (m a) = Plain l -> smooth eps (fun b => den (m b)) a e ->
  exists J, expr_jacobian eps na m e (leaf_obj a (Plain l)) = Some (Ok J) /\
    forall (c : R -> value) d, c 0 = m a -> moves (fun s => den (c s)) d ->
      near (fun s => vty (c s) = Plain l /\ valid (c s) /\
                     exps_exact eps (fun b => den (upd m a (c s) b)) e) ->
      moves_opt (fun s => means eps (upd m a (c s)) e) (mvec J d).
Proof.
  intros eps na m e k a l x He G Hx Ha Hl Hs.
  destruct (c01_jacobian_is_derivative eps na m e k a l x He G Hx Ha Hl Hs) as (_ & J & E & S & D).
  exists J. split; [exact E|]. intros c d C M N.
  apply mo_near with (c := fun s => deval eps (dupd (fun b => den (m b)) a (den (c s))) e).
  2:{ apply (D (fun s => den (c s)) d); [now rewrite C|exact M]. }
  apply (near_impl _ _) with (2 := N). intros s (T & V & X).
  assert (G' : good eps (upd m a (c s)) e k).
  { split; [apply G|]. split; [|exact X]. destruct G as (_ & En & _).
    revert En. clear - T V Hl. induction e as [b t|o e IH|o e1 IH1 e2 IH2]; cbn.
    - unfold upd. destruct (Nat.eqb_spec b a); [|auto]. subst b. rewrite Hl. intros (<- & _). auto.
    - auto.
    - tauto. }
  rewrite (good_means eps _ e k (proj1 He) G'). apply deval_ext.
  - clear. induction e; cbn; auto.
  - intros b _. unfold dupd, upd. destruct (b =? a)%nat; reflexivity.
Qed.
Print Assumptions c01_computed_value_moves.

(** *** C45: a conversion of the result does not change the Jacobian *)
Theorem c45_conversion_same_jacobian : forall eps na m e k a l l' x, 0 <= eps < 1 ->
  good eps m e k -> means eps m e = Some x -> kind_of l' = k ->
  In a (leaf_addrs e) -> vty (m a) = Plain l -> smooth eps (fun b => den (m b)) a e ->
  exists J J', expr_jacobian eps na m e (leaf_obj a (Plain l)) = Some (Ok J) /\
    expr_jacobian eps na m (XUn (OConvert l') e) (leaf_obj a (Plain l)) = Some (Ok J') /\
    J == J'.
Proof.
  intros eps na m e k a l l' x He G Hx Kl Ha Hl Hs.
  destruct (c01_jacobian_is_derivative eps na m e k a l x He G Hx Ha Hl Hs) as (_ & J & E & S & D).
  assert (Kr : kind_eqb k k = true) by now apply kind_eqb_eq.
  assert (Ek : ekind (XUn (OConvert l') e) = Some k)
    by (cbn [ekind]; rewrite (proj1 G); cbn; rewrite Kl, Kr; reflexivity).
  destruct (prepare_total (XUn (OConvert l') e) k Ek) as (p & t & P & _ & _).
  destruct (core_convert eps na m e k a l x l' p t He G Hx Ha Hl Hs Kl P)
    as (v & T & H1 & H2 & H3 & H4 & H5 & H6 & H7).
  destruct (jacobian_correct _ T H2 H6) as (J' & EJ & HJ).
  exists J, J'. split; [exact E|]. unfold expr_jacobian at 1. rewrite P, H1, EJ.
  split; [reflexivity|]. rewrite HJ.
  apply (c01_derivative_unique eps m e k a l x); auto.
  pose proof (true_jacobian_shape (leaf_obj a (Plain l)) T H2) as X.
  rewrite H3 in X. unfold vdim in X. rewrite H4 in X. exact X.
Qed.
Print Assumptions c45_conversion_same_jacobian.

(** *** The hypotheses can be met

    |exp(phi) * (q^-1 * (R v))| and log(R q): targets under rotation, inverse, exp, norm
    and log. *)
Definition ex_d1 : expr :=
  XUn ONorm (XBin ORotate (XUn OExpMap (XLeaf 7 (Plain LRel)))
    (XBin ORotate (XUn OInverse (XLeaf 2 (Plain LQuat)))
       (XBin ORotate (XLeaf 1 (Plain LMat)) (XLeaf 6 (Plain LTrans))))).
Definition ex_d2 : expr := XUn OLogMap (XUn OInverse (XLeaf 1 (Plain LMat))).

Lemma ex_d1_good : good (1/4) ex_m ex_d1 KScalar.
Proof.
  split; [reflexivity|]. split; cbn.
  - repeat split; auto using ex_q; apply ex_rot.
  - repeat split. intros d [= <-]. cbn. right. v3unf. lra.
Qed.
Lemma ex_d1_smooth a : smooth (1/4) (fun b => den (ex_m b)) a ex_d1.
Proof.
  unfold ex_d1. cbn [smooth leaf_addrs]. repeat split;
    try (intros _ [H|H] i; vm_compute; discriminate).
  all: try (intros _ x _; destruct x; exact I).
  - intros _ x H. cbn in H. injection H as <-. exact I.
  - intros _ x H. cbn [deval ex_m den dsem_un dsem_bin option_map] in H. injection H as <-.
    cbn [smooth_un]. rewrite dnorm2_trans.
    rewrite rot_norm2 by apply so3_exp_is_rot.
    rewrite rot_norm2 by (apply is_rot_tr, qrot_is_rot, ex_q).
    rewrite rot_norm2 by apply ex_rot. v3unf. lra.
Qed.
Example c01_example : exists x J, means (1/4) ex_m ex_d1 = Some x /\
  expr_jacobian (1/4) 100 ex_m ex_d1 (leaf_obj 7 (Plain LRel)) = Some (Ok J) /\
  has_shape 1 3 J /\ is_derivative (1/4) ex_m ex_d1 7 J.
Proof.
  assert (He : 0 <= 1/4 < 1) by lra.
  assert (exists x, means (1/4) ex_m ex_d1 = Some x) as (x & Hx).
  { rewrite (good_means (1/4) ex_m ex_d1 KScalar (proj1 He) ex_d1_good). cbn. eexists; reflexivity. }
  destruct (c01_jacobian_is_derivative (1/4) 100 ex_m ex_d1 KScalar 7 LRel x He ex_d1_good Hx)
    as (_ & J & A & B & C); [cbn; tauto|reflexivity|apply ex_d1_smooth|].
  exists x, J. auto.
Qed.

Example c01_log_example : exists x J, means (1/4) ex_m ex_d2 = Some x /\
  expr_jacobian (1/4) 100 ex_m ex_d2 (leaf_obj 1 (Plain LMat)) = Some (Ok J) /\
  has_shape 3 3 J /\ is_derivative (1/4) ex_m ex_d2 1 J.
Proof.
  assert (He : 0 <= 1/4 < 1) by lra.
  assert (An : rot_angle (tr3 (mkM 0 (-1) 0 1 0 0 0 0 1)) = PI / 2).
  { unfold rot_angle. replace ((trace3 (tr3 (mkM 0 (-1) 0 1 0 0 0 0 1)) - 1) / 2) with 0
      by (v3unf; field). apply acos_0. }
  assert (P : 3 / 2 < PI / 2) by (pose proof PI2_3_2; unfold PI2 in *; lra).
  assert (G : good (1/4) ex_m ex_d2 KRel).
  { split; [reflexivity|]. split; cbn; [split; [reflexivity|apply ex_rot]|auto]. }
  destruct (exp_log_general (1/4) (tr3 (mkM 0 (-1) 0 1 0 0 0 0 1))) as (v & Ev & _);
    [apply is_rot_tr, ex_rot|lra|rewrite An; lra|rewrite An; nra|].
  assert (Hx : means (1/4) ex_m ex_d2 = Some (DRel v)).
  { rewrite (good_means (1/4) ex_m ex_d2 KRel (proj1 He) G). unfold ex_d2. cbn [deval ex_m den dsem_un].
    rewrite Ev. reflexivity. }
  destruct (c01_jacobian_is_derivative (1/4) 100 ex_m ex_d2 KRel 1 LMat _ He G Hx)
    as (_ & J & A & B & C); [cbn; tauto|reflexivity| |].
  - unfold ex_d2. cbn [smooth leaf_addrs]. split; [split; [exact I|]|].
    + intros _ y _. destruct y; exact I.
    + intros _ y H. cbn [deval ex_m den dsem_un] in H. injection H as <-. cbn [smooth_un].
      rewrite An. split; [nra|lra].
  - exists (DRel v), J. auto.
Qed.
