(** More properties of evaluation: C16, C19, C41, C42, C45. *)

From Coq Require Import Reals Lra List Bool Arith Ratan.
From Verif Require Import Mat V3 ModelMeta ModelJac ModelLeaf SpecLeaf LeafProofs ModelExpr
  SpecExpr ExprProofs PropsExpr.
Import ListNotations.
Local Open Scope R_scope.

(** ** C16: matrix and compact rigid transforms are interchangeable *)

(** Every unary operation (inverse, log, rotation(), translation(), conversion). *)
Theorem c16_unary : forall eps o v v' t t', 0 <= eps -> valid v -> valid v' ->
  vkind v = KRT -> vkind v' = KRT -> den v = den v' ->
  ty_un o (vty v) = Some t -> ty_un o (vty v') = Some t' ->
  option_map den (sem_un eps o v) = option_map den (sem_un eps o v').
Proof.
  intros eps o v v' t t' He V V' K K' D T T'.
  assert (X : o = OExpMap -> False).
  { intros ->. revert T K. unfold vkind, ty_kind. destruct (vty v) as [l|l|l]; destruct l; cbn;
      discriminate. }
  rewrite (proj1 (un_sound eps He o v t T V (fun H => match X H with end))).
  rewrite (proj1 (un_sound eps He o v' t' T' V' (fun H => match X H with end))).
  now rewrite D.
Qed.
Print Assumptions c16_unary.

(** Every binary operation (compose in every mix, transform of a vector), and the last
    row of a 4x4 result is (0 0 0 1). *)
Theorem c16_binary : forall o v v' w w' t t', valid v -> valid v' -> valid w -> valid w' ->
  den v = den v' -> den w = den w' ->
  ty_bin o (vty v) (vty w) = Some t -> ty_bin o (vty v') (vty w') = Some t' ->
  option_map den (sem_bin o v w) = option_map den (sem_bin o v' w') /\
  (forall m t0 r c, sem_bin o v w = Some (VMatRT m t0 r c) -> r = v0 /\ c = 1).
Proof.
  intros o v v' w w' t t' V V' W W' D D' T T'.
  destruct (bin_sound o v w t T V W) as (S1 & S2).
  destruct (bin_sound o v' w' t' T' V' W') as (S3 & _).
  split; [now rewrite S1, S3, D, D'|].
  intros m t0 r c E. destruct (S2 _ E) as (_ & H). apply H.
Qed.
Print Assumptions c16_binary.

Example c16_example : exists v v', vty v = Plain LMatRT /\ vty v' = Plain LCompRT /\
  valid v /\ valid v' /\ den v = den v' /\ ty_un OInverse (vty v) <> None /\
  ty_un OLogMap (vty v') <> None /\ ty_bin OCompose (vty v) (vty v') <> None.
Proof.
  exists (VMatRT (qrot (mkQ 0 0 1 0)) (mkV 4 5 6) v0 1), (VCompRT (mkQ 0 0 1 0) (mkV 4 5 6)).
  pose proof ex_q as U. pose proof (qrot_is_rot _ U).
  repeat split; try discriminate; try apply H; apply U.
Qed.

(** ** C41: symbolic Identity and Zero leaves

    Replacing any number of symbolic leaves by leaves holding the identity transform or
    the zero vector explicitly (in any parametrization) changes no result. *)
Theorem c41_symbolic_leaves : forall eps m m' e e' k k', 0 <= eps ->
  same_shape e e' -> ekind e = Some k -> ekind e' = Some k' ->
  env_ok m e -> env_ok m' e' ->
  (forall a, In a (leaf_addrs e) -> m' a = m a \/
     (exists l, m a = VIdent l /\ den (m' a) = didentity (kind_of l)) \/
     (exists l, m a = VZero l /\ forall i, coord (m' a) i = 0)) ->
  exps_exact eps (fun a => den (m a)) e ->
  means eps m e = means eps m' e'.
Proof.
  intros eps m m' e e' k k' He S Hk Hk' Henv Henv' Hd Hexp.
  apply (c10_parametrization_independent eps m m' e e' k k'); auto.
  intros a Ha. destruct (Hd a Ha) as [->|[(l & E & D)|(l & E & D)]]; [reflexivity| |].
  - rewrite D, E. cbn. assert (V : valid (m a)).
    { clear - Ha Henv. induction e as [b t|o e IH|o l IHl r IHr]; cbn in *.
      - destruct Ha as [->|[]]. tauto.
      - tauto.
      - apply in_app_or in Ha. tauto. }
    rewrite E in V. cbn in V. destruct (kind_of l); try contradiction; reflexivity.
  - assert (VT : valid (m a) /\ valid (m' a) /\ vkind (m a) = vkind (m' a)).
    { clear - Ha Henv Henv' S. revert e' S Henv'.
      induction e as [b t|o e IH|o l IHl r IHr]; intros [b' t'|o' e'|o' l' r'] S Henv';
        cbn in *; try contradiction.
      - destruct Ha as [->|[]]. destruct S as (<- & K). unfold vkind.
        destruct Henv as (-> & V), Henv' as (-> & V'). auto.
      - apply (IH Henv Ha e'); tauto.
      - destruct S as (_ & S1 & S2), Henv as (E1 & E2), Henv' as (E1' & E2').
        apply in_app_or in Ha. destruct Ha; [apply (IHl E1 H l')|apply (IHr E2 H r')]; auto. }
    destruct VT as (V & V' & K). rewrite E in V, K |- *. clear - V V' K D.
    pose proof (D 0%nat) as D0. pose proof (D 1%nat) as D1. pose proof (D 2%nat) as D2.
    pose proof (D 3%nat) as D3. pose proof (D 4%nat) as D4. pose proof (D 5%nat) as D5.
    unfold vkind, ty_kind in K. cbn in V, K.
    destruct (m' a) as [s|v|v|v|w u|q|mm|an ax|mm t r c|q t|l'|l'];
      destruct l; cbn in V, K; try contradiction; try discriminate K; cbn in *;
      try (destruct v; cbn in *; subst; reflexivity);
      try (destruct w, u; cbn in *; subst; reflexivity);
      try (rewrite <- K; reflexivity);
      try (destruct l'; cbn in *; try contradiction; discriminate K).
Qed.
Print Assumptions c41_symbolic_leaves.

Example c41_example : exists m m' e e', same_shape e e' /\ ekind e <> None /\ ekind e' <> None /\
  env_ok m e /\ env_ok m' e' /\ m 1%nat = VIdent LQuat /\ m 2%nat = VZero LTrans /\
  m' 1%nat = VMat i3 /\ m' 2%nat = VTrans v0.
Proof.
  exists (fun a => match a with 1 => VIdent LQuat | _ => VZero LTrans end%nat),
    (fun a => match a with 1 => VMat i3 | _ => VTrans v0 end%nat),
    (XBin ORotate (XLeaf 1 (Ident LQuat)) (XLeaf 2 (ZeroOf LTrans))),
    (XBin ORotate (XLeaf 1 (Plain LMat)) (XLeaf 2 (Plain LTrans))).
  repeat split; try discriminate; try apply is_rot_i.
Qed.

(** ** C42: vector arithmetic *)

Lemma good_vec eps m e k d : 0 <= eps -> good eps m e k -> affine_kind k = true ->
  deval eps (fun a => den (m a)) e = Some d -> mkd k (dcoord d) = Some d /\ dkind d = k.
Proof.
  intros He G K E. destruct (good_deval _ _ _ _ _ He G E) as (<- & _).
  split; [now apply mkd_self|reflexivity].
Qed.

Lemma mkd_coord k f d : mkd k f = Some d -> dkind d = k /\
  forall i, (i < tsize k)%nat -> dcoord d i = f i.
Proof.
  destruct k; cbn; intros [= <-]; (split; [reflexivity|]); intros i Hi;
    repeat (destruct i as [|i]; [reflexivity|]); exfalso; cbn in Hi;
    repeat apply le_S_n in Hi; inversion Hi.
Qed.
Lemma mkd_ext_lt k f g : (forall i, (i < tsize k)%nat -> f i = g i) -> mkd k f = mkd k g.
Proof.
  intros H. destruct k; cbn in *; try reflexivity; rewrite ?(H 0%nat), ?(H 1%nat), ?(H 2%nat),
    ?(H 3%nat), ?(H 4%nat), ?(H 5%nat); auto 10 with arith.
Qed.
Lemma mkd_total k f : affine_kind k = true -> exists d, mkd k f = Some d.
Proof. destruct k; cbn; intros; try discriminate; eauto. Qed.

Lemma sum_vec k : vec_kind k = true -> kind_bin OSum k k = Some k.
Proof. destruct k; cbn; intros; try discriminate; reflexivity. Qed.
Lemma sub_vec k : vec_kind k = true -> kind_bin OSubtract k k = Some k.
Proof. destruct k; cbn; intros; try discriminate; reflexivity. Qed.
Lemma min_vec k : vec_kind k = true -> kind_un OMinus k = Some k.
Proof. destruct k; cbn; intros; try discriminate; reflexivity. Qed.

Section Vec.
  Variable eps : R.
  Hypothesis eps_pos : 0 <= eps.
  Variable m : env.
  Variable k : kind.
  Hypothesis vec : vec_kind k = true.

  Let gs a b : good eps m a k -> good eps m b k -> good eps m (XBin OSum a b) k.
  Proof. intros; eapply good_bin; eauto using sum_vec. Qed.
  Let gm a b : good eps m a k -> good eps m b k -> good eps m (XBin OSubtract a b) k.
  Proof. intros; eapply good_bin; eauto using sub_vec. Qed.
  Let gn a : good eps m a k -> good eps m (XUn OMinus a) k.
  Proof. intros; eapply good_un; eauto using min_vec; discriminate. Qed.

  (** deval of a sum/difference/opposite of vectors, coordinatewise. *)
  Lemma dsum d1 d2 : dkind d1 = k -> dkind d2 = k ->
    dsem_bin OSum d1 d2 = mkd k (fun i => dcoord d1 i + dcoord d2 i).
  Proof.
    intros K1 K2. unfold dsem_bin. rewrite K1, K2, sum_vec by exact vec. reflexivity.
  Qed.
  Lemma dsub d1 d2 : dkind d1 = k -> dkind d2 = k ->
    dsem_bin OSubtract d1 d2 = mkd k (fun i => dcoord d1 i - dcoord d2 i).
  Proof.
    intros K1 K2. unfold dsem_bin. rewrite K1, K2, sub_vec by exact vec. reflexivity.
  Qed.
  Lemma dmin d : dkind d = k -> dsem_un eps OMinus d = mkd k (fun i => - dcoord d i).
  Proof. intros K. cbn. rewrite K, vec. reflexivity. Qed.

  Lemma add_sub_cancel a b d : good eps m a k -> good eps m b k -> means eps m b = Some d ->
    means eps m (XBin OSubtract (XBin OSum a b) b) = means eps m a.
  Proof.
    intros Ga Gb Hb. rewrite (good_means eps m b k eps_pos Gb) in Hb.
    rewrite !(good_means eps m _ k eps_pos) by auto.
    cbn [deval]. rewrite Hb. destruct (deval _ _ a) as [da|] eqn:Ea; [|reflexivity].
    destruct (good_vec _ _ _ _ _ eps_pos Ga (vec_affine _ vec) Ea) as (Sa & Ka).
    destruct (good_vec _ _ _ _ _ eps_pos Gb (vec_affine _ vec) Hb) as (Sb & Kb).
    rewrite dsum by auto.
    destruct (mkd_total k (fun i => dcoord da i + dcoord d i) (vec_affine _ vec)) as (s & Es).
    rewrite Es. destruct (mkd_coord _ _ _ Es) as (Ks & Cs). rewrite dsub by auto.
    rewrite <- Sa at 1. apply mkd_ext_lt. intros i Hi. rewrite Cs by exact Hi. ring.
  Qed.

  Lemma opp_opp a : good eps m a k ->
    means eps m (XUn OMinus (XUn OMinus a)) = means eps m a.
  Proof.
    intros Ga. rewrite !(good_means eps m _ k eps_pos) by auto.
    cbn [deval]. destruct (deval _ _ a) as [da|] eqn:Ea; [|reflexivity].
    destruct (good_vec _ _ _ _ _ eps_pos Ga (vec_affine _ vec) Ea) as (Sa & Ka).
    rewrite dmin by auto.
    destruct (mkd_total k (fun i => - dcoord da i) (vec_affine _ vec)) as (s & Es).
    rewrite Es. destruct (mkd_coord _ _ _ Es) as (Ks & Cs). rewrite dmin by auto.
    rewrite <- Sa at 1. apply mkd_ext_lt. intros i Hi. rewrite Cs by exact Hi. ring.
  Qed.

  Lemma sub_is_add_opp a b : good eps m a k -> good eps m b k ->
    means eps m (XBin OSubtract a b) = means eps m (XBin OSum a (XUn OMinus b)).
  Proof.
    intros Ga Gb. rewrite !(good_means eps m _ k eps_pos) by auto.
    cbn [deval]. destruct (deval _ _ a) as [da|] eqn:Ea; [|reflexivity].
    destruct (deval _ _ b) as [db|] eqn:Eb; [|reflexivity].
    destruct (good_vec _ _ _ _ _ eps_pos Ga (vec_affine _ vec) Ea) as (Sa & Ka).
    destruct (good_vec _ _ _ _ _ eps_pos Gb (vec_affine _ vec) Eb) as (Sb & Kb).
    rewrite dmin, dsub by auto.
    destruct (mkd_total k (fun i => - dcoord db i) (vec_affine _ vec)) as (s & Es).
    rewrite Es. destruct (mkd_coord _ _ _ Es) as (Ks & Cs). rewrite dsum by auto.
    apply mkd_ext_lt. intros i Hi. rewrite Cs by exact Hi. ring.
  Qed.

  Lemma add_comm a b : good eps m a k -> good eps m b k ->
    means eps m (XBin OSum a b) = means eps m (XBin OSum b a).
  Proof.
    intros Ga Gb. rewrite !(good_means eps m _ k eps_pos) by auto.
    cbn [deval]. destruct (deval _ _ a) as [da|] eqn:Ea;
      destruct (deval _ _ b) as [db|] eqn:Eb; try reflexivity.
    destruct (good_vec _ _ _ _ _ eps_pos Ga (vec_affine _ vec) Ea) as (Sa & Ka).
    destruct (good_vec _ _ _ _ _ eps_pos Gb (vec_affine _ vec) Eb) as (Sb & Kb).
    rewrite !dsum by auto. apply mkd_ext_lt. intros. ring.
  Qed.

  Lemma add_assoc a b c : good eps m a k -> good eps m b k -> good eps m c k ->
    means eps m (XBin OSum (XBin OSum a b) c) = means eps m (XBin OSum a (XBin OSum b c)).
  Proof.
    intros Ga Gb Gc. rewrite !(good_means eps m _ k eps_pos) by auto.
    cbn [deval]. destruct (deval _ _ a) as [da|] eqn:Ea; [|reflexivity].
    destruct (deval _ _ b) as [db|] eqn:Eb; [|reflexivity].
    destruct (good_vec _ _ _ _ _ eps_pos Ga (vec_affine _ vec) Ea) as (Sa & Ka).
    destruct (good_vec _ _ _ _ _ eps_pos Gb (vec_affine _ vec) Eb) as (Sb & Kb).
    destruct (deval _ _ c) as [dc|] eqn:Ec.
    2:{ destruct (dsem_bin OSum da db); reflexivity. }
    destruct (good_vec _ _ _ _ _ eps_pos Gc (vec_affine _ vec) Ec) as (Sc & Kc).
    rewrite (dsum da db), (dsum db dc) by auto.
    destruct (mkd_total k (fun i => dcoord da i + dcoord db i) (vec_affine _ vec)) as (s & Es).
    destruct (mkd_total k (fun i => dcoord db i + dcoord dc i) (vec_affine _ vec)) as (s' & Es').
    rewrite Es, Es'. destruct (mkd_coord _ _ _ Es) as (Ks & Cs).
    destruct (mkd_coord _ _ _ Es') as (Ks' & Cs'). rewrite !dsum by auto.
    apply mkd_ext_lt. intros i Hi. rewrite Cs, Cs' by exact Hi. ring.
  Qed.
End Vec.

Theorem c42_add_sub_cancel : forall eps m k a b d, 0 <= eps -> vec_kind k = true ->
  good eps m a k -> good eps m b k -> means eps m b = Some d ->
  means eps m (XBin OSubtract (XBin OSum a b) b) = means eps m a.
Proof. intros. eapply add_sub_cancel; eauto. Qed.
Print Assumptions c42_add_sub_cancel.

Theorem c42_negation : forall eps m k a b, 0 <= eps -> vec_kind k = true ->
  good eps m a k -> good eps m b k ->
  means eps m (XUn OMinus (XUn OMinus a)) = means eps m a /\
  means eps m (XBin OSubtract a b) = means eps m (XBin OSum a (XUn OMinus b)).
Proof. intros. split; [eapply opp_opp|eapply sub_is_add_opp]; eauto. Qed.
Print Assumptions c42_negation.

Theorem c42_addition_abelian : forall eps m k a b c, 0 <= eps -> vec_kind k = true ->
  good eps m a k -> good eps m b k -> good eps m c k ->
  means eps m (XBin OSum a b) = means eps m (XBin OSum b a) /\
  means eps m (XBin OSum (XBin OSum a b) c) = means eps m (XBin OSum a (XBin OSum b c)).
Proof. intros. split; [eapply add_comm|eapply add_assoc]; eauto. Qed.
Print Assumptions c42_addition_abelian.

Lemma col_scale k : col_kind k = true -> kind_bin OScale KScalar k = Some k.
Proof. destruct k; cbn; intros; try discriminate; reflexivity. Qed.
Lemma col_scaler k : col_kind k = true -> kind_bin OScaleR k KScalar = Some k.
Proof. destruct k; cbn; intros; try discriminate; reflexivity. Qed.
Lemma col_scalediv k : col_kind k = true -> kind_bin OScaleDiv k KScalar = Some k.
Proof. destruct k; cbn; intros; try discriminate; reflexivity. Qed.

Lemma dscale_l k c d : dkind d = k -> col_kind k = true ->
  dsem_bin OScale (DScalar c) d = mkd k (fun i => c * dcoord d i).
Proof. intros <-. destruct d; cbn; intros; try discriminate; reflexivity. Qed.
Lemma dscale_r k c d : dkind d = k -> col_kind k = true ->
  dsem_bin OScaleR d (DScalar c) = mkd k (fun i => dcoord d i * c).
Proof. intros <-. destruct d; cbn; intros; try discriminate; reflexivity. Qed.
Lemma dscale_d k c d : dkind d = k -> col_kind k = true -> c <> 0 ->
  dsem_bin OScaleDiv d (DScalar c) = mkd k (fun i => dcoord d i / c).
Proof.
  intros <- K Hc. destruct d; cbn in K; try discriminate; cbn;
    destruct (Req_EM_T c 0); try contradiction; reflexivity.
Qed.

Theorem c42_scaling : forall eps m k s v c, 0 <= eps -> col_kind k = true ->
  good eps m s KScalar -> good eps m v k -> means eps m s = Some (DScalar c) ->
  means eps m (XBin OScale s v) = means eps m (XBin OScaleR v s) /\
  (c <> 0 -> means eps m (XBin OScaleR (XBin OScaleDiv v s) s) = means eps m v).
Proof.
  intros eps m k s v c He Hk Gs Gv Hs. rewrite (good_means eps m s KScalar He Gs) in Hs.
  assert (G1 : good eps m (XBin OScale s v) k) by (eapply good_bin; eauto using col_scale).
  assert (G2 : good eps m (XBin OScaleR v s) k) by (eapply good_bin; eauto using col_scaler).
  assert (G3 : good eps m (XBin OScaleR (XBin OScaleDiv v s) s) k)
    by (eapply good_bin; eauto using col_scaler; eapply good_bin; eauto using col_scalediv).
  rewrite !(good_means eps m _ k He) by auto.
  cbn [deval]. rewrite Hs. destruct (deval _ _ v) as [d|] eqn:Ev; [|split; reflexivity].
  destruct (good_vec _ _ _ _ _ He Gv (col_affine _ Hk) Ev) as (Sv & Kv).
  split.
  - rewrite (dscale_l k), (dscale_r k) by auto. apply mkd_ext_lt. intros. ring.
  - intros Hc. rewrite (dscale_d k) by auto.
    destruct (mkd_total k (fun i => dcoord d i / c) (col_affine _ Hk)) as (s' & Es).
    rewrite Es. destruct (mkd_coord _ _ _ Es) as (Ks & Cs). rewrite (dscale_r k) by auto.
    rewrite <- Sv. apply mkd_ext_lt. intros i Hi. rewrite Cs by exact Hi. field. exact Hc.
Qed.
Print Assumptions c42_scaling.

Lemma dnorm2_nonneg d : 0 <= dnorm2 d.
Proof.
  unfold dnorm2. induction (tsize (dkind d)) as [|n IH]; cbn; [lra|].
  pose proof (sq_nonneg (dcoord d n)). lra.
Qed.

Theorem c42_norms : forall eps m k v d, 0 <= eps -> col_kind k = true ->
  good eps m v k -> means eps m v = Some d ->
  means eps m (XBin OProduct (XUn ONorm v) (XUn ONorm v)) = means eps m (XUn OSquaredNorm v) /\
  means eps m (XBin ODot v v) = means eps m (XUn OSquaredNorm v) /\
  ((exists i, (i < tsize k)%nat /\ dcoord d i <> 0) ->
     means eps m (XUn ONorm (XUn ONormalize v)) = Some (DScalar 1)).
Proof.
  intros eps m k v d He Hk G Hv. rewrite (good_means eps m v k He G) in Hv.
  assert (Kn : kind_un ONorm k = Some KScalar /\ kind_un OSquaredNorm k = Some KScalar /\
               kind_un ONormalize k = Some k /\ kind_bin ODot k k = Some KScalar)
    by (destruct k; try discriminate; auto).
  destruct Kn as (K1 & K2 & K3 & K4).
  assert (G1 : good eps m (XUn ONorm v) KScalar) by (eapply good_un; eauto; discriminate).
  assert (G2 : good eps m (XUn OSquaredNorm v) KScalar) by (eapply good_un; eauto; discriminate).
  assert (G3 : good eps m (XUn ONormalize v) k) by (eapply good_un; eauto; discriminate).
  assert (G4 : good eps m (XBin ODot v v) KScalar) by (eapply good_bin; eauto).
  assert (G5 : good eps m (XBin OProduct (XUn ONorm v) (XUn ONorm v)) KScalar)
    by (eapply good_bin; eauto).
  assert (G6 : good eps m (XUn ONorm (XUn ONormalize v)) KScalar)
    by (eapply good_un; eauto; discriminate).
  rewrite !(good_means eps m _ KScalar He) by auto.
  destruct (good_vec _ _ _ _ _ He G (col_affine _ Hk) Hv) as (Sv & Kv).
  cbn [deval]. rewrite Hv. cbn [dsem_un]. rewrite Kv, Hk.
  split; [|split].
  - cbn. rewrite sqrt_sqrt by apply dnorm2_nonneg. reflexivity.
  - unfold dsem_bin. rewrite Kv, K4. unfold dnorm2. rewrite Kv. reflexivity.
  - intros (i & Hi & Hd).
    assert (P : 0 < dnorm2 d).
    { unfold dnorm2. rewrite Kv. revert Hi Hd. generalize (tsize k) as n.
      induction n as [|n IH]; intros Hi Hd; [inversion Hi|]. cbn.
      assert (N : 0 <= rsum n (fun i => dcoord d i * dcoord d i)).
      { clear. induction n as [|n IH]; cbn; [lra|]. pose proof (sq_nonneg (dcoord d n)). lra. }
      destruct (Nat.eq_dec i n) as [->|Ne].
      - assert (0 < dcoord d n * dcoord d n) by nra. lra.
      - assert (i < n)%nat by (apply Nat.lt_eq_cases in Hi as [H|H]; [apply Nat.succ_lt_mono, H|];
          injection H as ->; contradiction).
        pose proof (sq_nonneg (dcoord d n)). specialize (IH H Hd). lra. }
    destruct (Rlt_dec 0 (dnorm2 d)) as [_|N]; [|contradiction].
    destruct (mkd_total k (fun i => dcoord d i / sqrt (dnorm2 d)) (col_affine _ Hk)) as (s & Es).
    rewrite Es. destruct (mkd_coord _ _ _ Es) as (Ks & Cs). rewrite Ks, Hk.
    assert (N1 : dnorm2 s = 1).
    { unfold dnorm2 at 1. rewrite Ks.
      rewrite (rsum_ext (tsize k) _ (fun j => / (dnorm2 d) * (dcoord d j * dcoord d j))).
      - rewrite rsum_scal_l.
        replace (rsum (tsize k) (fun i0 => dcoord d i0 * dcoord d i0)) with (dnorm2 d)
          by (unfold dnorm2; now rewrite Kv). field. lra.
      - intros j Hj. rewrite Cs by exact Hj.
        assert (0 < sqrt (dnorm2 d)) by now apply sqrt_lt_R0.
        rewrite <- (sqrt_sqrt (dnorm2 d)) at 3 by lra. field. lra. }
    rewrite N1, sqrt_1. reflexivity.
Qed.
Print Assumptions c42_norms.

(** Affine laws of points: p + (q - p) = q and (p + v) - p = v. *)
Theorem c42_affine : forall eps m p q v dp, 0 <= eps -> good eps m p KPoint ->
  good eps m q KPoint -> good eps m v KTrans -> means eps m p = Some dp ->
  means eps m (XBin OSum p (XBin OSubtract q p)) = means eps m q /\
  means eps m (XBin OSubtract (XBin OSum p v) p) = means eps m v.
Proof.
  intros eps m p q v dp He Gp Gq Gv Hp. rewrite (good_means eps m p KPoint He Gp) in Hp.
  assert (G0 : good eps m (XBin OSubtract q p) KTrans) by (eapply good_bin; eauto).
  assert (G0' : good eps m (XBin OSum p v) KPoint) by (eapply good_bin; eauto).
  assert (G1 : good eps m (XBin OSum p (XBin OSubtract q p)) KPoint)
    by (eapply good_bin; eauto).
  assert (G2 : good eps m (XBin OSubtract (XBin OSum p v) p) KTrans)
    by (eapply good_bin; eauto).
  rewrite !(good_means eps m _ KPoint He), !(good_means eps m _ KTrans He) by auto.
  cbn [deval]. rewrite Hp. destruct (good_deval _ _ _ _ _ He Gp Hp) as (Kp & _).
  destruct dp as [| | |[p1 p2 p3]| | |]; try discriminate Kp. split.
  - destruct (deval _ _ q) as [dq|] eqn:Eq; [|reflexivity].
    destruct (good_deval _ _ _ _ _ He Gq Eq) as (Kq & _).
    destruct dq as [| | |[q1 q2 q3]| | |]; try discriminate Kq. cbn. do 3 f_equal; ring.
  - destruct (deval _ _ v) as [dv|] eqn:Ev; [|reflexivity].
    destruct (good_deval _ _ _ _ _ He Gv Ev) as (Kv & _).
    destruct dv as [|[q1 q2 q3]| | | | |]; try discriminate Kv. cbn. do 3 f_equal; ring.
Qed.
Print Assumptions c42_affine.

Example c42_example : good (1/4) ex_m (XLeaf 8 (Plain LTwist)) KTwist /\
  good (1/4) ex_m (XLeaf 10 (Plain LPoint)) KPoint /\
  good (1/4) ex_m (XLeaf 11 (Plain LScalar)) KScalar /\
  exists d i, means (1/4) ex_m (XLeaf 8 (Plain LTwist)) = Some d /\ (i < 6)%nat /\ dcoord d i <> 0.
Proof.
  split; [apply (good_leaf (1/4) ex_m 8 (Plain LTwist)); [reflexivity|exact I]|].
  split; [apply (good_leaf (1/4) ex_m 10 (Plain LPoint)); [reflexivity|exact I]|].
  split; [apply (good_leaf (1/4) ex_m 11 (Plain LScalar)); [reflexivity|exact I]|].
  exists (DTwist (mkV 2 0 0) (mkV 1 1 1)), 0%nat. split; [reflexivity|]. split; [auto with arith|].
  cbn. lra.
Qed.

(** ** C45: evaluating into a chosen result type *)

Theorem c45_evaluateTo_same_value : forall eps m e k l, 0 <= eps -> good eps m e k ->
  kind_of l = k ->
  option_map den (evaluateTo eps (Plain l) m e) = option_map den (eval eps m e) /\
  (forall v, evaluateTo eps (Plain l) m e = Some v -> vty v = Plain l /\ valid v).
Proof.
  intros eps m e k l He G Hl. pose proof G as (Hk & Henv & Hexp).
  destruct (evaluateTo_sound eps He m e l k Hk Hl Henv Hexp) as (S1 & S2).
  rewrite S1. split; [|exact S2]. symmetry. exact (good_means eps m e k He G).
Qed.
Print Assumptions c45_evaluateTo_same_value.

(** A rotation expression cannot be assigned to a leaf of another kind. *)
Theorem c45_other_kind_rejected : forall eps m e k l, ekind e = Some k -> kind_of l <> k ->
  evaluateTo eps (Plain l) m e = None.
Proof.
  intros eps m e k l Hk Hl. unfold evaluateTo, prepare_to.
  destruct (prepare e) as [[p t]|] eqn:E; [|reflexivity].
  destruct (prepare_kind _ _ _ _ E Hk) as (W & K).
  destruct (ty_eqb (Plain l) t) eqn:D.
  - apply ty_eqb_eq in D. subst t. contradiction.
  - destruct (prepare (XUn (OConvert l) e)) as [[p' t']|] eqn:E'; [|reflexivity].
    pose proof (prepare_un (OConvert l) e p t E) as P. rewrite E' in P. cbn in P. symmetry in P.
    apply pty_convert_kind in P as (_ & KL); [|exact W]. congruence.
Qed.
Print Assumptions c45_other_kind_rejected.

Example c45_example : exists v, evaluateTo (1/4) (Plain LAA) ex_m
  (XBin OCompose (XLeaf 1 (Plain LMat)) (XLeaf 2 (Plain LQuat))) = Some v /\ vty v = Plain LAA.
Proof.
  assert (G1 : good (1/4) ex_m (XLeaf 1 (Plain LMat)) KRot)
    by (apply (good_leaf (1/4) ex_m 1 (Plain LMat)); [reflexivity|apply ex_rot]).
  assert (G2 : good (1/4) ex_m (XLeaf 2 (Plain LQuat)) KRot)
    by (apply (good_leaf (1/4) ex_m 2 (Plain LQuat)); [reflexivity|apply ex_q]).
  assert (G : good (1/4) ex_m (XBin OCompose (XLeaf 1 (Plain LMat)) (XLeaf 2 (Plain LQuat))) KRot)
    by (eapply good_bin; eauto).
  assert (He : 0 <= 1/4) by lra.
  destruct (c45_evaluateTo_same_value (1/4) ex_m _ KRot LAA He G eq_refl) as (S1 & S2).
  change (option_map den (eval (1/4) ex_m
    (XBin OCompose (XLeaf 1 (Plain LMat)) (XLeaf 2 (Plain LQuat))))) with
    (means (1/4) ex_m (XBin OCompose (XLeaf 1 (Plain LMat)) (XLeaf 2 (Plain LQuat)))) in S1.
  rewrite (good_means (1/4) ex_m _ KRot He G) in S1. cbn [deval] in S1.
  destruct (evaluateTo (1/4) (Plain LAA) ex_m _) as [v|]; [|discriminate S1].
  exists v. split; [reflexivity|]. now apply S2.
Qed.

(** ** C19: box-plus and box-minus *)

Lemma eps_sq eps x : 0 < eps < 1 -> 0 <= x -> eps < x * x -> eps < x.
Proof. intros He Hx H. destruct (Rlt_le_dec eps x) as [L|L]; [exact L|]. exfalso. nra. Qed.

Section Box.
  Variable eps : R.
  Hypothesis eps_small : 0 < eps < 1.
  Let He : 0 <= eps. Proof. lra. Qed.

  (** y [-] x then x [+]: rotations.  Either the two rotations coincide or the angle
      between them is outside the small-angle approximation and less than pi. *)
  Lemma box_rot m x y X Y :
    good eps m x KRot -> good eps m y KRot ->
    means eps m x = Some (DRot X) -> means eps m y = Some (DRot Y) ->
    let th := rot_angle (mul3 Y (tr3 X)) in
    (Y = X \/ (eps < (th * th) * (th * th) /\ th < PI)) ->
    means eps m (XBoxPlus x (XBoxMinus y x)) = means eps m y.
  Proof.
    intros Gx Gy Hx Hy th C. rewrite (good_means eps m x KRot He Gx) in Hx. rewrite (good_means eps m y KRot He Gy) in Hy.
    assert (Gi : good eps m (XUn OInverse x) KRot) by (eapply good_un; eauto; discriminate).
    assert (Gc : good eps m (XBin OCompose y (XUn OInverse x)) KRot) by (eapply good_bin; eauto).
    assert (Gl : good eps m (XBoxMinus y x) KRel)
      by (eapply good_un; eauto; discriminate).
    destruct (good_deval _ _ _ _ _ He Gx Hx) as (_ & Vx).
    destruct (good_deval _ _ _ _ _ He Gy Hy) as (_ & Vy). cbn in Vx, Vy.
    assert (D : deval eps (fun a => den (m a)) (XBoxMinus y x)
                = option_map DRel (log_mat eps (mul3 Y (tr3 X)))).
    { unfold XBoxMinus. cbn [deval]. rewrite Hx, Hy. reflexivity. }
    assert (L : exists v, log_mat eps (mul3 Y (tr3 X)) = Some v /\ so3_exp v = mul3 Y (tr3 X)
                /\ (v = v0 \/ eps < vnorm2 v * vnorm2 v)).
    { destruct C as [->|(C1 & C2)].
      - exists v0. rewrite rot_mul_tr by exact Vx. rewrite log_i by exact He.
        rewrite so3_exp_0. auto.
      - assert (Hr : is_rot (mul3 Y (tr3 X))) by (apply is_rot_mul; auto using is_rot_tr).
        assert (Ht : eps < th * th) by (apply eps_sq; auto using sq_nonneg).
        destruct (exp_log_general eps _ Hr He C2 Ht) as (v & E1 & E2 & E3).
        exists v. repeat split; auto. right. rewrite <- vnorm_sq, E2. exact C1. }
    destruct L as (v & EL & EE & EV). rewrite EL in D.
    assert (Ge : good eps m (XUn OExpMap (XBoxMinus y x)) KRot).
    { eapply good_exp; eauto. intros d. rewrite D. intros [= <-]. exact EV. }
    assert (G : good eps m (XBoxPlus x (XBoxMinus y x)) KRot) by (eapply good_bin; eauto).
    rewrite !(good_means eps m _ KRot He) by assumption. unfold XBoxPlus. cbn [deval].
    rewrite Hx, Hy, D. cbn. rewrite EE, mul3_assoc, rot_tr_mul, mul3_i_r by exact Vx. reflexivity.
  Qed.

  Lemma box_rot_inv m x d X v :
    good eps m x KRot -> good eps m d KRel ->
    means eps m x = Some (DRot X) -> means eps m d = Some (DRel v) ->
    (v = v0 \/ (eps < vnorm2 v * vnorm2 v /\ vnorm v < PI)) ->
    means eps m (XBoxMinus (XBoxPlus x d) x) = means eps m d.
  Proof.
    intros Gx Gd Hx Hd C. rewrite (good_means eps m _ KRot He) in Hx by assumption.
    rewrite (good_means eps m _ KRel He) in Hd by assumption.
    assert (Ge : good eps m (XUn OExpMap d) KRot).
    { eapply good_exp; eauto. intros d'. rewrite Hd. intros [= <-]. cbn. tauto. }
    assert (Gp : good eps m (XBoxPlus x d) KRot) by (eapply good_bin; eauto).
    assert (Gi : good eps m (XUn OInverse x) KRot) by (eapply good_un; eauto; discriminate).
    assert (G : good eps m (XBoxMinus (XBoxPlus x d) x) KRel).
    { eapply good_un; [eapply good_bin; eauto| |]; [reflexivity|reflexivity|discriminate]. }
    destruct (good_deval _ _ _ _ _ He Gx Hx) as (_ & Vx). cbn in Vx.
    rewrite !(good_means eps m _ KRel He) by assumption.
    unfold XBoxMinus, XBoxPlus. cbn [deval]. rewrite Hx, Hd. cbn.
    rewrite mul3_assoc, rot_mul_tr, mul3_i_r by exact Vx.
    destruct C as [->|(C1 & C2)].
    - rewrite so3_exp_0, log_i by exact He. reflexivity.
    - rewrite log_exp_general; auto. apply eps_sq; auto using vnorm2_pos.
  Qed.

  Lemma box_rt m x y X tx Y ty :
    good eps m x KRT -> good eps m y KRT ->
    means eps m x = Some (DRT X tx) -> means eps m y = Some (DRT Y ty) ->
    let th := rot_angle (mul3 Y (tr3 X)) in
    (Y = X \/ (eps < th * th /\ th < PI)) ->
    means eps m (XBoxPlus x (XBoxMinus y x)) = means eps m y.
  Proof.
    intros Gx Gy Hx Hy th C. rewrite (good_means eps m x KRT He Gx) in Hx. rewrite (good_means eps m y KRT He Gy) in Hy.
    assert (Gi : good eps m (XUn OInverse x) KRT) by (eapply good_un; eauto; discriminate).
    assert (Gc : good eps m (XBin OCompose y (XUn OInverse x)) KRT) by (eapply good_bin; eauto).
    assert (Gl : good eps m (XBoxMinus y x) KTwist)
      by (eapply good_un; eauto; discriminate).
    destruct (good_deval _ _ _ _ _ He Gx Hx) as (_ & Vx).
    destruct (good_deval _ _ _ _ _ He Gy Hy) as (_ & Vy). cbn in Vx, Vy.
    set (R := mul3 Y (tr3 X)) in *.
    set (t := vadd (app3 Y (vopp (app3 (tr3 X) tx))) ty).
    assert (D : deval eps (fun a => den (m a)) (XBoxMinus y x)
                = option_map (fun p => DTwist (fst p) (snd p)) (rt_log eps R t)).
    { unfold XBoxMinus. cbn [deval]. rewrite Hx, Hy. reflexivity. }
    assert (L : exists w u, rt_log eps R t = Some (w, u) /\ so3_exp w = R /\
                app3 (so3_V w) u = t /\ (w = v0 \/ eps < vnorm2 w)).
    { destruct C as [E|(C1 & C2)].
      - exists v0, t. unfold R. rewrite E, rot_mul_tr by exact Vx.
        pose proof (rt_log_exp_0 eps t He) as Q. rewrite so3_exp_0, so3_V_0, app3_i in Q.
        rewrite Q, so3_exp_0, so3_V_0, app3_i. auto.
      - assert (Hr : is_rot R) by (apply is_rot_mul; auto using is_rot_tr).
        destruct (rt_exp_log eps R t He Hr C2 C1) as (w & u & E1 & E2 & E3 & E4).
        exists w, u. repeat split; auto. right. rewrite <- vnorm_sq, E2. exact C1. }
    destruct L as (w & u & EL & ER & ET & EV). rewrite EL in D.
    assert (Ge : good eps m (XUn OExpMap (XBoxMinus y x)) KRT).
    { eapply good_exp; eauto. intros d. rewrite D. intros [= <-]. exact EV. }
    assert (G : good eps m (XBoxPlus x (XBoxMinus y x)) KRT) by (eapply good_bin; eauto).
    rewrite !(good_means eps m _ KRT He) by assumption. unfold XBoxPlus. cbn [deval].
    rewrite Hx, Hy, D. cbn. rewrite ER, ET. unfold R, t.
    rewrite mul3_assoc, rot_tr_mul, mul3_i_r by exact Vx.
    do 2 f_equal. rewrite app3_opp_r, app3_mul. v3ring.
  Qed.

  Lemma box_rt_inv m x d X tx w u :
    good eps m x KRT -> good eps m d KTwist ->
    means eps m x = Some (DRT X tx) -> means eps m d = Some (DTwist w u) ->
    (w = v0 \/ (eps < vnorm2 w /\ vnorm w < PI)) ->
    means eps m (XBoxMinus (XBoxPlus x d) x) = means eps m d.
  Proof.
    intros Gx Gd Hx Hd C. rewrite (good_means eps m _ KRT He) in Hx by assumption.
    rewrite (good_means eps m _ KTwist He) in Hd by assumption.
    assert (Ge : good eps m (XUn OExpMap d) KRT).
    { eapply good_exp; eauto. intros d'. rewrite Hd. intros [= <-]. cbn. tauto. }
    assert (Gp : good eps m (XBoxPlus x d) KRT) by (eapply good_bin; eauto).
    assert (Gi : good eps m (XUn OInverse x) KRT) by (eapply good_un; eauto; discriminate).
    assert (G : good eps m (XBoxMinus (XBoxPlus x d) x) KTwist).
    { eapply good_un; [eapply good_bin; eauto| |]; [reflexivity|reflexivity|discriminate]. }
    destruct (good_deval _ _ _ _ _ He Gx Hx) as (_ & Vx). cbn in Vx.
    rewrite !(good_means eps m _ KTwist He) by assumption.
    unfold XBoxMinus, XBoxPlus. cbn [deval]. rewrite Hx, Hd. cbn.
    rewrite mul3_assoc, rot_mul_tr, mul3_i_r by exact Vx.
    replace (vadd (app3 (mul3 (so3_exp w) X) (vopp (app3 (tr3 X) tx)))
               (vadd (app3 (so3_exp w) tx) (app3 (so3_V w) u))) with (app3 (so3_V w) u).
    2:{ rewrite app3_opp_r, <- app3_mul, mul3_assoc, rot_mul_tr, mul3_i_r by exact Vx. v3ring. }
    destruct C as [->|(C1 & C2)].
    - rewrite rt_log_exp_0 by exact He. reflexivity.
    - rewrite rt_log_exp; auto.
  Qed.
End Box.

Theorem c19_boxplus_of_boxminus_rotation : forall eps m x y X Y, 0 < eps < 1 ->
  good eps m x KRot -> good eps m y KRot ->
  means eps m x = Some (DRot X) -> means eps m y = Some (DRot Y) ->
  (Y = X \/ (let th := rot_angle (mul3 Y (tr3 X)) in eps < (th * th) * (th * th) /\ th < PI)) ->
  means eps m (XBoxPlus x (XBoxMinus y x)) = means eps m y.
Proof. intros. eapply box_rot; eauto. Qed.
Print Assumptions c19_boxplus_of_boxminus_rotation.

Theorem c19_boxminus_of_boxplus_rotation : forall eps m x d X v, 0 < eps < 1 ->
  good eps m x KRot -> good eps m d KRel ->
  means eps m x = Some (DRot X) -> means eps m d = Some (DRel v) ->
  (v = v0 \/ (eps < vnorm2 v * vnorm2 v /\ vnorm v < PI)) ->
  means eps m (XBoxMinus (XBoxPlus x d) x) = means eps m d.
Proof. intros. eapply box_rot_inv; eauto. Qed.
Print Assumptions c19_boxminus_of_boxplus_rotation.

Theorem c19_boxplus_of_boxminus_transform : forall eps m x y X tx Y ty, 0 < eps < 1 ->
  good eps m x KRT -> good eps m y KRT ->
  means eps m x = Some (DRT X tx) -> means eps m y = Some (DRT Y ty) ->
  (Y = X \/ (let th := rot_angle (mul3 Y (tr3 X)) in eps < th * th /\ th < PI)) ->
  means eps m (XBoxPlus x (XBoxMinus y x)) = means eps m y.
Proof. intros. eapply box_rt; eauto. Qed.
Print Assumptions c19_boxplus_of_boxminus_transform.

Theorem c19_boxminus_of_boxplus_transform : forall eps m x d X tx w u, 0 < eps < 1 ->
  good eps m x KRT -> good eps m d KTwist ->
  means eps m x = Some (DRT X tx) -> means eps m d = Some (DTwist w u) ->
  (w = v0 \/ (eps < vnorm2 w /\ vnorm w < PI)) ->
  means eps m (XBoxMinus (XBoxPlus x d) x) = means eps m d.
Proof. intros. eapply box_rt_inv; eauto. Qed.
Print Assumptions c19_boxminus_of_boxplus_transform.

(** Quarter turn about x added to a half turn (quaternion). *)
Example c19_example : exists x d X v, good (1/4) ex_m x KRot /\ good (1/4) ex_m d KRel /\
  means (1/4) ex_m x = Some (DRot X) /\ means (1/4) ex_m d = Some (DRel v) /\
  1/4 < vnorm2 v * vnorm2 v /\ vnorm v < PI.
Proof.
  exists (XLeaf 2 (Plain LQuat)), (XLeaf 7 (Plain LRel)), (qrot (mkQ 0 0 1 0)), (mkV 2 0 0).
  split; [apply (good_leaf (1/4) ex_m 2 (Plain LQuat)); [reflexivity|apply ex_q]|].
  split; [apply (good_leaf (1/4) ex_m 7 (Plain LRel)); [reflexivity|exact I]|].
  split; [reflexivity|]. split; [reflexivity|].
  assert (N : vnorm2 (mkV 2 0 0) = 2 * 2) by (v3unf; ring). rewrite N. split; [lra|].
  unfold vnorm. rewrite N, sqrt_square by lra. pose proof PI2_3_2. unfold PI2 in *.
  pose proof PI2_RGT_0. lra.
Qed.
