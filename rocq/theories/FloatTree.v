(** Accumulated rounding errors of whole expressions on doubles. *)

From Coq Require Import ZArith Reals List Bool Lra Lia Psatz.
From Flocq Require Import Core BinarySingleNaN.
From Verif Require Import Mat V3 ModelMeta ModelLeaf SpecLeaf LeafProofs ModelExpr SpecExpr ExprProofs.
From Verif Require Import ModelFloat SpecFlt FloatProofs FloatDrift FloatExp ModelFloatQ SpecFltQ FloatQuat FloatAct SpecFltLog.
From Verif Require Import ModelFloatExpr SpecFltExpr FloatNorm FloatStep FloatStep2 FloatShep FloatDiv.
Import ListNotations.
Local Open Scope R_scope.

(** ** Arithmetic of accumulated errors *)
Section Grown.
  Variable c : R.
  Hypothesis C0 : / 2 ^ 44 <= c.
  Let c_pos : 0 < c.
  Proof. assert (0 < / 2 ^ 44) by (apply Rinv_0_lt_compat, pow_lt; lra). lra. Qed.

  Lemma grown_plus a b : (1 + grown c a) * (1 + grown c b) = 1 + grown c (a + b).
  Proof. unfold grown. rewrite pow_add. ring. Qed.
  Lemma grown_1 : grown c 1 = c. Proof. unfold grown. cbn [pow]. ring. Qed.
  Lemma grown_nonneg n : 0 <= grown c n.
  Proof. unfold grown. assert (1 <= (1 + c) ^ n) by (apply pow_R1_Rle; lra). lra. Qed.
  Lemma grown_mono a b : (a <= b)%nat -> grown c a <= grown c b.
  Proof. intros H. unfold grown. assert ((1 + c) ^ a <= (1 + c) ^ b) by (apply Rle_pow; [lra|exact H]). lra. Qed.
  Lemma grown_add a b : grown c a + grown c b <= grown c (a + b).
  Proof.
    pose proof (grown_plus a b) as H. pose proof (Rmult_le_pos _ _ (grown_nonneg a) (grown_nonneg b)). lra.
  Qed.
  Lemma grown_times k w : INR k * grown c w <= grown c (k * w).
  Proof.
    induction k as [|k IH]; [cbn; unfold grown; cbn; lra|]. rewrite S_INR. cbn [Nat.mul].
    pose proof (grown_add w (k * w)). lra.
  Qed.
  Lemma grown_unit n : INR n * / 2 ^ 44 <= grown c n.
  Proof.
    replace n with (n * 1)%nat at 2 by lia. eapply Rle_trans; [|apply grown_times]. rewrite grown_1.
    apply Rmult_le_compat_l; [apply pos_INR|lra].
  Qed.
  Lemma grown_le n : INR n * c <= / 2 -> grown c n <= 2 * (INR n * c).
  Proof.
    unfold grown. induction n as [|n IH]; [cbn; lra|]. rewrite S_INR. intros H.
    assert (H1 : 0 <= INR n * c) by (apply Rmult_le_pos; [apply pos_INR|lra]).
    assert (H2 : INR n * c <= / 2) by lra. specialize (IH H2). cbn [pow].
    assert ((1 + c) * (1 + c) ^ n <= (1 + c) * (1 + 2 * (INR n * c))) by (apply Rmult_le_compat_l; lra).
    assert (c * (INR n * c) <= c * / 2) by (apply Rmult_le_compat_l; lra). lra.
  Qed.
  Lemma grown_small n : INR n * c <= / 2000 -> 0 <= grown c n <= / 1000.
  Proof. intros H. split; [apply grown_nonneg|]. pose proof (grown_le n). lra. Qed.

  (** one rounding *)
  Lemma step1 a : (1 + grown c a) * (1 + / 2 ^ 44) - 1 <= grown c (a + 1).
  Proof.
    pose proof (grown_plus a 1) as G. rewrite grown_1 in G.
    assert ((1 + grown c a) * (1 + / 2 ^ 44) <= (1 + grown c a) * (1 + c)); [|lra].
    apply Rmult_le_compat_l; [pose proof (grown_nonneg a)|]; lra.
  Qed.
  Lemma step2 a b : (1 + grown c a) * (1 + grown c b) * (1 + / 2 ^ 44) - 1 <= grown c (a + b + 1).
  Proof. rewrite grown_plus. apply step1. Qed.
  Lemma stepk k K a b : K = INR k -> (1 + K * grown c a) * (1 + grown c b) * (1 + / 2 ^ 44) - 1 <= grown c (k * a + b + 1).
  Proof.
    intros ->. eapply Rle_trans; [|apply step2]. pose proof (grown_times k a) as H. apply Rplus_le_compat_r, Rmult_le_compat_r.
    - assert (0 < / 2 ^ 44) by (apply Rinv_0_lt_compat, pow_lt; lra). lra.
    - apply Rmult_le_compat_r; [pose proof (grown_nonneg b)|]; lra.
  Qed.
  Lemma step9 a b : (1 + 9 * grown c a) * (1 + grown c b) * (1 + / 2 ^ 44) - 1 <= grown c (9 * a + b + 1).
  Proof. apply stepk. cbn; lra. Qed.
  Lemma step15 a : (1 + 15 * grown c a) * (1 + / 2 ^ 44) - 1 <= grown c (15 * a + 1).
  Proof.
    pose proof (stepk 15 15 a 0 ltac:(cbn; lra)) as H. unfold grown in H at 2. cbn [pow] in H.
    replace (15 * a + 0 + 1)%nat with (15 * a + 1)%nat in H by lia. lra.
  Qed.
  Lemma step_app a b : (1 + grown c a) * (1 + grown c b) * (1 + / 2 ^ 44) - 1 <= grown c (9 * a + b + 1).
  Proof. eapply Rle_trans; [apply step2|]. apply grown_mono. lia. Qed.
  Lemma step_exp a : 8 * grown c a + 8 * / 2 ^ 44 <= grown c (8 * a + 8).
  Proof.
    eapply Rle_trans; [|apply grown_add]. pose proof (grown_times 8 a) as A. pose proof (grown_unit 8) as B.
    replace (INR 8) with 8 in A, B by (cbn; lra). lra.
  Qed.
  Lemma step3 a : (1 + 3 * grown c a) * (1 + / 2 ^ 44) - 1 <= grown c (3 * a + 1).
  Proof.
    pose proof (stepk 3 3 a 0 ltac:(cbn; lra)) as H. unfold grown in H at 2. cbn [pow] in H.
    replace (3 * a + 0 + 1)%nat with (3 * a + 1)%nat in H by lia. lra.
  Qed.
  Lemma step_quot a b : (1 + grown c a) * (1 + 3 * grown c b) * (1 + / 2 ^ 44) - 1 <= grown c (a + 3 * b + 1).
  Proof.
    pose proof (stepk 3 3 b a ltac:(cbn; lra)) as H. replace (3 * b + a + 1)%nat with (a + 3 * b + 1)%nat in H by lia.
    rewrite (Rmult_comm (1 + grown c a)). exact H.
  Qed.
  Lemma step_unit a : (1 + grown c a) * (1 + 3 * ((1 + grown c a) * (1 + / 2 ^ 44) - 1)) * (1 + / 2 ^ 44) - 1 <= grown c (4 * a + 4).
  Proof.
    assert (0 < / 2 ^ 44) by (apply Rinv_0_lt_compat, pow_lt; lra). pose proof (grown_nonneg a).
    replace (4 * a + 4)%nat with (a + 3 * (a + 1) + 1)%nat by lia. eapply Rle_trans; [|apply step_quot].
    apply Rplus_le_compat_r, Rmult_le_compat_r; [lra|]. apply Rmult_le_compat_l; [lra|]. pose proof (step1 a). lra.
  Qed.
  Lemma INR_1100 : INR 1100 = 1100. Proof. rewrite INR_IZR_INZ. reflexivity. Qed.
  Lemma step_log a : 1100 * grown c a + 32 * / 2 ^ 44 <= grown c (1100 * a + 32).
  Proof.
    eapply Rle_trans; [|apply grown_add]. pose proof (grown_times 1100 a) as A. pose proof (grown_unit 32) as B.
    rewrite INR_1100 in A. replace (INR 32) with 32 in B by (rewrite INR_IZR_INZ; reflexivity). lra.
  Qed.
End Grown.

(** ** Weakening *)
Lemma vapprox_mono S S' e e' v x : vapprox S e v x -> 0 <= e -> S <= S' -> e <= e' -> 0 <= S -> vapprox S' e' v x.
Proof.
  intros (F & N & D) H0 HS He H. split; [exact F|]. split; [lra|]. eapply Rle_trans; [exact D|]. apply Rmult_le_compat; lra.
Qed.
Lemma sapprox_mono S S' e e' v x : sapprox S e v x -> 0 <= e -> S <= S' -> e <= e' -> 0 <= S -> sapprox S' e' v x.
Proof.
  intros (F & N & D) H0 HS He H. split; [exact F|]. split; [lra|]. eapply Rle_trans; [exact D|]. apply Rmult_le_compat; lra.
Qed.
Lemma mapprox_mono e e' a m : mapprox e a m -> e <= e' -> mapprox e' a m.
Proof. intros (F & R & D) H. split; [exact F|]. split; [exact R|lra]. Qed.
Lemma qapprox_mono e e' q m : qapprox e q m -> e <= e' -> qapprox e' q m.
Proof. intros (F & r & U & R & D) H. split; [exact F|]. exists r. split; [exact U|]. split; [exact R|lra]. Qed.

Lemma approximates_mono S S' r r' v v' f x : approximates S r v f x -> 0 <= v -> S <= S' -> r <= r' -> v <= v' -> 0 <= S ->
  approximates S' r' v' f x.
Proof.
  intros H V HS Hr Hv S0. destruct f, x; cbn [approximates] in *; try contradiction.
  - exact (sapprox_mono S S' v v' _ _ H V HS Hv S0).
  - eauto using vapprox_mono.
  - eauto using vapprox_mono.
  - eauto using vapprox_mono.
  - eauto using qapprox_mono.
  - eauto using mapprox_mono.
  - destruct H; split; eauto using mapprox_mono, vapprox_mono.
  - destruct H; split; eauto using qapprox_mono, vapprox_mono.
Qed.

(** ** Sizes *)
Lemma tiny_1 : tiny <= 1.
Proof. unfold tiny. rewrite <- Rinv_1. apply Rinv_le_contravar; [lra|]. apply pow_R1_Rle. lra. Qed.
Lemma size_tiny m p : tiny <= size m p.
Proof.
  pose proof tiny_1. pose proof tiny_pos.
  induction p as [a t|o p IH|o l IHl r IHr]; cbn [size]; [apply Rmax_l|..].
  - destruct o; try exact IH; try lra. apply Rmax_l.
  - destruct o; try lra; apply Rmax_l.
Qed.

Lemma has_typ_eq p l t : typ p = Some (Plain t) -> has_typ p l = lty_eqb t l.
Proof. intros H. unfold has_typ. rewrite H. reflexivity. Qed.

Lemma dnorm2_vec v : dnorm2 (DTrans v) = vdot v v /\ dnorm2 (DRel v) = vdot v v.
Proof. destruct v. unfold dnorm2, vdot. cbn. split; ring. Qed.

Section Tree.
  Variable M : libm.
  Hypothesis HM : one_ulp M.
  Hypothesis HA : acos_ulp M.
  Variable c : R.
  Hypothesis C0 : / 2 ^ 44 <= c.
  Variable m : nat -> dval.

  Lemma fits_bounds p : fits c m p -> tiny <= size m p <= vast /\
    0 <= grown c (fst (cost p)) <= / 1000 /\ 0 <= grown c (snd (cost p)) <= / 1000.
  Proof.
    intros H. assert (X : size m p <= vast /\ INR (fst (cost p)) * c <= / 2000 /\ INR (snd (cost p)) * c <= / 2000) by (destruct p; cbn [fits] in H; tauto).
    destruct X as (A & B & D). split; [split; [apply size_tiny|exact A]|]. split; now apply grown_small.
  Qed.

  Notation APX p := (approximates (size m p) (grown c (fst (cost p))) (grown c (snd (cost p)))).

  Lemma un_ok o op p f x t : fits c m (XUn op p) -> typ p = Some (Plain (flty f)) -> APX p f x ->
    deval 0 m p = Some x -> ty_un op (Plain (flty f)) = Some t ->
    exists f' x', fsem_un M o op f = Some f' /\ t = Plain (flty f') /\ dsem_un 0 op x = Some x' /\ APX (XUn op p) f' x'.
  Proof.
    intros Hf Ht Ha Hx Hty. cbn [fits] in Hf. destruct Hf as (HS & HR & HV & Hp & Hop).
    destruct (fits_bounds p Hp) as ((T1 & V1) & G1 & G2). pose proof tiny_pos as T0.
    cbn [size cost] in *. destruct (cost p) as [r v]. cbn [fst snd] in *.
    destruct op.
    - (* inverse *) destruct f, x; try contradiction Ha; try discriminate Hty; injection Hty as <-; cbn [fsem_un dsem_un approximates flty fst snd] in *.
      + eexists _, _. split; [reflexivity|]. split; [reflexivity|]. split; [reflexivity|]. now apply qapprox_conj.
      + eexists _, _. split; [reflexivity|]. split; [reflexivity|]. split; [reflexivity|]. now apply mapprox_tr.
      + destruct Ha as [A B]. eexists _, _. split; [reflexivity|]. split; [reflexivity|]. split; [reflexivity|].
        apply mapprox_tr in A. split; [exact A|]. apply vopp_step. eapply vapprox_mono.
        * apply (app_step o _ _ _ _ _ _ _ A B); lra.
        * pose proof (two_small _ _ G1 G2). assert (0 < / 2 ^ 44) by (apply Rinv_0_lt_compat, pow_lt; lra). nra.
        * lra.
        * now apply step_app.
        * lra.
      + destruct Ha as [A B]. eexists _, _. split; [reflexivity|]. split; [reflexivity|]. split; [reflexivity|].
        apply qapprox_conj in A. split; [exact A|]. apply vopp_step. eapply vapprox_mono.
        * apply (act_step o _ _ _ _ _ _ _ A B); lra.
        * assert (0 < / 2 ^ 44) by (apply Rinv_0_lt_compat, pow_lt; lra).
          assert (1 * 1 <= (1 + 9 * grown c r) * (1 + grown c v)) by (apply Rmult_le_compat; lra). nra.
        * lra.
        * now apply step9.
        * lra.
    - (* log *) destruct Hop as [Hm Hr]. rewrite (has_typ_eq _ _ _ Ht) in Hm.
      destruct f, x; try contradiction Ha; try discriminate Hm. injection Hty as <-. cbn [fsem_un dsem_un approximates flty fst snd] in *.
      specialize (Hr _ Hx). destruct (log_step M o _ _ _ HM HA Ha) as (w & L & W); [|exact Hr|].
      { split; [lra|]. assert (INR r * c <= / 1000000).
        { rewrite plus_INR, mult_INR, INR_1100 in HV. pose proof (pos_INR 32). assert (0 <= INR 32 * c) by (apply Rmult_le_pos; [apply pos_INR|]; assert (0 < / 2 ^ 44) by (apply Rinv_0_lt_compat, pow_lt; lra); lra).
          lra. }
        pose proof (grown_le c C0 r). lra. }
      rewrite L. eexists _, _. split; [reflexivity|]. split; [reflexivity|]. split; [reflexivity|]. cbn [approximates].
      eapply vapprox_mono; [exact W| | | |]; try lra.
      now apply step_log.
    - (* exp *) destruct Hop as [Hs Hm]. rewrite (has_typ_eq _ _ _ Ht) in Hm.
      destruct f, x; try contradiction Ha; try discriminate Hm. injection Hty as <-. cbn [fsem_un dsem_un approximates flty fst snd] in *.
      eexists _, _. split; [reflexivity|]. split; [reflexivity|]. split; [reflexivity|]. cbn [approximates].
      eapply qapprox_mono; [apply (exp_step M o _ _ _ _ HM Ha G2 Hs)|]. now apply step_exp.
    - (* minus *) destruct f, x; try contradiction Ha; try discriminate Hty; injection Hty as <-; cbn [fsem_un dsem_un approximates flty fst snd] in *;
        eexists _, _; (split; [reflexivity|]; split; [reflexivity|]; split; [reflexivity|]); cbn [approximates].
      + now apply sopp_step.
      + apply vopp_step in Ha. destruct v1; exact Ha.
      + apply vopp_step in Ha. destruct v1; exact Ha.
    - (* squaredNorm *) destruct f, x; try contradiction Ha; try discriminate Hty; injection Hty as <-; cbn [fsem_un dsem_un approximates flty fst snd] in *;
        eexists _, _; (split; [reflexivity|]; split; [reflexivity|]; split; [reflexivity|]); cbn [approximates];
        rewrite ?(proj1 (dnorm2_vec v1)), ?(proj2 (dnorm2_vec v1));
        (eapply sapprox_mono; [apply (vdot_step o _ _ _ _ _ _ _ _ Ha Ha); lra| | | |]; try lra).
      + pose proof (two_small _ _ G2 G2). assert (0 < / 2 ^ 44) by (apply Rinv_0_lt_compat, pow_lt; lra). nra.
      + replace (2 * v + 1)%nat with (v + v + 1)%nat by lia. now apply step2.
      + pose proof (Rmax_l tiny (size m p * size m p)); lra.
      + pose proof (two_small _ _ G2 G2). assert (0 < / 2 ^ 44) by (apply Rinv_0_lt_compat, pow_lt; lra). nra.
      + replace (2 * v + 1)%nat with (v + v + 1)%nat by lia. now apply step2.
      + pose proof (Rmax_l tiny (size m p * size m p)); lra.
    - (* norm *) destruct f, x; try contradiction Ha; try discriminate Hty; injection Hty as <-; cbn [fsem_un dsem_un approximates flty fst snd] in *;
        eexists _, _; (split; [reflexivity|]; split; [reflexivity|]; split; [reflexivity|]); cbn [approximates];
        rewrite ?(proj1 (dnorm2_vec v1)), ?(proj2 (dnorm2_vec v1));
        (eapply sapprox_mono; [apply (norm_step o _ _ _ _ Ha); lra| | | |]; try lra; try now apply step1);
        assert (0 < / 2 ^ 44) by (apply Rinv_0_lt_compat, pow_lt; lra); nra.
    - (* normalize *) cbn [fst snd] in *.
      assert (UP : 0 < / 2 ^ 44) by (apply Rinv_0_lt_compat, pow_lt; lra).
      assert (G3 : 0 <= grown c v <= / 2000).
      { split; [lra|]. assert (INR v * c <= / 8000).
        { rewrite plus_INR, mult_INR in HV. replace (INR 4) with 4 in HV by (cbn; lra). lra. }
        pose proof (grown_le c C0 v). lra. }
      assert (N0 : forall w, size m p <= 2 * vnorm w -> 0 < vdot w w /\ sqrt (vdot w w) = vnorm w).
      { intros w Hw. assert (0 < vnorm w) by lra. split; [|reflexivity]. change (vdot w w) with (vnorm2 w). rewrite <- vnorm_sq. apply Rmult_lt_0_compat; assumption. }
      destruct f, x; try contradiction Ha; try discriminate Hty; injection Hty as <-; cbn [fsem_un approximates flty fst snd] in *;
        specialize (Hop _ Hx); cbn [length_of] in Hop;
        destruct (unit_step o _ _ _ _ Ha G3 T1 V1 Hop) as [Br W]; rewrite Br; cbn [mkfvec];
        eexists _, _; (split; [reflexivity|]; split; [reflexivity|]; split;
          [cbn [dsem_un dkind col_kind]; rewrite ?(proj1 (dnorm2_vec v1)), ?(proj2 (dnorm2_vec v1)); destruct (N0 _ Hop) as [P Q];
           destruct (Rlt_dec 0 (vdot v1 v1)) as [_|C]; [reflexivity|contradiction]|]);
        cbn [approximates]; rewrite (proj2 (N0 _ Hop));
        (replace (mkV (dcoord _ 0 / vnorm v1) (dcoord _ 1 / vnorm v1) (dcoord _ 2 / vnorm v1)) with (vscal (/ vnorm v1) v1)
           by (destruct v1; unfold vscal; cbn; f_equal; unfold Rdiv; ring));
        (eapply vapprox_mono; [exact W| |lra|now apply step_unit|lra]);
        (assert (1 * 1 <= (1 + grown c v) * (1 + / 2 ^ 44)) by (apply Rmult_le_compat; lra);
         assert (1 * 1 <= (1 + grown c v) * (1 + 3 * ((1 + grown c v) * (1 + / 2 ^ 44) - 1))) by (apply Rmult_le_compat; lra);
         assert (1 * 1 <= (1 + grown c v) * (1 + 3 * ((1 + grown c v) * (1 + / 2 ^ 44) - 1)) * (1 + / 2 ^ 44)) by (apply Rmult_le_compat; lra); lra).
    - (* arc cosine *)
      destruct f, x; try contradiction Ha; try discriminate Hty; injection Hty as <-; cbn [fsem_un dsem_un approximates flty fst snd] in *.
      destruct (acos_step M _ _ _ _ HA Ha) as [B W]; [lra|split; [lra|exact (proj1 Hop)]|exact (proj2 Hop _ Hx)|].
      eexists _, _. split; [reflexivity|]. split; [reflexivity|]. split.
      { destruct (Rle_dec (-1) s0) as [_|C]; [|exfalso; apply C; lra]. destruct (Rle_dec s0 1) as [_|C]; [reflexivity|exfalso; apply C; lra]. }
      cbn [approximates]. eapply sapprox_mono; [exact W| |lra|now apply step3|lra].
      assert (0 < / 2 ^ 44) by (apply Rinv_0_lt_compat, pow_lt; lra).
      assert (1 * 1 <= (1 + 3 * grown c v) * (1 + / 2 ^ 44)) by (apply Rmult_le_compat; lra). lra.
    - (* rotation *) destruct f, x; try contradiction Ha; try discriminate Hty; injection Hty as <-; cbn [fsem_un dsem_un approximates flty fst snd] in *;
        destruct Ha as [A B]; eexists _, _; (split; [reflexivity|]; split; [reflexivity|]; split; [reflexivity|]); cbn [approximates]; exact A.
    - (* translation *) destruct f, x; try contradiction Ha; try discriminate Hty; injection Hty as <-; cbn [fsem_un dsem_un approximates flty fst snd] in *;
        destruct Ha as [A B]; eexists _, _; (split; [reflexivity|]; split; [reflexivity|]; split; [reflexivity|]); cbn [approximates]; exact B.
    - (* conversion *) rewrite !(has_typ_eq _ _ _ Ht) in *.
      destruct (lty_eqb (flty f) to) eqn:E.
      + assert (ET : flty f = to) by (destruct f, to; try discriminate E; reflexivity). subst to. clear Hop E.
        exists f, x. cbn [fst snd]. unfold fsem_un, fsem_convert. replace (lty_eqb (flty f) (flty f)) with true by (destruct f; reflexivity).
        split; [destruct f; reflexivity|].
        assert (K : kind_eqb (kind_of (flty f)) (dkind x) = true) by (destruct f, x; try contradiction Ha; reflexivity).
        split; [destruct f; cbn in Hty; injection Hty as <-; reflexivity|]. split; [|exact Ha]. cbn [dsem_un]. rewrite K. reflexivity.
      + destruct Hop as [Hop|[[-> Hop]|[[-> Hop]|[[-> Hop]|[-> Hop]]]]]; [discriminate| | | |];
          destruct f, x; try contradiction Ha; try discriminate Hop; cbn in Hty; injection Hty as <-; cbn [fst snd approximates] in *;
          eexists _, _; (split; [reflexivity|]; split; [reflexivity|]; split; [reflexivity|]); cbn [approximates].
        * eapply mapprox_mono; [apply (qconvert_step o _ _ _ Ha); lra|]. now apply step15.
        * destruct Ha as [A B]. split; [|exact B]. eapply mapprox_mono; [apply (qconvert_step o _ _ _ A); lra|]. now apply step15.
        * eapply qapprox_mono; [apply (mconvert_step o _ _ _ Ha); lra|]. now apply step15.
        * destruct Ha as [A B]. split; [|exact B]. eapply qapprox_mono; [apply (mconvert_step o _ _ _ A); lra|]. now apply step15.
  Qed.

  Lemma unit_pos : 0 < / 2 ^ 44. Proof. apply Rinv_0_lt_compat, pow_lt; lra. Qed.
  Lemma less_small a b : (a <= b)%nat -> INR b * c <= / 2000 -> 0 <= grown c a <= / 1000.
  Proof.
    intros H B. apply grown_small; [exact C0|]. eapply Rle_trans; [|exact B]. apply Rmult_le_compat_r; [pose proof unit_pos; lra|].
    now apply le_INR.
  Qed.

  (** rotating a vector, and adding another *)
  Definition rot_ok (r : nat) (f : fvalue) (n : M3) : Prop :=
    match f with FMat a | FMatRT a _ => mapprox (grown c r) a n | FQuat q | FCompRT q _ => qapprox (grown c r) q n | _ => False end.
  Definition turned (o : order) (f : fvalue) (v : DV) : DV :=
    match f with FMat a | FMatRT a _ => dapp o a v | FQuat q | FCompRT q _ => dqact o q v | _ => v end.

  Lemma turn_ok o r v S f n w y : rot_ok r f n -> vapprox S (grown c v) w y -> tiny <= S <= vast ->
    0 <= grown c r <= / 1000 -> 0 <= grown c v <= / 1000 ->
    vapprox S (grown c (9 * r + v + 1)) (turned o f w) (app3 n y).
  Proof.
    intros Hr Hv HS G1 G2. pose proof tiny_pos as T0. pose proof unit_pos as U0.
    assert (X1 : 1 * 1 <= (1 + grown c r) * (1 + grown c v)) by (apply Rmult_le_compat; lra).
    assert (X2 : 1 * 1 <= (1 + 9 * grown c r) * (1 + grown c v)) by (apply Rmult_le_compat; lra).
    assert (X3 : 0 <= (1 + grown c r) * (1 + grown c v) * (1 + / 2 ^ 44) - 1).
    { assert (1 * 1 <= (1 + grown c r) * (1 + grown c v) * (1 + / 2 ^ 44)) by (apply Rmult_le_compat; lra). lra. }
    assert (X4 : 0 <= (1 + 9 * grown c r) * (1 + grown c v) * (1 + / 2 ^ 44) - 1).
    { assert (1 * 1 <= (1 + 9 * grown c r) * (1 + grown c v) * (1 + / 2 ^ 44)) by (apply Rmult_le_compat; lra). lra. }
    destruct f; try contradiction Hr; cbn [rot_ok turned] in *.
    - eapply vapprox_mono; [apply (act_step o _ _ _ _ _ _ _ Hr Hv); lra|exact X4|lra|now apply step9|lra].
    - eapply vapprox_mono; [apply (app_step o _ _ _ _ _ _ _ Hr Hv); lra|exact X3|lra|now apply step_app|lra].
    - eapply vapprox_mono; [apply (app_step o _ _ _ _ _ _ _ Hr Hv); lra|exact X3|lra|now apply step_app|lra].
    - eapply vapprox_mono; [apply (act_step o _ _ _ _ _ _ _ Hr Hv); lra|exact X4|lra|now apply step9|lra].
  Qed.

  Lemma vsum_ok S1 S2 a b v w x y : vapprox S1 (grown c a) v x -> vapprox S2 (grown c b) w y ->
    INR (Nat.max a b + 1) * c <= / 2000 -> tiny <= S1 -> tiny <= S2 -> S1 + S2 <= vast ->
    vapprox (S1 + S2) (grown c (Nat.max a b + 1)) (dmapv2 fadd v w) (vadd x y) /\
    vapprox (S1 + S2) (grown c (Nat.max a b + 1)) (dmapv2 fsub v w) (vsub x y).
  Proof.
    intros A B HN H1 H2 HV. pose proof tiny_pos as T0. pose proof unit_pos as U0.
    assert (G : 0 <= grown c (Nat.max a b) <= / 1000) by (apply (less_small _ (Nat.max a b + 1)); [lia|exact HN]).
    assert (A' : vapprox S1 (grown c (Nat.max a b)) v x).
    { eapply vapprox_mono; [exact A|now apply grown_nonneg|lra|apply grown_mono; auto; lia|lra]. }
    assert (B' : vapprox S2 (grown c (Nat.max a b)) w y).
    { eapply vapprox_mono; [exact B|now apply grown_nonneg|lra|apply grown_mono; auto; lia|lra]. }
    destruct (vadd_step S1 S2 _ v w x y A' B' G H1 H2 HV) as [P Q].
    assert (X : 0 <= (1 + grown c (Nat.max a b)) * (1 + / 2 ^ 44) - 1).
    { assert (1 * 1 <= (1 + grown c (Nat.max a b)) * (1 + / 2 ^ 44)) by (apply Rmult_le_compat; lra). lra. }
    split; (eapply vapprox_mono; [eassumption|exact X|lra|now apply step1|lra]).
  Qed.
  Lemma ssum_ok S1 S2 a b v w x y : sapprox S1 (grown c a) v x -> sapprox S2 (grown c b) w y ->
    INR (Nat.max a b + 1) * c <= / 2000 -> tiny <= S1 -> tiny <= S2 -> S1 + S2 <= vast ->
    sapprox (S1 + S2) (grown c (Nat.max a b + 1)) (fadd v w) (x + y) /\
    sapprox (S1 + S2) (grown c (Nat.max a b + 1)) (fsub v w) (x - y).
  Proof.
    intros A B HN H1 H2 HV. pose proof tiny_pos as T0. pose proof unit_pos as U0.
    assert (G : 0 <= grown c (Nat.max a b) <= / 1000) by (apply (less_small _ (Nat.max a b + 1)); [lia|exact HN]).
    assert (A' : sapprox S1 (grown c (Nat.max a b)) v x).
    { eapply sapprox_mono; [exact A|now apply grown_nonneg|lra|apply grown_mono; auto; lia|lra]. }
    assert (B' : sapprox S2 (grown c (Nat.max a b)) w y).
    { eapply sapprox_mono; [exact B|now apply grown_nonneg|lra|apply grown_mono; auto; lia|lra]. }
    destruct (fadd_step S1 S2 _ v w x y A' B' G H1 H2 HV) as [P Q].
    assert (X : 0 <= (1 + grown c (Nat.max a b)) * (1 + / 2 ^ 44) - 1).
    { assert (1 * 1 <= (1 + grown c (Nat.max a b)) * (1 + / 2 ^ 44)) by (apply Rmult_le_compat; lra). lra. }
    split; (eapply sapprox_mono; [eassumption|exact X|lra|now apply step1|lra]).
  Qed.

  Lemma compose_ok o qo fa fb xa xb t rl vl rr vr Sl Sr : sums_four qo ->
    approximates Sl (grown c rl) (grown c vl) fa xa -> approximates Sr (grown c rr) (grown c vr) fb xb ->
    ty_compose (Plain (flty fa)) (Plain (flty fb)) = Some t ->
    let NR := (if lty_eqb (flty fa) LCompRT && lty_eqb (flty fb) LMatRT then 15 * rl + rr + 2
               else if lty_eqb (flty fa) LMatRT && lty_eqb (flty fb) LCompRT then 15 * rl + 225 * rr + 31 else rl + rr + 1)%nat in
    let NV := (Nat.max (9 * rl + vr + 1) vl + 1)%nat in
    INR NR * c <= / 2000 -> INR NV * c <= / 2000 -> tiny <= Sl -> tiny <= Sr -> Sl + Sr <= vast ->
    exists f' x', fsem_compose o qo fa fb = Some f' /\ t = Plain (flty f') /\ dcompose xa xb = Some x' /\
      kind_bin OCompose (dkind xa) (dkind xb) <> None /\
      approximates (Sl + Sr) (grown c NR) (grown c NV) f' x'.
  Proof.
    intros Hq Ha Hb Hty NR NV HR HV T1 T2 HS. pose proof tiny_pos as T0.
    assert (L1 : (rl <= NR)%nat) by (subst NR; clear; destruct (lty_eqb (flty fa) LCompRT && lty_eqb (flty fb) LMatRT), (lty_eqb (flty fa) LMatRT && lty_eqb (flty fb) LCompRT); lia).
    assert (L2 : (rr <= NR)%nat) by (subst NR; clear; destruct (lty_eqb (flty fa) LCompRT && lty_eqb (flty fb) LMatRT), (lty_eqb (flty fa) LMatRT && lty_eqb (flty fb) LCompRT); lia).
    assert (L3 : (vr <= NV)%nat) by (subst NV; clear; lia).
    pose proof (less_small _ _ L1 HR) as Gl. pose proof (less_small _ _ L2 HR) as Gr. pose proof (less_small _ _ L3 HV) as Gv. clear L1 L2 L3.
    assert (TV : forall ma ta mb tb, rot_ok rl fa ma -> vapprox Sl (grown c vl) ta mb -> forall yb, vapprox Sr (grown c vr) tb yb ->
      vapprox (Sl + Sr) (grown c NV) (dmapv2 fadd (turned o fa tb) ta) (vadd (app3 ma yb) mb)).
    { intros ma ta mb tb Hra Hta yb Htb. rewrite Rplus_comm. apply vsum_ok; try assumption; [|lra].
      apply turn_ok; try assumption; split; lra. }
    destruct fa, fb; try discriminate Hty; destruct xa, xb; try contradiction Ha; try contradiction Hb;
      injection Hty as <-; cbn [approximates flty] in *; subst NR; cbn [lty_eqb andb] in *;
      eexists _, _; (split; [reflexivity|]; split; [reflexivity|]; split; [reflexivity|]; split; [discriminate|]); cbn [approximates].
    - eapply qapprox_mono; [apply (qmul_step' _ _ _ _ _ _ _ Hq Ha Hb); lra|now apply step2].
    - eapply mapprox_mono; [apply (mmul_step o _ _ _ _ _ _ Ha Hb); lra|now apply step2].
    - destruct Ha as [A1 A2], Hb as [B1 B2]. split; [|exact (TV _ _ _ _ A1 A2 _ B2)].
      eapply mapprox_mono; [apply (mmul_step o _ _ _ _ _ _ A1 B1); lra|now apply step2].
    - destruct Ha as [A1 A2], Hb as [B1 B2]. split; [|exact (TV _ _ _ _ A1 A2 _ B2)].
      assert (Q : mapprox (grown c (15 * rr + 1)) (dqrot o q) m2).
      { eapply mapprox_mono; [apply (qconvert_step o _ _ _ B1); lra|]. now apply step15. }
      assert (GQ : 0 <= grown c (15 * rr + 1) <= / 1000) by (apply (less_small _ (15 * rl + 225 * rr + 31)); [lia|exact HR]).
      assert (P : mapprox (grown c (rl + (15 * rr + 1) + 1)) (dmul o m0 (dqrot o q)) (mul3 m1 m2)).
      { eapply mapprox_mono; [apply (mmul_step o _ _ _ _ _ _ A1 Q); lra|now apply step2]. }
      assert (GP : 0 <= grown c (rl + (15 * rr + 1) + 1) <= / 1000) by (apply (less_small _ (15 * rl + 225 * rr + 31)); [lia|exact HR]).
      eapply qapprox_mono; [apply (mconvert_step o _ _ _ P); lra|].
      replace (15 * rl + 225 * rr + 31)%nat with (15 * (rl + (15 * rr + 1) + 1) + 1)%nat by lia. now apply step15.
    - destruct Ha as [A1 A2], Hb as [B1 B2]. split; [|exact (TV _ _ _ _ A1 A2 _ B2)].
      assert (Q : mapprox (grown c (15 * rl + 1)) (dqrot o q) m1).
      { eapply mapprox_mono; [apply (qconvert_step o _ _ _ A1); lra|]. now apply step15. }
      assert (GQ : 0 <= grown c (15 * rl + 1) <= / 1000) by (apply (less_small _ (15 * rl + rr + 2)); [lia|exact HR]).
      eapply mapprox_mono; [apply (mmul_step o _ _ _ _ _ _ Q B1); lra|].
      replace (15 * rl + rr + 2)%nat with (15 * rl + 1 + rr + 1)%nat by lia. now apply step2.
    - destruct Ha as [A1 A2], Hb as [B1 B2]. split; [|exact (TV _ _ _ _ A1 A2 _ B2)].
      eapply qapprox_mono; [apply (qmul_step' _ _ _ _ _ _ _ Hq A1 B1); lra|now apply step2].
  Qed.

  Lemma bin_ok o qo op l r fa fb xa xb t : sums_four qo -> fits c m (XBin op l r) ->
    typ l = Some (Plain (flty fa)) -> typ r = Some (Plain (flty fb)) -> APX l fa xa -> APX r fb xb -> deval 0 m r = Some xb ->
    ty_bin op (Plain (flty fa)) (Plain (flty fb)) = Some t ->
    exists f' x', fsem_bin o qo op fa fb = Some f' /\ t = Plain (flty f') /\ dsem_bin op xa xb = Some x' /\ APX (XBin op l r) f' x'.
  Proof.
    intros Hq Hf Htl Htr Ha Hb Hxb Hty. cbn [fits] in Hf. destruct Hf as (HS & HR & HV & Hl & Hr & Hop).
    destruct (fits_bounds l Hl) as ((T1 & V1) & G1 & G2). destruct (fits_bounds r Hr) as ((T2 & V2) & G3 & G4). pose proof tiny_pos as T0. pose proof unit_pos as U0.
    cbn [size cost] in *. rewrite ?(has_typ_eq _ _ _ Htl), ?(has_typ_eq _ _ _ Htr) in *.
    destruct (cost l) as [rl vl], (cost r) as [rr vr]. cbn [fst snd] in *.
    assert (X : 0 <= (1 + grown c vl) * (1 + grown c vr) * (1 + / 2 ^ 44) - 1).
    { assert (1 * 1 <= (1 + grown c vl) * (1 + grown c vr)) by (apply Rmult_le_compat; lra).
      assert (1 * 1 <= (1 + grown c vl) * (1 + grown c vr) * (1 + / 2 ^ 44)) by (apply Rmult_le_compat; lra). lra. }
    assert (Y : 0 <= (1 + grown c vl) * (1 + 3 * grown c vr) * (1 + / 2 ^ 44) - 1).
    { assert (1 * 1 <= (1 + grown c vl) * (1 + 3 * grown c vr)) by (apply Rmult_le_compat; lra).
      assert (1 * 1 <= (1 + grown c vl) * (1 + 3 * grown c vr) * (1 + / 2 ^ 44)) by (apply Rmult_le_compat; lra). lra. }
    destruct op; cbn [fst snd] in *.
    - (* compose *)
      destruct (compose_ok o qo fa fb xa xb t rl vl rr vr (size m l) (size m r) Hq Ha Hb Hty HR HV T1 T2 HS) as (f' & x' & E1 & E2 & E3 & E4 & E5).
      exists f', x'. split; [exact E1|]. split; [exact E2|]. split; [|exact E5]. cbn [dsem_bin]. unfold dsem_bin.
      destruct (kind_bin _ _ _); [exact E3|congruence].
    - (* compose flipped *)
      rewrite Rplus_comm in HS. 
      destruct (compose_ok o qo fb fa xb xa t rr vr rl vl (size m r) (size m l) Hq Hb Ha Hty HR HV T2 T1 HS) as (f' & x' & E1 & E2 & E3 & E4 & E5).
      exists f', x'. split; [exact E1|]. split; [exact E2|]. rewrite Rplus_comm. split; [|exact E5]. unfold dsem_bin.
      replace (kind_bin OComposeFlipped (dkind xa) (dkind xb)) with (kind_bin OCompose (dkind xb) (dkind xa)) by (destruct xa, xb; reflexivity).
      destruct (kind_bin _ _ _); [exact E3|congruence].
    - (* rotate *)
      destruct fa, fb; try discriminate Hty; destruct xa, xb; try contradiction Ha; try contradiction Hb; injection Hty as <-;
        cbn [approximates flty] in *; eexists _, _; (split; [reflexivity|]; split; [reflexivity|]; split; [reflexivity|]); cbn [approximates].
      + apply (turn_ok o rl vr _ (FQuat q)); auto.
      + apply (turn_ok o rl vr _ (FMat m0)); auto.
    - (* transform *)
      destruct fa, fb; try discriminate Hty; destruct xa, xb; try contradiction Ha; try contradiction Hb; injection Hty as <-;
        cbn [approximates flty] in *; eexists _, _; (split; [reflexivity|]; split; [reflexivity|]; split; [reflexivity|]); cbn [approximates];
        destruct Ha as [A1 A2]; rewrite Rplus_comm; apply vsum_ok; auto; try lra.
      + apply (turn_ok o rl vr _ (FMatRT m0 t0)); auto.
      + apply (turn_ok o rl vr _ (FCompRT q t0)); auto.
    - (* sum *)
      destruct fa, fb; try discriminate Hty; destruct xa, xb; try contradiction Ha; try contradiction Hb; injection Hty as <-;
        cbn [approximates flty] in *; eexists _, _; (split; [reflexivity|]; split; [reflexivity|]; split; [reflexivity|]); cbn [approximates].
      + now apply ssum_ok.
      + now apply vsum_ok.
      + now apply vsum_ok.
      + now apply vsum_ok.
      + now apply vsum_ok.
    - (* subtract *)
      destruct fa, fb; try discriminate Hty; destruct xa, xb; try contradiction Ha; try contradiction Hb; injection Hty as <-;
        cbn [approximates flty] in *; eexists _, _; (split; [reflexivity|]; split; [reflexivity|]; split; [reflexivity|]); cbn [approximates].
      + now apply ssum_ok.
      + now apply vsum_ok.
      + now apply vsum_ok.
      + now apply vsum_ok.
      + now apply vsum_ok.
    - (* scale *)
      destruct fa, fb; try discriminate Hty; destruct xa, xb; try contradiction Ha; try contradiction Hb; injection Hty as <-;
        cbn [approximates flty] in *; eexists _, _; (split; [reflexivity|]; split; [reflexivity|]; split; [reflexivity|]); cbn [approximates];
        (eapply vapprox_mono; [apply (vscale_step (size m l) (size m r) _ _ _ _ _ _ _ Ha Hb); auto|exact X|lra|now apply step2|pose proof (Rmax_l tiny (size m l * size m r)); lra]).
    - (* scale from the right *)
      rewrite (Rmult_comm (size m l)) in *.
      assert (X' : 0 <= (1 + grown c vr) * (1 + grown c vl) * (1 + / 2 ^ 44) - 1) by (rewrite (Rmult_comm (1 + grown c vr)); exact X).
      replace (vl + vr + 1)%nat with (vr + vl + 1)%nat in * by lia.
      assert (P : forall v y s z, vapprox (size m l) (grown c vl) v y -> sapprox (size m r) (grown c vr) s z ->
        vapprox (Rmax tiny (size m r * size m l)) (grown c (vr + vl + 1)) (dmapv (fun x => fmul x s) v) (mkV (vx y * z) (vy y * z) (vz y * z))).
      { intros v y s z Hv Hs. replace (mkV (vx y * z) (vy y * z) (vz y * z)) with (vscal z y) by (unfold vscal; f_equal; ring).
        eapply vapprox_mono; [apply (vscale_step (size m r) (size m l) _ _ _ _ _ _ _ Hs Hv); auto|exact X'|lra|now apply step2|pose proof (Rmax_l tiny (size m r * size m l)); lra]. }
      destruct fa, fb; try discriminate Hty; destruct xa, xb; try contradiction Ha; try contradiction Hb; injection Hty as <-;
        cbn [approximates flty] in *; eexists _, _; (split; [reflexivity|]; split; [reflexivity|]; split; [reflexivity|]); cbn [approximates]; apply P; assumption.
    - (* quotient by a number *)
      assert (P : forall v y s z, vapprox (size m l) (grown c vl) v y -> sapprox (size m r) (grown c vr) s z -> size m r <= 2 * Rabs z ->
        z <> 0 /\ vapprox (Rmax tiny (2 * (size m l / size m r))) (grown c (vl + 3 * vr + 1)) (dmapv (fun x => fdiv x s) v) (mkV (vx y / z) (vy y / z) (vz y / z))).
      { intros v y s z Hv Hs Hz. split; [intros ->; rewrite Rabs_R0 in Hz; lra|].
        replace (mkV (vx y / z) (vy y / z) (vz y / z)) with (vscal (/ z) y) by (unfold vscal, Rdiv; f_equal; ring).
        eapply vapprox_mono; [apply (vdiv_step (size m l) (size m r) _ _ _ _ _ _ Hv Hs); auto|exact Y|lra|now apply step_quot|pose proof (Rmax_l tiny (2 * (size m l / size m r))); lra]. }
      destruct fa, fb; try discriminate Hty; destruct xa, xb; try contradiction Ha; try contradiction Hb; injection Hty as <-;
        cbn [approximates flty] in *; specialize (Hop _ Hxb); cbn [length_of] in Hop; destruct (P _ _ _ _ Ha Hb Hop) as [Z W];
        eexists _, _; (split; [reflexivity|]; split; [reflexivity|]; split; [cbn [dsem_bin]; unfold dsem_bin; cbn [kind_bin dkind col_kind kind_eqb]; destruct (Req_EM_T s0 0) as [C|_]; [contradiction|reflexivity]|]);
        cbn [approximates]; exact W.
    - (* product *)
      destruct fa, fb; try discriminate Hty; destruct xa, xb; try contradiction Ha; try contradiction Hb; injection Hty as <-;
        cbn [approximates flty] in *; eexists _, _; (split; [reflexivity|]; split; [reflexivity|]; split; [reflexivity|]); cbn [approximates].
      eapply sapprox_mono; [apply (fmul_step (size m l) (size m r) _ _ _ _ _ _ Ha Hb); auto|exact X|lra|now apply step2|pose proof (Rmax_l tiny (size m l * size m r)); lra].
    - (* quotient *)
      destruct fa, fb; try discriminate Hty; destruct xa, xb; try contradiction Ha; try contradiction Hb; injection Hty as <-;
        cbn [approximates flty] in *. specialize (Hop _ Hxb); cbn [length_of] in Hop.
      assert (Z : s2 <> 0) by (intros ->; rewrite Rabs_R0 in Hop; lra).
      eexists _, _; split; [reflexivity|]; split; [reflexivity|]; split.
      { unfold dsem_bin; cbn [kind_bin dkind]. unfold odiv. destruct (Req_EM_T s2 0) as [C|_]; [contradiction|reflexivity]. }
      cbn [approximates].
      eapply sapprox_mono; [apply (fdiv_step (size m l) (size m r) _ _ _ _ _ _ Ha Hb); auto|exact Y|lra|now apply step_quot|pose proof (Rmax_l tiny (2 * (size m l / size m r))); lra].
    - (* dot *)
      assert (D : forall a b, rsum 3 (fun i => vget a i * vget b i) = vdot a b) by (intros [] []; unfold vdot; cbn; ring).
      destruct fa, fb; try discriminate Hty; destruct xa, xb; try contradiction Ha; try contradiction Hb; injection Hty as <-;
        cbn [approximates flty] in *; eexists _, _; (split; [reflexivity|]; split; [reflexivity|]; split; [reflexivity|]); cbn [approximates];
        cbn [dkind tsize dcoord]; rewrite D;
        (eapply sapprox_mono; [apply (vdot_step o (size m l) (size m r) _ _ _ _ _ _ Ha Hb); auto|exact X|lra|now apply step2|pose proof (Rmax_l tiny (size m l * size m r)); lra]).
  Qed.
End Tree.

(** ** Preparation *)
Lemma convert_typ t t' p : can_convert t t' = true -> typ p = Some t -> typ (xconvert t' p) = Some t'.
Proof.
  unfold can_convert. destruct t' as [l|l|l]; try discriminate. intros H Hp. cbn [xconvert typ]. rewrite Hp.
  unfold ty_un in *. destruct t; [destruct (kind_eqb _ _)|destruct (lty_eqb _ _)|destruct (lty_eqb _ _)]; try discriminate; reflexivity.
Qed.

Lemma convert_deval m t p x : deval 0 m (xconvert t p) = Some x -> deval 0 m p = Some x.
Proof.
  destruct t; cbn [xconvert]; try exact (fun H => H). cbn [deval]. destruct (deval 0 m p) as [d|]; [|discriminate].
  cbn [dsem_un]. destruct (kind_eqb _ _); [trivial|discriminate].
Qed.
Lemma convert_stored d mem m t p : stored d mem m p -> stored d mem m (xconvert t p).
Proof. destruct t; exact (fun H => H). Qed.

(** A prepared expression has the announced type, denotes the same function and has the same
    leaves. *)
Lemma prepare_typ e : forall p t, prepare e = Some (p, t) -> typ p = Some t /\
  (forall m x, deval 0 m p = Some x -> deval 0 m e = Some x) /\
  (forall d mem m, stored d mem m e -> stored d mem m p).
Proof.
  induction e as [a t0|o e IH|o l IHl r IHr]; intros p t Hp.
  - cbn in Hp. injection Hp as <- <-. cbn. auto.
  - cbn in Hp. destruct (prepare e) as [[p' t']|]; [|discriminate]. destruct (IH _ _ eq_refl) as (T1 & D1 & S1).
    assert (K : forall q, (forall m x, deval 0 m q = Some x -> deval 0 m p' = Some x) ->
      forall m x, deval 0 m (XUn o q) = Some x -> deval 0 m (XUn o e) = Some x).
    { intros q Hq m x. cbn [deval]. destruct (deval 0 m q) as [y|] eqn:E; [|discriminate]. now rewrite (D1 _ _ (Hq _ _ E)). }
    destruct (choose_unary _ _ _ _) as [[|t'']|] eqn:C; [| |discriminate].
    + destruct (ty_un o t') eqn:T; [|discriminate]. injection Hp as <- <-. cbn [typ stored]. rewrite T1. split; [exact T|].
      split; [apply K; auto|exact S1].
    + unfold choose_unary in C. destruct (is_some (ty_un o t')); [discriminate|].
      destruct (first_true _ _) as [x|] eqn:F; [|discriminate]. injection C as ->.
      apply first_true_some in F. destruct F as (F & _). apply andb_prop in F as (F1 & F2).
      destruct (ty_un o t'') eqn:T; [|discriminate]. injection Hp as <- <-. cbn [typ stored].
      rewrite (convert_typ _ _ _ F1 T1). split; [exact T|]. split; [apply K; intros ? ?; apply convert_deval|]. intros. apply convert_stored. auto.
  - cbn in Hp. destruct (prepare l) as [[pl tl]|]; [|discriminate]. destruct (prepare r) as [[pr tr]|]; [|discriminate].
    destruct (IHl _ _ eq_refl) as (T1 & D1 & S1). destruct (IHr _ _ eq_refl) as (T2 & D2 & S2). clear IHl IHr.
    assert (K : forall q q', (forall m x, deval 0 m q = Some x -> deval 0 m pl = Some x) -> (forall m x, deval 0 m q' = Some x -> deval 0 m pr = Some x) ->
      forall m x, deval 0 m (XBin o q q') = Some x -> deval 0 m (XBin o l r) = Some x).
    { intros q q' Hq Hq' m x. cbn [deval]. destruct (deval 0 m q) as [y|] eqn:E; [|discriminate]. destruct (deval 0 m q') as [y'|] eqn:E'; [|discriminate].
      now rewrite (D1 _ _ (Hq _ _ E)), (D2 _ _ (Hq' _ _ E')). }
    destruct (choose_binary _ _ _ _ _ _) as [[|tr'|tl'|tl' tr']|] eqn:C; [| | | |discriminate].
    + destruct (ty_bin o tl tr) eqn:T; [|discriminate]. injection Hp as <- <-. cbn [typ stored]. rewrite T1, T2. split; [exact T|].
      split; [apply K; auto|]. intros d mem m [A B]. auto.
    + destruct (ty_bin o tl tr') eqn:T; [|discriminate]. injection Hp as <- <-. cbn [typ stored].
      assert (F1 : can_convert tr tr' = true).
      { unfold choose_binary in C. destruct (is_some _); [discriminate|].
        destruct (first_true _ (convert_to tr)) as [x|] eqn:F.
        - injection C as ->. apply first_true_some in F. destruct F as (F & _). apply andb_prop in F. tauto.
        - destruct (first_true _ (convert_to tl)); [discriminate|]. destruct (first_true _ (cartesian _ _)); discriminate. }
      rewrite T1, (convert_typ _ _ _ F1 T2). split; [exact T|]. split; [apply K; auto; intros ? ?; apply convert_deval|].
      intros d mem m [A B]. split; auto using convert_stored.
    + destruct (ty_bin o tl' tr) eqn:T; [|discriminate]. injection Hp as <- <-. cbn [typ stored].
      assert (F1 : can_convert tl tl' = true).
      { unfold choose_binary in C. destruct (is_some _); [discriminate|].
        destruct (first_true _ (convert_to tr)) as [x|]; [discriminate|].
        destruct (first_true _ (convert_to tl)) as [x|] eqn:F.
        - injection C as ->. apply first_true_some in F. destruct F as (F & _). apply andb_prop in F. tauto.
        - destruct (first_true _ (cartesian _ _)); discriminate. }
      rewrite T2, (convert_typ _ _ _ F1 T1). split; [exact T|]. split; [apply K; auto; intros ? ?; apply convert_deval|].
      intros d mem m [A B]. split; auto using convert_stored.
    + destruct (ty_bin o tl' tr') eqn:T; [|discriminate]. injection Hp as <- <-. cbn [typ stored].
      unfold choose_binary in C. destruct (is_some _); [discriminate|].
      destruct (first_true _ (convert_to tr)) as [x|]; [discriminate|].
      destruct (first_true _ (convert_to tl)) as [x|]; [discriminate|].
      destruct (first_true _ (cartesian _ _)) as [[x y]|] eqn:F; [|discriminate].
      injection C as -> ->. apply first_true_some in F. destruct F as (F & _). cbn in F.
      apply andb_prop in F as (F & _). apply andb_prop in F as (F1 & F2).
      rewrite (convert_typ _ _ _ F1 T1), (convert_typ _ _ _ F2 T2). split; [exact T|]. split; [apply K; intros ? ?; apply convert_deval|].
      intros d mem m [A B]. split; auto using convert_stored.
Qed.

Lemma prepare_to_typ dest e p t : prepare_to dest e = Some (p, t) -> typ p = Some t /\
  (forall m x, deval 0 m p = Some x -> deval 0 m e = Some x) /\
  (forall d mem m, stored d mem m e -> stored d mem m p).
Proof.
  unfold prepare_to. destruct (prepare e) as [[p0 t0]|] eqn:E; [|discriminate]. destruct (ty_eqb dest t0) eqn:D.
  - intros H. injection H as <- <-. now apply prepare_typ.
  - destruct dest as [l| |]; try discriminate. intros H. destruct (prepare_typ _ _ _ H) as (A & B & C). split; [exact A|].
    split; [|exact C]. intros m x Hx. apply (convert_deval m (Plain l)). now apply B.
Qed.

(** ** Whole trees *)
Theorem tree_ok M ord qord d mem m p : one_ulp M -> acos_ulp M -> (forall path, sums_four (qord path)) ->
  0 <= d -> let c := d + / 2 ^ 44 in fits c m p -> stored d mem m p ->
  forall t path, typ p = Some t ->
  exists f x, feval_p M ord qord mem path p = Some f /\ t = Plain (flty f) /\ deval 0 m p = Some x /\
    approximates (size m p) (grown c (fst (cost p))) (grown c (snd (cost p))) f x.
Proof.
  intros HM HA Hq Hd c. assert (C0 : / 2 ^ 44 <= c) by (unfold c; lra).
  assert (DC : d <= c) by (unfold c; pose proof unit_pos; lra).
  induction p as [a t0|op p IH|op l IHl r IHr]; intros Hf Hs t path Ht.
  - cbn [typ stored] in *. injection Ht as <-. destruct Hs as [-> Ha]. exists (mem a), (m a). cbn [feval_p deval cost size fst snd].
    split; [reflexivity|]. split; [reflexivity|]. split; [reflexivity|]. rewrite grown_1.
    assert (0 <= length_of (m a)).
    { destruct (m a); cbn [length_of]; try lra; try apply vnorm_nonneg; try apply Rabs_pos. apply Rplus_le_le_0_compat; apply vnorm_nonneg. }
    eapply approximates_mono; [exact Ha|exact Hd|apply Rmax_r|exact DC|exact DC|assumption].
  - assert (Hp : fits c m p) by (cbn [fits] in Hf; tauto). cbn [typ stored feval_p deval] in *.
    destruct (typ p) as [t0|] eqn:Tp; [|discriminate]. destruct (IH Hp Hs t0 (true :: path) eq_refl) as (f & x & E1 & -> & E3 & E4).
    rewrite E1, E3. eapply un_ok; eauto.
  - assert (Hl : fits c m l) by (cbn [fits] in Hf; tauto). assert (Hr : fits c m r) by (cbn [fits] in Hf; tauto).
    cbn [typ stored feval_p deval] in *. destruct Hs as [Sl Sr].
    destruct (typ l) as [tl|] eqn:Tl; [|discriminate]. destruct (typ r) as [tr|] eqn:Tr; [|discriminate].
    destruct (IHl Hl Sl tl (true :: path) eq_refl) as (fa & xa & A1 & -> & A3 & A4).
    destruct (IHr Hr Sr tr (false :: path) eq_refl) as (fb & xb & B1 & -> & B3 & B4).
    rewrite A1, B1, A3, B3. eapply bin_ok; eauto.
Qed.
