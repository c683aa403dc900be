(** Local Jacobians on doubles. *)

From Coq Require Import ZArith Reals List Bool Arith Lra Lia Psatz.
From Flocq Require Import Core BinarySingleNaN.
From Verif Require Import Mat V3 ModelLeaf SpecLeaf ModelFloat SpecFlt FloatProofs FloatDrift FloatExp ModelFloatQ SpecFltQ FloatQuat FloatAct.
From Verif Require Import LeafProofs ExprProofs ModelExpr SpecExpr SpecJac ModelFloatExpr SpecFltExpr FloatNorm FloatStep FloatStep2 FloatDiv FloatTree ModelFloatJac SpecFltJac FloatJac FloatJacExp ExpLip PropsAway.
Import ListNotations.
Local Open Scope R_scope.

Lemma f1_ok : finite f1 /\ val f1 = 1.
Proof. destruct (lit_ok 1 0) as [A B]; [reflexivity|lia|]. split; [exact A|]. unfold f1. rewrite B. cbn. ring. Qed.
Lemma f2_ok : finite f2 /\ val f2 = 2.
Proof. destruct (lit_ok 2 0) as [A B]; [reflexivity|lia|]. split; [exact A|]. unfold f2. rewrite B. cbn. ring. Qed.
Lemma f0_ok : finite f0 /\ val f0 = 0. Proof. split; reflexivity. Qed.

Lemma sapprox_eq B e s y : finite s -> val s = y -> Rabs y <= B -> 0 <= e -> 0 <= B -> sapprox B e s y.
Proof. intros F V H He HB. split; [exact F|]. split; [exact H|]. rewrite V, Rminus_diag_eq, Rabs_R0 by reflexivity. now apply Rmult_le_pos. Qed.

Lemma j_id n B e : 1 <= B -> 0 <= e -> japprox B e n n fid (mid n).
Proof.
  intros HB He i j Hi Hj. rewrite mnth_mid. unfold fid. apply Nat.ltb_lt in Hi. rewrite Hi, andb_true_r.
  destruct f1_ok as [F V]. destruct (i =? j)%nat.
  - apply sapprox_eq; auto; [rewrite Rabs_R1|]; lra.
  - apply sapprox_eq; auto; try reflexivity; [rewrite Rabs_R0|]; lra.
Qed.

Lemma mnth_mopp A i j : mnth (mopp A) i j = - mnth A i j.
Proof.
  unfold mnth at 1. cbn [mopp mrows mcols mget]. destruct ((i <? mrows A) && (j <? mcols A))%nat eqn:E; [reflexivity|].
  unfold mnth. rewrite E. ring.
Qed.
Lemma mnth_mscal a A i j : mnth (mscal a A) i j = a * mnth A i j.
Proof.
  unfold mnth at 1. cbn [mscal mrows mcols mget]. destruct ((i <? mrows A) && (j <? mcols A))%nat eqn:E; [reflexivity|].
  unfold mnth. rewrite E. ring.
Qed.

Lemma j_neg B e r c F J : japprox B e r c F J -> japprox B e r c (fneg F) (mopp J).
Proof. intros H i j Hi Hj. rewrite mnth_mopp. unfold fneg. apply sopp_step. now apply H. Qed.

Lemma j_scal S e n s y : sapprox S e s y -> 0 <= e -> 0 <= S -> S <= vast -> e <= / 1000 -> japprox S e n n (fscal s fid) (mscal y (mid n)).
Proof.
  intros (F & Hy & D) He HS HV E1 i j Hi Hj. rewrite mnth_mscal, mnth_mid. unfold fscal, fid. apply Nat.ltb_lt in Hi. rewrite Hi, andb_true_r.
  destruct f1_ok as [F1 V1]. pose proof (abs_le_dist _ _ _ D) as AD. pose proof vast_big as (VB & _ & _).
  assert (e * S <= / 1000 * S) by (apply Rmult_le_compat_r; lra). pose proof big_ge as BG.
  destruct (i =? j)%nat.
  - destruct (fmul_ok s f1 F F1) as [A B]; [rewrite V1, Rmult_1_r; lra|]. rewrite V1, Rmult_1_r, nearest_val in B.
    rewrite Rmult_1_r. split; [exact A|]. split; [exact Hy|]. now rewrite B.
  - destruct (fmul_ok s f0 F eq_refl) as [A B]; [change (val f0) with 0; rewrite Rmult_0_r, Rabs_R0; lra|].
    change (val f0) with 0 in B. rewrite Rmult_0_r in *. apply sapprox_eq; auto; [|rewrite Rabs_R0; lra].
    rewrite B. change 0 with (val f0). apply nearest_val.
Qed.

Ltac three i := destruct i as [|[|[|i]]]; [| | |exfalso; lia].

Lemma j_m3 e a n : mapprox e a n -> japprox 1 e 3 3 (fof_m3 a) (of_m3 n).
Proof.
  intros (((F00 & F01 & F02) & (F10 & F11 & F12) & (F20 & F21 & F22)) & R & D) i j Hi Hj.
  destruct (fnorm_mwithin _ _ _ D) as (E0 & E1 & E2 & E3 & E4 & E5 & E6 & E7 & E8).
  destruct (rot_row_norm n R) as (N0 & N1 & N2).
  destruct (comp_le_norm (mrow0 n)) as (A0 & A1 & A2). destruct (comp_le_norm (mrow1 n)) as (B0 & B1 & B2). destruct (comp_le_norm (mrow2 n)) as (C0 & C1 & C2).
  rewrite N0 in *. rewrite N1 in *. rewrite N2 in *. cbn in *.
  three i; three j; cbn; (split; [assumption|]; split; [assumption|]; rewrite Rmult_1_r; assumption).
Qed.

Lemma j_blocks B e a b c d a' b' c' d' :
  japprox B e 3 3 (fof_m3 a) (of_m3 a') -> japprox B e 3 3 (fof_m3 b) (of_m3 b') ->
  japprox B e 3 3 (fof_m3 c) (of_m3 c') -> japprox B e 3 3 (fof_m3 d) (of_m3 d') ->
  japprox B e 6 6 (fof_blocks a b c d) (of_blocks a' b' c' d').
Proof.
  intros Ha Hb Hc Hd i j Hi Hj. rewrite mnth_in by (cbn; assumption). cbn [of_blocks mget]. unfold fof_blocks.
  destruct (Nat.ltb_spec i 3), (Nat.ltb_spec j 3); [apply Ha|apply Hb|apply Hc|apply Hd]; lia.
Qed.
Lemma j_wide B e a b a' b' :
  japprox B e 3 3 (fof_m3 a) (of_m3 a') -> japprox B e 3 3 (fof_m3 b) (of_m3 b') ->
  japprox B e 3 6 (fof_wide a b) (of_wide a' b').
Proof.
  intros Ha Hb i j Hi Hj. rewrite mnth_in by (cbn; assumption). cbn [of_wide mget]. unfold fof_wide.
  destruct (Nat.ltb_spec j 3); [apply Ha|apply Hb]; lia.
Qed.

Lemma j_did B e : 1 <= B -> 0 <= e -> japprox B e 3 3 (fof_m3 did) (of_m3 i3).
Proof.
  intros HB He i j Hi Hj. destruct f1_ok as [F V].
  three i; three j; cbn; (apply sapprox_eq; [first [exact F|reflexivity]|first [exact V|reflexivity]|rewrite ?Rabs_R0, ?Rabs_R1; lra|lra|lra]).
Qed.
Lemma j_dzero B e : 0 <= B -> 0 <= e -> japprox B e 3 3 (fof_m3 dzero) (of_m3 z3).
Proof.
  intros HB He i j Hi Hj.
  three i; three j; cbn; (apply sapprox_eq; [reflexivity|reflexivity|rewrite Rabs_R0; lra|lra|lra]).
Qed.

Lemma j_skew S e v x : vapprox S e v x -> 0 <= e -> 0 <= S -> japprox S e 3 3 (fof_m3 (dskew v)) (of_m3 (skew x)).
Proof.
  intros H He HS i j Hi Hj. destruct (vapprox_comp _ _ _ _ H) as (A & B & C).
  pose proof (sopp_step _ _ _ _ A) as A'. pose proof (sopp_step _ _ _ _ B) as B'. pose proof (sopp_step _ _ _ _ C) as C'.
  assert (Z : sapprox S e f0 0) by (apply sapprox_eq; try reflexivity; rewrite ?Rabs_R0; lra).
  three i; three j; cbn; assumption.
Qed.

(** the rows of a cross-product matrix *)
Lemma skew_rows S e v x : vapprox S e v x ->
  vapprox S e (r0 (dskew v)) (mrow0 (skew x)) /\ vapprox S e (r1 (dskew v)) (mrow1 (skew x)) /\ vapprox S e (r2 (dskew v)) (mrow2 (skew x)).
Proof.
  intros ((F0 & F1 & F2) & N & D). destruct (fopp_ok _ F0) as [G0 W0]. destruct (fopp_ok _ F1) as [G1 W1]. destruct (fopp_ok _ F2) as [G2 W2].
  assert (Z : val f0 = 0) by reflexivity.
  pose proof (vnorm_nonneg x) as P0. pose proof (vnorm_nonneg (vsub (vval v) x)) as P1.
  assert (NS : vnorm x * vnorm x = vnorm2 x) by apply vnorm_sq.
  assert (DS : vnorm (vsub (vval v) x) * vnorm (vsub (vval v) x) = vnorm2 (vsub (vval v) x)) by apply vnorm_sq.
  destruct x as [x y z], v as [a b c]. cbn [dx dy dz] in *. unfold vnorm2, vdot in NS, DS. cbn [vsub vval vx vy vz dx dy dz] in NS, DS.
  assert (SQ : forall t, 0 <= t * t) by (intros; apply Rle_0_sqr).
  pose proof (SQ x); pose proof (SQ y); pose proof (SQ z); pose proof (SQ (val a - x)); pose proof (SQ (val b - y)); pose proof (SQ (val c - z)).
  split; [|split]; (split; [split; [|split]; cbn [r0 r1 r2 dskew dx dy dz]; first [assumption|reflexivity]|]; split;
    [eapply Rle_trans; [|exact N]|eapply Rle_trans; [|exact D]]; apply norm_le_sq; try assumption;
    rewrite ?NS, ?DS; unfold vnorm2, vdot; cbn [vsub vval skew mrow0 mrow1 mrow2 vx vy vz m00 m01 m02 m10 m11 m12 m20 m21 m22 r0 r1 r2 dskew dx dy dz];
    rewrite ?W0, ?W1, ?W2, ?Z; lra).
Qed.

Lemma cols_ok e a n : mapprox e a n ->
  vapprox 1 e (r0 (dtr a)) (mrow0 (tr3 n)) /\ vapprox 1 e (r1 (dtr a)) (mrow1 (tr3 n)) /\ vapprox 1 e (r2 (dtr a)) (mrow2 (tr3 n)).
Proof.
  intros H. apply mapprox_tr in H. destruct H as ((F0 & F1 & F2) & R & D).
  destruct (rot_row_norm _ R) as (N0 & N1 & N2). destruct (row_le_fnorm (sub3 (mval (dtr a)) (tr3 n))) as (A & B & C).
  split; [|split]; (split; [assumption|]; split; [lra|]; rewrite Rmult_1_r; eapply Rle_trans; [|exact D]; first [exact A|exact B|exact C]).
Qed.

Lemma j_adjoint o e1 e2 S a n v x : mapprox e1 a n -> vapprox S e2 v x -> 0 <= e1 <= / 1000 -> 0 <= e2 <= / 1000 ->
  tiny <= S -> S <= vast ->
  japprox (Rmax 1 S) ((1 + e1) * (1 + e2) * (1 + / 2 ^ 44) - 1) 6 6 (fadjoint o a v) (adjoint n x).
Proof.
  intros Ha Hv H1 H2 HT HV. pose proof tiny_pos as T0. pose proof vast_big as (VB & _ & V1).
  assert (U0 : 0 < / 2 ^ 44) by (apply Rinv_0_lt_compat, pow_lt; lra).
  pose proof (two_small _ _ H1 H2) as TS. set (e := (1 + e1) * (1 + e2) * (1 + / 2 ^ 44) - 1).
  assert (PP : e1 <= (1 + e1) * (1 + e2) - 1) by (assert (0 <= e1 * e2) by (apply Rmult_le_pos; lra); lra).
  assert (QQ : (1 + e1) * (1 + e2) - 1 <= e).
  { unfold e. assert (0 <= (1 + e1) * (1 + e2) * / 2 ^ 44) by (apply Rmult_le_pos; lra). lra. }
  pose proof (Rmax_l 1 S) as M1. pose proof (Rmax_r 1 S) as M2.
  assert (J3 : japprox (Rmax 1 S) e 3 3 (fof_m3 a) (of_m3 n)) by (eapply japprox_mono; [apply (j_m3 _ _ _ Ha)| | | |]; lra).
  unfold fadjoint, adjoint. apply j_blocks; try exact J3; [apply j_dzero; lra|].
  destruct (skew_rows _ _ _ _ Hv) as (R0 & R1 & R2). destruct (cols_ok _ _ _ Ha) as (C0 & C1 & C2).
  pose proof tiny_1 as TV.
  assert (MS : Rmax tiny (1 * S) = S) by (rewrite Rmult_1_l; apply Rmax_right; lra).
  assert (DD : forall d w y z, vapprox 1 e1 d y -> vapprox S e2 w z -> sapprox (Rmax 1 S) e (ddot o d w) (vdot y z)).
  { intros d w y z Hd Hw. pose proof (vdot_step o 1 S e1 e2 d w y z Hd Hw ltac:(lra) ltac:(lra) ltac:(lra) ltac:(lra) ltac:(lra) ltac:(lra)) as (A & B & C).
    rewrite MS in B, C. split; [exact A|]. split; [lra|]. eapply Rle_trans; [exact C|]. fold e. apply Rmult_le_compat_l; lra. }
  assert (EN : forall y z t, vdot y z = t -> forall d w, vapprox 1 e1 d y -> vapprox S e2 w z -> sapprox (Rmax 1 S) e (ddot o d w) t) by (intros; subst; now apply DD).
  intros i j Hi Hj. three i; three j; cbn [fof_m3 of_m3 mnth mrows mcols mget Nat.ltb Nat.leb andb dmul r0 r1 r2 dapp dx dy dz];
    (eapply EN; [|eassumption|eassumption]); unfold vdot; cbn; ring.
Qed.

Lemma j_vec S e v x : vapprox S e v x -> forall i, sapprox S e (match i with 0 => dx v | 1 => dy v | _ => dz v end)%nat
  (match i with 0 => vx x | 1 => vy x | _ => vz x end)%nat.
Proof. intros H i. destruct (vapprox_comp _ _ _ _ H) as (A & B & C). destruct i as [|[|i]]; assumption. Qed.

Lemma exp_exact_zero d : exp_exact 0 d.
Proof.
  assert (P : forall v, v = v0 \/ 0 < vnorm2 v).
  { intros v. destruct (Req_dec (vnorm2 v) 0) as [E|E].
    - left. apply vnorm_eq0. unfold vnorm. rewrite E. apply sqrt_0.
    - right. assert (0 <= vnorm2 v) by (rewrite <- vnorm_sq; apply sq_nonneg). lra. }
  destruct d; cbn; auto. destruct (P v) as [->|H]; [now left|right; nra].
Qed.

Section C.
  Variable c : R.
  Hypothesis C0 : / 2 ^ 44 <= c.
  Variable m : nat -> dval.

  Notation APX p := (approximates (size m p) (grown c (fst (cost p))) (grown c (snd (cost p)))).

  Lemma unit_pos' : 0 < / 2 ^ 44. Proof. apply Rinv_0_lt_compat, pow_lt; lra. Qed.

  Lemma grown_mono a b : (a <= b)%nat -> grown c a <= grown c b.
  Proof. intros H. unfold grown. pose proof unit_pos'. apply Rplus_le_compat_r, Rle_pow; [lra|exact H]. Qed.
  Lemma grown_pos a : 0 <= grown c a.
  Proof. replace 0 with (grown c 0) by (unfold grown; cbn; ring). apply grown_mono. lia. Qed.
  Lemma grown_add a b : (1 + grown c a) * (1 + grown c b) = 1 + grown c (a + b).
  Proof. unfold grown. rewrite pow_add. ring. Qed.
  Lemma grown_unit a : (1 + grown c a) * (1 + / 2 ^ 44) - 1 <= grown c (a + 1).
  Proof.
    pose proof (grown_pos a). assert (E : 1 + grown c 1 = 1 + c) by (unfold grown; cbn; ring).
    pose proof (grown_add a 1) as G. rewrite E in G. pose proof unit_pos'.
    assert ((1 + grown c a) * (1 + / 2 ^ 44) <= (1 + grown c a) * (1 + c)) by (apply Rmult_le_compat_l; lra). lra.
  Qed.

  Lemma vast_1000' : 1000 <= vast.
  Proof. unfold vast. apply Rle_trans with (2 ^ 10); [lra|]. apply Rle_pow; [lra|lia]. Qed.
  Lemma vast_2 : 2 <= vast.
  Proof. unfold vast. assert (2 ^ 1 <= 2 ^ 400) by (apply Rle_pow; [lra|lia]). lra. Qed.

  (** Rotation matrices of stored rotations. *)
  Lemma frot_ok o r f n : rot_ok c r f n -> grown c r <= / 1000 ->
    exists a, frot o f = Some a /\ mapprox (grown c (15 * r + 1)) a n.
  Proof.
    intros H Hr. destruct f; try contradiction; cbn [rot_ok frot] in *; eexists; (split; [reflexivity|]).
    - eapply mapprox_mono; [apply (qconvert_step o _ _ _ H Hr)|]. now apply step15.
    - eapply mapprox_mono; [exact H|]. apply grown_mono. lia.
    - eapply mapprox_mono; [exact H|]. apply grown_mono. lia.
    - eapply mapprox_mono; [apply (qconvert_step o _ _ _ H Hr)|]. now apply step15.
  Qed.

  Lemma opp_m3 n i j : mnth (mopp (of_m3 n)) i j = mnth (of_m3 (opp3 n)) i j.
  Proof.
    rewrite mnth_mopp. unfold mnth. cbn [of_m3 mrows mcols mget].
    destruct ((i <? 3) && (j <? 3))%nat; [|ring]. destruct i as [|[|[|i]]]; try (destruct j as [|[|[|j]]]; cbn; ring).
  Qed.

  (** The Jacobians of log and exp. *)
  Lemma step_logj a : 8 * grown c a + 650 * / 2 ^ 44 <= grown c (8 * a + 650).
  Proof.
    eapply Rle_trans; [|rewrite <- (Rplus_0_r (grown c (8 * a + 650))); apply Req_le; symmetry; apply Rplus_0_r].
    pose proof (FloatTree.grown_times c C0 8 a) as A. pose proof (FloatTree.grown_unit c C0 650) as B.
    pose proof (FloatTree.grown_add c C0 (8 * a) 650) as G.
    replace (INR 8) with 8 in A by (cbn; lra). replace (INR 650) with 650 in B by (rewrite INR_IZR_INZ; reflexivity). lra.
  Qed.
  Lemma step_expj a b : 37 * grown c a + 152 * grown c b + / 2 ^ 44 <= grown c (37 * a + 152 * b + 1).
  Proof.
    pose proof (FloatTree.grown_times c C0 37 a) as A. pose proof (FloatTree.grown_times c C0 152 b) as B. pose proof (FloatTree.grown_unit c C0 1) as D.
    pose proof (FloatTree.grown_add c C0 (37 * a) (152 * b)) as G. pose proof (FloatTree.grown_add c C0 (37 * a + 152 * b) 1) as H.
    replace (INR 37) with 37 in A by (rewrite INR_IZR_INZ; reflexivity). replace (INR 152) with 152 in B by (rewrite INR_IZR_INZ; reflexivity).
    replace (INR 1) with 1 in D by reflexivity. lra.
  Qed.

  Lemma exp_jac_exact y : exp_rot_jac 0 (so3_exp y) y = so3_V y.
  Proof.
    destruct (exp_exact_zero (DRel y)) as [-> | H].
    - rewrite so3_V_0. unfold exp_rot_jac. destruct (Rlt_dec 0 (vnorm2 v0)) as [K|K]; [exfalso; revert K; unfold vnorm2, vdot, v0; cbn; lra|].
      unfold add3, scal3, skew, i3, v0. cbn. f_equal; ring.
    - apply exp_rot_jac_V; [apply Rle_refl|]. assert (0 <= vnorm2 y) by (rewrite <- vnorm_sq; apply sq_nonneg).
      destruct (Req_dec (vnorm2 y) 0) as [Z|Z]; [rewrite Z in H; lra|lra].
  Qed.

  Lemma j_entries B e F X : mfinite F -> mwithin B X z3 -> mwithin (e * B) (mval F) X -> japprox B e 3 3 (fof_m3 F) (of_m3 X).
  Proof.
    intros ((F00 & F01 & F02) & (F10 & F11 & F12) & (F20 & F21 & F22)) HB HE i j Hi Hj.
    destruct HB as (B0 & B1 & B2 & B3 & B4 & B5 & B6 & B7 & B8). destruct HE as (E0 & E1 & E2 & E3 & E4 & E5 & E6 & E7 & E8).
    cbn in *. rewrite ?Rminus_0_r in *. three i; three j; cbn; (split; [assumption|]; split; assumption).
  Qed.

  Lemma un_local M o op p f x f' x' v w : one_ulp M -> deval 0 m p = Some x -> fits c m (XUn op p) -> regular m op p -> INR (lcost_un op p) * c <= / 2000 ->
    APX p f x -> APX (XUn op p) f' x' -> ty_un op (Plain (flty f)) = Some (Plain (flty f')) ->
    vty v = Plain (flty f) -> valid v -> den v = x -> sem_un 0 op v = Some w -> vty w = Plain (flty f') -> den w = x' ->
    exists F J, fjac_un M o op f' f = Some F /\ jac_un 0 op w v = Some J /\ has_shape (vdim w) (vdim v) J /\
      japprox (lsize_un m op p) (grown c (lcost_un op p)) (vdim w) (vdim v) F J.
  Proof.
    intros HM Ev Hf Hop HL Ha Ha' Hty Tv Vv Dv Hw Tw Dw.
    pose proof (fits_bounds c C0 m (XUn op p) Hf) as ((T1' & V1') & G1' & G2').
    assert (Hp : fits c m p) by (cbn [fits] in Hf; tauto).
    destruct (fits_bounds c C0 m p Hp) as ((T1 & V1) & G1 & G2). pose proof tiny_pos as T0. pose proof tiny_1 as T2.
    pose proof vast_big as (VB & _ & V2).
    unfold lcost_un, lsize_un in *. set (N := XUn op p) in *.
    destruct op; try contradiction Hop; cbn [regular] in Hop.
    - (* inverse *)
      assert (SZ : size m N = size m p) by reflexivity. rewrite SZ in *. destruct (cost N) as [r v']. cbn [fst snd] in *.
      pose proof (Rmax_l 1 (size m p)) as X1. pose proof (Rmax_r 1 (size m p)) as X2.
      destruct f; try discriminate Hty; destruct v; try discriminate Tv; cbn [sem_un] in Hw; injection Hw as <-;
        destruct f'; try discriminate Hty; cbn [den] in Dw; subst x'; cbn [approximates] in Ha';
        (eexists _, _; split; [reflexivity|]; split; [reflexivity|]; split; [split; reflexivity|]); cbn [vdim vkind vty ty_kind kind_of tsize].
      + eapply japprox_meq; [intros; apply opp_m3|]. apply j_neg. eapply japprox_mono.
        * apply j_m3. eapply mapprox_mono; [apply (qconvert_step o _ _ _ Ha'); lra|]. apply step15; exact C0.
        * apply grown_pos.
        * exact X1.
        * apply grown_mono; lia.
        * lra.
      + eapply japprox_meq; [intros; apply opp_m3|]. apply j_neg. eapply japprox_mono.
        * apply j_m3. exact Ha'.
        * apply grown_pos.
        * exact X1.
        * apply grown_mono; lia.
        * lra.
      + destruct Ha' as [A B]. apply j_neg. eapply japprox_mono.
        * apply (j_adjoint o _ _ _ _ _ _ _ A B); lra.
        * pose proof (two_small _ _ G1' G2'). assert (0 < / 2 ^ 44) by apply unit_pos'. nra.
        * lra.
        * eapply Rle_trans; [apply (step2 c C0)|]. apply grown_mono; lia.
        * lra.
      + destruct Ha' as [A B]. apply j_neg. 
        assert (A' : mapprox (grown c (15 * r + 1)) (dqrot o q1) (qrot (qconj q0))).
        { eapply mapprox_mono; [apply (qconvert_step o _ _ _ A); lra|]. apply step15; exact C0. }
        assert (G3 : 0 <= grown c (15 * r + 1) <= / 1000) by (apply (less_small c C0 _ (15 * r + v' + 2)); [lia|exact HL]).
        eapply japprox_mono.
        * apply (j_adjoint o _ _ _ _ _ _ _ A' B); lra.
        * pose proof (two_small _ _ G3 G2'). assert (0 < / 2 ^ 44) by apply unit_pos'. nra.
        * lra.
        * eapply Rle_trans; [apply (step2 c C0)|]. apply grown_mono; lia.
        * lra.
    - (* log *)
      assert (FT : has_typ p LMat = true /\ forall r, deval 0 m p = Some (DRot r) -> rot_angle r <= 3) by (unfold N in Hf; cbn [fits] in Hf; tauto).
      destruct FT as [_ RA]. assert (SZ : size m N = 4) by reflexivity. rewrite SZ in *. destruct (cost N) as [r v']. cbn [fst snd] in *.
      destruct f; try discriminate Hty; destruct f'; try discriminate Hty; destruct v; try discriminate Tv. destruct w; try discriminate Tw.
      cbn [sem_un] in Hw. cbn [den valid] in *. subst x. specialize (RA _ Ev). specialize (Hop _ Ev).
      destruct (exact_log m1 Vv RA) as (u & Eu & Nu & Xu). rewrite Eu in Hw. cbn [option_map] in Hw. injection Hw as Hw. subst u.
      assert (NV : / 16 <= vnorm v). { rewrite <- Xu in Hop. pose proof PI_ge2. rewrite rot_angle_exp in Hop; lra. }
      subst x'. cbn [approximates] in Ha'.
      destruct (log_jac_step M o (grown c v') v0 v HM Ha' G2' (conj NV Nu)) as (J1 & J2 & J3 & J4 & J5).
      eexists _, _. split; [reflexivity|]. split; [cbn [jac_un]; rewrite J2; reflexivity|]. split; [split; reflexivity|].
      cbn [vdim vkind vty ty_kind kind_of tsize]. apply j_entries; [exact J1|exact J3|]. eapply mwithin_weak; [exact J5|].
      pose proof (step_logj v'). lra.
    - (* exp *)
      assert (FT : size m p <= 4) by (unfold N in Hf; cbn [fits] in Hf; tauto).
      destruct (cost N) as [r v']. cbn [fst snd] in *.
      destruct f; try discriminate Hty; destruct f'; try discriminate Hty; destruct v; try discriminate Tv.
      destruct w; try discriminate Tw. cbn [sem_un] in Hw. injection Hw as Hw. cbn [den valid approximates] in *. subst x x'. cbn [approximates] in Ha, Ha'.
      destruct (exp_quat_correct 0 v (Rle_refl 0) (exp_exact_zero (DRel v))) as [_ Q]. rewrite Hw in Q. rewrite Q in Ha'.
      assert (A : mapprox (grown c (15 * r + 1)) (dqrot o q) (so3_exp v)).
      { eapply mapprox_mono; [apply (qconvert_step o _ _ _ Ha'); lra|]. apply step15; exact C0. }
      destruct A as (AF & _ & AD).
      assert (G3 : 0 <= grown c (15 * r + 1) <= / 1000) by (apply (less_small c C0 _ (37 * (15 * r + 1) + 152 * snd (cost p) + 1)); [lia|exact HL]).
      assert (HW : / 16 <= vnorm v \/ size m p <= / 2 ^ 27) by (destruct Hop as [K|K]; [right; exact K|left; apply K, Ev]).
      assert (GS : grown c (15 * r + 1) + 4 * grown c (snd (cost p)) <= / 100) by lra.
      destruct (exp_jac_step o (dqrot o q) v0 v _ _ _ Ha G2 FT (proj1 G3) AF AD GS HW) as [J1 J2].
      eexists _, _. split; [reflexivity|]. split; [cbn [jac_un rot_matrix]; rewrite Q, exp_jac_exact; reflexivity|]. split; [split; reflexivity|].
      cbn [vdim vkind vty ty_kind kind_of tsize]. apply j_entries; [exact J1|apply V_entries|]. eapply mwithin_weak; [exact J2|].
      pose proof (step_expj (15 * r + 1) (snd (cost p))). lra.
    - (* minus *)
      destruct (cost N) as [r v']. exists (fneg fid).
      destruct f; try discriminate Hty; destruct v; try discriminate Tv; cbn [sem_un] in Hw; injection Hw as <-;
        (eexists; split; [reflexivity|]; split; [reflexivity|]; split; [split; reflexivity|]; apply j_neg, j_id; [lra|apply grown_pos]).
    - (* squaredNorm *)
      assert (SN : forall d y, sapprox (size m p) (grown c (snd (cost p))) d y ->
        sapprox (2 * size m p) (grown c (snd (cost p) + 1)) (fmul f2 d) (2 * y)).
      { intros d y H. destruct f2_ok as [F2 W2].
        assert (A : sapprox 2 0 f2 2) by (apply sapprox_eq; auto; [rewrite Rabs_pos_eq|..]; lra).
        pose proof (fmul_step 2 _ 0 _ _ _ _ _ A H ltac:(lra) G2 ltac:(lra) T1 ltac:(pose proof vast_2; lra) V1) as X.
        rewrite (Rmax_right tiny (2 * size m p)) in X by lra. destruct X as (X1 & X2 & X3). split; [exact X1|]. split; [exact X2|].
        eapply Rle_trans; [exact X3|]. apply Rmult_le_compat_r; [lra|]. pose proof (step1 c C0 (snd (cost p))). lra. }
      destruct (cost N) as [r v'].
      destruct f; try discriminate Hty; destruct v; try discriminate Tv; cbn [sem_un] in Hw; injection Hw as <-;
        cbn [den] in Dv; subst x; cbn [approximates] in Ha;
        (eexists _, _; split; [reflexivity|]; split; [reflexivity|]; split; [split; reflexivity|]);
        intros i j Hi Hj; (rewrite mnth_in by assumption); cbn [mget fcoord]; pose proof (SN _ _ (j_vec _ _ _ _ Ha j)) as X;
        destruct j as [|[|[|j]]]; cbn in X |- *; try exact X; cbn in Hj; lia.
    - (* norm *)
      specialize (Hop _ Ev). assert (CN : cost N = (1, snd (cost p) + 1)%nat) by (unfold N; cbn [cost]; destruct (cost p); reflexivity).
      assert (SZ : size m N = size m p) by reflexivity. rewrite SZ, CN in *. cbn [fst snd] in *.
      assert (R2 : Rmax tiny (2 * (size m p / size m p)) = 2) by (replace (2 * (size m p / size m p)) with 2 by (field; lra); apply Rmax_right; lra).
      assert (NJ : forall xs ys b s n, vapprox (size m p) (grown c (snd (cost p))) xs ys -> sapprox (size m p) (grown c (snd (cost p) + 1)) s n ->
        size m p <= 2 * Rabs n -> n <> 0 /\ sapprox 2 (grown c (4 * snd (cost p) + 4))
          (fdiv (match b with 0 => dx xs | 1 => dy xs | _ => dz xs end)%nat s) ((match b with 0 => vx ys | 1 => vy ys | _ => vz ys end)%nat / n)).
      { intros xs ys b s n H1 H2 H3. split; [intros ->; rewrite Rabs_R0 in H3; lra|].
        pose proof (fdiv_step _ _ _ _ _ _ _ _ (j_vec _ _ _ _ H1 b) H2 G2 G2' T1 T1 V1 V1 H3) as X. rewrite R2 in X.
        eapply sapprox_mono; [exact X| |lra| |lra].
        - assert (1 * 1 <= (1 + grown c (snd (cost p))) * (1 + 3 * grown c (snd (cost p) + 1))) by (apply Rmult_le_compat; lra).
          pose proof unit_pos'. assert (1 * 1 <= (1 + grown c (snd (cost p))) * (1 + 3 * grown c (snd (cost p) + 1)) * (1 + / 2 ^ 44)) by (apply Rmult_le_compat; lra). lra.
        - eapply Rle_trans; [apply (step_quot c C0)|]. apply grown_mono; lia. }
      destruct f; try discriminate Hty; destruct f'; try discriminate Hty; destruct v; try discriminate Tv; cbn [sem_un vkind vty ty_kind kind_of col_kind] in Hw; injection Hw as <-;
        cbn [den] in Dv, Dw; subst x x'; cbn [approximates length_of] in *;
        (match type of Ha' with _ /\ Rabs ?e <= _ /\ _ => set (n := e) in * end);
        (match type of Ha with vapprox _ _ _ ?y => assert (NE : n = vnorm y) by (unfold n, norm2_of; cbn; unfold vnorm, vnorm2, vdot; f_equal; ring) end);
        (assert (HN : size m p <= 2 * Rabs n) by (rewrite NE, Rabs_pos_eq by apply vnorm_nonneg; exact Hop));
        (eexists _, _; split; [reflexivity|]; split; [cbn [jac_un]; fold n; destruct (Req_EM_T n 0) as [C|_]; [exfalso; exact (proj1 (NJ _ _ 0%nat _ _ Ha Ha' HN) C)|reflexivity]|]; split; [split; reflexivity|]);
        intros i j Hi Hj; (rewrite mnth_in by assumption); cbn [mget fcoord]; pose proof (proj2 (NJ _ _ j _ _ Ha Ha' HN)) as X;
        destruct j as [|[|[|j]]]; cbn in X |- *; try exact X; cbn in Hj; lia.
    - (* normalize *)
      specialize (Hop _ Ev). assert (CN : cost N = (1, 4 * snd (cost p) + 4)%nat) by (unfold N; cbn [cost]; destruct (cost p); reflexivity).
      assert (SZ : size m N = 2) by reflexivity. rewrite SZ, CN in *. cbn [fst snd] in *. set (k := snd (cost p)) in *.
      assert (G9 : 0 <= grown c (8 * k + 9) <= / 1000) by (apply (less_small c C0 _ (11 * k + 14)); [lia|exact HL]).
      assert (G10 : 0 <= grown c (8 * k + 10) <= / 1000) by (apply (less_small c C0 _ (11 * k + 14)); [lia|exact HL]).
      assert (Gn : 0 <= grown c (k + 1) <= / 1000) by (apply (less_small c C0 _ (11 * k + 14)); [lia|exact HL]).
      pose proof unit_pos' as U0. pose proof vast_2 as V2'.
      assert (NJ : forall xs ys us zs a b, vapprox (size m p) (grown c k) xs ys -> vapprox 2 (grown c (4 * k + 4)) us zs -> size m p <= 2 * vnorm ys ->
        sapprox (Rmax tiny (2 * (5 / size m p))) (grown c (11 * k + 14))
          (fdiv (fsub (fid a b) (fmul (match a with 0 => dx us | 1 => dy us | _ => dz us end)%nat (match b with 0 => dx us | 1 => dy us | _ => dz us end)%nat)) (fsqrt (ddot o xs xs)))
          (((if (a =? b)%nat then 1 else 0) - (match a with 0 => vx zs | 1 => vy zs | _ => vz zs end)%nat * (match b with 0 => vx zs | 1 => vy zs | _ => vz zs end)%nat) / vnorm ys)).
      { intros xs ys us zs a b H1 H2 H3.
        pose proof (fmul_step 2 2 _ _ _ _ _ _ (j_vec _ _ _ _ H2 a) (j_vec _ _ _ _ H2 b) G2' G2' ltac:(lra) ltac:(lra) ltac:(lra) ltac:(lra)) as X1.
        replace (Rmax tiny (2 * 2)) with 4 in X1 by (rewrite Rmax_right; lra).
        assert (X2 : sapprox 4 (grown c (8 * k + 9)) (fmul (match a with 0 => dx us | 1 => dy us | _ => dz us end)%nat (match b with 0 => dx us | 1 => dy us | _ => dz us end)%nat)
           ((match a with 0 => vx zs | 1 => vy zs | _ => vz zs end)%nat * (match b with 0 => vx zs | 1 => vy zs | _ => vz zs end)%nat)).
        { eapply sapprox_mono; [exact X1| |lra| |lra].
          - assert (1 * 1 <= (1 + grown c (4 * k + 4)) * (1 + grown c (4 * k + 4))) by (apply Rmult_le_compat; lra).
            assert (1 * 1 <= (1 + grown c (4 * k + 4)) * (1 + grown c (4 * k + 4)) * (1 + / 2 ^ 44)) by (apply Rmult_le_compat; lra). lra.
          - eapply Rle_trans; [apply (step2 c C0)|]. apply grown_mono; lia. }
        assert (X3 : sapprox 1 (grown c (8 * k + 9)) (fid a b) (if (a =? b)%nat then 1 else 0)).
        { unfold fid. destruct f1_ok as [F1 W1]. destruct f0_ok as [F0 W0]. destruct (a =? b)%nat; apply sapprox_eq; auto; try lra; rewrite ?Rabs_R1, ?Rabs_R0; lra. }
        destruct (fadd_step 1 4 _ _ _ _ _ X3 X2 G9 ltac:(lra) ltac:(lra) ltac:(pose proof vast_1000'; lra)) as [_ X4].
        replace (1 + 4) with 5 in X4 by ring.
        assert (X5 := sapprox_mono _ 5 _ (grown c (8 * k + 10)) _ _ X4).
        pose proof (norm_step o _ _ _ _ H1 G2 T1 V1) as X6.
        assert (X7 := sapprox_mono _ (size m p) _ (grown c (k + 1)) _ _ X6).
        assert (Y1 : 1 * 1 <= (1 + grown c (8 * k + 9)) * (1 + / 2 ^ 44)) by (apply Rmult_le_compat; lra).
        assert (Y2 : 1 * 1 <= (1 + grown c k) * (1 + / 2 ^ 44)) by (apply Rmult_le_compat; lra).
        specialize (X5 ltac:(lra) ltac:(lra) ltac:(eapply Rle_trans; [apply (step1 c C0)|]; apply grown_mono; lia) ltac:(lra)).
        specialize (X7 ltac:(lra) ltac:(lra) ltac:(apply (step1 c C0)) ltac:(lra)).
        pose proof (fdiv_step _ _ _ _ _ _ _ _ X5 X7 G10 Gn ltac:(lra) T1 ltac:(pose proof vast_1000'; lra) V1 ltac:(rewrite Rabs_pos_eq by apply vnorm_nonneg; exact H3)) as X8.
        eapply sapprox_mono; [exact X8| |lra| |].
        - assert (1 * 1 <= (1 + grown c (8 * k + 10)) * (1 + 3 * grown c (k + 1))) by (apply Rmult_le_compat; lra).
          assert (1 * 1 <= (1 + grown c (8 * k + 10)) * (1 + 3 * grown c (k + 1)) * (1 + / 2 ^ 44)) by (apply Rmult_le_compat; lra). lra.
        - eapply Rle_trans; [apply (step_quot c C0)|]. apply grown_mono; lia.
        - eapply Rle_trans; [|apply Rmax_l]. lra. }
      destruct f; try discriminate Hty; destruct f'; try discriminate Hty; destruct v; try discriminate Tv; destruct w; try discriminate Tw;
        cbn [den] in Dv, Dw; subst x x'; cbn [approximates length_of] in *;
        (match type of Ha with vapprox _ _ _ ?y => assert (NE : sqrt (norm2_of (VTrans y)) = vnorm y /\ sqrt (norm2_of (VRel y)) = vnorm y) by (unfold norm2_of; cbn; unfold vnorm, vnorm2, vdot; split; f_equal; ring) end);
        (eexists _, _; split; [reflexivity|]; split; [cbn [jac_un]; rewrite ?(proj1 NE), ?(proj2 NE); match goal with |- context [Req_EM_T ?n 0] => destruct (Req_EM_T n 0) as [C|_] end; [exfalso; rewrite C in Hop; lra|reflexivity]|]; split; [split; reflexivity|]);
        intros i j Hi Hj; (rewrite mnth_in by assumption); cbn [mget fcoord]; pose proof (NJ _ _ _ _ i j Ha Ha' Hop) as X;
        destruct i as [|[|[|i]]]; destruct j as [|[|[|j]]]; cbn in X |- *; try exact X; cbn in Hj, Hi; lia.
    - (* rotation *)
      destruct (cost N) as [r v']. destruct f; try discriminate Hty; destruct v; try discriminate Tv; cbn [sem_un] in Hw; injection Hw as <-;
        (eexists _, _; split; [reflexivity|]; split; [reflexivity|]; split; [split; reflexivity|]; apply j_wide; [apply j_did|apply j_dzero]; try apply grown_pos; lra).
    - (* translation *)
      pose proof (Rmax_l 1 (size m p)) as X1. pose proof (Rmax_r 1 (size m p)) as X2.
      assert (SZ : size m N = size m p) by reflexivity. rewrite SZ in *. destruct (cost N) as [r v']. cbn [fst snd] in *.
      destruct f; try discriminate Hty; destruct v; try discriminate Tv; cbn [sem_un] in Hw; injection Hw as <-;
        destruct f'; try discriminate Hty; cbn [den] in Dw; subst x'; cbn [approximates] in Ha';
        (eexists _, _; split; [reflexivity|]; split; [reflexivity|]; split; [split; reflexivity|]; apply j_wide; [|apply j_did; [lra|apply grown_pos]]);
        (eapply japprox_mono; [apply j_skew; [apply vopp_step; exact Ha'|apply grown_pos|lra]|apply grown_pos|lra|lra|lra]).
    - (* conversion *)
      destruct (cost N) as [r v']. exists fid. unfold jac_un. eexists. split; [destruct f'; reflexivity|]. split; [reflexivity|].
      assert (K : vdim w = tsize (kind_of to) /\ vdim v = tsize (kind_of to)).
      { unfold vdim, vkind. rewrite Tv, Tw. cbn [ty_kind] in *. revert Hty. cbn [ty_un].
        destruct (kind_eqb (kind_of to) (kind_of (flty f))) eqn:K; [|discriminate]. intros E. injection E as E. rewrite <- E.
        split; [reflexivity|]. apply kind_eqb_eq in K. now rewrite K. }
      destruct K as [-> ->]. split; [split; reflexivity|]. apply j_id; [lra|apply grown_pos].
  Qed.

  Lemma coord_ok B er ev f v : approximates B er ev f (den v) -> vty v = Plain (flty f) -> affine_kind (kind_of (flty f)) = true ->
    forall i, (i < vdim v)%nat -> sapprox B ev (fcoord f i) (coord v i).
  Proof.
    intros H T K i Hi. destruct f; try discriminate K; destruct v; try discriminate T; cbn [approximates den fcoord] in *.
    - destruct i as [|i]; [exact H|cbn in Hi; lia].
    - pose proof (j_vec _ _ _ _ H i) as X. destruct i as [|[|[|i]]]; cbn in X |- *; try exact X; cbn in Hi; lia.
    - pose proof (j_vec _ _ _ _ H i) as X. destruct i as [|[|[|i]]]; cbn in X |- *; try exact X; cbn in Hi; lia.
    - pose proof (j_vec _ _ _ _ H i) as X. destruct i as [|[|[|i]]]; cbn in X |- *; try exact X; cbn in Hi; lia.
  Qed.

  Lemma composer_local o B r v' f v w b : approximates B (grown c r) (grown c v') f (den v) -> vty v = Plain (flty f) ->
    group_kind (kind_of (flty f)) = true -> INR (15 * r + v' + 2) * c <= / 2000 -> tiny <= B -> B <= vast ->
    exists F J, fjacr_compose o f = Some F /\ jacr_compose w v b = Some J /\ has_shape (vdim v) (vdim v) J /\
      japprox (Rmax 1 B) (grown c (15 * r + v' + 2)) (vdim v) (vdim v) F J.
  Proof.
    intros H T K HL HB HV. pose proof (Rmax_l 1 B) as X1. pose proof (Rmax_r 1 B) as X2. pose proof tiny_pos as T0.
    assert (Gr : 0 <= grown c r <= / 1000) by (apply (less_small c C0 _ (15 * r + v' + 2)); [lia|exact HL]).
    assert (Gv : 0 <= grown c v' <= / 1000) by (apply (less_small c C0 _ (15 * r + v' + 2)); [lia|exact HL]).
    assert (Gq : 0 <= grown c (15 * r + 1) <= / 1000) by (apply (less_small c C0 _ (15 * r + v' + 2)); [lia|exact HL]).
    destruct f; try discriminate K; destruct v; try discriminate T; cbn [approximates den] in H;
      (eexists _, _; split; [reflexivity|]; split; [reflexivity|]; split; [split; reflexivity|]); cbn [vdim vkind vty ty_kind kind_of tsize].
    - eapply japprox_mono; [apply j_m3; eapply mapprox_mono; [apply (qconvert_step o _ _ _ H); lra|apply step15; exact C0]|apply grown_pos|exact X1|apply grown_mono; lia|lra].
    - eapply japprox_mono; [apply j_m3; exact H|apply grown_pos|exact X1|apply grown_mono; lia|lra].
    - destruct H as [A D]. eapply japprox_mono; [apply (j_adjoint o _ _ _ _ _ _ _ A D); lra| |lra| |lra].
      + pose proof (two_small _ _ Gr Gv). assert (0 < / 2 ^ 44) by apply unit_pos'. nra.
      + eapply Rle_trans; [apply (step2 c C0)|]. apply grown_mono; lia.
    - destruct H as [A D].
      assert (A' : mapprox (grown c (15 * r + 1)) (dqrot o q) (qrot q0)).
      { eapply mapprox_mono; [apply (qconvert_step o _ _ _ A); lra|]. apply step15; exact C0. }
      eapply japprox_mono; [apply (j_adjoint o _ _ _ _ _ _ _ A' D); lra| |lra| |lra].
      + pose proof (two_small _ _ Gq Gv). assert (0 < / 2 ^ 44) by apply unit_pos'. nra.
      + eapply Rle_trans; [apply (step2 c C0)|]. apply grown_mono; lia.
  Qed.

  Definition plain_bin (op : binop) : Prop := match op with OScaleDiv | ODivide => False | _ => True end.

  Lemma left_local o op l r fa fb f' va vb w : fits c m (XBin op l r) -> plain_bin op -> INR (lcost_l op l r) * c <= / 2000 ->
    APX l fa (den va) -> APX r fb (den vb) -> APX (XBin op l r) f' (den w) ->
    ty_bin op (Plain (flty fa)) (Plain (flty fb)) = Some (Plain (flty f')) ->
    vty va = Plain (flty fa) -> vty vb = Plain (flty fb) -> vty w = Plain (flty f') ->
    exists F J, fjac_l o op f' fa fb = Some F /\ jac_l op w va vb = Some J /\ has_shape (vdim w) (vdim va) J /\
      japprox (lsize_l m op l r) (grown c (lcost_l op l r)) (vdim w) (vdim va) F J.
  Proof.
    intros Hf Hop HL Ha Hb Hw Hty Ta Tb Tw.
    pose proof (fits_bounds c C0 m _ Hf) as ((T1' & V1') & G1' & G2').
    assert (Hl : fits c m l) by (cbn [fits] in Hf; tauto). assert (Hr : fits c m r) by (cbn [fits] in Hf; tauto).
    destruct (fits_bounds c C0 m l Hl) as ((T1 & V1) & G1 & G2). destruct (fits_bounds c C0 m r Hr) as ((T2 & V2) & G3 & G4).
    pose proof tiny_pos as T0. pose proof tiny_1 as T3. clear Hf Hl Hr.
    set (N := XBin op l r) in *.
    assert (ID : forall n, n = vdim va -> vdim w = vdim va -> lsize_l m op l r = 1 ->
      exists J, Some (mid (vdim w)) = Some J /\ has_shape (vdim w) (vdim va) J /\ japprox (lsize_l m op l r) (grown c (lcost_l op l r)) (vdim w) (vdim va) fid J).
    { intros n _ E ->. eexists. split; [reflexivity|]. split; [split; [reflexivity|exact E]|]. rewrite E. apply j_id; [lra|apply grown_pos]. }
    assert (CO : affine_kind (kind_of (flty fb)) = true -> forall i, (i < vdim vb)%nat -> sapprox (size m r) (grown c (snd (cost r))) (fcoord fb i) (coord vb i)).
    { intros K. apply (coord_ok _ _ _ _ _ Hb Tb K). }
    destruct op; try contradiction; unfold lsize_l, lcost_l in HL |- *.
    - exists fid. destruct (ID _ eq_refl) as (J & E & X); [|reflexivity|].
      { unfold vdim, vkind. rewrite Ta, Tw. destruct fa, fb; try discriminate Hty; destruct f'; try discriminate Hty; reflexivity. }
      exists J. split; [reflexivity|]. split; [exact E|exact X].
    - assert (K : group_kind (kind_of (flty fb)) = true /\ vdim w = vdim vb /\ vdim va = vdim vb).
      { unfold vdim, vkind. rewrite Ta, Tb, Tw. destruct fa, fb; try discriminate Hty; destruct f'; try discriminate Hty; auto. }
      destruct K as (K & E1 & E2). rewrite E1, E2. apply (composer_local o _ _ _ fb vb w va Hb Tb K HL T2 V2).
    - (* rotate *) assert (SZ : size m N = size m r) by reflexivity. rewrite SZ in *.
      destruct fa, fb; try discriminate Hty; destruct f'; try discriminate Hty; destruct w; try discriminate Tw; destruct va; try discriminate Ta;
      cbn [approximates den] in Hw;
      (eexists _, _; split; [reflexivity|]; split; [reflexivity|]; split; [split; reflexivity|]); apply j_skew; try apply grown_pos; try lra; apply vopp_step; exact Hw.
    - (* transform *) assert (SZ : size m N = size m l + size m r) by reflexivity. rewrite SZ in *.
      pose proof (Rmax_l 1 (size m l + size m r)) as X1. pose proof (Rmax_r 1 (size m l + size m r)) as X2.
      destruct fa, fb; try discriminate Hty; destruct f'; try discriminate Hty; destruct w; try discriminate Tw; destruct va; try discriminate Ta;
      cbn [approximates den] in Hw;
      (eexists _, _; split; [reflexivity|]; split; [reflexivity|]; split; [split; reflexivity|]; apply j_wide; [|apply j_did; [lra|apply grown_pos]]);
      (eapply japprox_mono; [apply j_skew; [apply vopp_step; exact Hw|apply grown_pos|lra]|apply grown_pos|lra|apply Rle_refl|lra]).
    - (* sum *) exists fid. destruct (ID _ eq_refl) as (J & E & X); [|reflexivity|].
      { unfold vdim, vkind. rewrite Ta, Tw. destruct fa, fb; try discriminate Hty; destruct f'; try discriminate Hty; reflexivity. }
      exists J. split; [reflexivity|]. split; [exact E|exact X].
    - exists fid. destruct (ID _ eq_refl) as (J & E & X); [|reflexivity|].
      { unfold vdim, vkind. rewrite Ta, Tw. destruct fa, fb; try discriminate Hty; destruct f'; try discriminate Hty; reflexivity. }
      exists J. split; [reflexivity|]. split; [exact E|exact X].
    - (* scale *)
      assert (K : affine_kind (kind_of (flty fb)) = true /\ vdim w = vdim vb /\ vdim va = 1%nat).
      { unfold vdim, vkind. rewrite Ta, Tb, Tw. destruct fa, fb; try discriminate Hty; destruct f'; try discriminate Hty; auto. }
      destruct K as (K & E1 & E2). eexists _, _. split; [reflexivity|]. split; [destruct w, va; reflexivity|]. rewrite E1, E2.
      split; [split; reflexivity|]. intros i j Hi Hj. rewrite mnth_in by assumption. cbn [mget]. now apply CO.
    - (* scale, scalar on the right *)
      destruct fa, fb; try discriminate Hty; destruct f'; try discriminate Hty; destruct vb; try discriminate Tb; destruct va; try discriminate Ta; destruct w; try discriminate Tw;
      (eexists _, _; split; [reflexivity|]; split; [reflexivity|]; split; [split; reflexivity|]);
      (apply j_scal; [exact Hb|apply grown_pos|lra|lra|apply G4]).
    - destruct fa, fb; try discriminate Hty; destruct f'; try discriminate Hty; destruct vb; try discriminate Tb; destruct va; try discriminate Ta; destruct w; try discriminate Tw;
      (eexists _, _; split; [reflexivity|]; split; [reflexivity|]; split; [split; reflexivity|]).
      intros i j Hi Hj. rewrite mnth_in by assumption. cbn [mget]. exact Hb.
    - (* dot *)
      assert (K : affine_kind (kind_of (flty fb)) = true /\ vdim w = 1%nat /\ vdim va = vdim vb).
      { unfold vdim, vkind. rewrite Ta, Tb, Tw. destruct fa, fb; try discriminate Hty; destruct f'; try discriminate Hty; auto. }
      destruct K as (K & E1 & E2). eexists _, _. split; [reflexivity|]. split; [destruct w, va, vb; reflexivity|]. rewrite E1, E2.
      split; [split; reflexivity|]. intros i j Hi Hj. rewrite mnth_in by assumption. cbn [mget]. now apply CO.
  Qed.

  Lemma right_local o op l r fa fb f' va vb w : fits c m (XBin op l r) -> plain_bin op -> INR (lcost_r op l r) * c <= / 2000 ->
    APX l fa (den va) -> APX r fb (den vb) -> APX (XBin op l r) f' (den w) ->
    ty_bin op (Plain (flty fa)) (Plain (flty fb)) = Some (Plain (flty f')) ->
    vty va = Plain (flty fa) -> vty vb = Plain (flty fb) -> vty w = Plain (flty f') ->
    exists F J, fjac_r o op f' fa fb = Some F /\ jac_r op w va vb = Some J /\ has_shape (vdim w) (vdim vb) J /\
      japprox (lsize_r m op l r) (grown c (lcost_r op l r)) (vdim w) (vdim vb) F J.
  Proof.
    intros Hf Hop HL Ha Hb Hw Hty Ta Tb Tw.
    assert (Hl : fits c m l) by (cbn [fits] in Hf; tauto). assert (Hr : fits c m r) by (cbn [fits] in Hf; tauto).
    destruct (fits_bounds c C0 m l Hl) as ((T1 & V1) & G1 & G2). destruct (fits_bounds c C0 m r Hr) as ((T2 & V2) & G3 & G4).
    pose proof tiny_pos as T0. pose proof tiny_1 as T3. clear Hf Hl Hr.
    assert (CO : affine_kind (kind_of (flty fa)) = true -> forall i, (i < vdim va)%nat -> sapprox (size m l) (grown c (snd (cost l))) (fcoord fa i) (coord va i)).
    { intros K. apply (coord_ok _ _ _ _ _ Ha Ta K). }
    destruct op; try contradiction; unfold lsize_r, lcost_r in HL |- *.
    - assert (K : group_kind (kind_of (flty fa)) = true /\ vdim w = vdim va /\ vdim vb = vdim va).
      { unfold vdim, vkind. rewrite Ta, Tb, Tw. destruct fa, fb; try discriminate Hty; destruct f'; try discriminate Hty; auto. }
      destruct K as (K & E1 & E2). rewrite E1, E2. apply (composer_local o _ _ _ fa va w vb Ha Ta K HL T1 V1).
    - assert (E : vdim w = vdim vb).
      { unfold vdim, vkind. rewrite Tb, Tw. destruct fa, fb; try discriminate Hty; destruct f'; try discriminate Hty; auto. }
      exists fid, (mid (vdim w)). split; [reflexivity|]. split; [reflexivity|]. split; [split; [reflexivity|exact E]|]. rewrite E. apply j_id; [lra|apply grown_pos].
    - (* rotate *)
      destruct fa, fb; try discriminate Hty; destruct f'; try discriminate Hty; destruct w; try discriminate Tw; destruct va; try discriminate Ta; destruct vb; try discriminate Tb;
      cbn [approximates den] in Ha;
      (eexists _, _; split; [reflexivity|]; split; [reflexivity|]; split; [split; reflexivity|]).
      + apply j_m3. eapply mapprox_mono; [apply (qconvert_step o _ _ _ Ha); lra|apply step15; exact C0].
      + apply j_m3. eapply mapprox_mono; [exact Ha|apply grown_mono; lia].
    - (* transform *)
      destruct fa, fb; try discriminate Hty; destruct f'; try discriminate Hty; destruct w; try discriminate Tw; destruct va; try discriminate Ta; destruct vb; try discriminate Tb;
      cbn [approximates den] in Ha; destruct Ha as [A B];
      (eexists _, _; split; [reflexivity|]; split; [reflexivity|]; split; [split; reflexivity|]).
      + apply j_m3. eapply mapprox_mono; [exact A|apply grown_mono; lia].
      + apply j_m3. eapply mapprox_mono; [apply (qconvert_step o _ _ _ A); lra|apply step15; exact C0].
    - assert (E : vdim w = vdim vb).
      { unfold vdim, vkind. rewrite Tb, Tw. destruct fa, fb; try discriminate Hty; destruct f'; try discriminate Hty; reflexivity. }
      exists fid, (mid (vdim w)). split; [reflexivity|]. split; [reflexivity|]. split; [split; [reflexivity|exact E]|]. rewrite E. apply j_id; [lra|apply grown_pos].
    - assert (E : vdim w = vdim vb).
      { unfold vdim, vkind. rewrite Tb, Tw. destruct fa, fb; try discriminate Hty; destruct f'; try discriminate Hty; reflexivity. }
      exists (fneg fid), (mopp (mid (vdim w))). split; [reflexivity|]. split; [reflexivity|]. split; [split; [reflexivity|exact E]|]. rewrite E. apply j_neg, j_id; [lra|apply grown_pos].
    - destruct fa, fb; try discriminate Hty; destruct f'; try discriminate Hty; destruct vb; try discriminate Tb; destruct va; try discriminate Ta; destruct w; try discriminate Tw;
      (eexists _, _; split; [reflexivity|]; split; [reflexivity|]; split; [split; reflexivity|]);
      (apply j_scal; [exact Ha|apply grown_pos|lra|lra|apply G2]).
    - assert (K : affine_kind (kind_of (flty fa)) = true /\ vdim w = vdim va /\ vdim vb = 1%nat).
      { unfold vdim, vkind. rewrite Ta, Tb, Tw. destruct fa, fb; try discriminate Hty; destruct f'; try discriminate Hty; auto. }
      destruct K as (K & E1 & E2). eexists _, _. split; [reflexivity|]. split; [destruct w, va, vb; reflexivity|]. rewrite E1, E2.
      split; [split; reflexivity|]. intros i j Hi Hj. rewrite mnth_in by assumption. cbn [mget]. now apply CO.
    - destruct fa, fb; try discriminate Hty; destruct f'; try discriminate Hty; destruct vb; try discriminate Tb; destruct va; try discriminate Ta; destruct w; try discriminate Tw;
      (eexists _, _; split; [reflexivity|]; split; [reflexivity|]; split; [split; reflexivity|]).
      intros i j Hi Hj. rewrite mnth_in by assumption. cbn [mget]. exact Ha.
    - assert (K : affine_kind (kind_of (flty fa)) = true /\ vdim w = 1%nat /\ vdim vb = vdim va).
      { unfold vdim, vkind. rewrite Ta, Tb, Tw. destruct fa, fb; try discriminate Hty; destruct f'; try discriminate Hty; auto. }
      destruct K as (K & E1 & E2). eexists _, _. split; [reflexivity|]. split; [destruct w, va, vb; reflexivity|]. rewrite E1, E2.
      split; [split; reflexivity|]. intros i j Hi Hj. rewrite mnth_in by assumption. cbn [mget]. now apply CO.
  Qed.
End C.
