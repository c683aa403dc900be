(** Unit vectors and angles between vectors on doubles. *)

From Coq Require Import ZArith Reals Lra Lia Psatz List Bool Ratan.
From Flocq Require Import Core BinarySingleNaN.
From Verif Require Import V3 ModelLeaf SpecLeaf LeafProofs ModelExpr SpecExpr ModelFloat ModelFloatQ ModelFloatExpr SpecFlt SpecFltQ SpecFltLog SpecFltExpr
  FloatProofs FloatDrift FloatExp FloatLog2 FloatQuat FloatAct FloatNorm FloatStep FloatStep2 FloatDiv FloatTree PropsDrift PropsQuatFlt PropsExpFlt PropsLogAcc PropsFltExpr.
Import ListNotations.
Local Open Scope R_scope.

(** normalize(t), and the angle acos(dot(normalize(s), normalize(t))), of translations stored
    in variables. *)
Definition unit_of (a : nat) : expr := XUn ONormalize (XLeaf a (Plain LTrans)).
Definition angle_of (a b : nat) : expr := XUn OACos (XBin ODot (unit_of a) (unit_of b)).

Definition moderate (v : DV) : Prop := vfinite v /\ / 2 ^ 400 <= vnorm (vval v) <= 2 ^ 400.

Lemma exact_vec S v : vfinite v -> vnorm (vval v) <= S -> vapprox S 0 v (vval v).
Proof.
  intros F H. split; [exact F|]. split; [exact H|]. replace (vsub (vval v) (vval v)) with v0 by (unfold vsub, v0; f_equal; ring).
  rewrite vnorm_0. lra.
Qed.
Lemma unit_length x : 0 < vnorm x -> vnorm (vscal (/ vnorm x) x) = 1.
Proof. intros H. rewrite vscal_norm, Rabs_pos_eq by (left; now apply Rinv_0_lt_compat). now apply Rinv_l, Rgt_not_eq. Qed.

(** ** C62 *)

(** The normalized vector is the unit vector of the stored one up to 2^-40, so its length is
    1 up to 2^-40: for vectors of length between 2^-400 and 2^400. *)
Theorem c62_unit_partial M ord qord mem a v : mem a = FTrans v -> moderate v ->
  exists w, feval M ord qord mem (unit_of a) = Some (FTrans w) /\ vfinite w /\
    vnorm (vsub (vval w) (vscal (/ vnorm (vval v)) (vval v))) <= / 2 ^ 40 /\ Rabs (vnorm (vval w) - 1) <= / 2 ^ 40.
Proof.
  intros Ha (F & L1 & L2). pose proof tiny_pos as T0. unfold tiny in T0.
  pose proof (exact_vec _ v F (Rle_refl _)) as V.
  destruct (unit_step (ord []) _ 0 v _ V ltac:(lra) L1 L2 ltac:(lra)) as [Br (Fw & Nw & Dw)].
  exists (dmapv (fun t => fdiv t (fsqrt (ddot (ord []) v v))) v).
  assert (P : ((1 + 0) * (1 + 3 * ((1 + 0) * (1 + / 2 ^ 44) - 1)) * (1 + / 2 ^ 44) - 1) * 2 <= / 2 ^ 40).
  { replace (2 ^ 44) with 17592186044416 by ring. replace (2 ^ 40) with 1099511627776 by ring. lra. }
  split; [unfold feval, feval_to, unit_of; cbn; rewrite Ha; cbn; now rewrite Br|]. split; [exact Fw|]. split; [lra|].
  set (w := vval (dmapv _ v)) in *. set (n := vscal (/ vnorm (vval v)) (vval v)) in *.
  assert (N1 : vnorm n = 1) by (apply unit_length; lra).
  pose proof (norm_triangle (vsub w n) n) as A. replace (vadd (vsub w n) n) with w in A by (destruct w, n; unfold vadd, vsub; cbn; f_equal; ring).
  pose proof (norm_triangle (vsub n w) w) as B. replace (vadd (vsub n w) w) with n in B by (destruct w, n; unfold vadd, vsub; cbn; f_equal; ring).
  replace (vnorm (vsub n w)) with (vnorm (vsub w n)) in B.
  - apply Rabs_le. lra.
  - replace (vsub n w) with (vopp (vsub w n)) by (destruct w, n; unfold vopp, vsub; cbn; f_equal; ring). symmetry. apply norm_opp.
Qed.
Print Assumptions c62_unit_partial.

(** Outside that range the claim fails: the squared length of a nonzero vector can underflow,
    and the vector is returned as it is; or overflow, and the result is zero. *)
Definition short : double := lit 1 (-600).
Definition long : double := lit 1 600.
Lemma short_val : val short = / 2 ^ 600.
Proof.
  replace (2 ^ 600) with (bpow radix2 600) by (rewrite <- (IZR_Zpower radix2) by lia; rewrite pow_IZR; reflexivity).
  rewrite <- bpow_opp. replace (val short) with (F2R (Float radix2 4503599627370496 (-652))) by reflexivity.
  unfold F2R. cbn [Fnum Fexp]. change 4503599627370496%Z with (2 ^ 52)%Z. rewrite (IZR_Zpower radix2) by lia. now rewrite <- bpow_plus.
Qed.
Lemma axis_norm x : 0 < x -> vnorm (mkV x 0 0) = x.
Proof. intros H. unfold vnorm, vnorm2, vdot. cbn. rewrite Rmult_0_l, !Rplus_0_r. apply sqrt_square. lra. Qed.
Theorem c62_unit_refuted M ord qord mem a b : 
  let v := mkDV short f0 f0 in let w := mkDV long f0 f0 in
  mem a = FTrans v -> mem b = FTrans w ->
  vfinite v /\ vnorm (vval v) = / 2 ^ 600 /\ feval M ord qord mem (unit_of a) = Some (FTrans v) /\
  vfinite w /\ 0 < vnorm (vval w) /\ feval M ord qord mem (unit_of b) = Some (FTrans (mkDV f0 f0 f0)).
Proof.
  intros v w Ha Hb. assert (P : 0 < / 2 ^ 600) by (apply Rinv_0_lt_compat, pow_lt; lra).
  split; [repeat split; reflexivity|]. split.
  { unfold v, vval. cbn [dx dy dz]. rewrite short_val. apply (axis_norm _ P). }
  split; [|split; [repeat split; reflexivity|split]].
  - unfold feval, feval_to, unit_of. cbn. rewrite Ha. cbn.
    assert (G : fgt (ddot (ord []) v v) f0 = false) by (destruct (ord []); vm_compute; reflexivity). now rewrite G.
  - assert (L : 0 < val long).
    { destruct f0_ok as [F0 V0]. rewrite <- V0. apply (fgt_ok long f0); [reflexivity|exact F0|vm_compute; reflexivity]. }
    unfold w, vval. cbn [dx dy dz]. rewrite (proj2 f0_ok). now rewrite (axis_norm _ L).
  - unfold feval, feval_to, unit_of. cbn. rewrite Hb. cbn.
    assert (G : ddot (ord []) w w = B754_infinity false) by (destruct (ord []); vm_compute; reflexivity). rewrite G. do 2 f_equal.
Qed.
Print Assumptions c62_unit_refuted.

(** The angle between two stored vectors is right to 2^-35 if it is not within 0.45 of 0 or
    pi, where the arc cosine is steep. *)
Theorem c62_angle_partial M ord qord mem a b v w : acos_ulp M -> one_ulp M -> (forall path, sums_four (qord path)) ->
  mem a = FTrans v -> mem b = FTrans w -> moderate v -> moderate w ->
  let cs := vdot (vval v) (vval w) / (vnorm (vval v) * vnorm (vval w)) in
  Rabs cs <= 9 / 10 ->
  exists s, feval M ord qord mem (angle_of a b) = Some (FScalar s) /\ finite s /\ Rabs (val s - acos cs) <= / 2 ^ 35.
Proof.
  intros HA HM Hq Ha Hb (Fv & V1 & V2) (Fw & W1 & W2) cs Hc. pose proof tiny_pos as T0. unfold tiny in T0.
  set (x := vval v) in *. set (y := vval w) in *.
  set (m := fun n => match mem n with FTrans u => DTrans (vval u) | _ => DScalar 0 end).
  assert (Ma : m a = DTrans x) by (unfold m; rewrite Ha; reflexivity).
  assert (Mb : m b = DTrans y) by (unfold m; rewrite Hb; reflexivity).
  assert (PX : 0 < vnorm x) by lra. assert (PY : 0 < vnorm y) by lra.
  assert (UN : forall n z, m n = DTrans z -> 0 < vnorm z -> deval 0 m (unit_of n) = Some (DTrans (vscal (/ vnorm z) z))).
  { intros n z E H. cbn [unit_of deval]. rewrite E. cbn [dsem_un dkind col_kind]. rewrite (proj1 (dnorm2_vec z)).
    change (vdot z z) with (vnorm2 z). destruct (Rlt_dec 0 (vnorm2 z)) as [_|C].
    - cbn. change (sqrt (vnorm2 z)) with (vnorm z). unfold vscal, Rdiv. do 2 f_equal. destruct z; cbn; f_equal; ring.
    - exfalso. apply C. rewrite <- vnorm_sq. now apply Rmult_lt_0_compat. }
  assert (DOT : deval 0 m (XBin ODot (unit_of a) (unit_of b)) = Some (DScalar cs)).
  { cbn [deval]. fold (unit_of a) (unit_of b). rewrite (UN a x Ma PX), (UN b y Mb PY). unfold dsem_bin. cbn. unfold cs, vdot, vscal. do 2 f_equal. cbn. field. lra. }
  assert (SA : size m (unit_of a) = 2) by reflexivity. assert (SB : size m (unit_of b) = 2) by reflexivity.
  assert (ST : stored 0 mem m (angle_of a b)).
  { cbn [angle_of unit_of stored]. rewrite Ha, Hb, Ma, Mb. cbn [flty approximates length_of].
    exact (conj (conj eq_refl (exact_vec _ _ Fv (Rle_refl _))) (conj eq_refl (exact_vec _ _ Fw (Rle_refl _)))). }
  set (c := 0 + / 2 ^ 44).
  assert (CV : c = / 17592186044416) by (unfold c; replace (2 ^ 44) with 17592186044416 by ring; lra).
  pose proof vast_1000 as VK. pose proof tiny_1 as T1.
  assert (R4 : Rmax tiny (2 * 2) = 4) by (rewrite Rmax_right; lra).
  assert (I : forall n, (n <= 60)%nat -> INR n * c <= / 2000).
  { intros n Hn. apply le_INR in Hn. replace (INR 60) with 60 in Hn by (rewrite INR_IZR_INZ; reflexivity). rewrite CV. pose proof (pos_INR n). lra. }
  assert (FU : forall n z, m n = DTrans z -> / 2 ^ 400 <= vnorm z <= 2 ^ 400 -> fits c m (unit_of n)).
  { intros n z E H. assert (SL : size m (XLeaf n (Plain LTrans)) = vnorm z).
    { cbn [size]. rewrite E. cbn [length_of]. apply Rmax_right. unfold tiny. lra. }
    unfold unit_of. cbn [fits]. rewrite SL. cbn [cost fst snd size].
    split; [lra|]. split; [apply I; lia|]. split; [apply I; cbn; lia|]. split.
    - split; [unfold vast; lra|]. split; [apply I; lia|]. split; [apply I; lia|exact Logic.I].
    - intros q Q. cbn [deval] in Q. rewrite E in Q. injection Q as <-. cbn [length_of]. lra. }
  assert (FI : fits c m (angle_of a b)).
  { pose proof (FU a x Ma (conj V1 V2)) as FA. pose proof (FU b y Mb (conj W1 W2)) as FB.
    assert (C1 : cost (unit_of a) = (1, 8)%nat) by reflexivity. assert (C2 : cost (unit_of b) = (1, 8)%nat) by reflexivity.
    unfold angle_of. cbn [fits]. rewrite DOT. cbn [size cost]. rewrite SA, SB, C1, C2, R4. cbn [fst snd].
    split; [lra|]. split; [apply I; lia|]. split; [apply I; lia|]. split.
    - split; [lra|]. split; [apply I; lia|]. split; [apply I; lia|]. split; [exact FA|]. split; [exact FB|exact Logic.I].
    - split; [lra|]. intros q Q. injection Q as <-. exact Hc. }
  destruct (c56_eval_accurate M ord qord 0 mem m (angle_of a b) (angle_of a b) (Plain LScalar) HM HA Hq (Rle_refl 0)) as (f & r & E1 & E2 & E3 & E4); try assumption.
  { reflexivity. }
  assert (RV : r = DScalar (acos cs)).
  { unfold angle_of in E3. change (deval 0 m (XUn OACos (XBin ODot (unit_of a) (unit_of b)))) with
      (match deval 0 m (XBin ODot (unit_of a) (unit_of b)) with Some x => dsem_un 0 OACos x | None => None end) in E3.
    rewrite DOT in E3. cbn [dsem_un] in E3. apply Rabs_le_inv in Hc. destruct (Rle_dec (-1) cs) as [_|C]; [|exfalso; apply C; lra].
    destruct (Rle_dec cs 1) as [_|C]; [|exfalso; apply C; lra]. now injection E3 as <-. }
  subst r. destruct f; cbn [approximates] in E4; try contradiction E4. exists s. split; [exact E1|].
  destruct E4 as (Fs & _ & D). split; [exact Fs|]. eapply Rle_trans; [exact D|].
  assert (CA : snd (cost (angle_of a b)) = 52%nat) by reflexivity. assert (SZ : size m (angle_of a b) = 4) by reflexivity.
  fold c. rewrite CA, SZ. assert (C0 : / 2 ^ 44 <= c) by (unfold c; lra).
  pose proof (grown_le c C0 52) as G. replace (INR 52) with 52 in G by (rewrite INR_IZR_INZ; reflexivity). rewrite CV in G at 1 3.
  replace (2 ^ 35) with 34359738368 by ring. lra.
Qed.
Print Assumptions c62_angle_partial.

(** Near 0 the computed cosine can exceed 1: the angle between (1, 1, 1) and itself is NaN,
    however the compiler orders the sums. *)
Definition unit_d (o : order) (v : DV) : DV := if fgt (ddot o v v) f0 then dmapv (fun x => fdiv x (fsqrt (ddot o v v))) v else v.
Lemma angle_eval M ord qord mem a v : mem a = FTrans v -> feval M ord qord mem (angle_of a a) =
  Some (FScalar (facos M (ddot (ord [true]) (unit_d (ord [true; true]) v) (unit_d (ord [false; true]) v)))).
Proof. intros Ha. unfold feval, feval_to, angle_of, unit_of. cbn. rewrite Ha. reflexivity. Qed.
Theorem c62_angle_refuted M ord qord mem a : acos_ulp M -> mem a = FTrans (mkDV f1 f1 f1) ->
  feval M ord qord mem (angle_of a a) = Some (FScalar B754_nan).
Proof.
  intros [_ HN] Ha. rewrite (angle_eval _ _ _ _ _ _ Ha). do 2 f_equal.
  generalize (ord [true]) (ord [true; true]) (ord [false; true]). intros o1 o2 o3. set (n := unit_d).
  assert (G : finite (ddot o1 (n o2 (mkDV f1 f1 f1)) (n o3 (mkDV f1 f1 f1))) /\
      fgt (ddot o1 (n o2 (mkDV f1 f1 f1)) (n o3 (mkDV f1 f1 f1))) f1 = true) by (destruct o1, o2, o3; split; vm_compute; reflexivity).
  destruct G as [F G]. apply HN; [exact F|].
  assert (O : finite f1 /\ val f1 = 1) by (destruct (lit_small 1 1) as [F' V']; [lia|lra|]; fold f1 in F', V'; split; [exact F'|rewrite V'; lra]).
  apply fgt_ok in G; [|exact F|exact (proj1 O)]. rewrite (proj2 O) in G. rewrite Rabs_pos_eq; lra.
Qed.
Print Assumptions c62_angle_refuted.

(** ** Concrete cases *)
Example c62_example : let v := mkDV f1 f2 f0 in let w := mkDV f0 f0 f1 in
  acos_ulp strict_libm /\ one_ulp strict_libm /\ sums_four mixed_order /\ moderate v /\ moderate w /\
  Rabs (vdot (vval v) (vval w) / (vnorm (vval v) * vnorm (vval w))) <= 9 / 10.
Proof.
  intros v w. destruct f0_ok as [F0 V0]. destruct (lit_small 1 1) as [F1 V1]; [lia|lra|]. fold f1 in F1, V1. destruct f2_ok as [F2 V2].
  assert (EV : vval v = mkV 1 2 0) by (unfold v, vval; cbn [dx dy dz]; now rewrite V0, V1, V2).
  assert (EW : vval w = mkV 0 0 1) by (unfold w, vval; cbn [dx dy dz]; now rewrite V0, V1).
  assert (S1 : / 2 ^ 400 <= 1) by exact tiny_1. pose proof vast_1000 as S2. unfold vast in S2.
  assert (NV : 1 <= vnorm (mkV 1 2 0) <= 3).
  { split; [|apply ex_norms]. unfold vnorm, vnorm2, vdot. cbn. rewrite <- sqrt_1 at 1. apply sqrt_le_1_alt. lra. }
  assert (NW : vnorm (mkV 0 0 1) = 1).
  { unfold vnorm, vnorm2, vdot. cbn. replace (0 * 0 + 0 * 0 + 1 * 1) with 1 by ring. apply sqrt_1. }
  split; [apply strict_libm_acos|]. split; [apply rounds_one_ulp, strict_libm_rounds|]. split; [exact mixed_sums_four|].
  unfold moderate. rewrite EV, EW, NW. split; [split; [exact (conj F1 (conj F2 F0))|lra]|]. split; [split; [exact (conj F0 (conj F0 F1))|lra]|].
  replace (vdot (mkV 1 2 0) (mkV 0 0 1)) with 0 by (unfold vdot; cbn; ring). unfold Rdiv at 1. rewrite Rmult_0_l, Rabs_R0. lra.
Qed.
