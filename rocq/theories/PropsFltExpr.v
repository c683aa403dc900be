(** Accuracy of whole expressions evaluated on doubles. *)

From Coq Require Import ZArith Reals List Bool Lra Lia Psatz.
From Flocq Require Import Core BinarySingleNaN.
From Verif Require Import Mat V3 ModelMeta ModelLeaf SpecLeaf LeafProofs ModelExpr SpecExpr ExprProofs.
From Verif Require Import ModelFloat SpecFlt FloatProofs FloatDrift FloatExp ModelFloatQ SpecFltQ FloatQuat FloatAct SpecFltLog.
From Verif Require Import ModelFloatExpr SpecFltExpr FloatNorm FloatStep FloatStep2 FloatTree PropsExpFlt PropsQuatFlt PropsLogAcc PropsDrift FloatLog.
Import ListNotations.
Local Open Scope R_scope.

(** Evaluating an expression into a chosen type: if every leaf object holds its intended
    object up to a relative error [d], the value computed on doubles has no infinity or NaN,
    has the requested type and stands for the exact value of the expression, with as many
    relative errors of d + 2^-44 as [cost] counts.  The compiler may choose at every node
    how sums of products are computed. *)
Theorem c56_evaluateTo_accurate M ord qord d mem m e dest p t :
  one_ulp M -> acos_ulp M -> (forall path, sums_four (qord path)) -> 0 <= d ->
  let c := d + / 2 ^ 44 in
  prepare_to dest e = Some (p, t) -> fits c m p -> stored d mem m e ->
  exists f x, feval_to M ord qord dest mem e = Some f /\ t = Plain (flty f) /\
    deval 0 m e = Some x /\
    approximates (size m p) (grown c (fst (cost p))) (grown c (snd (cost p))) f x.
Proof.
  intros HM HA Hq Hd c Hp Hf Hs. destruct (prepare_to_typ _ _ _ _ Hp) as (T & D & S).
  destruct (tree_ok M ord qord d mem m p HM HA Hq Hd Hf (S _ _ _ Hs) t [] T) as (f & x & E1 & E2 & E3 & E4).
  exists f, x. unfold feval_to. rewrite Hp. auto.
Qed.
Print Assumptions c56_evaluateTo_accurate.

Lemma stored_plain d mem m p : stored d mem m p -> forall t, typ p = Some t -> exists l, t = Plain l.
Proof.
  induction p as [a t0|o p IH|o l IHl r IHr]; cbn [stored typ]; intros Hs t Ht.
  - injection Ht as <-. destruct Hs as [-> _]. eauto.
  - destruct (typ p) as [t0|]; [|discriminate]. destruct (IH Hs _ eq_refl) as [k ->].
    destruct o, k; cbn in Ht; try discriminate; try (injection Ht as <-; eauto);
      destruct (kind_eqb _ _); try discriminate; injection Ht as <-; eauto.
  - destruct Hs as [H1 H2]. destruct (typ l) as [tl|]; [|discriminate]. destruct (typ r) as [tr|]; [|discriminate].
    destruct (IHl H1 _ eq_refl) as [k1 ->], (IHr H2 _ eq_refl) as [k2 ->].
    destruct o, k1, k2; cbn in Ht; try discriminate; injection Ht as <-; eauto.
Qed.

(** The same for eval(). *)
Theorem c56_eval_accurate M ord qord d mem m e p t :
  one_ulp M -> acos_ulp M -> (forall path, sums_four (qord path)) -> 0 <= d ->
  let c := d + / 2 ^ 44 in
  prepare e = Some (p, t) -> fits c m p -> stored d mem m e ->
  exists f x, feval M ord qord mem e = Some f /\ t = Plain (flty f) /\ deval 0 m e = Some x /\
    approximates (size m p) (grown c (fst (cost p))) (grown c (snd (cost p))) f x.
Proof.
  intros HM HA Hq Hd c Hp Hf Hs. destruct (prepare_typ _ _ _ Hp) as (T & D & S).
  destruct (stored_plain _ _ _ _ (S _ _ _ Hs) _ T) as [l ->].
  unfold feval. rewrite Hp. apply (c56_evaluateTo_accurate M ord qord d mem m e (plain_output (Plain l)) p (Plain l)); try assumption.
  unfold prepare_to, plain_output. rewrite Hp. cbn [ty_leaf]. replace (ty_eqb (Plain l) (Plain l)) with true; [reflexivity|].
  symmetry. now apply ty_eqb_eq.
Qed.
Print Assumptions c56_eval_accurate.

(** ** Counting *)
Definition isq (p : expr) : bool := has_typ p LQuat || has_typ p LCompRT.

Lemma isq_typ p : isq p = true <-> typ p = Some (Plain LQuat) \/ typ p = Some (Plain LCompRT).
Proof.
  unfold isq, has_typ. destruct (typ p) as [[k|k|k]|]; try (split; [discriminate|intros [H|H]; discriminate]).
  destruct k; cbn; split; auto; try discriminate; intros [H|H]; discriminate.
Qed.
Lemma has_isq p : has_typ p LQuat = true \/ has_typ p LCompRT = true -> isq p = true.
Proof. unfold isq. intros [->| ->]; [reflexivity|apply orb_true_r]. Qed.

Lemma nodes_pos p : (1 <= nodes p)%nat. Proof. induction p as [|o p IH|o l IHl r IHr]; cbn; try lia. destruct o; lia. Qed.


(** Plain leaves only. *)
Fixpoint plain_leaves (p : expr) : bool :=
  match p with
  | XLeaf _ t => match t with Plain _ => true | _ => false end
  | XUn _ p => plain_leaves p
  | XBin _ l r => plain_leaves l && plain_leaves r
  end.
Lemma stored_leaves d mem m p : stored d mem m p -> plain_leaves p = true.
Proof.
  induction p as [a t|o p IH|o l IHl r IHr]; cbn [stored plain_leaves]; [intros [-> _]; reflexivity|exact IH|].
  intros [A B]. now rewrite IHl, IHr.
Qed.
Lemma plain_typ p t : plain_leaves p = true -> typ p = Some t -> exists l, t = Plain l.
Proof.
  revert t. induction p as [a t0|o p IH|o l IHl r IHr]; cbn [plain_leaves typ]; intros t Hs Ht.
  - injection Ht as <-. destruct t0; try discriminate. eauto.
  - destruct (typ p) as [t0|]; [|discriminate]. destruct (IH _ Hs eq_refl) as [k ->].
    destruct o, k; cbn in Ht; try discriminate; try (injection Ht as <-; eauto);
      destruct (kind_eqb _ _); try discriminate; injection Ht as <-; eauto.
  - apply andb_prop in Hs as [H1 H2]. destruct (typ l) as [tl|]; [|discriminate]. destruct (typ r) as [tr|]; [|discriminate].
    destruct (IHl _ H1 eq_refl) as [k1 ->], (IHr _ H2 eq_refl) as [k2 ->].
    destruct o, k1, k2; cbn in Ht; try discriminate; injection Ht as <-; eauto.
Qed.

Lemma compose_isq l r : plain_leaves l = true -> plain_leaves r = true ->
  match typ l, typ r with Some a, Some b => ty_compose a b | _, _ => None end = Some (Plain LQuat) \/
  match typ l, typ r with Some a, Some b => ty_compose a b | _, _ => None end = Some (Plain LCompRT) ->
  has_typ l LMatRT && has_typ r LCompRT = false -> isq l = true /\ isq r = true.
Proof.
  intros Pl Pr H. unfold isq, has_typ. destruct (typ l) as [tl|] eqn:El, (typ r) as [tr|] eqn:Er; try (destruct H; discriminate).
  destruct (plain_typ _ _ Pl El) as [k ->], (plain_typ _ _ Pr Er) as [k' ->].
  destruct k, k'; cbn in H; try (destruct H; discriminate); cbn; auto; discriminate.
Qed.

Lemma cost_bound m p : plain_leaves p = true -> mild m p ->
  (isq p = true -> fst (cost p) <= nodes p)%nat /\ (fst (cost p) <= 16 * nodes p)%nat /\
  (snd (cost p) <= 73 * (nodes p * nodes p))%nat.
Proof.
  induction p as [a t|o p IH|o l IHl r IHr]; intros HL Hm.
  - cbn. lia.
  - cbn [mild plain_leaves] in *. destruct Hm as (_ & Hm & Ho). destruct (IH HL Hm) as (Q & A & B). clear IH Hm.
    pose proof (nodes_pos p) as N1. cbn [cost nodes]. destruct (cost p) as [r v]. cbn [fst snd] in *.
    assert (QP : isq (XUn o p) = true -> match o with OInverse | ORotation | OConvert _ | OMinus | OTranslation => isq p = true | _ => True end).
    { intros HQ. cut (typ p = Some (Plain LQuat) \/ typ p = Some (Plain LCompRT) \/ match o with OInverse | ORotation | OConvert _ | OMinus | OTranslation => False | _ => True end).
      { intros [H|[H|H]]; destruct o; try contradiction H; auto; apply isq_typ; auto. }
      revert HQ. rewrite isq_typ. cbn [typ]. destruct (typ p) as [tp|] eqn:Tp; [|intros [H|H]; discriminate].
      destruct (plain_typ _ _ HL Tp) as [k ->].
      destruct o; auto; try (destruct k; cbn; intros [H|H]; try discriminate; auto; fail).
      rewrite !(has_typ_eq _ _ _ Tp) in Ho. intros H.
      destruct Ho as [Ho|[[-> Ho]|[-> Ho]]]; destruct k; try discriminate Ho; try destruct to; try discriminate Ho; cbn in H; destruct H; try discriminate; auto. }
    set (n := nodes p) in *. assert (NN : (n * n <= (n + 1) * (n + 1))%nat) by nia.
    destruct o; cbn [fst snd]; try contradiction Ho.
    + split; [intros H; specialize (Q (QP H)); lia|]. split; [lia|]. nia.
    + split; [intros H; specialize (Q (QP H)); lia|]. split; [lia|]. nia.
    + split; [intros _; lia|]. split; [lia|]. nia.
    + split; [intros _; lia|]. split; [lia|]. nia.
    + split; [intros H; specialize (Q (QP H)); lia|]. split; [lia|]. nia.
    + split; [intros H; specialize (Q (QP H)); lia|]. split; [lia|]. nia.
    + destruct (has_typ p to) eqn:E; cbn [fst snd].
      * split; [intros H; specialize (Q (QP H)); lia|]. split; [lia|]. nia.
      * destruct Ho as [Ho|[[-> Ho]|[-> Ho]]]; [discriminate| |].
        -- specialize (Q (has_isq _ (or_introl Ho))). split; [|split; [lia|nia]]. rewrite isq_typ. cbn [typ].
           destruct (typ p) as [tp|] eqn:Tp; [|intros [H|H]; discriminate]. destruct tp as [k|k|k]; destruct k; cbn; intros [H|H]; discriminate.
        -- specialize (Q (has_isq _ (or_intror Ho))). split; [|split; [lia|nia]]. rewrite isq_typ. cbn [typ].
           destruct (typ p) as [tp|] eqn:Tp; [|intros [H|H]; discriminate]. destruct tp as [k|k|k]; destruct k; cbn; intros [H|H]; discriminate.
  - cbn [mild plain_leaves] in *. destruct Hm as (_ & Hl & Hr & Ho). apply andb_prop in HL as [Ll Lr].
    destruct (IHl Ll Hl) as (Ql & Al & Bl). destruct (IHr Lr Hr) as (Qr & Ar & Br). clear IHl IHr Hl Hr.
    pose proof (nodes_pos l) as N1. pose proof (nodes_pos r) as N2. cbn [cost nodes].
    assert (CQ : o = OCompose -> isq (XBin o l r) = true -> isq l = true /\ isq r = true).
    { intros ->. rewrite isq_typ. intros H. now apply compose_isq. }
    assert (FQ : o = OComposeFlipped -> isq (XBin o l r) = true -> isq l = true /\ isq r = true).
    { intros ->. rewrite isq_typ. cbn [typ ty_bin]. intros H. apply and_comm. apply compose_isq; auto.
      destruct (typ l), (typ r); auto. }
    assert (XL : has_typ l LCompRT = true -> isq l = true) by (intros H; apply has_isq; auto).
    assert (XR : has_typ r LCompRT = true -> isq r = true) by (intros H; apply has_isq; auto).
    destruct (cost l) as [rl vl], (cost r) as [rr vr]. cbn [fst snd] in *.
    set (a := nodes l) in *. set (b := nodes r) in *.
    assert (E : (73 * ((a + b + 1) * (a + b + 1)) = 73 * (a * a) + 73 * (b * b) + 146 * (a * b) + 146 * a + 146 * b + 73)%nat) by ring.
    assert (0 <= a * b)%nat by lia.
    destruct o; cbn [fst snd]; try contradiction Ho; rewrite E; try (split; [intros _; lia|split; lia]).
    + rewrite Ho. destruct (has_typ l LCompRT && has_typ r LMatRT) eqn:T.
      * apply andb_prop in T as [T1 T2]. specialize (Ql (XL T1)). split; [|split; lia].
        intros H'. destruct (CQ eq_refl H') as [_ K]. apply isq_typ in K. unfold has_typ in T2. destruct K as [K|K]; rewrite K in T2; discriminate.
      * split; [|split; lia]. intros H'. destruct (CQ eq_refl H') as [K1 K2]. specialize (Ql K1). specialize (Qr K2). lia.
    + rewrite Ho. destruct (has_typ r LCompRT && has_typ l LMatRT) eqn:T.
      * apply andb_prop in T as [T1 T2]. specialize (Qr (XR T1)). split; [|split; lia].
        intros H'. destruct (FQ eq_refl H') as [K _]. apply isq_typ in K. unfold has_typ in T2. destruct K as [K|K]; rewrite K in T2; discriminate.
      * split; [|split; lia]. intros H'. destruct (FQ eq_refl H') as [K1 K2]. specialize (Ql K1). specialize (Qr K2). lia.
Qed.

Lemma mild_fits c m N p : / 2 ^ 44 <= c -> plain_leaves p = true -> mild m p -> (nodes p <= N)%nat ->
  73 * (INR N * INR N) * c <= / 2000 -> fits c m p.
Proof.
  intros C0 HL Hm HN HC. pose proof unit_pos as U.
  assert (X : forall k, (k <= 73 * (N * N))%nat -> INR k * c <= / 2000).
  { intros k Hk. eapply Rle_trans; [|exact HC]. apply Rmult_le_compat_r; [lra|]. apply le_INR in Hk. rewrite !mult_INR in Hk.
    replace (INR 73) with 73 in Hk by (rewrite INR_IZR_INZ; reflexivity). exact Hk. }
  clear HC. induction p as [a t|o p IH|o l IHl r IHr].
  - pose proof (cost_bound m _ HL Hm) as (_ & A & B). cbn [nodes] in HN. cbn [mild fits] in *. destruct Hm as [H1 _].
    split; [exact H1|]. split; [apply X; cbn; nia|]. split; [apply X; cbn; nia|exact I].
  - pose proof (cost_bound m _ HL Hm) as (_ & A & B). pose proof (nodes_pos (XUn o p)) as N1.
    assert (HNp : (nodes p <= N)%nat) by (cbn [nodes] in HN; destruct o; lia).
    cbn [mild fits plain_leaves] in *. destruct Hm as (H1 & H2 & H3). specialize (IH HL H2 HNp).
    set (n := nodes (XUn o p)) in *. assert (n * n <= N * N)%nat by nia.
    split; [exact H1|]. split; [apply X; nia|]. split; [apply X; lia|]. split; [exact IH|]. destruct o; tauto.
  - pose proof (cost_bound m _ HL Hm) as (_ & A & B). pose proof (nodes_pos (XBin o l r)) as N1.
    assert (HNp : (nodes l <= N)%nat) by (cbn [nodes] in HN; lia). assert (HNr : (nodes r <= N)%nat) by (cbn [nodes] in HN; lia).
    cbn [mild fits plain_leaves] in *. apply andb_prop in HL as [L1 L2]. destruct Hm as (H1 & H2 & H2' & H3). specialize (IHl L1 H2 HNp). specialize (IHr L2 H2' HNr).
    set (n := nodes (XBin o l r)) in *. assert (n * n <= N * N)%nat by nia.
    split; [exact H1|]. split; [apply X; nia|]. split; [apply X; lia|]. split; [exact IHl|]. split; [exact IHr|]. destruct o; tauto.
Qed.

(** Without exponentials and logarithms: an expression prepared to [n] operands and
    operations has a relative error of at most 146 n^2 (d + 2^-44) in its coordinates and
    32 n (d + 2^-44) in its rotation. *)
Theorem c56_polynomial_accurate M ord qord d mem m e dest p t :
  one_ulp M -> acos_ulp M -> (forall path, sums_four (qord path)) -> 0 <= d ->
  let c := d + / 2 ^ 44 in let n := INR (nodes p) in
  prepare_to dest e = Some (p, t) -> mild m p -> stored d mem m e -> 146000 * (n * n) * c <= 1 ->
  exists f x, feval_to M ord qord dest mem e = Some f /\ t = Plain (flty f) /\
    deval 0 m e = Some x /\ approximates (size m p) (32 * n * c) (146 * (n * n) * c) f x.
Proof.
  intros HM HA Hq Hd c n Hp Hm Hs HC. destruct (prepare_to_typ _ _ _ _ Hp) as (T & D & S).
  pose proof (stored_leaves _ _ _ _ (S _ _ _ Hs)) as HL. pose proof unit_pos as U.
  assert (C0 : / 2 ^ 44 <= c) by (unfold c; lra).
  assert (Hf : fits c m p) by (apply (mild_fits c m (nodes p)); auto; fold n; lra).
  destruct (c56_evaluateTo_accurate M ord qord d mem m e dest p t HM HA Hq Hd Hp Hf Hs) as (f & x & E1 & E2 & E3 & E4).
  exists f, x. split; [exact E1|]. split; [exact E2|]. split; [exact E3|]. fold c in E4.
  destruct (cost_bound m p HL Hm) as (_ & A & B). destruct (fits_bounds c C0 m p Hf) as ((T1 & _) & G1 & G2).
  apply le_INR in A, B. rewrite mult_INR in A. rewrite !mult_INR in B. fold n in A, B.
  replace (INR 16) with 16 in A by (rewrite INR_IZR_INZ; reflexivity). replace (INR 73) with 73 in B by (rewrite INR_IZR_INZ; reflexivity).
  assert (A' : INR (fst (cost p)) * c <= 16 * n * c) by (apply Rmult_le_compat_r; lra).
  assert (B' : INR (snd (cost p)) * c <= 73 * (n * n) * c) by (apply Rmult_le_compat_r; lra).
  assert (N1 : 1 <= n) by (unfold n; pose proof (nodes_pos p) as K; apply le_INR in K; exact K).
  assert (N2 : n * c <= n * n * c) by (apply Rmult_le_compat_r; [lra|]; rewrite <- (Rmult_1_r n) at 1; apply Rmult_le_compat_l; lra).
  pose proof tiny_pos as T0. pose proof (grown_le c C0 (fst (cost p)) ltac:(lra)) as L1. pose proof (grown_le c C0 (snd (cost p)) ltac:(lra)) as L2.
  eapply approximates_mono; [exact E4|lra|lra|lra|lra|lra].
Qed.
Print Assumptions c56_polynomial_accurate.

(** ** Concrete cases *)

Definition ex_mem (a : nat) : fvalue :=
  match a with
  | 0 => FCompRT roll_d (mkDV f1 f2 f0)
  | 1 => FMatRT tilt_d (mkDV f0 f0 f1)
  | 2 => FTrans (mkDV f1 f2 fhalf)
  | _ => FRel (mkDV f1 f2 fhalf)
  end%nat.
Definition ex_m (a : nat) : dval :=
  match a with
  | 0 => DRT (qrot roll) (mkV 1 2 0)
  | 1 => DRT tilt (mkV 0 0 1)
  | 2 => DTrans (mkV 1 2 (1 / 2))
  | _ => DRel (mkV 1 2 (1 / 2))
  end%nat.

(** inverse(T0 * T1) * t, T0 with a quaternion and T1 with a matrix *)
Definition ex_poly : expr :=
  XBin OTransform (XUn OInverse (XBin OCompose (XLeaf 0 (Plain LCompRT)) (XLeaf 1 (Plain LMatRT)))) (XLeaf 2 (Plain LTrans)).
(** log(exp(r)), which prepares to log(matrix(exp(r))) *)
Definition ex_log : expr := XUn OLogMap (XUn OExpMap (XLeaf 3 (Plain LRel))).
Definition ex_log_p : expr := XUn OLogMap (XUn (OConvert LMat) (XUn OExpMap (XLeaf 3 (Plain LRel)))).

Lemma ex_vec S v x : vfinite v -> vval v = x -> vnorm x <= S -> vapprox S (/ 2 ^ 50) v x.
Proof.
  intros F <- H. split; [exact F|]. split; [exact H|]. replace (vsub (vval v) (vval v)) with v0 by (unfold vsub, v0; f_equal; ring).
  rewrite vnorm_0. pose proof (vnorm_nonneg (vval v)). apply Rmult_le_pos; [|lra]. left. apply Rinv_0_lt_compat, pow_lt. lra.
Qed.

Lemma ex_stored a : approximates (length_of (ex_m a)) (/ 2 ^ 50) (/ 2 ^ 50) (ex_mem a) (ex_m a).
Proof.
  destruct f0_ok as [F0 V0]. destruct (lit_small 1 1) as [F1 V1]; [lia|lra|]. fold f1 in F1, V1.
  destruct f2_ok as [F2 V2]. destruct fhalf_ok as [Fh Vh]. 
  assert (P : 3 * / 2 ^ 53 <= / 2 ^ 50).
  { replace (2 ^ 53) with 9007199254740992 by ring. replace (2 ^ 50) with 1125899906842624 by ring. lra. }
  assert (P0 : 0 < / 2 ^ 53) by (apply Rinv_0_lt_compat, pow_lt; lra).
  destruct a as [|[|[|a]]]; cbn [ex_m ex_mem approximates length_of].
  - split.
    + destruct roll_ok as (F & U & W). split; [exact F|]. exists roll. split; [exact U|]. split; [reflexivity|]. rewrite qdist_norm.
      apply qwithin_norm in W. lra.
    + apply ex_vec; [exact (conj F1 (conj F2 F0))| |lra]. unfold vval; cbn [dx dy dz]. now rewrite V0, V1, V2.
  - split.
    + destruct tilt_ok as (F & U & W). split; [exact F|]. split; [exact U|]. apply fnorm_within in W; lra.
    + apply ex_vec; [exact (conj F0 (conj F0 F1))| |lra]. unfold vval; cbn [dx dy dz]. now rewrite V0, V1.
  - apply ex_vec; [exact (conj F1 (conj F2 Fh))| |lra]. unfold vval; cbn [dx dy dz]. now rewrite V1, V2, Vh.
  - apply ex_vec; [exact (conj F1 (conj F2 Fh))| |lra]. unfold vval; cbn [dx dy dz]. now rewrite V1, V2, Vh.
Qed.

Lemma ex_norms : vnorm (mkV 1 2 0) <= 3 /\ vnorm (mkV 0 0 1) <= 3 /\ vnorm (mkV 1 2 (1 / 2)) <= 5 / 2.
Proof. split; [|split]; (apply norm_le_sq; [lra|]; unfold vnorm2, vdot; cbn; lra). Qed.
Lemma vast_1000 : 1000 <= vast.
Proof. unfold vast. apply Rle_trans with (2 ^ 10); [lra|]. apply Rle_pow; [lra|lia]. Qed.

Example c56_polynomial_example : let n := INR (nodes ex_poly) in
  prepare_to (Plain LTrans) ex_poly = Some (ex_poly, Plain LTrans) /\ mild ex_m ex_poly /\
  stored (/ 2 ^ 50) ex_mem ex_m ex_poly /\ 146000 * (n * n) * (/ 2 ^ 50 + / 2 ^ 44) <= 1 /\
  146 * (n * n) * (/ 2 ^ 50 + / 2 ^ 44) <= / 2 ^ 31.
Proof.
  cbn [nodes ex_poly]. replace (INR (1 + 1 + 1 + 1 + 1 + 1)) with 6 by (rewrite INR_IZR_INZ; reflexivity).
  replace (2 ^ 50) with 1125899906842624 by ring. replace (2 ^ 44) with 17592186044416 by ring. replace (2 ^ 31) with 2147483648 by ring.
  split; [reflexivity|]. pose proof vast_1000. pose proof tiny_1. destruct ex_norms as (A & B & C).
  split.
  - cbn [ex_poly mild size ex_m length_of]. 
    assert (forall x, x <= 3 -> Rmax tiny x <= 3) by (intros; apply Rmax_lub; lra).
    pose proof (H1 _ A). pose proof (H1 _ B). pose proof (H1 (vnorm (mkV 1 2 (1 / 2))) ltac:(lra)).
    repeat split; try lra; reflexivity.
  - split; [|split; lra]. cbn [ex_poly stored]. replace 1125899906842624 with (2 ^ 50) by ring. exact (conj (conj (conj eq_refl (ex_stored 0)) (conj eq_refl (ex_stored 1))) (conj eq_refl (ex_stored 2))).
Qed.

Example c56_log_exp_example : let c := / 2 ^ 50 + / 2 ^ 44 in
  one_ulp strict_libm /\ acos_ulp strict_libm /\ sums_four mixed_order /\
  prepare ex_log = Some (ex_log_p, Plain LRel) /\ fits c ex_m ex_log_p /\ stored (/ 2 ^ 50) ex_mem ex_m ex_log /\
  grown c (snd (cost ex_log_p)) <= / 10 ^ 7.
Proof.
  intros c. split; [apply rounds_one_ulp, strict_libm_rounds|]. split; [apply strict_libm_acos|]. split; [exact mixed_sums_four|].
  assert (C0 : / 2 ^ 44 <= c) by (assert (0 < / 2 ^ 50) by (apply Rinv_0_lt_compat, pow_lt; lra); unfold c; lra).
  assert (CV : c = / 1125899906842624 + / 17592186044416).
  { unfold c. replace (2 ^ 50) with 1125899906842624 by ring. replace (2 ^ 44) with 17592186044416 by ring. reflexivity. }
  assert (CC : cost ex_log_p = (1, 1100 * 241 + 32)%nat) by reflexivity.
  assert (IC : INR (1100 * 241 + 32) = 265132).
  { rewrite plus_INR, mult_INR, INR_1100. replace (INR 241) with 241 by (rewrite INR_IZR_INZ; reflexivity). replace (INR 32) with 32 by (rewrite INR_IZR_INZ; reflexivity). lra. }
  split; [reflexivity|]. split; [|split].
  - pose proof vast_1000. pose proof tiny_1. destruct ex_norms as (A & B & C).
    assert (Z : Rmax tiny (vnorm (mkV 1 2 (1 / 2))) <= 4) by (apply Rmax_lub; lra).
    assert (I1 : INR 1 = 1) by reflexivity. assert (I16 : INR 16 = 16) by (rewrite INR_IZR_INZ; reflexivity). assert (I241 : INR 241 = 241) by (rewrite INR_IZR_INZ; reflexivity).
    unfold ex_log_p. cbn [fits]. fold ex_log_p. rewrite CC. cbn [fst snd]. rewrite IC.
    assert (C1 : cost (XUn (OConvert LMat) (XUn OExpMap (XLeaf 3 (Plain LRel)))) = (241, 1)%nat) by reflexivity.
    assert (C2 : cost (XUn OExpMap (XLeaf 3 (Plain LRel))) = (16, 1)%nat) by reflexivity.
    rewrite C1, C2. cbn [fst snd cost]. rewrite I1, I16, I241. rewrite CV. cbn [size ex_m length_of ex_log_p].
    repeat split; try lra; try reflexivity. { right; left; split; reflexivity. }
    intros r. cbn [deval ex_m dsem_un]. intros E. cbn in E. injection E as <-. pose proof PI_ge. rewrite rot_angle_exp; lra.
  - exact (conj eq_refl (ex_stored 3)).
  - rewrite CC. cbn [snd]. eapply Rle_trans; [apply grown_le; [exact C0|]|]; rewrite IC, CV; [lra|]. replace (10 ^ 7) with 10000000 by ring. lra.
Qed.
