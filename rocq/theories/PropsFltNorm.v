(** Accuracy of Jacobians of whole expressions computed on doubles, relative to how much
    they can stretch a vector. *)

From Coq Require Import ZArith Reals List Bool Arith Lra Lia Psatz.
From Flocq Require Import Core BinarySingleNaN.
From Verif Require Import Mat V3 ModelLeaf SpecLeaf ModelFloat SpecFlt FloatProofs FloatDrift FloatExp ModelFloatQ SpecFltQ FloatQuat FloatAct SpecFltLog.
From Verif Require Import ModelMeta ModelJac SpecJac JacProofs LeafProofs ModelExpr SpecExpr ExprProofs SpecDeriv DerivProofs PropsDeriv PropsExpr.
From Verif Require Import ModelFloatExpr SpecFltExpr FloatNorm FloatStep FloatStep2 FloatTree PropsExpFlt PropsQuatFlt PropsLogAcc PropsDrift FloatLog PropsFltExpr.
From Verif Require Import ModelFloatJac SpecFltJac FloatJac FloatJacLoc FloatJacTree PropsFltJac.
From Verif Require Import SpecFltNorm NormLib NormStep NormLoc NormTree.
Import ListNotations.
Local Open Scope R_scope.
Local Open Scope mat_scope.

Lemma nfits_ops c m a p : nfits c m a p -> jops m a p.
Proof.
  induction p as [b t|o p IH|o l IHl r IHr]; cbn [nfits jops]; intros H Ma; [exact I| |]; specialize (H Ma).
  - destruct H as (_ & _ & H & Ho). auto.
  - destruct H as (_ & _ & H & H' & Ho). auto.
Qed.

(** ** C59 *)

(** Jacobian of an expression with respect to one of its leaf objects, computed in doubles:
    it exists, has no infinity or NaN, and the root of the summed squares of the errors of
    its entries is at most [ncost] relative errors of d + 2^-44 relative to [nsize], the
    sum over the paths to the object of the products of how much the local Jacobians
    stretch. *)
Theorem c59_jacobian_normwise M ord qord jord sch d mem mr e k a l p t :
  one_ulp M -> acos_ulp M -> (forall path, sums_four (qord path)) ->
  (forall path r c n, (1 <= n)%nat -> adds_all (sch path r c n) n) -> 0 <= d ->
  let c := d + / 2 ^ 44 in let m := fun b => den (mr b) in
  good 0 mr e k -> In a (leaf_addrs e) -> vty (mr a) = Plain l ->
  prepare e = Some (p, t) -> fits c m p -> nfits c m a p -> stored d mem m e ->
  exists F J, fjacobian M ord qord jord sch mem e a = Some F /\
    has_shape (tsize k) (tsize (kind_of l)) J /\ is_derivative 0 mr e a J /\
    napprox (nsize m a p) (grown c (ncost a p)) (tsize k) (tsize (kind_of l)) F J.
Proof.
  intros HM HA Hq Hs Hd c m G Ha Hl P Hf Hj Hst.
  assert (C0 : / 2 ^ 44 <= c) by (unfold c; lra). assert (U : 0 < / 2 ^ 44) by (apply Rinv_0_lt_compat, pow_lt; lra).
  destruct (prepare_typ _ _ _ P) as (T & D & S).
  assert (Hna : (a + 1)%nat <> a) by lia.
  destruct (njac_tree_ok c C0 M ord qord jord sch HM HA Hq Hs mem mr (a + 1)%nat d ltac:(unfold c; lra) a Hna p Hf Hj (S _ _ _ Hst)
    (prepare_env _ _ _ _ P (proj1 (proj2 G))) (ex_intro _ _ T) []) as (f & v & W & (E1 & E2 & E3 & E4 & E5 & E6 & E7) & E8).
  assert (Ma : mentions a p = true) by (rewrite (prepare_mentions _ _ _ _ P); now apply mentions_leaves).
  unfold njac_ok in E8. rewrite Ma in E8. destruct E8 as (F & F1 & F2 & F3 & F4).
  assert (Hx : means 0 mr e = Some (den v)).
  { rewrite (good_means 0 mr e k (Rle_refl 0) G). now apply D. }
  assert (Sm : smooth 0 m a e).
  { apply (jpts_smooth d mem); [exact Hst|]. apply (prepare_jpts m a e p t P).
    apply (ops_pts M ord qord d mem); eauto. now apply (nfits_ops c m). }
  destruct (core_prepare 0 (a + 1)%nat mr e k a l (den v) ltac:(lra) G Hx Ha Hl Sm p t P) as (v' & W' & H1 & H2 & H3 & H4 & H5 & H6 & H7).
  rewrite E3 in H1. injection H1 as <- <-.
  set (tgt := leaf_obj a (Plain l)) in *.
  pose proof (tree_leaves_env 0 _ mr p e v W (proj1 (proj2 G)) (prepare_leaves _ _ _ P) E3) as L.
  assert (Un : addr_unambiguous tgt W).
  { split.
    - intros Hi. apply Hna. symmetry. exact (proj2 (tree_leaves _ _ _ _ _ _ E3) _ Hi).
    - rewrite L. intros q Hq' Eq. apply in_map_iff in Hq' as (b & <- & _). cbn in Eq. subst b. now rewrite Hl. }
  destruct (dyn_correct tgt W H2 Un (tsize_pos _)) as [(_ & _ & EQ)|(N & _)]; [|contradiction].
  change (l_addr tgt) with a in EQ.
  assert (Dv : vdim v = tsize k) by (unfold vdim; now rewrite H4).
  assert (Da : vdim (mr a) = tsize (kind_of l)) by (unfold vdim, vkind; now rewrite Hl).
  rewrite Dv, Da in F2, F4.
  exists F, (true_jacobian tgt W). unfold fjacobian. rewrite P, F1. split; [reflexivity|]. split.
  - destruct EQ as (R & C & _). split; [rewrite <- R|rewrite <- C]; apply F2.
  - split; [exact H7|]. eapply napprox_meq; [|exact F4]. intros i j _ _. now apply mnth_eq.
Qed.
Print Assumptions c59_jacobian_normwise.

(** ** Counting *)
Lemma ncost_bound m a p : plain_leaves p = true -> mild m p -> (ncost a p <= 1896 * (nodes p * nodes p * nodes p))%nat.
Proof.
  assert (CUBE : forall n n' k, (n' + 1 <= n)%nat -> (k <= 315 * (n * n))%nat -> (6 * k + 1896 * (n' * n' * n') + 1 <= 1896 * (n * n * n))%nat).
  { intros n n' k H K. assert (n' * n' <= n * n)%nat by nia. assert (n' * n' * n' <= n * n * n')%nat by (apply Nat.mul_le_mono_r; assumption).
    assert (n * n * n' + n * n <= n * n * n)%nat by (replace (n * n * n' + n * n)%nat with (n * n * (n' + 1))%nat by ring; apply Nat.mul_le_mono_l; assumption).
    assert (1 <= n * n)%nat by nia. lia. }
  induction p as [b t|o p IH|o l IHl r IHr]; intros HL Hm.
  - cbn. lia.
  - pose proof (cost_bound m _ HL Hm) as (_ & A & B). cbn [plain_leaves] in HL. assert (Hp : mild m p) by (cbn [mild] in Hm; tauto).
    specialize (IH HL Hp). pose proof (cost_bound m _ HL Hp) as (_ & A' & B').
    assert (NP : (nodes p + 1 <= nodes (XUn o p))%nat) by (cbn [nodes]; pose proof (nodes_pos p); destruct o; lia).
    pose proof (nodes_pos p) as N1. cbn [ncost]. set (n := nodes (XUn o p)) in *. set (n' := nodes p) in *.
    assert (K : (lcost_un o p <= 315 * (n * n))%nat).
    { unfold lcost_un. destruct (cost (XUn o p)) as [rr vv]. cbn [fst snd] in *. assert (n <= n * n)%nat by nia. assert (n' * n' <= n * n)%nat by nia. cbn [mild] in Hm; destruct o; try (exfalso; tauto); lia. }
    pose proof (CUBE n n' _ NP K). lia.
  - pose proof (cost_bound m _ HL Hm) as (_ & A & B). cbn [plain_leaves] in HL. apply andb_prop in HL as [L1 L2].
    assert (Ml : mild m l) by (cbn [mild] in Hm; tauto). assert (Mr : mild m r) by (cbn [mild] in Hm; tauto).
    specialize (IHl L1 Ml). specialize (IHr L2 Mr).
    pose proof (cost_bound m _ L1 Ml) as (_ & Al & Bl). pose proof (cost_bound m _ L2 Mr) as (_ & Ar & Br).
    pose proof (nodes_pos l) as N1. pose proof (nodes_pos r) as N2.
    assert (NL : (nodes l + 1 <= nodes (XBin o l r))%nat) by (cbn [nodes]; lia). assert (NR : (nodes r + 1 <= nodes (XBin o l r))%nat) by (cbn [nodes]; lia).
    cbn [ncost]. set (n := nodes (XBin o l r)) in *. set (nl := nodes l) in *. set (nr := nodes r) in *.
    assert (Q : (n <= n * n)%nat) by nia. assert (Ql : (nl * nl <= n * n)%nat) by nia. assert (Qr : (nr * nr <= n * n)%nat) by nia.
    assert (K1 : (lcost_l o l r <= 315 * (n * n))%nat) by (unfold lcost_l; destruct o; lia).
    assert (K2 : (lcost_r o l r <= 315 * (n * n))%nat) by (unfold lcost_r; destruct o; lia).
    pose proof (CUBE n nl _ NL K1). pose proof (CUBE n nr _ NR K2).
    destruct (mentions a l), (mentions a r); lia.
Qed.

Lemma nmild_fits c m a N p : / 2 ^ 44 <= c -> plain_leaves p = true -> mild m p -> nmild m a p -> (nodes p <= N)%nat ->
  1896 * (INR N * INR N * INR N) * c <= / 2000 -> nfits c m a p.
Proof.
  intros C0 HL Hm Hj HN HC. assert (U : 0 < / 2 ^ 44) by (apply Rinv_0_lt_compat, pow_lt; lra).
  assert (X : forall q, plain_leaves q = true -> mild m q -> (nodes q <= N)%nat -> INR (ncost a q) * c <= / 2000).
  { intros q Lq Mq Nq. pose proof (ncost_bound m a q Lq Mq) as K. eapply Rle_trans; [|exact HC]. apply Rmult_le_compat_r; [lra|].
    assert (K' : (ncost a q <= 1896 * (N * N * N))%nat).
    { eapply Nat.le_trans; [exact K|]. apply Nat.mul_le_mono_l. apply Nat.mul_le_mono; [apply Nat.mul_le_mono|]; assumption. }
    apply le_INR in K'. rewrite !mult_INR in K'. replace (INR 1896) with 1896 in K' by (rewrite INR_IZR_INZ; reflexivity). exact K'. }
  clear HC. induction p as [b t|o p IH|o l IHl r IHr].
  - intros Ma. specialize (X _ HL Hm HN). cbn [nmild] in Hj. destruct (Hj Ma) as (A & _). split; [exact A|]. split; [exact X|exact I].
  - intros Ma. specialize (X _ HL Hm HN). cbn [nmild] in Hj. destruct (Hj Ma) as (A & Jp & Ho). cbn [plain_leaves] in HL. cbn [mild] in Hm.
    split; [exact A|]. split; [exact X|]. split; [|destruct o; try contradiction Ho; exact I]. apply IH; try tauto. cbn [nodes] in HN. pose proof (nodes_pos p). destruct o; lia.
  - intros Ma. specialize (X _ HL Hm HN). cbn [nmild] in Hj. destruct (Hj Ma) as (A & Jl & Jr & Ho). cbn [plain_leaves] in HL. apply andb_prop in HL as [L1 L2]. cbn [mild] in Hm.
    cbn [nodes] in HN. split; [exact A|]. split; [exact X|]. split; [apply IHl; try tauto; lia|]. split; [apply IHr; try tauto; lia|exact Ho].
Qed.

(** Without exponentials and logarithms: the root of the summed squares of the errors is at
    most 3792 n^3 (d + 2^-44) [nsize] for an expression prepared to [n] operands and
    operations. *)
Theorem c59_polynomial_normwise M ord qord jord sch d mem mr e k a l p t :
  one_ulp M -> acos_ulp M -> (forall path, sums_four (qord path)) ->
  (forall path r c n, (1 <= n)%nat -> adds_all (sch path r c n) n) -> 0 <= d ->
  let c := d + / 2 ^ 44 in let m := fun b => den (mr b) in let n := INR (nodes p) in
  good 0 mr e k -> In a (leaf_addrs e) -> vty (mr a) = Plain l ->
  prepare e = Some (p, t) -> mild m p -> nmild m a p -> stored d mem m e -> 3792000 * (n * n * n) * c <= 1 ->
  exists F J, fjacobian M ord qord jord sch mem e a = Some F /\
    has_shape (tsize k) (tsize (kind_of l)) J /\ is_derivative 0 mr e a J /\
    (forall i j, (i < tsize k)%nat -> (j < tsize (kind_of l))%nat -> finite (F i j)) /\
    frobenius (tsize k) (tsize (kind_of l)) (fun i j => val (F i j) - mnth J i j) <= 3792 * (n * n * n) * c * nsize m a p.
Proof.
  intros HM HA Hq Hs Hd c m n G Ha Hl P Hm Hj Hst HC.
  assert (C0 : / 2 ^ 44 <= c) by (unfold c; lra). assert (U : 0 < / 2 ^ 44) by (apply Rinv_0_lt_compat, pow_lt; lra).
  destruct (prepare_typ _ _ _ P) as (T & D & S). pose proof (stored_leaves _ _ _ _ (S _ _ _ Hst)) as HL.
  assert (N1 : 1 <= n) by (unfold n; pose proof (nodes_pos p) as K; apply le_INR in K; exact K).
  assert (N2 : n * n <= n * n * n) by (rewrite <- (Rmult_1_r (n * n)) at 1; apply Rmult_le_compat_l; nra).
  assert (N3 : n * n * c <= n * n * n * c) by (apply Rmult_le_compat_r; lra).
  assert (Hf : fits c m p) by (apply (mild_fits c m (nodes p)); auto; fold n; lra).
  assert (Jf : nfits c m a p) by (apply (nmild_fits c m a (nodes p)); auto; fold n; lra).
  destruct (c59_jacobian_normwise M ord qord jord sch d mem mr e k a l p t HM HA Hq Hs Hd G Ha Hl P Hf Jf Hst) as (F & J & E1 & E2 & E3 & A & B & X).
  exists F, J. split; [exact E1|]. split; [exact E2|]. split; [exact E3|]. split; [exact A|]. eapply Rle_trans; [exact X|].
  apply Rmult_le_compat_r; [apply nsize_nonneg|]. fold c m.
  assert (K : INR (ncost a p) * c <= 1896 * (n * n * n) * c).
  { apply Rmult_le_compat_r; [lra|]. pose proof (ncost_bound m a p HL Hm) as K. apply le_INR in K. rewrite !mult_INR in K.
    replace (INR 1896) with 1896 in K by (rewrite INR_IZR_INZ; reflexivity). exact K. }
  pose proof (grown_le c C0 (ncost a p) ltac:(lra)). lra.
Qed.
Print Assumptions c59_polynomial_normwise.

(** ** The same concrete case as for [c59_polynomial_jacobian]. *)
Example c59_normwise_example : let c := / 2 ^ 50 + / 2 ^ 44 in let m := fun b => den (ex_mr b) in let n := INR (nodes ex_poly) in
  nmild m 0 ex_poly /\ 3792000 * (n * n * n) * c <= 1 /\ nsize m 0 ex_poly <= 70.
Proof.
  intros c m n. unfold m. rewrite ex_mr_den.
  assert (NV : n = 6) by (unfold n; cbn [nodes ex_poly]; rewrite INR_IZR_INZ; reflexivity).
  assert (CV : c = / 1125899906842624 + / 17592186044416).
  { unfold c. replace (2 ^ 50) with 1125899906842624 by ring. replace (2 ^ 44) with 17592186044416 by ring. reflexivity. }
  destruct ex_norms as (A & B & C). pose proof tiny_1. pose proof tiny_pos as TP.
  assert (V : 32768 <= vast) by (unfold vast; apply Rle_trans with (2 ^ 15); [lra|apply Rle_pow; [lra|lia]]).
  assert (X : forall x, x <= 3 -> 0 <= Rmax tiny x <= 3) by (intros; split; [eapply Rle_trans; [|apply Rmax_l]; lra|apply Rmax_lub; lra]).
  pose proof (X _ A) as X1. pose proof (X _ B) as X2. pose proof (X (vnorm (mkV 1 2 (1 / 2))) ltac:(lra)) as X3.
  set (e1 := XBin OCompose (XLeaf 0 (Plain LCompRT)) (XLeaf 1 (Plain LMatRT))).
  assert (S1 : 0 <= size ex_m e1 <= 6) by (cbn [e1 size ex_m length_of]; lra).
  assert (S2 : size ex_m (XUn OInverse e1) = size ex_m e1) by reflexivity.
  assert (J1 : nsize ex_m 0 e1 = 1).
  { unfold e1. cbn [nsize mentions Nat.eqb stretch_l]. rewrite Rmult_1_r. apply Rmax_right. lra. }
  assert (J2 : 0 <= nsize ex_m 0 (XUn OInverse e1) <= 7).
  { change (nsize ex_m 0 (XUn OInverse e1)) with (Rmax tiny ((1 + size ex_m e1) * nsize ex_m 0 e1)). rewrite J1.
    split; [eapply Rle_trans; [|apply Rmax_l]; lra|]. apply Rmax_lub; lra. }
  assert (J3 : 0 <= nsize ex_m 0 ex_poly <= 70).
  { change (nsize ex_m 0 ex_poly) with (Rmax tiny ((1 + (size ex_m (XUn OInverse e1) + Rmax tiny (vnorm (mkV 1 2 (1/2))))) * nsize ex_m 0 (XUn OInverse e1))).
    rewrite S2. split; [eapply Rle_trans; [|apply Rmax_l]; lra|]. apply Rmax_lub; [lra|].
    assert ((1 + (size ex_m e1 + Rmax tiny (vnorm (mkV 1 2 (1/2))))) * nsize ex_m 0 (XUn OInverse e1) <= 10 * 7) by (apply Rmult_le_compat; lra). lra. }
  split.
  { intros _. split; [fold ex_poly; lra|]. split; [|split; [|exact I]].
    - intros _. split; [fold e1; lra|]. split; [|exact I]. intros _. split; [fold e1; lra|]. split; [|split; [|exact I]].
      + intros _. cbn [nsize]. split; [lra|exact I].
      + intros K. discriminate K.
    - intros K. discriminate K. }
  rewrite NV. split; [rewrite CV; lra|lra].
Qed.

(** ** Deep expressions: R0 * R1 * ... * Rn with respect to any of the rotations.  The bound
    does not grow with the depth, except through the count of operations. *)
Fixpoint rotations (n : nat) : expr :=
  match n with
  | 0 => XLeaf 0 (Plain LMat)
  | S n => XBin OCompose (rotations n) (XLeaf (S n) (Plain LMat))
  end%nat.
Lemma rotations_size m n : (forall b, exists R, m b = DRot R) -> size m (rotations n) <= 2 ^ (S n) * tiny.
Proof.
  intros H. pose proof tiny_pos as TP. assert (Z : forall b, length_of (m b) = 0) by (intros b; destruct (H b) as [R ->]; reflexivity).
  induction n as [|n IH]; cbn [rotations size].
  - rewrite Z, Rmax_left by lra. cbn. lra.
  - rewrite Z, Rmax_left by lra. assert (1 <= 2 ^ S n) by (apply pow_R1_Rle; lra). assert (tiny <= 2 ^ S n * tiny) by (rewrite <- (Rmult_1_l tiny) at 1; apply Rmult_le_compat_r; lra).
    cbn [pow] in *. lra.
Qed.
Lemma rotations_mentions n a : mentions a (rotations n) = (a <=? n)%nat.
Proof.
  induction n as [|n IH]; cbn [rotations mentions].
  - destruct a; reflexivity.
  - rewrite IH. change ((a <=? n) || (S n =? a) = (a <=? S n))%nat. apply eq_true_iff_eq. rewrite orb_true_iff, Nat.eqb_eq, !Nat.leb_le. lia.
Qed.
Example c59_deep_rotations m n a : (forall b, exists R, m b = DRot R) -> (a <= n <= 300)%nat -> nsize m a (rotations n) <= 2.
Proof.
  intros H Hn. pose proof tiny_pos as TP. pose proof tiny_1 as T1.
  assert (SZ : forall k, (k <= 300)%nat -> size m (rotations k) <= 1).
  { intros k Hk. eapply Rle_trans; [now apply rotations_size|]. unfold tiny. apply Rmult_le_reg_r with (2 ^ 400); [apply pow_lt; lra|].
    rewrite Rmult_assoc, Rinv_l, Rmult_1_r, Rmult_1_l by (apply pow_nonzero; lra). apply Rle_pow; [lra|lia]. }
  destruct Hn as [Ha Hn]. induction n as [|n IH]; cbn [rotations nsize].
  - lra.
  - rewrite rotations_mentions. cbn [mentions stretch_l stretch_r]. destruct (Nat.leb_spec a n) as [L|L].
    + assert (E : (S n =? a)%nat = false) by (apply Nat.eqb_neq; lia). rewrite E. specialize (IH L ltac:(lia)). rewrite Rmult_1_l. apply Rmax_lub; lra.
    + specialize (SZ n ltac:(lia)). rewrite Rmult_1_r. apply Rmax_lub; lra.
Qed.
