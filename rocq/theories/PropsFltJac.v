(** Accuracy of Jacobians of whole expressions computed on doubles. *)

From Coq Require Import ZArith Reals List Bool Arith Lra Lia Psatz.
From Flocq Require Import Core BinarySingleNaN.
From Verif Require Import Mat V3 ModelLeaf SpecLeaf ModelFloat SpecFlt FloatProofs FloatDrift FloatExp ModelFloatQ SpecFltQ FloatQuat FloatAct SpecFltLog.
From Verif Require Import ModelMeta ModelJac SpecJac JacProofs LeafProofs ModelExpr SpecExpr ExprProofs SpecDeriv DerivProofs PropsDeriv PropsExpr.
From Verif Require Import ModelFloatExpr SpecFltExpr FloatNorm FloatStep FloatStep2 FloatTree PropsExpFlt PropsQuatFlt PropsLogAcc PropsDrift FloatLog PropsFltExpr.
From Verif Require Import ModelFloatJac SpecFltJac FloatJac FloatJacExp FloatJacLoc FloatJacTree.
Import ListNotations.
Local Open Scope R_scope.
Local Open Scope mat_scope.

(** ** The expression as written *)
Fixpoint jops (m : nat -> dval) (a : nat) (p : expr) : Prop :=
  mentions a p = true ->
  match p with
  | XLeaf _ _ => True
  | XUn o p => jops m a p /\ regular m o p
  | XBin o l r => jops m a l /\ jops m a r
  end.
Fixpoint jpts (m : nat -> dval) (a : nat) (p : expr) : Prop :=
  mentions a p = true ->
  match p with
  | XLeaf _ _ => True
  | XUn o p => jpts m a p /\ exists x, deval 0 m p = Some x /\ smooth_un 0 o x
  | XBin o l r => jpts m a l /\ jpts m a r
  end.

Lemma jfits_ops c m a p : jfits c m a p -> jops m a p.
Proof.
  induction p as [b t|o p IH|o l IHl r IHr]; cbn [jfits jops]; intros H Ma; [exact I| |]; specialize (H Ma).
  - destruct H as (_ & _ & H & Ho). auto.
  - destruct H as (_ & _ & H & H' & Ho). auto.
Qed.

Lemma mentions_leaves a p : mentions a p = true <-> In a (leaf_addrs p).
Proof.
  induction p as [b t|o p IH|o l IHl r IHr]; cbn.
  - rewrite Nat.eqb_eq. tauto.
  - exact IH.
  - rewrite orb_true_iff, in_app_iff, IHl, IHr. tauto.
Qed.
Lemma prepare_mentions a e p t : prepare e = Some (p, t) -> mentions a p = mentions a e.
Proof.
  intros H. apply eq_true_iff_eq. rewrite !mentions_leaves, <- !xleaves_addrs, (prepare_leaves _ _ _ H). tauto.
Qed.

Lemma jpts_absent m a p : mentions a p = false -> jpts m a p.
Proof. intros H. destruct p; cbn [jpts]; intros X; rewrite X in H; discriminate. Qed.
Lemma convert_jpts m a t p : jpts m a (xconvert t p) -> jpts m a p.
Proof.
  destruct t as [k| |]; cbn [xconvert]; auto. cbn [jpts mentions]. intros H.
  destruct (mentions a p) eqn:Ma; [now apply H|now apply jpts_absent].
Qed.
Lemma convert_mentions a t p : mentions a (xconvert t p) = mentions a p.
Proof. destruct t; reflexivity. Qed.

Lemma prepare_jpts m a e : forall p t, prepare e = Some (p, t) -> jpts m a p -> jpts m a e.
Proof.
  induction e as [b t0|o e IH|o l IHl r IHr]; intros p t Hp.
  - cbn in Hp. injection Hp as <- <-. auto.
  - cbn [prepare] in Hp. destruct (prepare e) as [[p' t']|] eqn:E; [|discriminate]. specialize (IH _ _ eq_refl).
    pose proof (prepare_mentions a _ _ _ E) as ME.
    assert (K : forall q, (jpts m a q -> jpts m a p') -> (forall x, deval 0 m q = Some x -> deval 0 m e = Some x) -> mentions a q = mentions a e -> jpts m a (XUn o q) -> jpts m a (XUn o e)).
    { intros q Hq Dq Mq. cbn [jpts mentions]. rewrite Mq. intros H Ma. destruct (H Ma) as (A & x & B & B'). split; [auto|]. exists x. auto. }
    destruct (prepare_typ _ _ _ E) as (_ & DE & _).
    destruct (choose_unary _ _ _ _) as [[|t'']|]; [| |discriminate].
    + destruct (ty_un o t'); [|discriminate]. injection Hp as <- <-. apply K; auto.
    + destruct (ty_un o t''); [|discriminate]. injection Hp as <- <-. apply K; [apply convert_jpts|intros x Hx; apply DE; now apply (convert_deval _ t'')|now rewrite convert_mentions].
  - cbn [prepare] in Hp. destruct (prepare l) as [[pl tl]|] eqn:El; [|discriminate]. destruct (prepare r) as [[pr tr]|] eqn:Er; [|discriminate].
    specialize (IHl _ _ eq_refl). specialize (IHr _ _ eq_refl).
    pose proof (prepare_mentions a _ _ _ El) as Ml. pose proof (prepare_mentions a _ _ _ Er) as Mr.
    assert (K : forall q q', (jpts m a q -> jpts m a pl) -> (jpts m a q' -> jpts m a pr) -> mentions a q = mentions a l -> mentions a q' = mentions a r ->
      jpts m a (XBin o q q') -> jpts m a (XBin o l r)).
    { intros q q' Hq Hq' Mq Mq'. cbn [jpts mentions]. rewrite Mq, Mq'. intros H Ma. destruct (H Ma) as [A B]. auto. }
    destruct (choose_binary _ _ _ _ _ _) as [[|tr'|tl'|tl' tr']|]; [| | | |discriminate];
      match type of Hp with context [ty_bin o ?x ?y] => destruct (ty_bin o x y) end;
      try discriminate; injection Hp as <- <-; apply K; rewrite ?convert_mentions; auto; apply convert_jpts.
Qed.

Lemma jpts_smooth d mem m a e : stored d mem m e -> jpts m a e -> smooth 0 m a e.
Proof.
  induction e as [b t|o e IH|o l IHl r IHr]; cbn [stored smooth]; [auto| |].
  - intros Hs H. split.
    + apply IH; [exact Hs|]. destruct (mentions a e) eqn:Ma; [cbn [jpts mentions] in H; now apply H|now apply jpts_absent].
    + intros Ha x Hx. apply mentions_leaves in Ha. cbn [jpts mentions] in H. destruct (H Ha) as (_ & y & Ey & Sy). rewrite Ey in Hx. injection Hx as <-. exact Sy.
  - intros [Sl Sr] H. assert (X : forall q, q = l \/ q = r -> jpts m a q).
    { intros q Hq. destruct (mentions a q) eqn:Ma; [|now apply jpts_absent]. cbn [jpts mentions] in H.
      destruct H as [A B]; [destruct Hq as [<- | <-]; rewrite Ma; auto using orb_true_r|]. destruct Hq as [-> | ->]; assumption. }
    split; [apply IHl; auto|]. split; [apply IHr; auto|]. intros _ _ i E.
    destruct (prepare l) as [[pl tl]|] eqn:P; [|discriminate]. injection E as ->. destruct (prepare_typ _ _ _ P) as (T & _ & S).
    destruct (stored_plain _ _ _ _ (S _ _ _ Sl) _ T) as [k Hk]. discriminate.
Qed.

Lemma long_pos m p o er ev f x t : typ p = Some (Plain (flty f)) -> typ (XUn o p) = Some t -> o = ONorm \/ o = ONormalize ->
  approximates (size m p) er ev f x -> size m p <= 2 * length_of x -> 0 < dnorm2 x.
Proof.
  intros Tp Ht Ho A L. pose proof (size_tiny m p). pose proof tiny_pos.
  assert (X : forall y, size m p <= 2 * vnorm y -> 0 < vdot y y).
  { intros y Hy. change (vdot y y) with (vnorm2 y). rewrite <- vnorm_sq. apply Rmult_lt_0_compat; lra. }
  cbn [typ] in Ht. rewrite Tp in Ht.
  destruct Ho as [-> | ->]; destruct f; cbn in Ht; try discriminate Ht; destruct x; try contradiction A;
    cbn [length_of] in L; rewrite ?(proj1 (dnorm2_vec _)), ?(proj2 (dnorm2_vec _)); auto.
Qed.

Lemma ops_pts M (ord : list bool -> order) (qord : list bool -> qorder) d mem m a p : one_ulp M -> acos_ulp M -> (forall path, sums_four (qord path)) -> 0 <= d ->
  let c := d + / 2 ^ 44 in fits c m p -> stored d mem m p -> (exists t, typ p = Some t) -> jops m a p -> jpts m a p.
Proof.
  intros HM HA Hq Hd c. induction p as [b t0|o p IH|o l IHl r IHr]; cbn [jops jpts stored]; intros Hf Hs (t & Ht) H Ma; [exact I| |]; specialize (H Ma).
  - destruct H as [H Ho]. assert (Hp : fits c m p) by (cbn [fits] in Hf; tauto).
    assert (Tp : exists t', typ p = Some t') by (cbn [typ] in Ht; destruct (typ p); [eauto|discriminate]).
    split; [auto|]. destruct Tp as [t' Tp].
    destruct (tree_ok M ord qord d mem m p HM HA Hq Hd Hp Hs t' [] Tp) as (f & x & _ & -> & D & A).
    exists x. split; [exact D|]. destruct o; try contradiction Ho; try (destruct x; exact I); cbn [regular] in Ho.
    + assert (FT : has_typ p LMat = true /\ forall r, deval 0 m p = Some (DRot r) -> rot_angle r <= 3) by (cbn [fits] in Hf; tauto).
      destruct FT as [HT RA]. unfold has_typ in HT. rewrite Tp in HT. apply ty_eqb_eq in HT. injection HT as HT.
      destruct f; try discriminate HT; destruct x; try contradiction A. specialize (Ho _ D). specialize (RA _ D). cbn [smooth_un].
      pose proof PI_ge2. split; [|lra]. apply Rmult_lt_0_compat; lra.
    + assert (HT : has_typ p LRel = true) by (cbn [fits] in Hf; tauto). unfold has_typ in HT. rewrite Tp in HT. apply ty_eqb_eq in HT. injection HT as HT.
      destruct f; try discriminate HT; destruct x; try contradiction A. exact I.
    + cbn [smooth_un]. eapply long_pos; eauto.
    + cbn [smooth_un]. eapply long_pos; eauto.
  - assert (Hl : fits c m l) by (cbn [fits] in Hf; tauto). assert (Hr : fits c m r) by (cbn [fits] in Hf; tauto). cbn [typ] in Ht.
    destruct (typ l) as [tl|] eqn:Tl; [|discriminate]. destruct (typ r) as [tr|] eqn:Tr; [|discriminate]. split; [apply IHl|apply IHr]; try tauto; eauto.
Qed.

Lemma prepare_env mr e : forall p t, prepare e = Some (p, t) -> env_ok mr e -> env_ok mr p.
Proof.
  intros p t H. pose proof (prepare_leaves _ _ _ H) as L. intros He.
  assert (X : forall q, env_ok mr q <-> forall x, In x (xleaves q) -> vty (mr (fst x)) = snd x /\ valid (mr (fst x))).
  { clear. induction q as [b t|o q IH|o l IHl r IHr]; cbn [env_ok xleaves].
    - split; [intros H x [<-|[]]; exact H|intros H; exact (H (b, t) (or_introl eq_refl))].
    - exact IH.
    - rewrite IHl, IHr. split; [intros [A B] x Hx; apply in_app_or in Hx as [Hx|Hx]; auto|].
      intros H. split; intros x Hx; apply H, in_or_app; auto. }
  apply X. rewrite L. now apply X.
Qed.

Lemma mnth_eq A B i j : A == B -> mnth A i j = mnth B i j.
Proof. intros (R & C & E). unfold mnth. rewrite R, C. destruct ((i <? mrows B) && (j <? mcols B))%nat eqn:L; [|reflexivity].
  apply andb_prop in L as [L1 L2]. apply Nat.ltb_lt in L1, L2. apply E; congruence. Qed.

(** ** C59 *)

(** Jacobian of an expression with respect to one of its leaf objects, computed in doubles:
    it exists, has no infinity or NaN, and every entry is within [jcost] relative errors of
    d + 2^-44 of the derivative, relative to [jsize].  The compiler may choose at every node
    how sums of products are computed, and for every entry of every matrix product the order
    of the additions and which of them are fused with a multiplication. *)
Theorem c59_jacobian_accurate M ord qord jord sch d mem mr e k a l p t :
  one_ulp M -> acos_ulp M -> (forall path, sums_four (qord path)) ->
  (forall path r c n, (1 <= n)%nat -> adds_all (sch path r c n) n) -> 0 <= d ->
  let c := d + / 2 ^ 44 in let m := fun b => den (mr b) in
  good 0 mr e k -> In a (leaf_addrs e) -> vty (mr a) = Plain l ->
  prepare e = Some (p, t) -> fits c m p -> jfits c m a p -> stored d mem m e ->
  exists F J, fjacobian M ord qord jord sch mem e a = Some F /\
    has_shape (tsize k) (tsize (kind_of l)) J /\ is_derivative 0 mr e a J /\
    japprox (jsize m a p) (grown c (jcost a p)) (tsize k) (tsize (kind_of l)) F J.
Proof.
  intros HM HA Hq Hs Hd c m G Ha Hl P Hf Hj Hst.
  assert (C0 : / 2 ^ 44 <= c) by (unfold c; lra). assert (U : 0 < / 2 ^ 44) by (apply Rinv_0_lt_compat, pow_lt; lra).
  destruct (prepare_typ _ _ _ P) as (T & D & S).
  assert (Hna : (a + 1)%nat <> a) by lia.
  destruct (jac_tree_ok c C0 M ord qord jord sch HM HA Hq Hs mem mr (a + 1)%nat a Hna d ltac:(unfold c; lra) p Hf Hj (S _ _ _ Hst)
    (prepare_env _ _ _ _ P (proj1 (proj2 G))) (ex_intro _ _ T) []) as (f & v & W & E1 & E2 & E3 & E4 & E5 & E6 & E7 & E8).
  assert (Ma : mentions a p = true) by (rewrite (prepare_mentions _ _ _ _ P); now apply mentions_leaves).
  unfold jac_ok in E8. rewrite Ma in E8. destruct E8 as (F & F1 & F2 & F3 & F4).
  assert (Hx : means 0 mr e = Some (den v)).
  { rewrite (good_means 0 mr e k (Rle_refl 0) G). now apply D. }
  assert (Sm : smooth 0 m a e).
  { apply (jpts_smooth d mem); [exact Hst|]. apply (prepare_jpts m a e p t P).
    apply (ops_pts M ord qord d mem); eauto. now apply (jfits_ops c m). }
  destruct (core_prepare 0 (a + 1)%nat mr e k a l (den v) ltac:(lra) G Hx Ha Hl Sm p t P) as (v' & W' & H1 & H2 & H3 & H4 & H5 & H6 & H7).
  rewrite E3 in H1. injection H1 as <- <-.
  set (tgt := leaf_obj a (Plain l)) in *.
  pose proof (tree_leaves_env 0 _ mr p e v W (proj1 (proj2 G)) (prepare_leaves _ _ _ P) E3) as L.
  assert (Un : addr_unambiguous tgt W).
  { split.
    - intros Hi. apply Hna. symmetry. exact (proj2 (tree_leaves _ _ _ _ _ _ E3) _ Hi).
    - rewrite L. intros q Hq' Eq. apply in_map_iff in Hq' as (b & <- & _). cbn in Eq. subst b. now rewrite Hl. }
  destruct (dyn_correct tgt W H2 Un (tsize_pos _)) as [(_ & _ & EQ)|(N & _)]; [|contradiction].
  change (l_addr tgt) with a in EQ.
  assert (Dv : vdim v = tsize k) by (unfold vdim; now rewrite H4).
  assert (Da : vdim (mr a) = tsize (kind_of l)) by (unfold vdim, vkind; now rewrite Hl).
  rewrite Dv, Da in F2, F4.
  exists F, (true_jacobian tgt W). unfold fjacobian. rewrite P, F1. split; [reflexivity|]. split.
  - destruct EQ as (R & C & _). split; [rewrite <- R|rewrite <- C]; apply F2.
  - split; [exact H7|]. eapply japprox_meq; [|exact F4]. intros i j _ _. now apply mnth_eq.
Qed.
Print Assumptions c59_jacobian_accurate.

(** With respect to an object that is not in the expression: exactly zero. *)
Lemma absent_none M ord qord jord sch mem a p : mentions a p = false -> forall path, fjac M ord qord jord sch mem path a p = Some None.
Proof.
  induction p as [b t|o p IH|o l IHl r IHr]; cbn [mentions fjac]; intros H path.
  - now rewrite H.
  - now rewrite (IH H).
  - apply orb_false_iff in H as [A B]. now rewrite (IHl A), (IHr B).
Qed.
Theorem c59_absent_zero M ord qord jord sch mem e a p t : prepare e = Some (p, t) -> ~ In a (leaf_addrs e) ->
  exists F, fjacobian M ord qord jord sch mem e a = Some F /\ forall i j, F i j = f0.
Proof.
  intros P N. unfold fjacobian. rewrite P. rewrite absent_none.
  - eexists. split; [reflexivity|]. reflexivity.
  - destruct (mentions a p) eqn:E; [|reflexivity]. rewrite (prepare_mentions _ _ _ _ P) in E. now apply mentions_leaves in E.
Qed.
Print Assumptions c59_absent_zero.

(** ** Counting *)
Lemma jcost_bound m a p : plain_leaves p = true -> mild m p -> jmild m a p -> (jcost a p <= 316 * (nodes p * nodes p * nodes p))%nat.
Proof.
  assert (CUBE : forall n n' k, (n' + 1 <= n)%nat -> (k <= 315 * (n * n))%nat -> (k + 316 * (n' * n' * n') + 1 <= 316 * (n * n * n))%nat).
  { intros n n' k H K. assert (n' * n' <= n * n)%nat by nia. assert (n' * n' * n' <= n * n * n')%nat by (apply Nat.mul_le_mono_r; assumption).
    assert (n * n * n' + n * n <= n * n * n)%nat by (replace (n * n * n' + n * n)%nat with (n * n * (n' + 1))%nat by ring; apply Nat.mul_le_mono_l; assumption).
    assert (1 <= n * n)%nat by nia. lia. }
  induction p as [b t|o p IH|o l IHl r IHr]; intros HL Hm Hj.
  - cbn. lia.
  - destruct (mentions a p) eqn:Ma.
    + cbn [jmild mentions] in Hj. specialize (Hj Ma). destruct Hj as (_ & Hjp & Ho).
      pose proof (cost_bound m _ HL Hm) as (_ & A & B). cbn [plain_leaves] in HL. assert (Hp : mild m p) by (cbn [mild] in Hm; tauto).
      specialize (IH HL Hp Hjp). pose proof (cost_bound m _ HL Hp) as (_ & A' & B').
      assert (NP : (nodes p + 1 <= nodes (XUn o p))%nat) by (cbn [nodes]; pose proof (nodes_pos p); destruct o; lia).
      pose proof (nodes_pos p) as N1. cbn [jcost]. set (n := nodes (XUn o p)) in *. set (n' := nodes p) in *.
      assert (K : (lcost_un o p <= 315 * (n * n))%nat).
      { unfold lcost_un. destruct (cost (XUn o p)) as [rr vv]. cbn [fst snd] in *. assert (n <= n * n)%nat by nia. assert (n' * n' <= n * n)%nat by nia. destruct o; try contradiction Ho; lia. }
      pose proof (CUBE n n' _ NP K). lia.
    + assert (Z : jcost a (XUn o p) = jcost a (XUn o p)) by reflexivity.
      pose proof (cost_bound m _ HL Hm) as (_ & A & B). cbn [plain_leaves] in HL. assert (Hp : mild m p) by (cbn [mild] in Hm; tauto).
      assert (Hjp : jmild m a p) by (destruct p; cbn [jmild]; intros X; rewrite X in Ma; discriminate).
      specialize (IH HL Hp Hjp). pose proof (cost_bound m _ HL Hp) as (_ & A' & B').
      assert (NP : (nodes p + 1 <= nodes (XUn o p))%nat) by (cbn [nodes]; pose proof (nodes_pos p); destruct o; lia).
      pose proof (nodes_pos p) as N1. cbn [jcost]. set (n := nodes (XUn o p)) in *. set (n' := nodes p) in *.
      assert (K : (lcost_un o p <= 315 * (n * n))%nat).
      { unfold lcost_un. destruct (cost (XUn o p)) as [rr vv]. cbn [fst snd] in *. assert (n <= n * n)%nat by nia. assert (n' * n' <= n * n)%nat by nia. cbn [mild] in Hm; destruct o; try (exfalso; tauto); lia. }
      pose proof (CUBE n n' _ NP K). lia.
  - pose proof (cost_bound m _ HL Hm) as (_ & A & B). cbn [plain_leaves] in HL. apply andb_prop in HL as [L1 L2].
    assert (Ml : mild m l) by (cbn [mild] in Hm; tauto). assert (Mr : mild m r) by (cbn [mild] in Hm; tauto).
    assert (JJ : forall q, q = l \/ q = r -> jmild m a q).
    { intros q Hq. destruct (mentions a q) eqn:Ma; [|destruct q; cbn [jmild]; intros X; rewrite X in Ma; discriminate].
      cbn [jmild mentions] in Hj. destruct Hj as (_ & A1 & A2 & _); [destruct Hq as [<- | <-]; rewrite Ma; auto using orb_true_r|].
      destruct Hq as [-> | ->]; assumption. }
    specialize (IHl L1 Ml (JJ l (or_introl eq_refl))). specialize (IHr L2 Mr (JJ r (or_intror eq_refl))).
    pose proof (cost_bound m _ L1 Ml) as (_ & Al & Bl). pose proof (cost_bound m _ L2 Mr) as (_ & Ar & Br).
    pose proof (nodes_pos l) as N1. pose proof (nodes_pos r) as N2.
    assert (NL : (nodes l + 1 <= nodes (XBin o l r))%nat) by (cbn [nodes]; lia). assert (NR : (nodes r + 1 <= nodes (XBin o l r))%nat) by (cbn [nodes]; lia).
    cbn [jcost]. set (n := nodes (XBin o l r)) in *. set (nl := nodes l) in *. set (nr := nodes r) in *.
    assert (Q : (n <= n * n)%nat) by nia. assert (Ql : (nl * nl <= n * n)%nat) by nia. assert (Qr : (nr * nr <= n * n)%nat) by nia.
    assert (K1 : (lcost_l o l r <= 315 * (n * n))%nat) by (unfold lcost_l; destruct o; lia).
    assert (K2 : (lcost_r o l r <= 315 * (n * n))%nat) by (unfold lcost_r; destruct o; lia).
    pose proof (CUBE n nl _ NL K1). pose proof (CUBE n nr _ NR K2).
    destruct (mentions a l), (mentions a r); lia.
Qed.

Lemma jmild_fits c m a N p : / 2 ^ 44 <= c -> plain_leaves p = true -> mild m p -> jmild m a p -> (nodes p <= N)%nat ->
  316 * (INR N * INR N * INR N) * c <= / 2000 -> jfits c m a p.
Proof.
  intros C0 HL Hm Hj HN HC. assert (U : 0 < / 2 ^ 44) by (apply Rinv_0_lt_compat, pow_lt; lra).
  assert (X : forall q, plain_leaves q = true -> mild m q -> jmild m a q -> (nodes q <= N)%nat -> INR (jcost a q) * c <= / 2000).
  { intros q Lq Mq Jq Nq. pose proof (jcost_bound m a q Lq Mq Jq) as K. eapply Rle_trans; [|exact HC]. apply Rmult_le_compat_r; [lra|].
    assert (K' : (jcost a q <= 316 * (N * N * N))%nat).
    { eapply Nat.le_trans; [exact K|]. apply Nat.mul_le_mono_l. apply Nat.mul_le_mono; [apply Nat.mul_le_mono|]; assumption. }
    apply le_INR in K'. rewrite !mult_INR in K'. replace (INR 316) with 316 in K' by (rewrite INR_IZR_INZ; reflexivity). exact K'. }
  clear HC. induction p as [b t|o p IH|o l IHl r IHr].
  - intros Ma. specialize (X _ HL Hm Hj HN). cbn [jmild] in Hj. destruct (Hj Ma) as (A & _). split; [exact A|]. split; [exact X|exact I].
  - intros Ma. specialize (X _ HL Hm Hj HN). cbn [jmild] in Hj. destruct (Hj Ma) as (A & Jp & Ho). cbn [plain_leaves] in HL. cbn [mild] in Hm.
    split; [exact A|]. split; [exact X|]. split; [|destruct o; try contradiction Ho; exact I]. apply IH; try tauto. cbn [nodes] in HN. pose proof (nodes_pos p). destruct o; lia.
  - intros Ma. specialize (X _ HL Hm Hj HN). cbn [jmild] in Hj. destruct (Hj Ma) as (A & Jl & Jr & Ho). cbn [plain_leaves] in HL. apply andb_prop in HL as [L1 L2]. cbn [mild] in Hm.
    cbn [nodes] in HN. split; [exact A|]. split; [exact X|]. split; [apply IHl; try tauto; lia|]. split; [apply IHr; try tauto; lia|exact Ho].
Qed.

(** Without exponentials and logarithms: every entry of the Jacobian of an expression
    prepared to [n] operands and operations is within 632 n^3 (d + 2^-44) of the derivative,
    relative to the product of the sizes of the local Jacobians. *)
Theorem c59_polynomial_jacobian M ord qord jord sch d mem mr e k a l p t :
  one_ulp M -> acos_ulp M -> (forall path, sums_four (qord path)) ->
  (forall path r c n, (1 <= n)%nat -> adds_all (sch path r c n) n) -> 0 <= d ->
  let c := d + / 2 ^ 44 in let m := fun b => den (mr b) in let n := INR (nodes p) in
  good 0 mr e k -> In a (leaf_addrs e) -> vty (mr a) = Plain l ->
  prepare e = Some (p, t) -> mild m p -> jmild m a p -> stored d mem m e -> 632000 * (n * n * n) * c <= 1 ->
  exists F J, fjacobian M ord qord jord sch mem e a = Some F /\
    has_shape (tsize k) (tsize (kind_of l)) J /\ is_derivative 0 mr e a J /\
    forall i j, (i < tsize k)%nat -> (j < tsize (kind_of l))%nat ->
      finite (F i j) /\ Rabs (val (F i j) - mget J i j) <= 632 * (n * n * n) * c * jsize m a p.
Proof.
  intros HM HA Hq Hs Hd c m n G Ha Hl P Hm Hj Hst HC.
  assert (C0 : / 2 ^ 44 <= c) by (unfold c; lra). assert (U : 0 < / 2 ^ 44) by (apply Rinv_0_lt_compat, pow_lt; lra).
  destruct (prepare_typ _ _ _ P) as (T & D & S). pose proof (stored_leaves _ _ _ _ (S _ _ _ Hst)) as HL.
  assert (N1 : 1 <= n) by (unfold n; pose proof (nodes_pos p) as K; apply le_INR in K; exact K).
  assert (N2 : n * n <= n * n * n) by (rewrite <- (Rmult_1_r (n * n)) at 1; apply Rmult_le_compat_l; nra).
  assert (N3 : n * n * c <= n * n * n * c) by (apply Rmult_le_compat_r; lra).
  assert (Hf : fits c m p) by (apply (mild_fits c m (nodes p)); auto; fold n; lra).
  assert (Jf : jfits c m a p) by (apply (jmild_fits c m a (nodes p)); auto; fold n; lra).
  destruct (c59_jacobian_accurate M ord qord jord sch d mem mr e k a l p t HM HA Hq Hs Hd G Ha Hl P Hf Jf Hst) as (F & J & E1 & E2 & E3 & E4).
  exists F, J. split; [exact E1|]. split; [exact E2|]. split; [exact E3|]. intros i j Hi Hj'. destruct (E4 i j Hi Hj') as (A & B & X).
  split; [exact A|]. rewrite mnth_in in X by (destruct E2 as [Er Ec]; rewrite ?Er, ?Ec; assumption). eapply Rle_trans; [exact X|].
  apply Rmult_le_compat_r; [eapply Rle_trans; [apply Rabs_pos|exact B]|]. fold c m.
  assert (K : INR (jcost a p) * c <= 316 * (n * n * n) * c).
  { apply Rmult_le_compat_r; [lra|]. pose proof (jcost_bound m a p HL Hm Hj) as K. apply le_INR in K. rewrite !mult_INR in K.
    replace (INR 316) with 316 in K by (rewrite INR_IZR_INZ; reflexivity). exact K. }
  pose proof (grown_le c C0 (jcost a p) ltac:(lra)). lra.
Qed.
Print Assumptions c59_polynomial_jacobian.

(** ** Concrete case: inverse(T0 * T1) * t with respect to T0. *)

(** Products added one after the other, every second one fused with the addition. *)
Fixpoint one_by_one (n : nat) : sums :=
  match n with
  | 0 | 1 => Term 0
  | S n => if Nat.even n then Fma n (one_by_one n) else ModelFloatJac.Plus (one_by_one n) (Term n)
  end%nat.
Lemma one_by_one_all n : (1 <= n)%nat -> adds_all (one_by_one n) n.
Proof.
  unfold adds_all. induction n as [|n IH]; [lia|]. intros _. destruct n as [|n]; [apply Permutation.Permutation_refl|].
  specialize (IH ltac:(lia)). rewrite seq_S. cbn [Nat.add].
  change (one_by_one (S (S n))) with (if Nat.even (S n) then Fma (S n) (one_by_one (S n)) else ModelFloatJac.Plus (one_by_one (S n)) (Term (S n))).
  destruct (Nat.even (S n)); cbn [terms].
  - eapply Permutation.perm_trans; [apply Permutation.perm_skip, IH|]. apply Permutation.Permutation_cons_append.
  - apply Permutation.Permutation_app_tail, IH.
Qed.

Definition ex_mr (a : nat) : value :=
  match a with
  | 0 => VCompRT roll (mkV 1 2 0)
  | 1 => VMatRT tilt (mkV 0 0 1) v0 1
  | 2 => VTrans (mkV 1 2 (1 / 2))
  | _ => VRel (mkV 1 2 (1 / 2))
  end%nat.
Lemma ex_mr_den : (fun b => den (ex_mr b)) = ex_m.
Proof. apply FunctionalExtensionality.functional_extensionality. intros [|[|[|b]]]; reflexivity. Qed.

Example c59_polynomial_example : let c := / 2 ^ 50 + / 2 ^ 44 in let m := fun b => den (ex_mr b) in let n := INR (nodes ex_poly) in
  (forall path r c n, (1 <= n)%nat -> adds_all ((fun (_ : list bool) (_ _ : nat) n => one_by_one n) path r c n) n) /\
  good 0 ex_mr ex_poly KTrans /\ In 0%nat (leaf_addrs ex_poly) /\ vty (ex_mr 0%nat) = Plain LCompRT /\
  prepare ex_poly = Some (ex_poly, Plain LTrans) /\ mild m ex_poly /\ jmild m 0 ex_poly /\
  stored (/ 2 ^ 50) ex_mem m ex_poly /\ 632000 * (n * n * n) * c <= 1 /\
  grown c (jcost 0 ex_poly) * jsize m 0 ex_poly <= / 10 ^ 6.
Proof.
  intros c m n. destruct c56_polynomial_example as (_ & MI & ST & _ & _). unfold m. rewrite ex_mr_den.
  assert (NV : n = 6) by (unfold n; cbn [nodes ex_poly]; rewrite INR_IZR_INZ; reflexivity).
  assert (C0 : / 2 ^ 44 <= c) by (assert (0 < / 2 ^ 50) by (apply Rinv_0_lt_compat, pow_lt; lra); unfold c; lra).
  assert (CV : c = / 1125899906842624 + / 17592186044416).
  { unfold c. replace (2 ^ 50) with 1125899906842624 by ring. replace (2 ^ 44) with 17592186044416 by ring. reflexivity. }
  split; [intros; now apply one_by_one_all|]. split.
  { split; [reflexivity|]. split.
    - cbn [env_ok ex_poly]. destruct roll_ok as (_ & U & _). destruct tilt_ok as (_ & V & _). cbn. tauto.
    - cbn. tauto. }
  split; [cbn; tauto|]. split; [reflexivity|]. split; [reflexivity|]. split; [exact MI|].
  destruct ex_norms as (A & B & C). pose proof tiny_1. pose proof tiny_pos as TP.
  assert (V : 32768 <= vast) by (unfold vast; apply Rle_trans with (2 ^ 15); [lra|apply Rle_pow; [lra|lia]]).
  assert (X : forall x, x <= 3 -> 0 <= Rmax tiny x <= 3) by (intros; split; [eapply Rle_trans; [|apply Rmax_l]; lra|apply Rmax_lub; lra]).
  pose proof (X _ A) as X1. pose proof (X _ B) as X2. pose proof (X (vnorm (mkV 1 2 (1 / 2))) ltac:(lra)) as X3.
  set (e1 := XBin OCompose (XLeaf 0 (Plain LCompRT)) (XLeaf 1 (Plain LMatRT))).
  assert (S1 : 0 <= size ex_m e1 <= 6) by (cbn [e1 size ex_m length_of]; lra).
  assert (S2 : size ex_m (XUn OInverse e1) = size ex_m e1) by reflexivity.
  assert (J1 : 0 <= jsize ex_m 0 e1 <= 6).
  { unfold e1. cbn [jsize mentions Nat.eqb]. replace (INR (dim (XLeaf 0 (Plain LCompRT)))) with 6 by (cbn; ring).
    cbn [lsize_l]. split; [eapply Rle_trans; [|apply Rmax_l]; lra|apply Rmax_lub; lra]. }
  assert (J2 : 0 <= jsize ex_m 0 (XUn OInverse e1) <= 216).
  { change (jsize ex_m 0 (XUn OInverse e1)) with (Rmax tiny (INR (dim e1) * (Rmax 1 (size ex_m e1) * jsize ex_m 0 e1))).
    replace (INR (dim e1)) with 6 by (cbn; ring). split; [eapply Rle_trans; [|apply Rmax_l]; lra|].
    apply Rmax_lub; [lra|]. assert (0 <= Rmax 1 (size ex_m e1) <= 6) by (split; [eapply Rle_trans; [|apply Rmax_l]; lra|apply Rmax_lub; lra]).
    assert (Rmax 1 (size ex_m e1) * jsize ex_m 0 e1 <= 6 * 6) by (apply Rmult_le_compat; lra). lra. }
  assert (J3 : 0 <= jsize ex_m 0 ex_poly <= 11664).
  { change (jsize ex_m 0 ex_poly) with (Rmax tiny (INR (dim (XUn OInverse e1)) * (Rmax 1 (size ex_m (XUn OInverse e1) + Rmax tiny (vnorm (mkV 1 2 (1/2)))) * jsize ex_m 0 (XUn OInverse e1)))).
    replace (INR (dim (XUn OInverse e1))) with 6 by (cbn; ring). rewrite S2. split; [eapply Rle_trans; [|apply Rmax_l]; lra|].
    apply Rmax_lub; [lra|].
    assert (0 <= Rmax 1 (size ex_m e1 + Rmax tiny (vnorm (mkV 1 2 (1/2)))) <= 9) by (split; [eapply Rle_trans; [|apply Rmax_l]; lra|apply Rmax_lub; lra]).
    assert (Rmax 1 (size ex_m e1 + Rmax tiny (vnorm (mkV 1 2 (1/2)))) * jsize ex_m 0 (XUn OInverse e1) <= 9 * 216) by (apply Rmult_le_compat; lra). lra. }
  split.
  { intros _. split; [fold ex_poly; lra|]. split; [|split; [|exact I]].
    - intros _. split; [fold e1; lra|]. split; [|exact I]. intros _. split; [fold e1; lra|]. split; [|split; [|exact I]].
      + intros _. cbn [jsize]. split; [lra|exact I].
      + intros K. discriminate K.
    - intros K. discriminate K. }
  split; [exact ST|]. rewrite NV. split; [rewrite CV; lra|].
  assert (JC : (jcost 0 ex_poly <= 700)%nat) by (apply Nat.leb_le; vm_compute; reflexivity).
  assert (JR : INR (jcost 0 ex_poly) <= 700) by (apply le_INR in JC; replace (INR 700) with 700 in JC by (rewrite INR_IZR_INZ; reflexivity); exact JC).
  assert (JB : INR (jcost 0 ex_poly) * c <= 700 * c) by (apply Rmult_le_compat_r; lra).
  pose proof (grown_le c C0 (jcost 0 ex_poly) ltac:(rewrite CV in *; lra)) as GL. pose proof (grown_nonneg c C0 (jcost 0 ex_poly)) as GN.
  apply Rle_trans with (2 * (700 * c) * 11664); [apply Rmult_le_compat; lra|]. rewrite CV. replace (10 ^ 6) with 1000000 by ring. lra.
Qed.
