(** Accuracy of reverse-mode Jacobians of whole expressions computed on doubles. *)

From Coq Require Import ZArith Reals List Bool Arith Lra Lia Psatz.
From Flocq Require Import Core BinarySingleNaN.
From Verif Require Import Mat V3 ModelLeaf SpecLeaf ModelFloat SpecFlt FloatProofs FloatDrift FloatExp ModelFloatQ SpecFltQ FloatQuat FloatAct SpecFltLog.
From Verif Require Import ModelMeta ModelJac SpecJac JacProofs LeafProofs ModelExpr SpecExpr ExprProofs SpecDeriv DerivProofs PropsDeriv PropsExpr.
From Verif Require Import ModelFloatExpr SpecFltExpr FloatNorm FloatStep FloatStep2 FloatTree PropsExpFlt PropsQuatFlt PropsLogAcc PropsDrift FloatLog PropsFltExpr.
From Verif Require Import ModelFloatJac SpecFltJac FloatJac FloatJacLoc FloatJacTree PropsFltJac.
From Verif Require Import SpecFltNorm NormLib NormStep NormLoc NormTree PropsFltNorm ModelFloatRev SpecFltRev FloatRev.
Import ListNotations.
Local Open Scope R_scope.
Local Open Scope mat_scope.

Lemma rfits_ops c m a p : forall S n, rfits c m S n p -> jops m a p.
Proof.
  induction p as [b t|o p IH|o l IHl r IHr]; cbn [rfits jops]; intros S n H _; [exact I| |].
  - destruct H as (_ & _ & H & Ho). eauto.
  - destruct H as (_ & _ & H & H' & Ho). eauto.
Qed.

Lemma leaf_stored d mem (mr : env) e a : stored d mem (fun b => den (mr b)) e -> env_ok mr e -> In a (leaf_addrs e) -> exists l, vty (mr a) = Plain l.
Proof.
  induction e as [b t|o e IH|o l IHl r IHr]; cbn [stored env_ok leaf_addrs]; intros H E Ha.
  - destruct Ha as [<-|[]]. destruct H as [-> _]. destruct E as [-> _]. eauto.
  - now apply IH.
  - apply in_app_iff in Ha as [Ha|Ha]; [apply IHl|apply IHr]; tauto.
Qed.
Lemma some_leaf e : exists a, In a (leaf_addrs e).
Proof. induction e as [b t|o e IH|o l [a Ha] r _]; cbn; [exists b; now left|exact IH|exists a; apply in_app_iff; now left]. Qed.

(** ** The sweep *)
Lemma sweep_ok M ord qord jord sch d mem mr e k na p t :
  one_ulp M -> acos_ulp M -> (forall path, sums_four (qord path)) ->
  (forall path r c n, (1 <= n)%nat -> adds_all (sch path r c n) n) -> 0 <= d ->
  let c := d + / 2 ^ 44 in let m := fun b => den (mr b) in
  good 0 mr e k -> prepare e = Some (p, t) -> fits c m p -> rfits c m 1 0 p -> stored d mem m e ->
  exists L v T, fsweep M ord qord jord sch mem e = Some L /\ tree 0 na mr p = Some (v, T) /\ wf_tree T /\ edim T = tsize k /\
    leaves T = map (fun b => leaf_obj b (vty (mr b))) (leaf_addrs e) /\
    (forall a l, In a (leaf_addrs e) -> vty (mr a) = Plain l -> is_derivative 0 mr e a (true_jacobian (leaf_obj a (Plain l)) T)) /\
    Forall3 (hit c (tsize k) (mid (tsize k))) L (occurrences T) (along m 1 0 p).
Proof.
  intros HM HA Hq Hs Hd c m G P Hf Hr Hst.
  assert (C0 : / 2 ^ 44 <= c) by (unfold c; lra). assert (U : 0 < / 2 ^ 44) by (apply Rinv_0_lt_compat, pow_lt; lra).
  destruct (prepare_typ _ _ _ P) as (T & D & St). pose proof (prepare_env _ _ _ _ P (proj1 (proj2 G))) as He.
  destruct (tree_at c C0 M ord qord jord HM HA Hq mem mr na d ltac:(unfold c; lra) p Hf (St _ _ _ Hst) He (ex_intro _ _ T) []) as (f & v & W & X).
  pose proof X as (E1 & E2 & E3 & E4 & E5 & E6 & E7).
  assert (Hx : means 0 mr e = Some (den v)) by (rewrite (good_means 0 mr e k (Rle_refl 0) G); now apply D).
  assert (CORE : forall a l, In a (leaf_addrs e) -> vty (mr a) = Plain l -> wf_tree W /\ edim W = vdim v /\ vkind v = k /\ is_derivative 0 mr e a (true_jacobian (leaf_obj a (Plain l)) W)).
  { intros a l Ha Hl.
    assert (Sm : smooth 0 m a e).
    { apply (jpts_smooth d mem); [exact Hst|]. apply (prepare_jpts m a e p t P).
      apply (ops_pts M ord qord d mem); eauto. now apply (rfits_ops c m a p 1 0). }
    destruct (core_prepare 0 na mr e k a l (den v) ltac:(lra) G Hx Ha Hl Sm p t P) as (v' & W' & H1 & H2 & H3 & H4 & H5 & H6 & H7).
    rewrite E3 in H1. injection H1 as <- <-. auto. }
  destruct (some_leaf e) as [a0 Ha0]. destruct (leaf_stored d mem mr e a0 Hst (proj1 (proj2 G)) Ha0) as [l0 Hl0].
  destruct (CORE a0 l0 Ha0 Hl0) as (WF & ED & VK & _). assert (Dv : vdim v = tsize k) by (unfold vdim; now rewrite VK).
  pose proof (vdim_6 v) as D6.
  destruct (frev_ok c C0 M ord qord jord sch HM HA Hq Hs mem mr na d ltac:(unfold c; lra) p Hf (St _ _ _ Hst) He (ex_intro _ _ T) [] 1 0%nat fid (mid (vdim v)) (vdim v) f v W X Hr ltac:(lra) ltac:(lia))
    as (L & L1 & L2).
  { unfold grown. cbn [pow]. replace (1 - 1) with 0 by ring. apply napprox_id. lia. }
  { reflexivity. }
  exists L, v, W. split.
  { unfold fsweep. rewrite P. destruct (stored_plain _ _ _ _ (St _ _ _ Hst) _ T) as [l ->].
    unfold prepare_to, plain_output. rewrite P. cbn [ty_leaf]. replace (ty_eqb (Plain l) (Plain l)) with true; [exact L1|]. symmetry. now apply ty_eqb_eq. }
  split; [exact E3|]. split; [exact WF|]. split; [congruence|]. split; [|split].
  - exact (tree_leaves_env 0 _ mr p e v W (proj1 (proj2 G)) (prepare_leaves _ _ _ P) E3).
  - intros a l Ha Hl. now apply CORE.
  - rewrite <- Dv. exact L2.
Qed.

(** ** Unique types *)
Lemma all_different_nodup l : all_different l = true <-> NoDup l.
Proof.
  induction l as [|t l IH]; cbn [all_different]; [split; [constructor|reflexivity]|].
  rewrite andb_true_iff, negb_true_iff, IH. split.
  - intros [A B]. constructor; [|exact B]. intros H. assert (X : existsb (ty_eqb t) l = true) by (apply existsb_exists; exists t; split; [exact H|now apply ty_eqb_eq]). congruence.
  - intros H. inversion H as [|? ? N B]; subst. split; [|exact B]. destruct (existsb (ty_eqb t) l) eqn:E; [|reflexivity].
    apply existsb_exists in E as (t' & Ht & E). apply ty_eqb_eq in E. subst t'. contradiction.
Qed.
Lemma leaf_types_env mr e : env_ok mr e -> leaf_types e = map (fun b => vty (mr b)) (leaf_addrs e).
Proof.
  induction e as [b t|o e IH|o l IHl r IHr]; cbn; intros H; [|auto|].
  - destruct H as [-> _]. reflexivity.
  - rewrite map_app, IHl, IHr; tauto.
Qed.

(** ** C60 *)

(** All Jacobians at once, for an expression whose leaves have different types: there is one
    matrix for each leaf, from left to right, without infinity or NaN, and it is close to the
    derivative with respect to that leaf: the root of the summed squares of the errors of its
    entries is at most [n] relative errors of d + 2^-44 relative to [S], where [S] is the
    product of how much the local Jacobians on the way to the leaf stretch. *)
Theorem c60_reverse_accurate M ord qord jord sch d mem mr e k p t :
  one_ulp M -> acos_ulp M -> (forall path, sums_four (qord path)) ->
  (forall path r c n, (1 <= n)%nat -> adds_all (sch path r c n) n) -> 0 <= d ->
  let c := d + / 2 ^ 44 in let m := fun b => den (mr b) in
  good 0 mr e k -> NoDup (map (fun b => vty (mr b)) (leaf_addrs e)) ->
  prepare e = Some (p, t) -> fits c m p -> rfits c m 1 0 p -> stored d mem m e ->
  exists js, freverse M ord qord jord sch mem e = Some js /\ length js = length (leaf_addrs e) /\
    forall i a l, nth_error (leaf_addrs e) i = Some a -> vty (mr a) = Plain l ->
    exists F J S n, nth_error js i = Some F /\ nth_error (along m 1 0 p) i = Some (a, (S, n)) /\
      has_shape (tsize k) (tsize (kind_of l)) J /\ is_derivative 0 mr e a J /\
      napprox S (grown c n) (tsize k) (tsize (kind_of l)) F J.
Proof.
  intros HM HA Hq Hs Hd c m G Hn P Hf Hr Hst.
  destruct (sweep_ok M ord qord jord sch d mem mr e k 0%nat p t HM HA Hq Hs Hd G P Hf Hr Hst) as (L & v & T & H1 & H2 & H3 & H4 & H5 & H6 & H7).
  exists (map snd L). split.
  { unfold freverse. rewrite H1, (leaf_types_env mr e (proj1 (proj2 G))), (proj2 (all_different_nodup _) Hn). reflexivity. }
  assert (OL : map fst (occurrences T) = map (fun b => leaf_obj b (vty (mr b))) (leaf_addrs e)) by (now rewrite occurrences_leaves).
  split.
  { rewrite map_length, (F3_length _ _ _ _ H7), <- (map_length fst), OL, map_length. reflexivity. }
  intros i a l Ha Hl.
  assert (N : nth_error (map fst (occurrences T)) i = Some (leaf_obj a (Plain l))) by (rewrite OL, nth_error_map, Ha; cbn; now rewrite Hl).
  rewrite nth_error_map in N. destruct (nth_error (occurrences T) i) as [o|] eqn:Eo; [|discriminate]. cbn in N. injection N as No.
  destruct (F3_nth _ _ _ _ _ _ H7 Eo) as ((b & F) & (b' & S & n) & X1 & X2 & (Y1 & Y2 & Y3 & Y4 & Y5)). rewrite No in Y1, Y5. cbn [fst snd] in *.
  change (l_addr (leaf_obj a (Plain l))) with a in Y1. change (l_dim (leaf_obj a (Plain l))) with (tsize (kind_of l)) in Y5. subst b b'.
  assert (U : unique_types T).
  { unfold unique_types. rewrite H5, map_map. cbn [l_type leaf_obj]. clear - Hn.
    induction (leaf_addrs e) as [|b q IH]; cbn in *; [constructor|].
    inversion Hn as [|? ? N1 N2]; subst. constructor; [|auto].
    intros H. apply N1. apply in_map_iff in H as (b' & E & Hb'). apply in_map_iff. exists b'.
    split; [|exact Hb'].
    revert E. generalize (vty (mr b')), (vty (mr b)). clear. intros t1 t2 E.
    assert (C : ty_code t1 = ty_code t2) by congruence. clear E. revert C.
    destruct t1 as [l|l|l], t2 as [l'|l'|l']; destruct l, l'; cbn; intros C;
      first [reflexivity|exfalso; discriminate C]. }
  pose proof (nth_error_In _ _ Eo) as Io. pose proof (occurrence_is_jacobian T H3 U o Io) as OJ. rewrite No in OJ.
  pose proof (true_jacobian_shape (leaf_obj a (Plain l)) T H3) as SH. rewrite H4 in SH.
  exists F, (true_jacobian (leaf_obj a (Plain l)) T), S, n. split; [rewrite nth_error_map, X1; reflexivity|]. split; [exact X2|]. split; [exact SH|].
  split; [apply H6; [now apply nth_error_In in Ha|exact Hl]|].
  eapply napprox_meq; [|exact Y5]. intros x y _ _. apply mnth_eq. rewrite <- OJ. apply mmul_mid_l. destruct OJ as (R & _). rewrite R. symmetry. apply SH.
Qed.
Print Assumptions c60_reverse_accurate.

(** Two leaves of the same type: the call does not exist. *)
Theorem c60_reverse_needs_types M ord qord jord sch mem mr e : env_ok mr e ->
  ~ NoDup (map (fun b => vty (mr b)) (leaf_addrs e)) -> freverse M ord qord jord sch mem e = None.
Proof.
  intros E H. unfold freverse. rewrite (leaf_types_env mr e E). destruct (all_different _) eqn:X; [|reflexivity]. now apply all_different_nodup in X.
Qed.

(** The map from objects to Jacobians: the entry of an object of the expression is close to
    the derivative, wherever and however often the object occurs. *)
Theorem c60_dynamic_reverse_accurate M ord qord jord sch d mem mr e k a l p t :
  one_ulp M -> acos_ulp M -> (forall path, sums_four (qord path)) ->
  (forall path r c n, (1 <= n)%nat -> adds_all (sch path r c n) n) -> 0 <= d ->
  let c := d + / 2 ^ 44 in let m := fun b => den (mr b) in
  good 0 mr e k -> In a (leaf_addrs e) -> vty (mr a) = Plain l ->
  prepare e = Some (p, t) -> fits c m p -> rfits c m 1 0 p -> stored d mem m e ->
  rsize m a p <= vast -> INR (rcost m a p) * c <= / 2000 ->
  exists F J, fdynreverse M ord qord jord sch mem e a = Some F /\
    has_shape (tsize k) (tsize (kind_of l)) J /\ is_derivative 0 mr e a J /\
    napprox (rsize m a p) (grown c (rcost m a p)) (tsize k) (tsize (kind_of l)) F J.
Proof.
  intros HM HA Hq Hs Hd c m G Ha Hl P Hf Hr Hst HV HC.
  assert (C0 : / 2 ^ 44 <= c) by (unfold c; lra).
  destruct (sweep_ok M ord qord jord sch d mem mr e k 0%nat p t HM HA Hq Hs Hd G P Hf Hr Hst) as (L & v & T & H1 & H2 & H3 & H4 & H5 & H6 & H7).
  set (tgt := leaf_obj a (Plain l)) in *. set (r := tsize k) in *. set (q := tsize (kind_of l)) in *.
  assert (SAME : forall o, In o (occurrences T) -> l_addr (fst o) = a -> fst o = tgt).
  { intros o Ho E. assert (In (fst o) (leaves T)) as I by (rewrite <- occurrences_leaves; now apply in_map). rewrite H5 in I. apply in_map_iff in I as (b & I & _).
    rewrite <- I in E |- *. cbn in E. subst b. unfold tgt. now rewrite Hl. }
  assert (R6 : (1 <= r <= 6)%nat) by (unfold r; destruct k; cbn; lia). assert (Q6 : (1 <= q <= 6)%nat) by (unfold q; destruct l; cbn; lia).
  assert (SHO : forall o, In o (occurrences T) -> l_addr (fst o) = a -> l_dim (fst o) = q /\ has_shape r q (mid r ** snd o)).
  { intros o Ho E. rewrite (SAME o Ho E). split; [reflexivity|]. split; [reflexivity|]. cbn.
    destruct (occurrences_shape T H3 o Ho) as [_ X]. rewrite X, (SAME o Ho E). reflexivity. }
  pose proof tiny_pos as T0.
  assert (Z0 : napprox tiny (grown c 0) r q (fun _ _ => f0) (mzero r q)).
  { destruct f0_ok as [F0 V0]. assert (MZ : forall i j, mnth (mzero r q) i j = 0) by (intros i j; unfold mnth; cbn; now destruct (_ && _)).
    split; [intros; exact F0|]. split.
    - intros x. rewrite (nrm_zero r); [apply Rmult_le_pos; [lra|apply nrm_nonneg]|]. intros i _.
      rewrite (rsum_ext q _ (fun _ => 0)) by (intros; rewrite MZ; ring). clear. induction q; cbn; lra.
    - apply Req_le. unfold grown. cbn [pow]. replace ((1 - 1) * tiny) with 0 by ring. apply nrm_zero. intros i _. apply nrm_zero. intros j _. rewrite V0, MZ. ring. }
  pose proof (collect_ok c C0 r q a (mid r) L (occurrences T) (along m 1 0 p) ltac:(lia) ltac:(lia) H7 SHO _ _ _ _ Z0 ltac:(split; reflexivity) (Rle_refl _) HV HC) as NX.
  fold (rsize m a p) (rcost m a p) (fcollect a L) in NX.
  pose proof (true_jacobian_shape tgt T H3) as SH. rewrite H4 in SH.
  exists (fcollect a L), (true_jacobian tgt T). split; [unfold fdynreverse; now rewrite H1|]. split; [exact SH|]. split; [now apply H6|].
  eapply napprox_meq; [|exact NX]. intros i j _ _. apply mnth_eq.
  rewrite (fold_left_madd_msum r q).
  2:{ split; reflexivity. }
  2:{ intros B HB. apply in_map_iff in HB as (o & <- & Ho). apply filter_In in Ho as (Ho & Eo). apply Nat.eqb_eq in Eo. now apply SHO. }
  assert (FE : filter (fun o => (l_addr (fst o) =? a)%nat) (occurrences T) = filter (fun p => if leaf_eq_dec (fst p) tgt then true else false) (occurrences T)).
  { clear - SAME. induction (occurrences T) as [|o os IH]; [reflexivity|]. cbn [filter]. rewrite IH by (intros; apply SAME; [now right|assumption]).
    destruct (leaf_eq_dec (fst o) tgt) as [E|N].
    - rewrite E. change (l_addr tgt) with a. now rewrite Nat.eqb_refl.
    - destruct (Nat.eqb_spec (l_addr (fst o)) a) as [E|_]; [|reflexivity]. exfalso. apply N, SAME; [now left|exact E]. }
  rewrite FE. unfold true_jacobian. rewrite H4. change (l_dim tgt) with q. fold r.
  set (os := filter (fun p => if leaf_eq_dec (fst p) tgt then true else false) (occurrences T)).
  assert (OS : forall o, In o os -> mrows (snd o) = r /\ mcols (snd o) = q).
  { intros o Ho. apply filter_In in Ho as (Ho & E). destruct (occurrences_shape T H3 o Ho) as [X Y]. destruct (leaf_eq_dec (fst o) tgt) as [E'|]; [|discriminate].
    rewrite E' in Y. split; [rewrite X; exact H4|exact Y]. }
  clearbody os. clear - OS.
  assert (Q : msum r q (map (fun o => mid r ** snd o) os) == msum r q (map snd os)).
  { induction os as [|o os IH]; [reflexivity|]. cbn [map].
    change (msum r q ((mid r ** snd o) :: map (fun o => mid r ** snd o) os)) with ((mid r ** snd o) [+] msum r q (map (fun o => mid r ** snd o) os)).
    change (msum r q (snd o :: map snd os)) with (snd o [+] msum r q (map snd os)).
    rewrite mmul_mid_l by (symmetry; apply OS; now left). rewrite IH by (intros; apply OS; now right). reflexivity. }
  assert (SS : has_shape r q (msum r q (map snd os))).
  { apply msum_shape. intros B HB. apply in_map_iff in HB as (o & <- & Ho). apply (OS o Ho). }
  rewrite Q. apply madd_mzero_l; symmetry; apply SS.
Qed.
Print Assumptions c60_dynamic_reverse_accurate.

(** An object that does not occur: exactly zero. *)
Lemma frev_addrs M ord qord jord sch mem p : forall path A L, frev M ord qord jord sch mem path A p = Some L -> map fst L = leaf_addrs p.
Proof.
  induction p as [b t|o p IH|o l IHl r IHr]; intros path A L H; cbn [frev leaf_addrs] in *.
  - injection H as <-. reflexivity.
  - destruct (feval_p M ord qord mem (true :: path) p) as [f|]; [|discriminate]. destruct (fsem_un _ _ _ _); [|discriminate]. destruct (fjac_un _ _ _ _ _); [|discriminate]. eauto.
  - destruct (feval_p M ord qord mem (true :: path) l) as [f|]; [|discriminate]. destruct (feval_p M ord qord mem (false :: path) r) as [f'|]; [|discriminate].
    destruct (fsem_bin _ _ _ _ _); [|discriminate]. destruct (fjac_l _ _ _ _ _); [|discriminate]. destruct (fjac_r _ _ _ _ _); [|discriminate].
    destruct (frev _ _ _ _ _ _ (true :: path) _ l) as [L1|] eqn:E1; [|discriminate]. destruct (frev _ _ _ _ _ _ (false :: path) _ r) as [L2|] eqn:E2; [|discriminate].
    injection H as <-. rewrite map_app. f_equal; eauto.
Qed.
Theorem c60_absent_zero M ord qord jord sch mem e a F : ~ In a (leaf_addrs e) ->
  fdynreverse M ord qord jord sch mem e a = Some F -> forall i j, F i j = f0.
Proof.
  unfold fdynreverse, fsweep. intros H. destruct (prepare e) as [[p0 t]|] eqn:P; [|discriminate].
  destruct (prepare_to (plain_output t) e) as [[p t']|] eqn:P'; [|discriminate].
  destruct (frev _ _ _ _ _ _ [] fid p) as [L|] eqn:E; [|discriminate]. apply frev_addrs in E. intros [= <-] i j.
  apply prepare_to_leaves in P'. rewrite <- !xleaves_addrs, P', xleaves_addrs in E. rewrite <- E in H. clear - H. unfold fcollect.
  assert (X : forall (Z : fmat), fold_left (fun S x => if (fst x =? a)%nat then fplus S (snd x) else S) L Z = Z); [|now rewrite X].
  induction L as [|x L IH]; intros Z; [reflexivity|]. cbn [fold_left]. cbn [map] in H. destruct (Nat.eqb_spec (fst x) a) as [Q|_].
  - exfalso. apply H. now left.
  - apply IH. intros Y. apply H. now right.
Qed.
Print Assumptions c60_absent_zero.

(** Forward and reverse mode agree up to the sum of their errors. *)
Theorem c60_modes_agree M ord qord jord sch sch' d mem mr e k a l p t :
  one_ulp M -> acos_ulp M -> (forall path, sums_four (qord path)) ->
  (forall path r c n, (1 <= n)%nat -> adds_all (sch path r c n) n) ->
  (forall path r c n, (1 <= n)%nat -> adds_all (sch' path r c n) n) -> 0 <= d ->
  let c := d + / 2 ^ 44 in let m := fun b => den (mr b) in
  good 0 mr e k -> In a (leaf_addrs e) -> vty (mr a) = Plain l ->
  prepare e = Some (p, t) -> fits c m p -> nfits c m a p -> rfits c m 1 0 p -> stored d mem m e ->
  rsize m a p <= vast -> INR (rcost m a p) * c <= / 2000 ->
  exists F G, fjacobian M ord qord jord sch mem e a = Some F /\ fdynreverse M ord qord jord sch' mem e a = Some G /\
    frobenius (tsize k) (tsize (kind_of l)) (fun i j => val (F i j) - val (G i j)) <=
      grown c (ncost a p) * nsize m a p + grown c (rcost m a p) * rsize m a p.
Proof.
  intros HM HA Hq Hs Hs' Hd c m G Ha Hl P Hf Hn Hr Hst HV HC.
  destruct (c59_jacobian_normwise M ord qord jord sch d mem mr e k a l p t HM HA Hq Hs Hd G Ha Hl P Hf Hn Hst) as (F & J & F1 & F2 & F3 & _ & _ & F4).
  destruct (c60_dynamic_reverse_accurate M ord qord jord sch' d mem mr e k a l p t HM HA Hq Hs' Hd G Ha Hl P Hf Hr Hst HV HC) as (F' & J' & G1 & G2 & G3 & _ & _ & G4).
  exists F, F'. split; [exact F1|]. split; [exact G1|].
  destruct (prepare_typ _ _ _ P) as (T & D & St).
  assert (C0 : / 2 ^ 44 <= c) by (unfold c; lra). assert (U : 0 < / 2 ^ 44) by (apply Rinv_0_lt_compat, pow_lt; lra).
  destruct (tree_at c C0 M ord qord jord HM HA Hq mem mr 0%nat d ltac:(unfold c; lra) p Hf (St _ _ _ Hst) (prepare_env _ _ _ _ P (proj1 (proj2 G))) (ex_intro _ _ T) []) as (f & v & W & (_ & _ & _ & _ & _ & E6 & _)).
  assert (Hx : means 0 mr e = Some (den v)) by (rewrite (good_means 0 mr e k (Rle_refl 0) G); now apply D).
  pose proof (c01_derivative_unique 0 mr e k a l (den v) J J' ltac:(lra) G Hx Ha Hl F2 G2 F3 G3) as Q.
  set (r := tsize k) in *. set (q := tsize (kind_of l)) in *.
  rewrite (fro_ext r q _ (fun i j => (val (F i j) - mnth J i j) + - (val (F' i j) - mnth J' i j))) by (intros i j _ _; rewrite (mnth_eq J J' i j Q); ring).
  eapply Rle_trans; [apply fro_add|]. apply Rplus_le_compat; [exact F4|].
  replace (frobenius r q (fun i j => - (val (F' i j) - mnth J' i j))) with (frobenius r q (fun i j => val (F' i j) - mnth J' i j)); [exact G4|].
  unfold frobenius. apply nrm_ext. intros i _. now rewrite nrm_opp.
Qed.
Print Assumptions c60_modes_agree.

(** ** Counting *)
Lemma cube n n' k : (n' + 1 <= n)%nat -> (k <= 315 * (n * n))%nat -> (6 * k + 1896 * (n' * n' * n') + 1 <= 1896 * (n * n * n))%nat.
Proof.
  intros H K. assert (n' * n' <= n * n)%nat by nia. assert (n' * n' * n' <= n * n * n')%nat by (apply Nat.mul_le_mono_r; assumption).
  assert (n * n * n' + n * n <= n * n * n)%nat by (replace (n * n * n' + n * n)%nat with (n * n * (n' + 1))%nat by ring; apply Nat.mul_le_mono_l; assumption).
  assert (1 <= n * n)%nat by nia. lia.
Qed.

(** What one operation adds. *)
Lemma local_un m o p : plain_leaves (XUn o p) = true -> mild m (XUn o p) -> (nodes p + 1 <= nodes (XUn o p))%nat /\ (lcost_un o p <= 315 * (nodes (XUn o p) * nodes (XUn o p)))%nat.
Proof.
  intros HL Hm. pose proof (cost_bound m _ HL Hm) as (_ & A & B). cbn [plain_leaves] in HL. assert (Hp : mild m p) by (cbn [mild] in Hm; tauto).
  pose proof (cost_bound m _ HL Hp) as (_ & A' & B').
  assert (NP : (nodes p + 1 <= nodes (XUn o p))%nat) by (cbn [nodes]; pose proof (nodes_pos p); destruct o; lia).
  split; [exact NP|]. pose proof (nodes_pos p) as N1. set (n := nodes (XUn o p)) in *. set (n' := nodes p) in *.
  unfold lcost_un. destruct (cost (XUn o p)) as [rr vv]. cbn [fst snd] in *. assert (n <= n * n)%nat by nia. assert (n' * n' <= n * n)%nat by nia. cbn [mild] in Hm; destruct o; try (exfalso; tauto); lia.
Qed.
Lemma local_bin m o l r : plain_leaves (XBin o l r) = true -> mild m (XBin o l r) ->
  (lcost_l o l r <= 315 * (nodes (XBin o l r) * nodes (XBin o l r)))%nat /\ (lcost_r o l r <= 315 * (nodes (XBin o l r) * nodes (XBin o l r)))%nat.
Proof.
  intros HL Hm. pose proof (cost_bound m _ HL Hm) as (_ & A & B). cbn [plain_leaves] in HL. apply andb_prop in HL as [L1 L2].
  assert (Ml : mild m l) by (cbn [mild] in Hm; tauto). assert (Mr : mild m r) by (cbn [mild] in Hm; tauto).
  pose proof (cost_bound m _ L1 Ml) as (_ & Al & Bl). pose proof (cost_bound m _ L2 Mr) as (_ & Ar & Br).
  pose proof (nodes_pos l) as N1. pose proof (nodes_pos r) as N2.
  assert (NL : (nodes l + 1 <= nodes (XBin o l r))%nat) by (cbn [nodes]; lia). assert (NR : (nodes r + 1 <= nodes (XBin o l r))%nat) by (cbn [nodes]; lia).
  set (n := nodes (XBin o l r)) in *. set (nl := nodes l) in *. set (nr := nodes r) in *.
  assert (Q : (n <= n * n)%nat) by nia. assert (Ql : (nl * nl <= n * n)%nat) by nia. assert (Qr : (nr * nr <= n * n)%nat) by nia.
  split; [unfold lcost_l; destruct o; lia|unfold lcost_r; destruct o; lia].
Qed.

Lemma along_cost m p : plain_leaves p = true -> mild m p -> forall S n y, In y (along m S n p) -> (snd (snd y) <= n + 1896 * (nodes p * nodes p * nodes p))%nat.
Proof.
  induction p as [b t|o p IH|o l IHl r IHr]; intros HL Hm S n y Hy; cbn [along] in Hy.
  - destruct Hy as [<-|[]]. cbn. lia.
  - destruct (local_un m o p HL Hm) as [A B]. pose proof (cube _ _ _ A B). cbn [plain_leaves] in HL. cbn [mild] in Hm. apply IH in Hy; [|tauto|tauto]. lia.
  - destruct (local_bin m o l r HL Hm) as [A B]. cbn [plain_leaves] in HL. apply andb_prop in HL as [L1 L2]. cbn [mild] in Hm.
    pose proof (nodes_pos l) as N1. pose proof (nodes_pos r) as N2.
    assert (NL : (nodes l + 1 <= nodes (XBin o l r))%nat) by (cbn [nodes]; lia). assert (NR : (nodes r + 1 <= nodes (XBin o l r))%nat) by (cbn [nodes]; lia).
    pose proof (cube _ _ _ NL A). pose proof (cube _ _ _ NR B).
    apply in_app_iff in Hy as [Hy|Hy]; [apply IHl in Hy; try tauto|apply IHr in Hy; try tauto]; lia.
Qed.
Lemma along_length m p : forall S n, (length (along m S n p) <= nodes p)%nat.
Proof.
  induction p as [b t|o p IH|o l IHl r IHr]; intros S n; cbn [along nodes].
  - cbn. lia.
  - specialize (IH (Rmax tiny (S * stretch_un m o p)) (n + 6 * lcost_un o p + 1)%nat). destruct o; lia.
  - rewrite app_length. specialize (IHl (Rmax tiny (S * stretch_l m o l r)) (n + 6 * lcost_l o l r + 1)%nat). specialize (IHr (Rmax tiny (S * stretch_r m o l r)) (n + 6 * lcost_r o l r + 1)%nat). lia.
Qed.
Lemma gather_cost a ys : forall N, (forall y, In y ys -> (snd (snd y) <= N)%nat) -> forall S n, (n <= N)%nat -> (snd (gather a ys S n) <= N + length ys)%nat.
Proof.
  induction ys as [|(b & S' & n') ys IH]; intros N H S n Hn; cbn [gather length]; [cbn; lia|].
  pose proof (H _ (or_introl eq_refl)) as H'. cbn [fst snd] in H'. destruct (b =? a)%nat.
  - assert (X : (snd (gather a ys (S + S') (Nat.max n n' + 1)) <= (N + 1) + length ys)%nat); [|lia].
    apply IH; [|lia]. intros y Hy. specialize (H y (or_intror Hy)). lia.
  - assert (X : (snd (gather a ys S n) <= N + length ys)%nat); [|lia]. apply IH; [|exact Hn]. intros y Hy. apply H. now right.
Qed.
Lemma rcost_bound m a p : plain_leaves p = true -> mild m p -> (rcost m a p <= 1897 * (nodes p * nodes p * nodes p))%nat.
Proof.
  intros HL Hm. pose proof (gather_cost a (along m 1 0 p) (1896 * (nodes p * nodes p * nodes p))) as G.
  specialize (G (fun y Hy => along_cost m p HL Hm 1 0%nat y Hy) tiny 0%nat ltac:(lia)). pose proof (along_length m p 1 0%nat). pose proof (nodes_pos p).
  unfold rcost. assert (1 <= nodes p * nodes p)%nat by nia. assert (nodes p <= nodes p * nodes p * nodes p)%nat by nia. lia.
Qed.

Lemma rmild_fits c m p : / 2 ^ 44 <= c -> forall S n K, plain_leaves p = true -> mild m p -> rmild m S p ->
  (n + 1896 * (nodes p * nodes p * nodes p) <= K)%nat -> INR K * c <= / 2000 -> rfits c m S n p.
Proof.
  intros C0. induction p as [b t|o p IH|o l IHl r IHr]; intros S n K HL Hm Hr HK HC.
  - cbn [rmild] in Hr. split; [apply Hr|]. split; [|exact I]. eapply less_cost; [exact C0| |exact HC]. lia.
  - cbn [rmild] in Hr. destruct Hr as (A & Hr & Ho). split; [exact A|]. split; [eapply less_cost; [exact C0| |exact HC]; lia|]. split; [|destruct o; try contradiction Ho; exact I].
    destruct (local_un m o p HL Hm) as [X Y]. pose proof (cube _ _ _ X Y). cbn [plain_leaves] in HL. cbn [mild] in Hm. apply (IH _ _ K); try tauto. lia.
  - cbn [rmild] in Hr. destruct Hr as (A & Hrl & Hrr & Ho). split; [exact A|]. split; [eapply less_cost; [exact C0| |exact HC]; lia|].
    destruct (local_bin m o l r HL Hm) as [X Y]. cbn [plain_leaves] in HL. apply andb_prop in HL as [L1 L2]. cbn [mild] in Hm.
    pose proof (nodes_pos l) as N1. pose proof (nodes_pos r) as N2.
    assert (NL : (nodes l + 1 <= nodes (XBin o l r))%nat) by (cbn [nodes]; lia). assert (NR : (nodes r + 1 <= nodes (XBin o l r))%nat) by (cbn [nodes]; lia).
    pose proof (cube _ _ _ NL X). pose proof (cube _ _ _ NR Y).
    split; [apply (IHl _ _ K); try tauto; lia|]. split; [apply (IHr _ _ K); try tauto; lia|exact Ho].
Qed.

Lemma poly_fits c m p : / 2 ^ 44 <= c -> plain_leaves p = true -> mild m p -> rmild m 1 p -> let n := INR (nodes p) in 3794000 * (n * n * n) * c <= 1 ->
  fits c m p /\ rfits c m 1 0 p /\ (forall k, (k <= 1897 * (nodes p * nodes p * nodes p))%nat -> INR k * c <= / 2000 /\ grown c k <= 3794 * (n * n * n) * c).
Proof.
  intros C0 HL Hm Hr n HC. assert (U : 0 < / 2 ^ 44) by (apply Rinv_0_lt_compat, pow_lt; lra).
  assert (N1 : 1 <= n) by (unfold n; pose proof (nodes_pos p) as K; apply le_INR in K; exact K).
  assert (N2 : n * n <= n * n * n) by (rewrite <- (Rmult_1_r (n * n)) at 1; apply Rmult_le_compat_l; nra).
  assert (N3 : n * n * c <= n * n * n * c) by (apply Rmult_le_compat_r; lra).
  assert (KK : forall k, (k <= 1897 * (nodes p * nodes p * nodes p))%nat -> INR k * c <= 1897 * (n * n * n) * c).
  { intros k K. apply Rmult_le_compat_r; [lra|]. apply le_INR in K. rewrite !mult_INR in K. replace (INR 1897) with 1897 in K by (rewrite INR_IZR_INZ; reflexivity). exact K. }
  split; [apply (mild_fits c m (nodes p)); auto; fold n; lra|]. split.
  - apply (rmild_fits c m p C0 1 0%nat (1897 * (nodes p * nodes p * nodes p))); auto; [lia|]. specialize (KK _ (Nat.le_refl _)). lra.
  - intros k K. specialize (KK k K). split; [lra|]. pose proof (grown_le c C0 k ltac:(lra)). lra.
Qed.

(** Without exponentials and logarithms: the root of the summed squares of the errors is at
    most 3794 n^3 (d + 2^-44) relative to the stretch along the way, for an expression
    prepared to [n] operands and operations. *)
Theorem c60_polynomial_dynamic M ord qord jord sch d mem mr e k a l p t :
  one_ulp M -> acos_ulp M -> (forall path, sums_four (qord path)) ->
  (forall path r c n, (1 <= n)%nat -> adds_all (sch path r c n) n) -> 0 <= d ->
  let c := d + / 2 ^ 44 in let m := fun b => den (mr b) in let n := INR (nodes p) in
  good 0 mr e k -> In a (leaf_addrs e) -> vty (mr a) = Plain l ->
  prepare e = Some (p, t) -> mild m p -> rmild m 1 p -> rsize m a p <= vast -> stored d mem m e -> 3794000 * (n * n * n) * c <= 1 ->
  exists F J, fdynreverse M ord qord jord sch mem e a = Some F /\
    has_shape (tsize k) (tsize (kind_of l)) J /\ is_derivative 0 mr e a J /\
    (forall i j, (i < tsize k)%nat -> (j < tsize (kind_of l))%nat -> finite (F i j)) /\
    frobenius (tsize k) (tsize (kind_of l)) (fun i j => val (F i j) - mnth J i j) <= 3794 * (n * n * n) * c * rsize m a p.
Proof.
  intros HM HA Hq Hs Hd c m n G Ha Hl P Hm Hr HV Hst HC.
  assert (C0 : / 2 ^ 44 <= c) by (unfold c; lra).
  destruct (prepare_typ _ _ _ P) as (T & D & S). pose proof (stored_leaves _ _ _ _ (S _ _ _ Hst)) as HL.
  destruct (poly_fits c m p C0 HL Hm Hr HC) as (Hf & Hrf & KK). fold n in KK. destruct (KK _ (rcost_bound m a p HL Hm)) as [K1 K2].
  destruct (c60_dynamic_reverse_accurate M ord qord jord sch d mem mr e k a l p t HM HA Hq Hs Hd G Ha Hl P Hf Hrf Hst HV K1) as (F & J & E1 & E2 & E3 & A & B & X).
  exists F, J. split; [exact E1|]. split; [exact E2|]. split; [exact E3|]. split; [exact A|]. eapply Rle_trans; [exact X|].
  apply Rmult_le_compat_r; [|exact K2].
  assert (ALL : forall q S i, 0 <= S -> forall y, In y (along m S i q) -> 0 <= fst (snd y)).
  { pose proof tiny_pos as T0. assert (TM : forall x, 0 <= Rmax tiny x) by (intros; eapply Rle_trans; [|apply Rmax_l]; lra). clear - TM.
    induction q as [b t|o q IH|o q1 IH1 q2 IH2]; intros S i HS y Hy; cbn [along] in Hy.
    - destruct Hy as [<-|[]]. exact HS.
    - eapply IH; [|exact Hy]. apply TM.
    - apply in_app_iff in Hy as [Hy|Hy]; [eapply IH1|eapply IH2]; try exact Hy; apply TM. }
  destruct (gather_mono a (along m 1 0 p) tiny 0%nat (ALL p 1 0%nat ltac:(lra))) as [GM _]. pose proof tiny_pos. fold m. unfold rsize. lra.
Qed.
Print Assumptions c60_polynomial_dynamic.

Theorem c60_polynomial_reverse M ord qord jord sch d mem mr e k p t :
  one_ulp M -> acos_ulp M -> (forall path, sums_four (qord path)) ->
  (forall path r c n, (1 <= n)%nat -> adds_all (sch path r c n) n) -> 0 <= d ->
  let c := d + / 2 ^ 44 in let m := fun b => den (mr b) in let n := INR (nodes p) in
  good 0 mr e k -> NoDup (map (fun b => vty (mr b)) (leaf_addrs e)) ->
  prepare e = Some (p, t) -> mild m p -> rmild m 1 p -> stored d mem m e -> 3794000 * (n * n * n) * c <= 1 ->
  exists js, freverse M ord qord jord sch mem e = Some js /\ length js = length (leaf_addrs e) /\
    forall i a l, nth_error (leaf_addrs e) i = Some a -> vty (mr a) = Plain l ->
    exists F J S j, nth_error js i = Some F /\ nth_error (along m 1 0 p) i = Some (a, (S, j)) /\
      has_shape (tsize k) (tsize (kind_of l)) J /\ is_derivative 0 mr e a J /\
      (forall i j, (i < tsize k)%nat -> (j < tsize (kind_of l))%nat -> finite (F i j)) /\
      frobenius (tsize k) (tsize (kind_of l)) (fun i j => val (F i j) - mnth J i j) <= 3794 * (n * n * n) * c * S.
Proof.
  intros HM HA Hq Hs Hd c m n G Hn P Hm Hr Hst HC.
  assert (C0 : / 2 ^ 44 <= c) by (unfold c; lra).
  destruct (prepare_typ _ _ _ P) as (T & D & St). pose proof (stored_leaves _ _ _ _ (St _ _ _ Hst)) as HL.
  destruct (poly_fits c m p C0 HL Hm Hr HC) as (Hf & Hrf & KK). fold n in KK.
  destruct (c60_reverse_accurate M ord qord jord sch d mem mr e k p t HM HA Hq Hs Hd G Hn P Hf Hrf Hst) as (js & J1 & J2 & J3).
  exists js. split; [exact J1|]. split; [exact J2|]. intros i a l Ha Hl. destruct (J3 i a l Ha Hl) as (F & J & S & j & E1 & E2 & E3 & E4 & A & B & X).
  exists F, J, S, j. split; [exact E1|]. split; [exact E2|]. split; [exact E3|]. split; [exact E4|]. split; [exact A|]. eapply Rle_trans; [exact X|].
  pose proof (along_cost m p HL Hm 1 0%nat _ (nth_error_In _ _ E2)) as Q. cbn [fst snd] in Q. assert (Q' : (j <= 1897 * (nodes p * nodes p * nodes p))%nat) by lia.
  destruct (KK j Q') as [_ K2]. apply Rmult_le_compat_r; [|exact K2].
  apply Rmult_le_reg_l with 1; [lra|]. pose proof (fro_nonneg (tsize k) (tsize (kind_of l)) (fun i j => val (F i j) - mnth J i j)) as FN.
  assert (S0 : forall q S i, 0 <= S -> forall y, In y (along m S i q) -> 0 <= fst (snd y)).
  { pose proof tiny_pos as T0. assert (TM : forall x, 0 <= Rmax tiny x) by (intros; eapply Rle_trans; [|apply Rmax_l]; lra). clear - TM.
    induction q as [b t|o q IH|o q1 IH1 q2 IH2]; intros S i HS y Hy; cbn [along] in Hy.
    - destruct Hy as [<-|[]]. exact HS.
    - eapply IH; [|exact Hy]. apply TM.
    - apply in_app_iff in Hy as [Hy|Hy]; [eapply IH1|eapply IH2]; try exact Hy; apply TM. }
  pose proof (S0 p 1 0%nat ltac:(lra) _ (nth_error_In _ _ E2)) as Z. cbn [fst snd] in Z. lra.
Qed.
Print Assumptions c60_polynomial_reverse.

(** ** Concrete cases: inverse(T0 * T1) * t with three leaf types, and T0 * T0. *)
Example c60_polynomial_example : let c := / 2 ^ 50 + / 2 ^ 44 in let m := fun b => den (ex_mr b) in let n := INR (nodes ex_poly) in
  NoDup (map (fun b => vty (ex_mr b)) (leaf_addrs ex_poly)) /\ rmild m 1 ex_poly /\ 3794000 * (n * n * n) * c <= 1 /\
  (forall a, rsize m a ex_poly <= vast) /\ (forall S j, nth_error (along m 1 0 ex_poly) 0 = Some (0%nat, (S, j)) -> S <= 70).
Proof.
  intros c m n. unfold m. rewrite ex_mr_den.
  assert (NV : n = 6) by (unfold n; cbn [nodes ex_poly]; rewrite INR_IZR_INZ; reflexivity).
  assert (CV : c = / 1125899906842624 + / 17592186044416).
  { unfold c. replace (2 ^ 50) with 1125899906842624 by ring. replace (2 ^ 44) with 17592186044416 by ring. reflexivity. }
  destruct ex_norms as (A & B & C). pose proof tiny_1. pose proof tiny_pos as TP.
  assert (V : 32768 <= vast) by (unfold vast; apply Rle_trans with (2 ^ 15); [lra|apply Rle_pow; [lra|lia]]).
  assert (X : forall x, x <= 3 -> 0 <= Rmax tiny x <= 3) by (intros; split; [eapply Rle_trans; [|apply Rmax_l]; lra|apply Rmax_lub; lra]).
  pose proof (X _ A) as X1. pose proof (X _ B) as X2. pose proof (X (vnorm (mkV 1 2 (1 / 2))) ltac:(lra)) as X3.
  split. { cbn. repeat constructor; cbn; intuition discriminate. }
  set (e1 := XBin OCompose (XLeaf 0 (Plain LCompRT)) (XLeaf 1 (Plain LMatRT))).
  assert (S1 : 0 <= size ex_m e1 <= 6) by (cbn [e1 size ex_m length_of]; lra).
  assert (S2 : size ex_m (XUn OInverse e1) = size ex_m e1) by reflexivity.
  assert (S3 : 0 <= size ex_m (XLeaf 2 (Plain LTrans)) <= 3) by (cbn [size ex_m length_of]; lra).
  assert (S4 : 0 <= size ex_m (XLeaf 0 (Plain LCompRT)) <= 3) by (cbn [size ex_m length_of]; lra).
  assert (RM : forall x y b, 0 <= x -> 0 <= y -> x * y <= b -> 1 <= b -> 0 <= Rmax tiny (x * y) <= b).
  { intros x y b Hx Hy Hb Hb'. split; [eapply Rle_trans; [|apply Rmax_l]; lra|apply Rmax_lub; lra]. }
  set (s1 := Rmax tiny (1 * stretch_l ex_m OTransform (XUn OInverse e1) (XLeaf 2 (Plain LTrans)))).
  assert (Z1 : 0 <= s1 <= 10) by (apply RM; cbn [stretch_l]; rewrite ?S2; lra).
  set (s2 := Rmax tiny (s1 * stretch_un ex_m OInverse e1)).
  assert (Z2 : 0 <= s2 <= 70).
  { apply RM; cbn [stretch_un]; try lra. assert (s1 * (1 + size ex_m e1) <= 10 * 7) by (apply Rmult_le_compat; lra). lra. }
  set (s3 := Rmax tiny (s2 * stretch_l ex_m OCompose (XLeaf 0 (Plain LCompRT)) (XLeaf 1 (Plain LMatRT)))).
  assert (Z3 : 0 <= s3 <= 70) by (apply RM; cbn [stretch_l]; lra).
  set (s4 := Rmax tiny (s2 * stretch_r ex_m OCompose (XLeaf 0 (Plain LCompRT)) (XLeaf 1 (Plain LMatRT)))).
  assert (Z4 : 0 <= s4 <= 280).
  { apply RM; cbn [stretch_r]; try lra. assert (s2 * (1 + size ex_m (XLeaf 0 (Plain LCompRT))) <= 70 * 4) by (apply Rmult_le_compat; lra). lra. }
  set (s5 := Rmax tiny (1 * stretch_r ex_m OTransform (XUn OInverse e1) (XLeaf 2 (Plain LTrans)))).
  assert (Z5 : 0 <= s5 <= 10) by (apply RM; cbn [stretch_r]; lra).
  split.
  { unfold ex_poly. cbn [rmild]. fold e1. fold s1 s2 s3 s4 s5. repeat split; lra. }
  split; [rewrite NV, CV; lra|]. split.
  - intros a. unfold rsize, ex_poly. cbn [along app]. fold e1. fold s1 s2 s3 s4 s5. cbn [gather].
    destruct (0 =? a)%nat; destruct (1 =? a)%nat; destruct (2 =? a)%nat; cbn [fst]; lra.
  - intros S j E. unfold ex_poly in E. cbn [along app nth_error] in E. fold e1 in E. fold s1 s2 s3 in E. injection E as <- _. lra.
Qed.

Example c60_twice_example : let m := fun b => den (ex_mr b) in
  let e := XBin OCompose (XLeaf 0 (Plain LCompRT)) (XLeaf 0 (Plain LCompRT)) in
  rmild m 1 e /\ rsize m 0 e <= 6 /\ ~ NoDup (map (fun b => vty (ex_mr b)) (leaf_addrs e)).
Proof.
  intros m e. unfold m. rewrite ex_mr_den. destruct ex_norms as (A & _ & _). pose proof tiny_1. pose proof tiny_pos as TP. pose proof vast_1000.
  assert (X1 : 0 <= size ex_m (XLeaf 0 (Plain LCompRT)) <= 3).
  { cbn [size ex_m length_of]. split; [eapply Rle_trans; [|apply Rmax_l]; lra|apply Rmax_lub; lra]. }
  assert (T8 : tiny <= / 2) by (unfold tiny; apply Rinv_le_contravar; [lra|]; apply Rle_trans with (2 ^ 1); [lra|apply Rle_pow; [lra|lia]]).
  set (s1 := Rmax tiny (1 * stretch_l ex_m OCompose (XLeaf 0 (Plain LCompRT)) (XLeaf 0 (Plain LCompRT)))).
  assert (Z1 : s1 = 1) by (unfold s1; cbn [stretch_l]; rewrite Rmult_1_l; apply Rmax_right; lra).
  set (s2 := Rmax tiny (1 * stretch_r ex_m OCompose (XLeaf 0 (Plain LCompRT)) (XLeaf 0 (Plain LCompRT)))).
  assert (Z2 : 0 <= s2 <= 4) by (unfold s2; cbn [stretch_r]; split; [eapply Rle_trans; [|apply Rmax_l]; lra|apply Rmax_lub; lra]).
  split; [unfold e; cbn [rmild]; fold s1 s2; repeat split; lra|]. split.
  - unfold rsize, e. cbn [along app]. fold s1 s2. cbn [gather Nat.eqb fst]. lra.
  - intros N. inversion N as [|? ? Q _]; subst. apply Q. now left.
Qed.

(** ** A residual: log(inverse(q) * r) for a quaternion q and a matrix r. *)
Definition ex_rot_mem (a : nat) : fvalue := match a with 0 => FQuat roll_d | _ => FMat tilt_d end%nat.
Definition ex_rot_mr (a : nat) : value := match a with 0 => VQuat roll | _ => VMat tilt end%nat.
Definition ex_res : expr := XUn OLogMap (XBin OCompose (XUn OInverse (XLeaf 0 (Plain LQuat))) (XLeaf 1 (Plain LMat))).
Definition ex_res_p : expr := XUn OLogMap (XBin OCompose (XUn (OConvert LMat) (XUn OInverse (XLeaf 0 (Plain LQuat)))) (XLeaf 1 (Plain LMat))).

Lemma ex_res_rot : mul3 (tr3 (qrot roll)) tilt = tr3 tilt.
Proof. unfold roll, tilt, mul3, tr3, qrot. cbn. f_equal; field. Qed.
Lemma ex_res_deval r : deval 0 (fun b => den (ex_rot_mr b)) (XBin OCompose (XUn (OConvert LMat) (XUn OInverse (XLeaf 0 (Plain LQuat)))) (XLeaf 1 (Plain LMat))) = Some (DRot r) -> r = tr3 tilt.
Proof. cbn. intros E. injection E as <-. apply ex_res_rot. Qed.
Lemma ex_res_angle : rot_angle (tr3 tilt) = acos (3 / 5) /\ / 16 <= acos (3 / 5) <= 3.
Proof.
  split; [unfold rot_angle; f_equal; unfold trace3, tr3, tilt; cbn; field|]. pose proof (acos_bound (3 / 5)) as B. pose proof PI2_3_2. pose proof PI_4. split.
  - destruct (Rle_lt_dec (/ 16) (acos (3 / 5))) as [K|K]; [exact K|]. exfalso. pose proof (cos_acos (3 / 5) ltac:(lra)) as E.
    assert (cos (/ 16) < cos (acos (3 / 5))) by (apply cos_decreasing_1; lra). pose proof (FloatLog.cos_lower (/ 16)) as L. lra.
  - destruct (Rle_lt_dec (acos (3 / 5)) 3) as [K|K]; [exact K|]. exfalso. pose proof (cos_acos (3 / 5) ltac:(lra)) as E.
    assert (cos (acos (3 / 5)) <= cos (PI / 2)); [|rewrite cos_PI2 in *; lra]. apply cos_decr_1; lra.
Qed.

Lemma million n : (n <=? 1000 * 1000)%nat = true -> INR n * (/ 2 ^ 50 + / 2 ^ 44) <= / 10 ^ 7.
Proof.
  intros H. apply Nat.leb_le in H. apply le_INR in H. rewrite mult_INR in H. replace (INR 1000) with 1000 in H by (rewrite INR_IZR_INZ; reflexivity).
  replace (2 ^ 50) with 1125899906842624 by ring. replace (2 ^ 44) with 17592186044416 by ring. replace (10 ^ 7) with 10000000 by ring. lra.
Qed.
Example c60_residual_example : let c := / 2 ^ 50 + / 2 ^ 44 in let m := fun b => den (ex_rot_mr b) in
  prepare ex_res = Some (ex_res_p, Plain LRel) /\ good 0 ex_rot_mr ex_res KRel /\ stored (/ 2 ^ 50) ex_rot_mem m ex_res /\ fits c m ex_res_p /\
  jfits c m 0 ex_res_p /\ nfits c m 1 ex_res_p /\ rfits c m 1 0 ex_res_p /\
  nsize m 1 ex_res_p <= 6 /\ grown c (ncost 1 ex_res_p) <= / 10 ^ 6.
Proof.
  intros c m. destruct ex_res_angle as [AN AB]. pose proof tiny_1 as T1. pose proof tiny_pos as TP. pose proof vast_1000 as V.
  assert (FEW : forall n, (n <=? 1000 * 1000)%nat = true -> INR n * c <= / 2000).
  { intros n H. pose proof (million n H) as Q. fold c in Q. replace (10 ^ 7) with 10000000 in Q by ring. lra. }
  assert (RG : regular m OLogMap (XBin OCompose (XUn (OConvert LMat) (XUn OInverse (XLeaf 0 (Plain LQuat)))) (XLeaf 1 (Plain LMat)))).
  { cbn [regular]. intros r E. apply ex_res_deval in E. subst r. rewrite AN. lra. }
  destruct roll_ok as (RF & RU & RW). destruct tilt_ok as (TF & TR & TW).
  assert (P : 3 * / 2 ^ 53 <= / 2 ^ 50).
  { replace (2 ^ 53) with 9007199254740992 by ring. replace (2 ^ 50) with 1125899906842624 by ring. lra. }
  assert (P0 : 0 < / 2 ^ 53) by (apply Rinv_0_lt_compat, pow_lt; lra).
  set (q := XLeaf 0 (Plain LQuat)) in *. set (r := XLeaf 1 (Plain LMat)) in *. set (qi := XUn OInverse q) in *. set (qm := XUn (OConvert LMat) qi) in *.
  set (d := XBin OCompose qm r) in *.
  assert (S0 : size m q = tiny) by (cbn; apply Rmax_left; lra). assert (S1 : size m qi = tiny) by exact S0. assert (S2 : size m qm = tiny) by exact S0.
  assert (S3 : size m r = tiny) by (cbn; apply Rmax_left; lra). assert (S4 : size m d = tiny + tiny) by (unfold d; cbn [size]; now rewrite S2, S3).
  assert (M1 : forall x y, 0 <= x <= y -> 1 <= y -> 0 <= Rmax tiny x <= y) by (intros; split; [eapply Rle_trans; [|apply Rmax_l]; lra|apply Rmax_lub; lra]).
  assert (R1 : Rmax 1 tiny = 1) by (apply Rmax_left; lra).
  assert (D3 : INR (dim q) = 3 /\ INR (dim qi) = 3 /\ INR (dim qm) = 3 /\ INR (dim r) = 3 /\ INR (dim d) = 3) by (repeat split; cbn; ring).
  destruct D3 as (D0 & D1 & D2 & D3 & D4).
  split; [vm_compute; reflexivity|].
  split. { split; [reflexivity|]. split; [cbn; tauto|]. cbn. tauto. }
  split.
  { split; (split; [reflexivity|]).
    - cbn. split; [exact RF|]. exists roll. split; [exact RU|]. split; [reflexivity|]. rewrite qdist_norm. apply qwithin_norm in RW. lra.
    - cbn. split; [exact TF|]. split; [exact TR|]. apply fnorm_within in TW; lra. }
  assert (F0 : fits c m q) by exact (conj (ltac:(rewrite S0; lra) : size m q <= vast) (conj (FEW (fst (cost q)) eq_refl) (conj (FEW (snd (cost q)) eq_refl) I))).
  assert (F1 : fits c m qi) by exact (conj (ltac:(rewrite S1; lra) : size m qi <= vast) (conj (FEW (fst (cost qi)) eq_refl) (conj (FEW (snd (cost qi)) eq_refl) (conj F0 I)))).
  assert (F2 : fits c m qm) by exact (conj (ltac:(rewrite S2; lra) : size m qm <= vast) (conj (FEW (fst (cost qm)) eq_refl) (conj (FEW (snd (cost qm)) eq_refl) (conj F1 (or_intror (or_introl (conj eq_refl eq_refl))))))).
  assert (F3 : fits c m r) by exact (conj (ltac:(rewrite S3; lra) : size m r <= vast) (conj (FEW (fst (cost r)) eq_refl) (conj (FEW (snd (cost r)) eq_refl) I))).
  assert (F4 : fits c m d) by exact (conj (ltac:(rewrite S4; lra) : size m d <= vast) (conj (FEW (fst (cost d)) eq_refl) (conj (FEW (snd (cost d)) eq_refl) (conj F2 (conj F3 I))))).
  split.
  { refine (conj (_ : 4 <= vast) (conj (FEW (fst (cost ex_res_p)) eq_refl) (conj (FEW (snd (cost ex_res_p)) eq_refl) (conj F4 (conj eq_refl _))))); [lra|].
    intros z E. apply ex_res_deval in E. subst z. rewrite AN. lra. }
  assert (J0 : jsize m 0 q = 1) by reflexivity. 
  assert (J1 : 0 <= jsize m 0 qi <= 3) by (unfold qi; cbn [jsize]; rewrite D0, J0; cbn [lsize_un]; rewrite S0, R1; apply M1; lra).
  assert (J2 : 0 <= jsize m 0 qm <= 9) by (unfold qm; cbn [jsize]; rewrite D1; cbn [lsize_un]; apply M1; lra).
  assert (J3 : 0 <= jsize m 0 d <= 27) by (unfold d; cbn [jsize mentions]; cbn [qm qi q r mentions Nat.eqb]; rewrite D2; cbn [lsize_l]; apply M1; lra).
  assert (J4 : 0 <= jsize m 0 ex_res_p <= 162) by (unfold ex_res_p; fold q r qi qm d; cbn [jsize]; rewrite D4; cbn [lsize_un]; apply M1; lra).
  split.
  { assert (A0 : jfits c m 0 q) by exact (fun _ => conj (ltac:(lra) : jsize m 0 q <= vast) (conj (FEW (jcost 0 q) eq_refl) I)).
    assert (A1 : jfits c m 0 qi) by exact (fun _ => conj (ltac:(lra) : jsize m 0 qi <= vast) (conj (FEW (jcost 0 qi) eq_refl) (conj A0 I))).
    assert (A2 : jfits c m 0 qm) by exact (fun _ => conj (ltac:(lra) : jsize m 0 qm <= vast) (conj (FEW (jcost 0 qm) eq_refl) (conj A1 I))).
    assert (A3 : jfits c m 0 r) by (intros H; discriminate H).
    assert (A4 : jfits c m 0 d) by exact (fun _ => conj (ltac:(lra) : jsize m 0 d <= vast) (conj (FEW (jcost 0 d) eq_refl) (conj A2 (conj A3 I)))).
    exact (fun _ => conj (ltac:(lra) : jsize m 0 ex_res_p <= vast) (conj (FEW (jcost 0 ex_res_p) eq_refl) (conj A4 RG))). }
  assert (N0 : nsize m 1 r = 1) by reflexivity.
  assert (N1 : 0 <= nsize m 1 d <= 2).
  { unfold d; cbn [nsize mentions]; cbn [qm qi q r mentions Nat.eqb]. cbn [stretch_r]. rewrite S2, N0. apply M1; lra. }
  assert (N2 : 0 <= nsize m 1 ex_res_p <= 4) by (unfold ex_res_p; fold q r qi qm d; cbn [nsize]; cbn [stretch_un]; apply M1; lra).
  split.
  { assert (A0 : nfits c m 1 r) by exact (fun _ => conj (ltac:(lra) : nsize m 1 r <= vast) (conj (FEW (ncost 1 r) eq_refl) I)).
    assert (A2 : nfits c m 1 qm) by (intros H; discriminate H).
    assert (A4 : nfits c m 1 d) by exact (fun _ => conj (ltac:(lra) : nsize m 1 d <= vast) (conj (FEW (ncost 1 d) eq_refl) (conj A2 (conj A0 I)))).
    exact (fun _ => conj (ltac:(lra) : nsize m 1 ex_res_p <= vast) (conj (FEW (ncost 1 ex_res_p) eq_refl) (conj A4 RG))). }
  split.
  { unfold ex_res_p. fold q r qi qm d. cbn [rfits]. split; [lra|]. split; [apply FEW; vm_compute; reflexivity|]. split; [|exact RG].
    cbn [stretch_un]. set (s1 := Rmax tiny (1 * 2)). assert (H1 : 0 <= s1 <= 2) by (apply M1; lra).
    unfold d. cbn [rfits]. fold d. split; [lra|]. split; [apply FEW; vm_compute; reflexivity|]. cbn [stretch_l stretch_r]. rewrite S2.
    set (s2 := Rmax tiny (s1 * 1)). assert (H2 : 0 <= s2 <= 2) by (apply M1; lra).
    set (s3 := Rmax tiny (s1 * (1 + tiny))). assert (H3 : 0 <= s3 <= 4) by (apply M1; nra).
    split; [|split; [unfold r; cbn [rfits]; split; [lra|]; split; [apply FEW; vm_compute; reflexivity|exact I]|exact I]].
    unfold qm. cbn [rfits]. fold qm. split; [lra|]. split; [apply FEW; vm_compute; reflexivity|]. split; [|exact I]. cbn [stretch_un].
    set (s4 := Rmax tiny (s2 * 1)). assert (H4 : 0 <= s4 <= 2) by (apply M1; lra).
    unfold qi. cbn [rfits]. fold qi. split; [lra|]. split; [apply FEW; vm_compute; reflexivity|]. split; [|exact I]. cbn [stretch_un]. rewrite S0.
    set (s5 := Rmax tiny (s4 * (1 + tiny))). assert (H5 : 0 <= s5 <= 4) by (apply M1; nra).
    unfold q. cbn [rfits]. split; [lra|]. split; [apply FEW; vm_compute; reflexivity|exact I]. }
  split; [lra|].
  assert (C0 : / 2 ^ 44 <= c) by (assert (0 < / 2 ^ 50) by (apply Rinv_0_lt_compat, pow_lt; lra); unfold c; lra).
  pose proof (million (ncost 1 ex_res_p) eq_refl) as Q. fold c in Q. replace (10 ^ 7) with 10000000 in Q by ring. replace (10 ^ 6) with 1000000 by ring.
  eapply Rle_trans; [apply grown_le; [exact C0|]|]; lra.
Qed.

(** A vector rotated by the exponential of a tangent vector of more than 1/16 radian. *)
Definition ex_turn : expr := XBin ORotate (XUn OExpMap (XLeaf 3 (Plain LRel))) (XLeaf 2 (Plain LTrans)).
Example c60_exponential_example : let c := / 2 ^ 50 + / 2 ^ 44 in let m := fun b => den (ex_mr b) in
  prepare ex_turn = Some (ex_turn, Plain LTrans) /\ fits c m ex_turn /\ jfits c m 3 ex_turn /\ nfits c m 3 ex_turn /\ rfits c m 1 0 ex_turn.
Proof.
  intros c m. unfold m. rewrite ex_mr_den. destruct ex_norms as (_ & _ & A). pose proof tiny_1 as T1. pose proof tiny_pos as TP. pose proof vast_1000 as V.
  assert (FEW : forall n, (n <=? 1000 * 1000)%nat = true -> INR n * c <= / 2000).
  { intros n H. pose proof (million n H) as Q. fold c in Q. replace (10 ^ 7) with 10000000 in Q by ring. lra. }
  assert (M1 : forall x y, 0 <= x <= y -> 1 <= y -> 0 <= Rmax tiny x <= y) by (intros; split; [eapply Rle_trans; [|apply Rmax_l]; lra|apply Rmax_lub; lra]).
  set (w := XLeaf 3 (Plain LRel)). set (x := XLeaf 2 (Plain LTrans)). set (q := XUn OExpMap w). change ex_turn with (XBin ORotate q x). set (p := XBin ORotate q x).
  set (v := mkV 1 2 (1 / 2)) in *.
  assert (B : / 16 <= vnorm v). { unfold vnorm. apply Rle_trans with (sqrt 1); [rewrite sqrt_1; lra|]. apply sqrt_le_1_alt. unfold v, vnorm2, vdot; cbn; lra. }
  assert (RG : regular ex_m OExpMap w). { right. intros z E. change (Some (DRel v) = Some (DRel z)) in E. injection E as <-. exact B. }
  assert (S0 : 0 <= size ex_m w <= 5 / 2) by (apply M1; cbn [ex_m length_of]; fold v; lra).
  assert (S1 : size ex_m q = 1) by reflexivity. assert (S2 : 0 <= size ex_m x <= 5 / 2) by (apply M1; cbn [ex_m length_of]; fold v; lra).
  assert (S3 : 0 <= size ex_m p <= 5 / 2) by exact S2.
  split; [vm_compute; reflexivity|].
  split.
  { assert (F0 : fits c ex_m w) by exact (conj (ltac:(lra) : size ex_m w <= vast) (conj (FEW (fst (cost w)) eq_refl) (conj (FEW (snd (cost w)) eq_refl) I))).
    assert (F1 : fits c ex_m q).
    { exact (conj (ltac:(lra) : size ex_m q <= vast) (conj (FEW (fst (cost q)) eq_refl) (conj (FEW (snd (cost q)) eq_refl) (conj F0 (conj (ltac:(lra) : size ex_m w <= 4) eq_refl))))). }
    assert (F2 : fits c ex_m x) by exact (conj (ltac:(lra) : size ex_m x <= vast) (conj (FEW (fst (cost x)) eq_refl) (conj (FEW (snd (cost x)) eq_refl) I))).
    exact (conj (ltac:(lra) : size ex_m p <= vast) (conj (FEW (fst (cost p)) eq_refl) (conj (FEW (snd (cost p)) eq_refl) (conj F1 (conj F2 I))))). }
  split.
  { assert (J0 : jsize ex_m 3 w = 1) by reflexivity. assert (D0 : INR (dim w) = 3) by (cbn; ring). assert (D1 : INR (dim q) = 3) by (cbn; ring).
    assert (J1 : 0 <= jsize ex_m 3 q <= 3) by (unfold q; cbn [jsize]; rewrite D0, J0; cbn [lsize_un]; apply M1; lra).
    assert (J2 : 0 <= jsize ex_m 3 p <= 30) by (unfold p; cbn [jsize mentions]; cbn [q w x mentions Nat.eqb]; rewrite D1; cbn [lsize_l]; apply M1; nra).
    assert (A0 : jfits c ex_m 3 w) by exact (fun _ => conj (ltac:(lra) : jsize ex_m 3 w <= vast) (conj (FEW (jcost 3 w) eq_refl) I)).
    assert (A1 : jfits c ex_m 3 q) by exact (fun _ => conj (ltac:(lra) : jsize ex_m 3 q <= vast) (conj (FEW (jcost 3 q) eq_refl) (conj A0 RG))).
    assert (A2 : jfits c ex_m 3 x) by (intros H; discriminate H).
    exact (fun _ => conj (ltac:(lra) : jsize ex_m 3 p <= vast) (conj (FEW (jcost 3 p) eq_refl) (conj A1 (conj A2 I)))). }
  split.
  { assert (J0 : nsize ex_m 3 w = 1) by reflexivity.
    assert (J1 : 0 <= nsize ex_m 3 q <= 2) by (unfold q; cbn [nsize]; rewrite J0; cbn [stretch_un]; apply M1; lra).
    assert (J2 : 0 <= nsize ex_m 3 p <= 30) by (unfold p; cbn [nsize mentions]; cbn [q w x mentions Nat.eqb]; cbn [stretch_l]; apply M1; nra).
    assert (A0 : nfits c ex_m 3 w) by exact (fun _ => conj (ltac:(lra) : nsize ex_m 3 w <= vast) (conj (FEW (ncost 3 w) eq_refl) I)).
    assert (A1 : nfits c ex_m 3 q) by exact (fun _ => conj (ltac:(lra) : nsize ex_m 3 q <= vast) (conj (FEW (ncost 3 q) eq_refl) (conj A0 RG))).
    assert (A2 : nfits c ex_m 3 x) by (intros H; discriminate H).
    exact (fun _ => conj (ltac:(lra) : nsize ex_m 3 p <= vast) (conj (FEW (ncost 3 p) eq_refl) (conj A1 (conj A2 I)))). }
  unfold p. cbn [rfits]. fold p. split; [lra|]. split; [apply FEW; vm_compute; reflexivity|]. cbn [stretch_l stretch_r].
  set (s1 := Rmax tiny (1 * size ex_m x)). assert (H1 : 0 <= s1 <= 3) by (apply M1; lra).
  set (s2 := Rmax tiny (1 * 1)). assert (H2 : 0 <= s2 <= 1) by (apply M1; lra).
  split; [|split; [unfold x; cbn [rfits]; split; [lra|]; split; [apply FEW; vm_compute; reflexivity|exact I]|exact I]].
  unfold q. cbn [rfits]. fold q. split; [lra|]. split; [apply FEW; vm_compute; reflexivity|]. split; [|exact RG]. cbn [stretch_un].
  unfold w. cbn [rfits]. fold w. split; [|split; [apply FEW; vm_compute; reflexivity|exact I]].
  apply Rmax_lub; lra.
Qed.

(** A vector written as its length times its direction. *)
Definition ex_polar : expr := XBin OScale (XUn ONorm (XLeaf 2 (Plain LTrans))) (XUn ONormalize (XLeaf 2 (Plain LTrans))).
Example c60_length_example : let c := / 2 ^ 50 + / 2 ^ 44 in let m := fun b => den (ex_mr b) in
  prepare ex_polar = Some (ex_polar, Plain LTrans) /\ fits c m ex_polar /\ jfits c m 2 ex_polar /\ nfits c m 2 ex_polar /\ rfits c m 1 0 ex_polar.
Proof.
  intros c m. unfold m. rewrite ex_mr_den. destruct ex_norms as (_ & _ & A). pose proof tiny_1 as T1. pose proof tiny_pos as TP. pose proof vast_1000 as V.
  assert (FEW : forall n, (n <=? 1000 * 1000)%nat = true -> INR n * c <= / 2000).
  { intros n H. pose proof (million n H) as Q. fold c in Q. replace (10 ^ 7) with 10000000 in Q by ring. lra. }
  assert (M1 : forall x y, 0 <= x <= y -> 1 <= y -> 0 <= Rmax tiny x <= y) by (intros; split; [eapply Rle_trans; [|apply Rmax_l]; lra|apply Rmax_lub; lra]).
  set (x := XLeaf 2 (Plain LTrans)). set (n := XUn ONorm x). set (u := XUn ONormalize x). change ex_polar with (XBin OScale n u). set (p := XBin OScale n u).
  set (v := mkV 1 2 (1 / 2)) in *.
  assert (B : 1 <= vnorm v). { unfold vnorm. rewrite <- sqrt_1 at 1. apply sqrt_le_1_alt. unfold v, vnorm2, vdot; cbn; lra. }
  assert (SX : size ex_m x = vnorm v) by (unfold x; cbn [size ex_m length_of]; fold v; apply Rmax_right; lra).
  assert (RG : forall z, deval 0 ex_m x = Some z -> size ex_m x <= 2 * length_of z).
  { intros z E. change (Some (DTrans v) = Some z) in E. injection E as <-. rewrite SX. cbn [length_of]. lra. }
  assert (S1 : size ex_m n = vnorm v) by exact SX. assert (S2 : size ex_m u = 2) by reflexivity.
  assert (S3 : 0 <= size ex_m p <= 5) by (unfold p; cbn [size]; rewrite S1, S2; apply M1; lra).
  split; [vm_compute; reflexivity|].
  split.
  { assert (F0 : fits c ex_m x) by exact (conj (ltac:(lra) : size ex_m x <= vast) (conj (FEW (fst (cost x)) eq_refl) (conj (FEW (snd (cost x)) eq_refl) I))).
    assert (F1 : fits c ex_m n) by exact (conj (ltac:(lra) : size ex_m n <= vast) (conj (FEW (fst (cost n)) eq_refl) (conj (FEW (snd (cost n)) eq_refl) (conj F0 I)))).
    assert (F2 : fits c ex_m u) by exact (conj (ltac:(lra) : size ex_m u <= vast) (conj (FEW (fst (cost u)) eq_refl) (conj (FEW (snd (cost u)) eq_refl) (conj F0 RG)))).
    exact (conj (ltac:(lra) : size ex_m p <= vast) (conj (FEW (fst (cost p)) eq_refl) (conj (FEW (snd (cost p)) eq_refl) (conj F1 (conj F2 I))))). }
  assert (Q5 : 0 <= 2 * (5 / vnorm v) <= 10).
  { assert (0 < / vnorm v <= 1) by (split; [apply Rinv_0_lt_compat; lra|rewrite <- Rinv_1; apply Rinv_le_contravar; lra]). unfold Rdiv. lra. }
  assert (LU : 0 <= Rmax tiny (2 * (5 / vnorm v)) <= 10) by (apply M1; lra).
  split.
  { assert (J0 : jsize ex_m 2 x = 1) by reflexivity. assert (D0 : INR (dim x) = 3) by (cbn; ring). assert (D1 : INR (dim n) = 1) by (cbn; ring). assert (D2 : INR (dim u) = 3) by (cbn; ring).
    assert (J1 : 0 <= jsize ex_m 2 n <= 6) by (unfold n; cbn [jsize]; rewrite D0, J0; cbn [lsize_un]; apply M1; lra).
    assert (J2 : 0 <= jsize ex_m 2 u <= 30) by (unfold u; cbn [jsize]; rewrite D0, J0; cbn [lsize_un]; rewrite SX; apply M1; lra).
    assert (J3 : 0 <= jsize ex_m 2 p <= 500).
    { unfold p; cbn [jsize mentions]; cbn [n u x mentions Nat.eqb]; rewrite D1, D2; cbn [lsize_l lsize_r]; fold x; fold u; fold n; rewrite S1, S2; apply M1; nra. }
    assert (A0 : jfits c ex_m 2 x) by exact (fun _ => conj (ltac:(lra) : jsize ex_m 2 x <= vast) (conj (FEW (jcost 2 x) eq_refl) I)).
    assert (A1 : jfits c ex_m 2 n) by exact (fun _ => conj (ltac:(lra) : jsize ex_m 2 n <= vast) (conj (FEW (jcost 2 n) eq_refl) (conj A0 RG))).
    assert (A2 : jfits c ex_m 2 u) by exact (fun _ => conj (ltac:(lra) : jsize ex_m 2 u <= vast) (conj (FEW (jcost 2 u) eq_refl) (conj A0 RG))).
    exact (fun _ => conj (ltac:(lra) : jsize ex_m 2 p <= vast) (conj (FEW (jcost 2 p) eq_refl) (conj A1 (conj A2 I)))). }
  split.
  { assert (J0 : nsize ex_m 2 x = 1) by reflexivity.
    assert (J1 : 0 <= nsize ex_m 2 n <= 2) by (unfold n; cbn [nsize]; rewrite J0; cbn [stretch_un]; apply M1; lra).
    assert (J2 : 0 <= nsize ex_m 2 u <= 10) by (unfold u; cbn [nsize]; rewrite J0; cbn [stretch_un]; rewrite SX; apply M1; lra).
    assert (J3 : 0 <= nsize ex_m 2 p <= 100).
    { unfold p; cbn [nsize mentions]; cbn [n u x mentions Nat.eqb]; cbn [stretch_l stretch_r]; fold x; fold u; fold n; rewrite S1, S2; apply M1; nra. }
    assert (A0 : nfits c ex_m 2 x) by exact (fun _ => conj (ltac:(lra) : nsize ex_m 2 x <= vast) (conj (FEW (ncost 2 x) eq_refl) I)).
    assert (A1 : nfits c ex_m 2 n) by exact (fun _ => conj (ltac:(lra) : nsize ex_m 2 n <= vast) (conj (FEW (ncost 2 n) eq_refl) (conj A0 RG))).
    assert (A2 : nfits c ex_m 2 u) by exact (fun _ => conj (ltac:(lra) : nsize ex_m 2 u <= vast) (conj (FEW (ncost 2 u) eq_refl) (conj A0 RG))).
    exact (fun _ => conj (ltac:(lra) : nsize ex_m 2 p <= vast) (conj (FEW (ncost 2 p) eq_refl) (conj A1 (conj A2 I)))). }
  unfold p. cbn [rfits]. fold p. split; [lra|]. split; [apply FEW; vm_compute; reflexivity|]. cbn [stretch_l stretch_r]. rewrite S1, S2.
  set (s1 := Rmax tiny (1 * 2)). assert (H1 : 0 <= s1 <= 2) by (apply M1; lra).
  set (s2 := Rmax tiny (1 * vnorm v)). assert (H2 : 0 <= s2 <= 3) by (apply M1; lra).
  split; [|split; [|exact I]].
  - unfold n. cbn [rfits]. fold n. split; [lra|]. split; [apply FEW; vm_compute; reflexivity|]. split; [|exact RG]. cbn [stretch_un].
    unfold x. cbn [rfits]. fold x. split; [|split; [apply FEW; vm_compute; reflexivity|exact I]]. apply Rmax_lub; lra.
  - unfold u. cbn [rfits]. fold u. split; [lra|]. split; [apply FEW; vm_compute; reflexivity|]. split; [|exact RG]. cbn [stretch_un]. rewrite SX.
    unfold x. cbn [rfits]. fold x. split; [|split; [apply FEW; vm_compute; reflexivity|exact I]]. apply Rmax_lub; nra.
Qed.
