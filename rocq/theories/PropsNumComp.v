(** C09: numerical Jacobians of compound expressions converge to the stacked Jacobian. *)

From Coq Require Import Reals Lra Lia List Bool Arith.
From Verif Require Import Mat ModelMeta SpecMeta MetaProofs ModelJac SpecJac JacProofs NaryProofs PropsJac V3
  ModelLeaf SpecLeaf LeafProofs ModelExpr SpecExpr ExprProofs PropsExpr Calc SpecDeriv DerivProofs
  DerivUn DerivTree JacDef PropsDeriv ModelCompound PropsCompound ModelEstim PropsEstim PropsCompJac
  ModelNum SpecNum NumProofs NumLimit PropsNum NumLip NumVal NumTree NumStep PropsNumSmall.
Import ListNotations.
Local Open Scope R_scope.
Local Open Scope mat_scope.

Local Arguments mvec : simpl never.

(** The element evaluates to a stored type, not to a symbolic Identity or Zero. *)
Definition plain_valued (e : expr) : Prop := exists p l, prepare e = Some (p, Plain l).

Lemma prepare_to_plain e p l : prepare e = Some (p, Plain l) -> prepare_to (Plain l) e = Some (p, Plain l).
Proof.
  intros P. unfold prepare_to. rewrite P. now destruct l.
Qed.

Lemma elem_minus_plain eps lt w v : vty w = Plain lt -> vty v = Plain lt ->
  elem_minus eps w v = evaluateTo eps (Plain (tangent_leaf lt)) (two_leaves w v)
    (minus_expr (kind_of lt) (XLeaf 0 (Plain lt)) (XLeaf 1 (Plain lt))).
Proof.
  intros Tw Tv. unfold elem_minus, vkind, minus_expr. rewrite Tw, Tv. cbn [ty_kind].
  destruct lt; reflexivity.
Qed.

Section Comp.
  Variables (eps : R) (na : nat) (m : env) (a : nat) (l : lty).
  Hypothesis He : 0 < eps < 1.
  Hypothesis V : valid (m a).
  Hypothesis Hl : vty (m a) = Plain l.
  Hypothesis Hna : na <> a.
  Let tgt := leaf_obj a (Plain l).

  (** One element. *)
  Lemma element_converges e k x J : good eps m e k -> means eps m e = Some x ->
    smooth eps (fun b => den (m b)) a e -> plain_valued e ->
    has_shape (tsize k) (tsize (kind_of l)) J -> is_derivative eps m e a J ->
    exists p lt v, prepare e = Some (p, Plain lt) /\ eval_p eps m p = Some v /\ vdim v = esize e /\
    forall j tau, (j < tsize (kind_of l))%nat -> 0 < tau -> near (fun h => h <> 0 ->
      exists w d, option_map fst (with_delta eps na a j h m p) = Some w /\ elem_minus eps w v = Some d /\
        vdim d = esize e /\ forall i, (i < esize e)%nat -> Rabs (coord d i / h - mget J i j) < tau).
  Proof.
    intros G Hx Hs (p & lt & P) SJ DJ.
    assert (He' : 0 <= eps < 1) by lra.
    pose proof (prepare_to_plain _ _ _ P) as P'.
    destruct (prepare_total e k (proj1 G)) as (p0 & t & P0 & W & Kt).
    rewrite P in P0. injection P0 as <- <-. cbn [ty_kind] in Kt.
    destruct (prepare_to_sound eps (proj1 He') m e _ _ _ k P' (proj1 G) (proj1 (proj2 G)) (proj2 (proj2 G))) as (_ & Sn).
    rewrite <- (good_means eps m e k (proj1 He') G), Hx in Sn.
    destruct (sound_value _ _ _ Sn) as (v & Hv & Dv & Tv & Vv).
    assert (Ke : esize e = tsize k) by (unfold esize; now rewrite (proj1 G)).
    exists p, lt, v. split; [exact P|]. split; [exact Hv|].
    split; [unfold vdim, vkind; rewrite Tv, Ke; cbn [ty_kind]; now rewrite Kt|].
    intros j tau Hj Ht.
    destruct (column_agrees eps na m e k a l x J He G Hx V Hl Hna SJ DJ Hs lt p v Kt P' Dv Tv Vv j Hj)
      as (f & g & db & _ & Df & _ & Nw & L).
    assert (Nq : near (fun h => forall i, (i < tsize k)%nat -> h <> 0 -> Rabs (g h i / h - mget J i j) < tau)).
    { apply near_forall_lt. intros i Hi. destruct (Df i Hi) as (Di & F0).
      exact (LR_quotient (db i) (fun s => f s i) (fun s => g s i) _ tau Di F0 (L i Hi) Ht). }
    apply (near_impl2 _ _ _) with (2 := Nw) (3 := Nq).
    intros h (w & dw & Ew & Ed & Td & Tw & Eg) Qh Nz.
    exists w, dw. split; [now rewrite Ew|]. split; [now rewrite (elem_minus_plain eps lt)|].
    split.
    - rewrite Ke. unfold vdim, vkind. rewrite Td. cbn [ty_kind]. rewrite <- Kt. now destruct lt.
    - intros i Hi. rewrite Ke in Hi. rewrite <- Eg. now apply Qh.
  Qed.

  Definition ok_element (e : expr) : Prop :=
    (exists k x, good eps m e k /\ means eps m e = Some x) /\ plain_valued e /\
    smooth eps (fun b => den (m b)) a e.

  Lemma elements_converge es ts : Forall ok_element es -> Forall wf_tree ts ->
    Forall2 (fun e T => edim T = esize e /\ is_derivative eps m e a (true_jacobian tgt T)) es ts ->
    exists ps vs, prepare_elements es = Some ps /\ all_some (map (eval_p eps m) ps) = Some vs /\
      map vdim vs = map esize es /\
      forall j tau, (j < tsize (kind_of l))%nat -> 0 < tau -> near (fun h => h <> 0 ->
        exists ws ds, compound_with_delta eps na a j h m ps = Some ws /\ compound_minus eps ws vs = Some ds /\
          map vdim ds = map esize es /\
          forall i T d q, nth_error ts i = Some T -> nth_error ds i = Some d -> (q < vdim d)%nat ->
            Rabs (coord d q / h - mget (true_jacobian tgt T) q j) < tau).
  Proof.
    intros HF HW HD. revert HF HW. induction HD as [|e T es ts (D1 & D2) HD IH]; intros HF HW.
    - exists [], []. cbn. split; [reflexivity|]. split; [reflexivity|]. split; [reflexivity|].
      intros j tau _ _. apply near_all. intros h _. exists [], []. cbn.
      split; [reflexivity|]. split; [reflexivity|]. split; [reflexivity|].
      intros [|i]; discriminate.
    - pose proof (Forall_inv HF) as ((k & x & G & Hx) & Pe & Se). pose proof (Forall_inv_tail HF) as HFs.
      pose proof (Forall_inv HW) as WT. pose proof (Forall_inv_tail HW) as Ws.
      destruct (IH HFs Ws) as (ps & vs & E1 & E2 & E3 & N).
      assert (SJ : has_shape (tsize k) (tsize (kind_of l)) (true_jacobian tgt T)).
      { destruct (true_jacobian_shape tgt T WT) as (R1 & C1). split; [|exact C1].
        rewrite R1, D1. unfold esize. now rewrite (proj1 G). }
      destruct (element_converges e k x _ G Hx Se Pe SJ D2) as (p & lt & v & P & Hv & Dv & Nv).
      exists (p :: ps), (v :: vs). cbn [prepare_elements map]. rewrite P, E1. split; [reflexivity|].
      split; [cbn [all_some]; now rewrite Hv, E2|]. split; [now rewrite Dv, E3|].
      intros j tau Hj Ht.
      apply (near_impl2 _ _ _) with (2 := Nv j tau Hj Ht) (3 := N j tau Hj Ht).
      intros h Ah Bh Nz.
      destruct (Ah Nz) as (w & d & W1 & W2 & W3 & W4).
      destruct (Bh Nz) as (ws & ds & X1 & X2 & X3 & X4).
      exists (w :: ws), (d :: ds). unfold compound_with_delta, compound_minus in *.
      cbn [map all_some expand2]. rewrite W1, X1, W2, X2. split; [reflexivity|]. split; [reflexivity|].
      split; [now rewrite W3, X3|].
      intros [|i] T' d' q HT Hd Hq; cbn in HT, Hd.
      + injection HT as <-. injection Hd as <-. apply W4. now rewrite <- W3.
      + eapply X4; eauto.
  Qed.
End Comp.

(** Every row of a stack belongs to one element. *)
Lemma row_element (ns : list nat) r : (r < list_sum ns)%nat ->
  exists i n q, nth_error ns i = Some n /\ (q < n)%nat /\ r = (list_sum (firstn i ns) + q)%nat.
Proof.
  revert r. induction ns as [|n ns IH]; intros r Hr; [exfalso; exact (Nat.nlt_0_r _ Hr)|].
  change (list_sum (n :: ns)) with (n + list_sum ns)%nat in Hr.
  destruct (Nat.lt_ge_cases r n) as [L|L].
  - exists 0%nat, n, r. cbn. auto.
  - destruct (IH (r - n)%nat ltac:(lia)) as (i & n' & q & E & Hq & Er).
    exists (S i), n', q. split; [exact E|]. split; [exact Hq|].
    cbn [firstn]. change (list_sum (n :: firstn i ns)) with (n + list_sum (firstn i ns))%nat. lia.
Qed.

(** The numerical Jacobian of a compound converges to its (dynamic) Jacobian, the matrix
    of c07_dynamic_compound_derivative. *)
Theorem c09_compound_converges : forall eps garbage garbage' na m es a l, 0 < eps < 1 ->
  valid (m a) -> vty (m a) = Plain l -> na <> a ->
  Forall (fun e => (exists k x, good eps m e k /\ means eps m e = Some x) /\ plain_valued e /\
                   smooth eps (fun b => den (m b)) a e) es ->
  exists ts J, trees eps na m es = Some ts /\
    nary_dyn garbage (leaf_obj a (Plain l)) ts = J /\
    has_shape (list_sum (map esize es)) (tsize (kind_of l)) J /\
    forall tau, 0 < tau -> near (fun h => h <> 0 ->
      exists N, numericalCompoundJacobian eps garbage' h na m es a l = Some N /\
        has_shape (list_sum (map esize es)) (tsize (kind_of l)) N /\
        forall i j, (i < list_sum (map esize es))%nat -> (j < tsize (kind_of l))%nat ->
          Rabs (mget N i j - mget J i j) < tau).
Proof.
  intros eps garbage garbage' na m es a l He Hv Hl Hn HF.
  assert (He' : 0 <= eps < 1) by lra.
  destruct (trees_gen eps na m a l es He' Hv Hl Hn) as (ts & E & W & A & D).
  { eapply Forall_impl; [|exact HF]. intros e (X1 & _ & X2). auto. }
  assert (P : (0 < l_dim (leaf_obj a (Plain l)))%nat) by (destruct l; cbn; lia).
  pose proof (c07_dynamic_nary_stacks garbage (leaf_obj a (Plain l)) ts P W A) as Q.
  exists ts, (nary_dyn garbage (leaf_obj a (Plain l)) ts).
  split; [exact E|]. split; [reflexivity|].
  assert (Rw : map mrows (map (true_jacobian (leaf_obj a (Plain l))) ts) = map esize es).
  { clear - D W. induction D as [|e T es ts (D1 & _) _ IH]; [reflexivity|].
    inversion_clear W as [|? ? WT Wts]. cbn. rewrite (IH Wts).
    now rewrite (proj1 (true_jacobian_shape _ _ WT)), D1. }
  assert (SJ : has_shape (list_sum (map esize es)) (tsize (kind_of l)) (nary_dyn garbage (leaf_obj a (Plain l)) ts)).
  { destruct Q as (R1 & C1 & _). split.
    - rewrite R1, vstack_rows, Rw. reflexivity.
    - rewrite C1. apply vstack_cols. }
  split; [exact SJ|]. intros tau Ht.
  destruct (elements_converge eps na m a l He Hv Hl Hn es ts HF W D) as (ps & vs & E1 & E2 & E3 & N).
  unfold numericalCompoundJacobian. rewrite E1, E2.
  apply (near_impl (fun h => forall j, (j < tsize (kind_of l))%nat -> h <> 0 ->
    exists ws ds, compound_with_delta eps na a j h m ps = Some ws /\ compound_minus eps ws vs = Some ds /\
      map vdim ds = map esize es /\
      forall i T d q, nth_error ts i = Some T -> nth_error ds i = Some d -> (q < vdim d)%nat ->
        Rabs (coord d q / h - mget (true_jacobian (leaf_obj a (Plain l)) T) q j) < tau)).
  2:{ apply near_forall_lt. intros j Hj. now apply N. }
  intros h Col Nz.
  assert (Cj : forall j, (j < tsize (kind_of l))%nat ->
    exists c, compound_column eps garbage' na a h m ps vs j = Some c /\
      forall r, (r < list_sum (map esize es))%nat ->
        Rabs (c r - mget (nary_dyn garbage (leaf_obj a (Plain l)) ts) r j) < tau).
  { intros j Hj. destruct (Col j Hj Nz) as (ws & ds & W1 & W2 & W3 & W4).
    unfold compound_column. rewrite W1, W2. eexists. split; [reflexivity|].
    intros r Hr. cbv beta.
    destruct Q as (R1 & C1 & Qe). rewrite Qe by (rewrite ?(proj1 SJ), ?(proj2 SJ); assumption).
    destruct (row_element _ _ Hr) as (i & n & q & Ei & Hq & ->).
    pose proof Ei as Ed. rewrite <- W3 in Ed. rewrite nth_error_map in Ed.
    destruct (nth_error ds i) as [d|] eqn:Di; [|discriminate]. injection Ed as Ed.
    pose proof Ei as Et. rewrite <- Rw in Et. rewrite nth_error_map in Et.
    destruct (nth_error (map (true_jacobian (leaf_obj a (Plain l))) ts) i) as [Jt|] eqn:Ti; [|discriminate].
    injection Et as Et. pose proof Ti as Ti'. rewrite nth_error_map in Ti'.
    destruct (nth_error ts i) as [T|] eqn:Tt; [|discriminate]. injection Ti' as Ti'.
    assert (Hqd : (q < vdim d)%nat) by (now rewrite Ed).
    assert (Hc : (j < mcols Jt)%nat).
    { rewrite <- Ti'. rewrite Forall_forall in W. 
      rewrite (proj2 (true_jacobian_shape _ _ (W T (nth_error_In _ _ Tt)))). exact Hj. }
    assert (B1 : mget (compound_vector garbage' ds) (list_sum (firstn i (map esize es)) + q) 0 = coord d q).
    { unfold compound_vector. cbn [mget].
      destruct (comma_fold ds (Comma 0 0 garbage')) as (_ & _ & H). cbn [ci_row ci_rows] in H.
      specialize (H i d q Di Hqd). rewrite sum_sequence_list_sum, <- firstn_map, W3 in H. exact H. }
    assert (B2 : mget (vstack (tsize (kind_of l)) (map (true_jacobian (leaf_obj a (Plain l))) ts))
        (list_sum (firstn i (map esize es)) + q) j = mget Jt q j).
    { assert (Hr' : (q < mrows Jt)%nat) by (now rewrite Et).
      rewrite <- (mnth_in Jt q j Hr' Hc), <- (vstack_nth (tsize (kind_of l)) _ i _ q j Ti Hr' Hj), Rw.
      rewrite <- mnth_in; [reflexivity| |rewrite vstack_cols; exact Hj].
      rewrite vstack_rows, Rw. exact Hr. }
    change (l_dim (leaf_obj a (Plain l))) with (tsize (kind_of l)) in *.
    rewrite B1, B2, <- Ti'. eapply W4; eauto. }
  destruct (all_some_choice (compound_column eps garbage' na a h m ps vs) (tsize (kind_of l))) as (cs & Ec & Lc & Nc).
  { intros j Hj. destruct (Cj j Hj) as (c & Hc & _). eauto. }
  rewrite Ec. cbn [option_map]. eexists. split; [reflexivity|]. split.
  { split; [|reflexivity]. cbn [mrows]. now rewrite sum_sequence_list_sum, E3. }
  intros i j Hi Hj. cbn [mget].
  destruct (Cj j Hj) as (c & Hc & Bc). rewrite (Nc j (fun _ => 0) Hj) in Hc. injection Hc as Hc.
  rewrite Hc. now apply Bc.
Qed.
Print Assumptions c09_compound_converges.

(** The hypotheses are met: (R v, v, |exp(phi) q^-1 R v|) with respect to R. *)
Example c09_compound_example : exists ts J, trees (1/4) 100 ex_m ex_comp = Some ts /\
  nary_dyn (fun _ _ => 5) (leaf_obj 1 (Plain LMat)) ts = J /\ has_shape 7 3 J /\
  forall tau, 0 < tau -> near (fun h => h <> 0 ->
    exists N, numericalCompoundJacobian (1/4) (fun _ => 7) h 100 ex_m ex_comp 1 LMat = Some N /\
      has_shape 7 3 N /\ forall i j, (i < 7)%nat -> (j < 3)%nat -> Rabs (mget N i j - mget J i j) < tau).
Proof.
  assert (He : 0 < 1/4 < 1) by lra.
  assert (He0 : 0 <= 1/4 < 1) by lra.
  apply (c09_compound_converges (1/4) (fun _ _ => 5) (fun _ => 7) 100 ex_m ex_comp 1 LMat He);
    [apply ex_rot|reflexivity|discriminate|].
  unfold ex_comp. constructor; [|constructor; [|constructor; [|constructor]]].
  - split; [|split].
    + assert (G : good (1/4) ex_m (XBin ORotate (XLeaf 1 (Plain LMat)) (XLeaf 6 (Plain LTrans))) KTrans).
      { split; [reflexivity|]. split; cbn; repeat split; auto; apply ex_rot. }
      eexists _, _. split; [exact G|]. rewrite (good_means _ _ _ _ (proj1 He0) G). cbn. reflexivity.
    + eexists _, _. reflexivity.
    + cbn. repeat split. intros _ [H|H] i; discriminate.
  - split; [|split; [|exact I]].
    + assert (G : good (1/4) ex_m (XLeaf 6 (Plain LTrans)) KTrans).
      { split; [reflexivity|]. split; cbn; auto. }
      eexists _, _. split; [exact G|]. rewrite (good_means _ _ _ _ (proj1 He0) G). cbn. reflexivity.
    + eexists _, _. reflexivity.
  - split; [|split; [|apply ex_d1_smooth]].
    + eexists _, _. split; [exact ex_d1_good|].
      rewrite (good_means _ _ _ _ (proj1 He0) ex_d1_good). cbn. reflexivity.
    + eexists _, _. reflexivity.
Qed.
