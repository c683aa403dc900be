(** C07: the dynamic Jacobian of a compound expression is the derivative of all its
    elements, each in its own rows. *)

From Coq Require Import Reals Lra Lia List Bool Arith.
From Verif Require Import Mat ModelMeta SpecMeta MetaProofs ModelJac SpecJac JacProofs NaryProofs PropsJac V3
  ModelLeaf SpecLeaf LeafProofs ModelExpr SpecExpr ExprProofs PropsExpr Calc SpecDeriv DerivProofs
  DerivUn DerivTree JacDef PropsDeriv ModelCompound ModelEstim PropsEstim.
Import ListNotations.
Local Open Scope R_scope.
Local Open Scope mat_scope.

Local Arguments mvec : simpl never.

(** Tangent size of an expression, and the first row of the i-th element of a compound. *)
Definition esize (e : expr) : nat := match ekind e with Some k => tsize k | None => 0%nat end.
Definition first_row (es : list expr) (i : nat) : nat := list_sum (map esize (firstn i es)).

Lemma trees_gen eps na m a l es : 0 <= eps < 1 -> valid (m a) -> vty (m a) = Plain l -> na <> a ->
  Forall (fun e => (exists k x, good eps m e k /\ means eps m e = Some x) /\
                   smooth eps (fun b => den (m b)) a e) es ->
  exists ts, trees eps na m es = Some ts /\ Forall wf_tree ts /\
    Forall (addr_unambiguous (leaf_obj a (Plain l))) ts /\
    Forall2 (fun e T => edim T = esize e /\
      is_derivative eps m e a (true_jacobian (leaf_obj a (Plain l)) T)) es ts.
Proof.
  intros He Hv Hl Hn. induction 1 as [|e es ((k & x & G & Hx) & Hs) _ IH].
  - exists []. cbn. auto.
  - destruct IH as (ts & E & W & A & D).
    destruct (prepare_total e k (proj1 G)) as (p & t & P & _ & _).
    destruct (core_gen eps na m e k a l x He G Hx Hv Hl Hs p t P)
      as (v & t0 & E0 & W0 & D0 & K0 & V0 & J0).
    exists (t0 :: ts). cbn [trees]. rewrite P, E0, E. split; [reflexivity|].
    split; [constructor; auto|]. split; constructor; auto.
    + destruct (tree_leaves _ _ _ _ _ _ E0) as (_ & N). split.
      * intros H. apply Hn. symmetry. exact (N _ H).
      * rewrite (tree_leaves_env eps na m p e v t0 (proj1 (proj2 G)) (prepare_leaves _ _ _ P) E0).
        intros q Hq Ea. apply in_map_iff in Hq as (b & <- & _). cbn in Ea. subst b. now rewrite Hl.
    + split; [|exact J0]. rewrite D0. unfold vdim, esize. now rewrite K0, (proj1 G).
Qed.

(** Every element moves with the velocity given by its own rows of the Jacobian. *)
Theorem c07_dynamic_compound_derivative : forall eps garbage na m es a l, 0 <= eps < 1 ->
  valid (m a) -> vty (m a) = Plain l -> na <> a ->
  Forall (fun e => (exists k x, good eps m e k /\ means eps m e = Some x) /\
                   smooth eps (fun b => den (m b)) a e) es ->
  exists ts J, trees eps na m es = Some ts /\
    nary_dyn garbage (leaf_obj a (Plain l)) ts = J /\
    has_shape (list_sum (map esize es)) (tsize (kind_of l)) J /\
    forall i e, nth_error es i = Some e ->
    forall c d, c 0 = den (m a) -> moves c d ->
      moves_opt (fun s => deval eps (dupd (fun b => den (m b)) a (c s)) e)
        (fun q => mvec J d (first_row es i + q)).
Proof.
  intros eps garbage na m es a l He Hv Hl Hn HF.
  destruct (trees_gen eps na m a l es He Hv Hl Hn HF) as (ts & E & W & A & D).
  assert (P : (0 < l_dim (leaf_obj a (Plain l)))%nat) by (destruct l; cbn; lia).
  pose proof (c07_dynamic_nary_stacks garbage (leaf_obj a (Plain l)) ts P W A) as Q.
  exists ts, (nary_dyn garbage (leaf_obj a (Plain l)) ts).
  split; [exact E|]. split; [reflexivity|].
  assert (Rw : map mrows (map (true_jacobian (leaf_obj a (Plain l))) ts) = map esize es).
  { clear - D W. induction D as [|e T es ts (D1 & _) _ IH]; [reflexivity|].
    inversion_clear W as [|? ? WT Wts]. cbn. rewrite (IH Wts).
    now rewrite (proj1 (true_jacobian_shape _ _ WT)), D1. }
  split.
  { destruct Q as (R1 & C1 & _). split.
    - rewrite R1, vstack_rows, Rw. reflexivity.
    - rewrite C1. apply vstack_cols. }
  intros i e Hi c d C0 Mc.
  assert (exists T, nth_error ts i = Some T /\ wf_tree T /\ edim T = esize e /\
     is_derivative eps m e a (true_jacobian (leaf_obj a (Plain l)) T)) as (T & ET & WT & DT & JT).
  { clear - D W Hi. revert i Hi. induction D as [|e0 T es ts (D1 & D2) _ IH]; intros i Hi;
      [destruct i; discriminate|]. inversion_clear W as [|? ? WT Wts].
    destruct i as [|i]; cbn in *; [injection Hi as <-; eauto|]. now apply IH. }
  pose proof (JT c d C0 Mc) as U.
  rewrite Forall_forall in HF. pose proof (HF e (nth_error_In _ _ Hi)) as ((k & x & G & Hx) & _).
  apply (mo_ext _ _ _ k U).
  - intros y Ey. rewrite (core_at0 eps m e k a x He G Hx c C0) in Ey. injection Ey as <-.
    apply (good_deval eps m e k x (proj1 He) G (core_x _ _ _ _ _ He G Hx)).
  - intros q Hq. rewrite (mvec_meq _ _ _ _ Q).
    assert (Ej : nth_error (map (true_jacobian (leaf_obj a (Plain l))) ts) i
                 = Some (true_jacobian (leaf_obj a (Plain l)) T)) by (now apply map_nth_error).
    unfold mvec. rewrite vstack_cols, (proj2 (true_jacobian_shape _ _ WT)).
    apply rsum_ext. intros j Hj. f_equal.
    assert (Hr : (q < mrows (true_jacobian (leaf_obj a (Plain l)) T))%nat).
    { rewrite (proj1 (true_jacobian_shape _ _ WT)), DT. unfold esize. now rewrite (proj1 G). }
    rewrite <- (vstack_nth _ _ i _ q j Ej Hr Hj). rewrite Rw. unfold start_of, first_row.
    now rewrite firstn_map.
Qed.
Print Assumptions c07_dynamic_compound_derivative.

(** Satisfiability: the compound (R v, v, log(R^-1)...): the rotated vector, a vector that
    does not contain R, and the norm of exp(phi) q^-1 R v, differentiated with respect to R. *)
Definition ex_comp : list expr :=
  [XBin ORotate (XLeaf 1 (Plain LMat)) (XLeaf 6 (Plain LTrans)); XLeaf 6 (Plain LTrans); ex_d1].
Example c07_derivative_example : exists ts J, trees (1/4) 100 ex_m ex_comp = Some ts /\
  nary_dyn (fun _ _ => 5) (leaf_obj 1 (Plain LMat)) ts = J /\ has_shape 7 3 J /\
  forall c d, c 0 = den (ex_m 1%nat) -> moves c d ->
    moves_opt (fun s => deval (1/4) (dupd (fun b => den (ex_m b)) 1 (c s)) ex_d1)
      (fun q => mvec J d (6 + q)).
Proof.
  assert (He : 0 <= 1/4 < 1) by lra.
  destruct (c07_dynamic_compound_derivative (1/4) (fun _ _ => 5) 100 ex_m ex_comp 1 LMat He)
    as (ts & J & A & B & C & D).
  - apply ex_rot.
  - reflexivity.
  - discriminate.
  - unfold ex_comp. constructor; [|constructor; [|constructor; [|constructor]]].
    + split.
      * assert (G : good (1/4) ex_m (XBin ORotate (XLeaf 1 (Plain LMat)) (XLeaf 6 (Plain LTrans))) KTrans).
        { split; [reflexivity|]. split; cbn; repeat split; auto; apply ex_rot. }
        eexists _, _. split; [exact G|]. rewrite (good_means _ _ _ _ (proj1 He) G). cbn. reflexivity.
      * cbn. repeat split. intros _ [H|H] i; discriminate.
    + split; [|exact I].
      assert (G : good (1/4) ex_m (XLeaf 6 (Plain LTrans)) KTrans).
      { split; [reflexivity|]. split; cbn; auto. }
      eexists _, _. split; [exact G|]. rewrite (good_means _ _ _ _ (proj1 He) G). cbn. reflexivity.
    + split; [|apply ex_d1_smooth]. eexists _, _. split; [exact ex_d1_good|].
      rewrite (good_means _ _ _ _ (proj1 He) ex_d1_good). cbn. reflexivity.
  - exists ts, J. split; [exact A|]. split; [exact B|]. split; [exact C|].
    intros c d C0 M. exact (D 2%nat ex_d1 eq_refl c d C0 M).
Qed.
