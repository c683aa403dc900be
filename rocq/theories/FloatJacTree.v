(** Jacobians of whole trees on doubles. *)

From Coq Require Import ZArith Reals List Bool Arith Lra Lia Psatz.
From Flocq Require Import Core BinarySingleNaN.
From Verif Require Import Mat V3 ModelLeaf SpecLeaf ModelFloat SpecFlt FloatProofs FloatDrift FloatExp ModelFloatQ SpecFltQ FloatQuat FloatAct SpecFltLog.
From Verif Require Import ModelJac SpecJac JacProofs LeafProofs ModelExpr SpecExpr ExprProofs SpecDeriv DerivProofs.
From Verif Require Import ModelFloatExpr SpecFltExpr FloatNorm FloatStep FloatStep2 FloatTree ModelFloatJac SpecFltJac FloatJac FloatJacLoc.
Import ListNotations.
Local Open Scope R_scope.

Lemma japprox_nonneg B e r c F J : japprox B e r c F J -> (0 < r)%nat -> (0 < c)%nat -> 0 <= B.
Proof. intros H Hr Hc. destruct (H 0%nat 0%nat Hr Hc) as (_ & A & _). pose proof (Rabs_pos (mnth J 0 0)). lra. Qed.

Lemma tsize_6 k : (1 <= tsize k <= 6)%nat.
Proof. destruct k; cbn; lia. Qed.

Section JacTree.
  Variable c : R.
  Hypothesis C0 : / 2 ^ 44 <= c.

  Lemma jfits_cost m a p : jfits c m a p -> mentions a p = true -> jsize m a p <= vast /\ 0 <= grown c (jcost a p) <= / 1000 /\ INR (jcost a p) * c <= / 2000.
  Proof.
    intros H Ha. assert (X : jsize m a p <= vast /\ INR (jcost a p) * c <= / 2000) by (destruct p; cbn [jfits] in H; specialize (H Ha); tauto).
    destruct X as [A B]. split; [exact A|]. split; [now apply grown_small|exact B].
  Qed.
  Lemma less_cost a b : (a <= b)%nat -> INR b * c <= / 2000 -> INR a * c <= / 2000.
  Proof.
    intros H B. eapply Rle_trans; [|exact B]. apply Rmult_le_compat_r; [|now apply le_INR].
    assert (0 < / 2 ^ 44) by (apply Rinv_0_lt_compat, pow_lt; lra). lra.
  Qed.

  Lemma chain_cost a b : (1 + grown c a) * (1 + grown c b) = 1 + grown c (a + b).
  Proof. apply grown_plus. Qed.

  Variable M : libm.
  Variable ord : list bool -> order.
  Variable qord : list bool -> qorder.
  Variable jord : list bool -> order.
  Variable sch : list bool -> nat -> nat -> nat -> sums.
  Hypothesis HM : one_ulp M.
  Hypothesis HA : acos_ulp M.
  Hypothesis Hq : forall path, sums_four (qord path).
  Hypothesis Hs : forall path r k n, (1 <= n)%nat -> adds_all (sch path r k n) n.
  Variable mem : nat -> fvalue.
  Variable mr : env.
  Variables na a : nat.
  Hypothesis Hna : na <> a.
  Notation m := (fun b => den (mr b)).
  Notation APX p := (approximates (size m p) (grown c (fst (cost p))) (grown c (snd (cost p)))).
  Notation FJ := (fjac M ord qord jord sch mem).

  Definition jac_ok (path : list bool) (p : expr) (v : value) (T : etree) : Prop :=
    if mentions a p then
      exists F, FJ path a p = Some (Some F) /\ has_shape (vdim v) (vdim (mr a)) (dyn a T) /\ nonempty (dyn a T) = true /\
        japprox (jsize m a p) (grown c (jcost a p)) (vdim v) (vdim (mr a)) F (dyn a T)
    else FJ path a p = Some None /\ dyn a T = mempty.

  Definition node_ok (path : list bool) (p : expr) : Prop :=
    exists f v T, feval_p M ord qord mem path p = Some f /\ typ p = Some (Plain (flty f)) /\ tree 0 na mr p = Some (v, T) /\
      vty v = Plain (flty f) /\ valid v /\ deval 0 m p = Some (den v) /\ APX p f (den v) /\ jac_ok path p v T.

  Lemma dims (f : fvalue) v : vty v = Plain (flty f) -> fdim f = vdim v.
  Proof. intros E. unfold fdim, vdim, vkind. now rewrite E. Qed.
  Lemma dim_val p f v : typ p = Some (Plain (flty f)) -> vty v = Plain (flty f) -> dim p = vdim v.
  Proof. intros E E'. unfold dim, vdim, vkind. now rewrite E, E'. Qed.
  Lemma vdim_6 v : (1 <= vdim v <= 6)%nat.
  Proof. apply tsize_6. Qed.
  Lemma shape_nonempty r k A : has_shape r k A -> (0 < r)%nat -> (0 < k)%nat -> nonempty A = true.
  Proof. intros H Hr Hk. rewrite (nonempty_shape _ _ _ H). apply Nat.ltb_lt in Hr, Hk. now rewrite Hr, Hk. Qed.

  Lemma un_node op p path : fits c m (XUn op p) -> jfits c m a (XUn op p) -> (exists t, typ (XUn op p) = Some t) ->
    node_ok (true :: path) p -> node_ok path (XUn op p).
  Proof.
    intros Hf Hj (t & Ht) (f & v & T & E1 & E2 & E3 & E4 & E5 & E6 & E7 & E8).
    cbn [typ] in Ht. rewrite E2 in Ht.
    destruct (un_ok M HM HA c C0 m (ord path) op p f (den v) t Hf E2 E7 E6 Ht) as (f' & x' & G1 & -> & G3 & G4).
    rewrite <- E4 in Ht. pose proof (un_sound 0 (Rle_refl 0) op v _ Ht E5 (fun _ => exp_exact_zero _)) as (S1 & S2).
    rewrite G3 in S1. destruct (sem_un 0 op v) as [w|] eqn:W; [|discriminate]. injection S1 as Dw.
    destruct (S2 w eq_refl) as (Tw & Vw). rewrite <- Dw in G4, G3.
    exists f', w, (EUn na (vdim w) (orzero (jac_un 0 op w v) (vdim w) (vdim v)) T).
    cbn [feval_p typ tree deval]. rewrite E1, E2, E3, E6, W. rewrite E4 in Ht. split; [exact G1|]. split; [exact Ht|].
    split; [reflexivity|]. split; [exact Tw|]. split; [exact Vw|]. split; [exact G3|]. split; [exact G4|].
    unfold jac_ok in *. cbn [mentions fjac dyn]. apply Nat.eqb_neq in Hna as Hna'. rewrite Hna', E1, G1.
    destruct (mentions a p) eqn:Ma.
    - destruct E8 as (F & F1 & F2 & F3 & F4). rewrite F1, F3.
      pose proof (jfits_cost _ _ _ Hj Ma) as (V & G & Gc). cbn [jfits mentions] in Hj. specialize (Hj Ma). destruct Hj as (_ & _ & Hjp & Hop).
      pose proof (jfits_cost _ _ _ Hjp Ma) as (Vp & Gp & Gcp). cbn [jcost] in Gc.
      assert (HL : INR (lcost_un op p) * c <= / 2000) by (eapply less_cost; [|exact Gc]; lia).
      destruct (un_local c C0 m M (jord path) op p f (den v) f' (den w) v w HM E6 Hf Hop HL E7 G4 Ht E4 E5 eq_refl W Tw eq_refl) as (L & J & L1 & L2 & L3 & L4).
      rewrite L1, L2. cbn [orzero]. rewrite (dims _ _ E4).
      pose proof (vdim_6 v) as D1. pose proof (vdim_6 w) as D2. pose proof (vdim_6 (mr a)) as D3.
      assert (SH : has_shape (vdim w) (vdim (mr a)) (mmul J (dyn a T))) by (split; [apply L3|apply F2]).
      eexists. split; [reflexivity|]. split; [exact SH|]. split; [apply (shape_nonempty _ _ _ SH); lia|].
      cbn [jsize jcost] in V |- *. rewrite (dim_val _ _ _ E2 E4) in V |- *.
      assert (0 <= lsize_un m op p) by (apply (japprox_nonneg _ _ _ _ _ _ L4); lia).
      assert (0 <= jsize m a p) by (apply (japprox_nonneg _ _ _ _ _ _ F4); lia).
      eapply japprox_mono; [eapply prod_step; [exact Hs|exact L4|exact F4|apply L3|exact D1| | | | |apply Rmax_r|apply Rmax_l|exact V]| | | |].
      + now apply grown_small.
      + exact Gp.
      + assumption.
      + assumption.
      + rewrite chain_cost. pose proof (grown_nonneg c C0 (lcost_un op p + jcost a p)). assert (0 < / 2 ^ 44) by (apply Rinv_0_lt_compat, pow_lt; lra).
        assert (1 * 1 <= (1 + grown c (lcost_un op p + jcost a p)) * (1 + / 2 ^ 44)) by (apply Rmult_le_compat; lra). lra.
      + apply Rle_refl.
      + apply step2; exact C0.
      + pose proof tiny_pos. eapply Rle_trans; [|apply Rmax_l]. lra.
    - destruct E8 as (F1 & F2). rewrite F1, F2. cbn. auto.
  Qed.

  Lemma bin_node op l r path : fits c m (XBin op l r) -> jfits c m a (XBin op l r) -> (exists t, typ (XBin op l r) = Some t) ->
    node_ok (true :: path) l -> node_ok (false :: path) r -> node_ok path (XBin op l r).
  Proof.
    intros Hf Hj (t & Ht) (fa & va & Ta & A1 & A2 & A3 & A4 & A5 & A6 & A7 & A8) (fb & vb & Tb & B1 & B2 & B3 & B4 & B5 & B6 & B7 & B8).
    cbn [typ] in Ht. rewrite A2, B2 in Ht.
    destruct (bin_ok c C0 m (ord path) (qord path) op l r fa fb (den va) (den vb) t (Hq path) Hf A2 B2 A7 B7 B6 Ht) as (f' & x' & G1 & -> & G3 & G4).
    rewrite <- A4, <- B4 in Ht. pose proof (bin_sound op va vb _ Ht A5 B5) as (S1 & S2).
    rewrite G3 in S1. destruct (sem_bin op va vb) as [w|] eqn:W; [|discriminate]. injection S1 as Dw.
    destruct (S2 w eq_refl) as (Tw & Vw). rewrite <- Dw in G4, G3.
    exists f', w, (EBin na (vdim w) (orzero (jac_l op w va vb) (vdim w) (vdim va)) (orzero (jac_r op w va vb) (vdim w) (vdim vb)) Ta Tb).
    cbn [feval_p typ tree deval]. rewrite A1, B1, A2, B2, A3, B3, A6, B6, W. rewrite A4, B4 in Ht. split; [exact G1|]. split; [exact Ht|].
    split; [reflexivity|]. split; [exact Tw|]. split; [exact Vw|]. split; [exact G3|]. split; [exact G4|].
    unfold jac_ok in *. cbn [mentions fjac dyn]. apply Nat.eqb_neq in Hna as Hna'. rewrite Hna', A1, B1, G1.
    pose proof (vdim_6 va) as D1. pose proof (vdim_6 vb) as D2. pose proof (vdim_6 (mr a)) as D3. pose proof (vdim_6 w) as D4.
    assert (U : 0 < / 2 ^ 44) by (apply Rinv_0_lt_compat, pow_lt; lra).
    assert (T0 : forall x, 0 <= Rmax tiny x) by (intros; pose proof tiny_pos; eapply Rle_trans; [|apply Rmax_l]; lra).
    assert (NN : forall k, 0 <= (1 + grown c k) * (1 + / 2 ^ 44) - 1).
    { intros k. pose proof (grown_nonneg c C0 k). assert (1 * 1 <= (1 + grown c k) * (1 + / 2 ^ 44)) by (apply Rmult_le_compat; lra). lra. }
    destruct (mentions a l) eqn:Ml; destruct (mentions a r) eqn:Mr; cbn [orb].
    - destruct A8 as (F & F1 & F2 & F3 & F4). destruct B8 as (F' & F1' & F2' & F3' & F4'). rewrite F1, F1', F3, F3'. cbn [andb].
      assert (Mn : mentions a (XBin op l r) = true) by (cbn; now rewrite Ml).
      pose proof (jfits_cost _ _ _ Hj Mn) as (V & G & Gc). cbn [jfits] in Hj. specialize (Hj Mn). destruct Hj as (_ & _ & Hjl & Hjr & Hop).
      pose proof (jfits_cost _ _ _ Hjl Ml) as (Vl & Gl & Gcl). pose proof (jfits_cost _ _ _ Hjr Mr) as (Vr & Gr & Gcr).
      cbn [jcost jsize] in *. rewrite Ml, Mr in *. rewrite (dim_val _ _ _ A2 A4), (dim_val _ _ _ B2 B4) in *.
      assert (HL : INR (lcost_l op l r) * c <= / 2000) by (eapply less_cost; [|exact Gc]; lia).
      assert (HR : INR (lcost_r op l r) * c <= / 2000) by (eapply less_cost; [|exact Gc]; lia).
      destruct (left_local c C0 m (jord path) op l r fa fb f' va vb w Hf Hop HL A7 B7 G4 Ht A4 B4 Tw) as (L & J & L1 & L2 & L3 & L4).
      destruct (right_local c C0 m (jord path) op l r fa fb f' va vb w Hf Hop HR A7 B7 G4 Ht A4 B4 Tw) as (L' & J' & L1' & L2' & L3' & L4').
      rewrite L1, L1', L2, L2'. cbn [orzero]. rewrite (dims _ _ A4), (dims _ _ B4).
      assert (SH : has_shape (vdim w) (vdim (mr a)) (madd (mmul J (dyn a Ta)) (mmul J' (dyn a Tb)))) by (split; [apply L3|apply F2]).
      eexists. split; [reflexivity|]. split; [exact SH|]. split; [apply (shape_nonempty _ _ _ SH); lia|].
      assert (0 <= lsize_l m op l r) by (apply (japprox_nonneg _ _ _ _ _ _ L4); lia).
      assert (0 <= jsize m a l) by (apply (japprox_nonneg _ _ _ _ _ _ F4); lia).
      assert (0 <= lsize_r m op l r) by (apply (japprox_nonneg _ _ _ _ _ _ L4'); lia).
      assert (0 <= jsize m a r) by (apply (japprox_nonneg _ _ _ _ _ _ F4'); lia).
      set (cL := (lcost_l op l r + jcost a l)%nat) in *. set (cR := (lcost_r op l r + jcost a r)%nat) in *.
      assert (GM : 0 <= grown c (Nat.max cL cR) <= / 1000).
      { apply (less_small c C0 _ (Nat.max (cL + 1) (cR + 1))); [lia|exact Gc]. }
      eapply japprox_mono; [eapply (prod2_step _ _ _ _ _ _ _ _ _ _ (grown c (Nat.max cL cR)));
        [exact Hs|exact L4|exact F4|exact L4'|exact F4'|apply L3|apply L3'| | |exact D1|exact D2| | | | | | | | | | | |apply Rmax_r|apply Rmax_l|exact V]| | | |].
      + destruct L3 as [-> _]. destruct L3' as [-> _]. reflexivity.
      + destruct F2 as [_ ->]. destruct F2' as [_ ->]. reflexivity.
      + now apply grown_small.
      + exact Gl.
      + now apply grown_small.
      + exact Gr.
      + rewrite chain_cost. apply Rplus_le_compat_l, grown_mono; [exact C0|]. unfold cL. lia.
      + rewrite chain_cost. apply Rplus_le_compat_l, grown_mono; [exact C0|]. unfold cR. lia.
      + lra.
      + assumption.
      + assumption.
      + assumption.
      + assumption.
      + apply NN.
      + apply Rle_refl.
      + eapply Rle_trans; [apply step1; exact C0|]. apply grown_mono; [exact C0|]. lia.
      + apply T0.
    - destruct A8 as (F & F1 & F2 & F3 & F4). destruct B8 as (F1' & F2'). rewrite F1, F1', F3, F2'. cbn [nonempty mempty msize mzero mrows mcols Nat.mul Nat.ltb Nat.leb andb].
      assert (Mn : mentions a (XBin op l r) = true) by (cbn; now rewrite Ml).
      pose proof (jfits_cost _ _ _ Hj Mn) as (V & G & Gc). cbn [jfits] in Hj. specialize (Hj Mn). destruct Hj as (_ & _ & Hjl & Hjr & Hop).
      pose proof (jfits_cost _ _ _ Hjl Ml) as (Vl & Gl & Gcl).
      cbn [jcost jsize] in *. rewrite Ml, Mr in *. rewrite (dim_val _ _ _ A2 A4) in *.
      assert (HL : INR (lcost_l op l r) * c <= / 2000) by (eapply less_cost; [|exact Gc]; lia).
      destruct (left_local c C0 m (jord path) op l r fa fb f' va vb w Hf Hop HL A7 B7 G4 Ht A4 B4 Tw) as (L & J & L1 & L2 & L3 & L4).
      rewrite L1, L2. cbn [orzero option_map]. rewrite (dims _ _ A4).
      assert (SH : has_shape (vdim w) (vdim (mr a)) (mmul J (dyn a Ta))) by (split; [apply L3|apply F2]).
      eexists. split; [reflexivity|]. split; [exact SH|]. split; [apply (shape_nonempty _ _ _ SH); lia|].
      assert (0 <= lsize_l m op l r) by (apply (japprox_nonneg _ _ _ _ _ _ L4); lia).
      assert (0 <= jsize m a l) by (apply (japprox_nonneg _ _ _ _ _ _ F4); lia).
      eapply japprox_mono; [eapply prod_step; [exact Hs|exact L4|exact F4|apply L3|exact D1| | | | |apply Rmax_r|apply Rmax_l|exact V]| | | |].
      + now apply grown_small.
      + exact Gl.
      + assumption.
      + assumption.
      + rewrite chain_cost. apply NN.
      + apply Rle_refl.
      + apply step2; exact C0.
      + apply T0.
    - destruct A8 as (F1' & F2'). destruct B8 as (F & F1 & F2 & F3 & F4). rewrite F1, F1', F3, F2'. cbn [nonempty mempty msize mzero mrows mcols Nat.mul Nat.ltb Nat.leb andb].
      assert (Mn : mentions a (XBin op l r) = true) by (cbn; now rewrite Ml).
      pose proof (jfits_cost _ _ _ Hj Mn) as (V & G & Gc). cbn [jfits] in Hj. specialize (Hj Mn). destruct Hj as (_ & _ & Hjl & Hjr & Hop).
      pose proof (jfits_cost _ _ _ Hjr Mr) as (Vr & Gr & Gcr).
      cbn [jcost jsize] in *. rewrite Ml in *. rewrite (dim_val _ _ _ B2 B4) in *.
      assert (HR : INR (lcost_r op l r) * c <= / 2000) by (eapply less_cost; [|exact Gc]; lia).
      destruct (right_local c C0 m (jord path) op l r fa fb f' va vb w Hf Hop HR A7 B7 G4 Ht A4 B4 Tw) as (L & J & L1 & L2 & L3 & L4).
      rewrite L1, L2. cbn [orzero option_map]. rewrite (dims _ _ B4).
      assert (SH : has_shape (vdim w) (vdim (mr a)) (mmul J (dyn a Tb))) by (split; [apply L3|apply F2]).
      eexists. split; [reflexivity|]. split; [exact SH|]. split; [apply (shape_nonempty _ _ _ SH); lia|].
      assert (0 <= lsize_r m op l r) by (apply (japprox_nonneg _ _ _ _ _ _ L4); lia).
      assert (0 <= jsize m a r) by (apply (japprox_nonneg _ _ _ _ _ _ F4); lia).
      eapply japprox_mono; [eapply prod_step; [exact Hs|exact L4|exact F4|apply L3|exact D2| | | | |apply Rmax_r|apply Rmax_l|exact V]| | | |].
      + now apply grown_small.
      + exact Gr.
      + assumption.
      + assumption.
      + rewrite chain_cost. apply NN.
      + apply Rle_refl.
      + apply step2; exact C0.
      + apply T0.
    - destruct A8 as (F1 & F2). destruct B8 as (F1' & F2'). rewrite F1, F1', F2, F2'. cbn. auto.
  Qed.

  (** ** Whole trees *)
  Variable d : R.
  Hypothesis Hd : 0 <= d <= c.

  Theorem jac_tree_ok p : fits c m p -> jfits c m a p -> stored d mem m p -> env_ok mr p ->
    (exists t, typ p = Some t) -> forall path, node_ok path p.
  Proof.
    induction p as [b t0|op p IH|op l IHl r IHr]; intros Hf Hj Hst He (t & Ht) path.
    - cbn [stored env_ok] in *. destruct Hst as [-> Hb]. destruct He as [Tb Vb].
      exists (mem b), (mr b), (ELeaf (leaf_obj b (Plain (flty (mem b))))). cbn [feval_p typ tree deval].
      split; [reflexivity|]. split; [reflexivity|]. split; [reflexivity|]. split; [exact Tb|]. split; [exact Vb|]. split; [reflexivity|]. split.
      + cbn [size cost fst snd]. rewrite grown_1.
        assert (0 <= length_of (den (mr b))).
        { destruct (den (mr b)); cbn [length_of]; try lra; try apply vnorm_nonneg; try apply Rabs_pos. apply Rplus_le_le_0_compat; apply vnorm_nonneg. }
        eapply approximates_mono; [exact Hb|apply Hd|apply Rmax_r|apply Hd|apply Hd|assumption].
      + unfold jac_ok. cbn [mentions fjac dyn]. change (l_addr (leaf_obj b (Plain (flty (mem b))))) with b. destruct (Nat.eqb_spec b a) as [->|N]; [|auto].
        assert (E : l_dim (leaf_obj a (Plain (flty (mem a)))) = vdim (mr a)) by (unfold vdim, vkind; now rewrite Tb).
        rewrite E. pose proof (vdim_6 (mr a)) as D. assert (SH : has_shape (vdim (mr a)) (vdim (mr a)) (mid (vdim (mr a)))) by (split; reflexivity).
        exists fid. split; [reflexivity|]. split; [exact SH|]. split; [apply (shape_nonempty _ _ _ SH); lia|].
        cbn [jsize jcost]. apply j_id; [lra|]. apply grown_nonneg, C0.
    - apply un_node; [exact Hf|exact Hj|now exists t|]. cbn [fits] in Hf. cbn [stored env_ok typ] in *.
      apply IH; [tauto| |assumption|assumption|destruct (typ p); [eauto|discriminate]].
      destruct (mentions a p) eqn:Ma; [cbn [jfits mentions] in Hj; specialize (Hj Ma); tauto|]. destruct p; cbn [jfits]; intros X; rewrite X in Ma; discriminate.
    - assert (JJ : forall q, mentions a (XBin op l r) = true -> q = l \/ q = r -> jfits c m a q).
      { intros q Mn Hq'. cbn [jfits] in Hj. specialize (Hj Mn). destruct Hq' as [-> | ->]; tauto. }
      assert (NJ : forall q, mentions a q = false -> jfits c m a q).
      { intros q Mn. destruct q; cbn [jfits]; intros X; rewrite X in Mn; discriminate. }
      apply bin_node; [exact Hf|exact Hj|now exists t| |].
      + cbn [fits] in Hf. cbn [stored env_ok typ] in *. apply IHl; [tauto| |tauto|tauto|destruct (typ l); [eauto|discriminate]].
        destruct (mentions a l) eqn:Ml; [apply JJ; [cbn; now rewrite Ml|now left]|now apply NJ].
      + cbn [fits] in Hf. cbn [stored env_ok typ] in *. apply IHr; [tauto| |tauto|tauto|destruct (typ r); [eauto|destruct (typ l); discriminate]].
        destruct (mentions a r) eqn:Mr; [apply JJ; [cbn; rewrite Mr; apply orb_true_r|now right]|now apply NJ].
  Qed.
End JacTree.
