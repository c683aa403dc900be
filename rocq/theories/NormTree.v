(** Jacobians of whole trees on doubles, errors relative to how much they stretch. *)

From Coq Require Import ZArith Reals List Bool Arith Lra Lia Psatz.
From Flocq Require Import Core BinarySingleNaN.
From Verif Require Import Mat V3 ModelLeaf SpecLeaf ModelFloat SpecFlt FloatProofs FloatDrift FloatExp ModelFloatQ SpecFltQ FloatQuat FloatAct SpecFltLog.
From Verif Require Import ModelJac SpecJac JacProofs LeafProofs ModelExpr SpecExpr ExprProofs SpecDeriv DerivProofs.
From Verif Require Import ModelFloatExpr SpecFltExpr FloatNorm FloatStep FloatStep2 FloatTree ModelFloatJac SpecFltJac FloatJac FloatJacLoc FloatJacTree.
From Verif Require Import SpecFltNorm NormLib NormStep NormLoc.
Import ListNotations.
Local Open Scope R_scope.

Section NormTree.
  Variable c : R.
  Hypothesis C0 : / 2 ^ 44 <= c.

  Lemma six_grown n : 6 * grown c n <= grown c (6 * n).
  Proof.
    pose proof (grown_nonneg c C0 n) as G. set (x := grown c n) in *.
    assert (E : forall k, (1 + x) ^ k = 1 + grown c (k * n)).
    { induction k as [|k IH]; [unfold grown; cbn; ring|]. cbn [pow Nat.mul]. rewrite IH. unfold x. apply grown_plus. }
    specialize (E 6%nat). assert (1 + 6 * x <= (1 + x) ^ 6); [|lra].
    clear E. clearbody x. assert (0 <= x * x) by nra. cbn [pow]. nra.
  Qed.

  Variable M : libm.
  Variable ord : list bool -> order.
  Variable qord : list bool -> qorder.
  Variable jord : list bool -> order.
  Variable sch : list bool -> nat -> nat -> nat -> sums.
  Hypothesis HM : one_ulp M.
  Hypothesis HA : acos_ulp M.
  Hypothesis Hq : forall path, sums_four (qord path).
  Hypothesis Hs : forall path r k n, (1 <= n)%nat -> adds_all (sch path r k n) n.
  Variable mem : nat -> fvalue.
  Variable mr : env.
  Variable na : nat.
  Notation m := (fun b => den (mr b)).
  Notation APX p := (approximates (size m p) (grown c (fst (cost p))) (grown c (snd (cost p)))).

  (** The value computed at a node stands for the exact one. *)
  Definition at_node (path : list bool) (p : expr) (f : fvalue) (v : value) (T : etree) : Prop :=
    feval_p M ord qord mem path p = Some f /\ typ p = Some (Plain (flty f)) /\ tree 0 na mr p = Some (v, T) /\
    vty v = Plain (flty f) /\ valid v /\ deval 0 m p = Some (den v) /\ APX p f (den v).

  Lemma at_length path p f v T : fits c m p -> at_node path p f v T -> length_of (den v) <= size m p.
  Proof.
    intros Hf (_ & _ & _ & _ & _ & _ & H). apply approx_length with (2 := H).
    pose proof (fits_bounds c C0 m p Hf) as ((T1 & _) & _). pose proof tiny_pos. lra.
  Qed.

  Lemma local_cost k n : INR (6 * k + n) * c <= / 2000 -> INR k * c <= / 2000 /\ 0 <= 6 * grown c k <= / 1000 /\ 6 * grown c k <= grown c (6 * k).
  Proof.
    intros H. assert (A : INR (6 * k) * c <= / 2000) by (eapply less_cost; [exact C0| |exact H]; lia).
    split; [eapply less_cost; [exact C0| |exact A]; lia|]. pose proof (six_grown k). pose proof (grown_small c C0 _ A). pose proof (grown_nonneg c C0 k). lra.
  Qed.

  Lemma un_at op p path f v T : fits c m (XUn op p) -> (exists t, typ (XUn op p) = Some t) -> at_node (true :: path) p f v T ->
    exists f' w, at_node path (XUn op p) f' w (EUn na (vdim w) (orzero (jac_un 0 op w v) (vdim w) (vdim v)) T) /\
      (regular m op p -> forall n, INR (6 * lcost_un op p + n) * c <= / 2000 ->
        exists F J, fjac_un M (jord path) op f' f = Some F /\ jac_un 0 op w v = Some J /\ has_shape (vdim w) (vdim v) J /\
          0 <= stretch_un m op p /\ napprox (stretch_un m op p) (6 * grown c (lcost_un op p)) (vdim w) (vdim v) F J).
  Proof.
    intros Hf (t & Ht) AT. assert (Hp : fits c m p) by (cbn [fits] in Hf; tauto). pose proof (at_length _ _ _ _ _ Hp AT) as Lv.
    destruct AT as (E1 & E2 & E3 & E4 & E5 & E6 & E7).
    cbn [typ] in Ht. rewrite E2 in Ht.
    destruct (un_ok M HM HA c C0 m (ord path) op p f (den v) t Hf E2 E7 E6 Ht) as (f' & x' & G1 & -> & G3 & G4).
    rewrite <- E4 in Ht. pose proof (un_sound 0 (Rle_refl 0) op v _ Ht E5 (fun _ => exp_exact_zero _)) as (S1 & S2).
    rewrite G3 in S1. destruct (sem_un 0 op v) as [w|] eqn:W; [|discriminate]. injection S1 as Dw.
    destruct (S2 w eq_refl) as (Tw & Vw). rewrite <- Dw in G4, G3. rewrite E4 in Ht.
    assert (AT' : at_node path (XUn op p) f' w (EUn na (vdim w) (orzero (jac_un 0 op w v) (vdim w) (vdim v)) T)).
    { unfold at_node. cbn [feval_p typ tree deval]. rewrite E1, E2, E3, E6, W. auto 10. }
    exists f', w. split; [exact AT'|]. intros Hop n Hn. destruct (local_cost _ _ Hn) as (HL & G6 & _).
    destruct (un_local c C0 m M (jord path) op p f (den v) f' (den w) v w HM E6 Hf Hop HL E7 G4 Ht E4 E5 eq_refl W Tw eq_refl) as (L & J & L1 & L2 & L3 & L4).
    exists L, J. split; [exact L1|]. split; [exact L2|]. split; [exact L3|].
    pose proof (vdim_6 v) as D1. pose proof (vdim_6 w) as D2. pose proof (length_nonneg (den v)) as L0.
    assert (ST : 0 <= stretch_un m op p) by (destruct op; cbn [stretch_un]; try lra; eapply Rle_trans; [left; apply tiny_pos|apply Rmax_l]). split; [exact ST|].
    pose proof (japprox_nonneg _ _ _ _ _ _ L4 ltac:(lia) ltac:(lia)) as B0.
    apply (napprox_entries (lsize_un m op p)); try assumption.
    - eapply (un_stretch m op p f f' v w J Hop E6 W (fun Ho => un_turn m c op p f f' v w Ho Hf Hop E6 Ht E4 E5 W Tw) Ht E4 Tw Vw Lv); [|exact L2].
      intros Ho. pose proof (at_length _ _ _ _ _ Hf AT') as X. destruct Ho as [-> | ->]; exact X.
    - apply grown_nonneg, C0.
    - destruct op; cbn [lsize_un stretch_un]; try lra; apply Rmax_lub; lra.
  Qed.

  Lemma bin_at op l r path fa va Ta fb vb Tb : fits c m (XBin op l r) -> (exists t, typ (XBin op l r) = Some t) ->
    at_node (true :: path) l fa va Ta -> at_node (false :: path) r fb vb Tb ->
    exists f' w, at_node path (XBin op l r) f' w
        (EBin na (vdim w) (orzero (jac_l op w va vb) (vdim w) (vdim va)) (orzero (jac_r op w va vb) (vdim w) (vdim vb)) Ta Tb) /\
      (plain_bin op -> forall n, INR (6 * lcost_l op l r + n) * c <= / 2000 ->
        exists F J, fjac_l (jord path) op f' fa fb = Some F /\ jac_l op w va vb = Some J /\ has_shape (vdim w) (vdim va) J /\
          0 <= stretch_l m op l r /\ napprox (stretch_l m op l r) (6 * grown c (lcost_l op l r)) (vdim w) (vdim va) F J) /\
      (plain_bin op -> forall n, INR (6 * lcost_r op l r + n) * c <= / 2000 ->
        exists F J, fjac_r (jord path) op f' fa fb = Some F /\ jac_r op w va vb = Some J /\ has_shape (vdim w) (vdim vb) J /\
          0 <= stretch_r m op l r /\ napprox (stretch_r m op l r) (6 * grown c (lcost_r op l r)) (vdim w) (vdim vb) F J).
  Proof.
    intros Hf (t & Ht) AA AB. assert (Hl : fits c m l) by (cbn [fits] in Hf; tauto). assert (Hr : fits c m r) by (cbn [fits] in Hf; tauto).
    pose proof (at_length _ _ _ _ _ Hl AA) as La. pose proof (at_length _ _ _ _ _ Hr AB) as Lb.
    destruct AA as (A1 & A2 & A3 & A4 & A5 & A6 & A7). destruct AB as (B1 & B2 & B3 & B4 & B5 & B6 & B7).
    cbn [typ] in Ht. rewrite A2, B2 in Ht.
    destruct (bin_ok c C0 m (ord path) (qord path) op l r fa fb (den va) (den vb) t (Hq path) Hf A2 B2 A7 B7 B6 Ht) as (f' & x' & G1 & -> & G3 & G4).
    rewrite <- A4, <- B4 in Ht. pose proof (bin_sound op va vb _ Ht A5 B5) as (S1 & S2).
    rewrite G3 in S1. destruct (sem_bin op va vb) as [w|] eqn:W; [|discriminate]. injection S1 as Dw.
    destruct (S2 w eq_refl) as (Tw & Vw). rewrite <- Dw in G4, G3. rewrite A4, B4 in Ht.
    assert (AT' : at_node path (XBin op l r) f' w (EBin na (vdim w) (orzero (jac_l op w va vb) (vdim w) (vdim va)) (orzero (jac_r op w va vb) (vdim w) (vdim vb)) Ta Tb)).
    { unfold at_node. cbn [feval_p typ tree deval]. rewrite A1, B1, A2, B2, A3, B3, A6, B6, W. auto 10. }
    pose proof (at_length _ _ _ _ _ Hf AT') as Lw. pose proof (length_nonneg (den va)) as L0. pose proof (length_nonneg (den vb)) as L0'.
    pose proof (vdim_6 va) as D1. pose proof (vdim_6 vb) as D2. pose proof (vdim_6 w) as D3.
    exists f', w. split; [exact AT'|]. split.
    - intros Hop n Hn. destruct (local_cost _ _ Hn) as (HL & G6 & _).
      destruct (left_local c C0 m (jord path) op l r fa fb f' va vb w Hf Hop HL A7 B7 G4 Ht A4 B4 Tw) as (L & J & L1 & L2 & L3 & L4).
      exists L, J. split; [exact L1|]. split; [exact L2|]. split; [exact L3|].
      assert (ST : 0 <= stretch_l m op l r) by (destruct op; cbn [stretch_l]; lra). split; [exact ST|].
      pose proof (japprox_nonneg _ _ _ _ _ _ L4 ltac:(lia) ltac:(lia)) as B0.
      apply (napprox_entries (lsize_l m op l r)); try assumption.
      + exact (left_stretch m op l r fa fb f' va vb w J Hop Ht A4 B4 Tw A5 B5 La Lb Lw L2).
      + apply grown_nonneg, C0.
      + destruct op; cbn [lsize_l stretch_l]; try lra; apply Rmax_lub; lra.
    - intros Hop n Hn. destruct (local_cost _ _ Hn) as (HL & G6 & _).
      destruct (right_local c C0 m (jord path) op l r fa fb f' va vb w Hf Hop HL A7 B7 G4 Ht A4 B4 Tw) as (L & J & L1 & L2 & L3 & L4).
      exists L, J. split; [exact L1|]. split; [exact L2|]. split; [exact L3|].
      assert (ST : 0 <= stretch_r m op l r) by (destruct op; cbn [stretch_r]; lra). split; [exact ST|].
      pose proof (japprox_nonneg _ _ _ _ _ _ L4 ltac:(lia) ltac:(lia)) as B0.
      apply (napprox_entries (lsize_r m op l r)); try assumption.
      + exact (right_stretch m op l r fa fb f' va vb w J Hop Ht A4 B4 Tw A5 B5 La Lb L2).
      + apply grown_nonneg, C0.
      + destruct op; cbn [lsize_r stretch_r]; try lra; apply Rmax_lub; lra.
  Qed.

  Variable d : R.
  Hypothesis Hd : 0 <= d <= c.

  Lemma leaf_at b t path : stored d mem m (XLeaf b t) -> env_ok mr (XLeaf b t) ->
    t = Plain (flty (mem b)) /\ at_node path (XLeaf b t) (mem b) (mr b) (ELeaf (leaf_obj b t)).
  Proof.
    cbn [stored env_ok]. intros [-> Hb] [Tb Vb]. split; [reflexivity|]. unfold at_node. cbn [feval_p typ tree deval].
    split; [reflexivity|]. split; [reflexivity|]. split; [reflexivity|]. split; [exact Tb|]. split; [exact Vb|]. split; [reflexivity|].
    cbn [size cost fst snd]. rewrite grown_1. pose proof (length_nonneg (den (mr b))).
    eapply approximates_mono; [exact Hb|apply Hd|apply Rmax_r|apply Hd|apply Hd|assumption].
  Qed.

  (** ** Forward mode *)
  Variable a : nat.
  Hypothesis Hna : na <> a.
  Notation FJ := (fjac M ord qord jord sch mem).

  Lemma nfits_cost p : nfits c m a p -> mentions a p = true -> nsize m a p <= vast /\ 0 <= grown c (ncost a p) <= / 1000 /\ INR (ncost a p) * c <= / 2000.
  Proof.
    intros H Ha. assert (X : nsize m a p <= vast /\ INR (ncost a p) * c <= / 2000) by (destruct p; cbn [nfits] in H; specialize (H Ha); tauto).
    destruct X as [A B]. split; [exact A|]. split; [now apply grown_small|exact B].
  Qed.
  Lemma nsize_nonneg p : 0 <= nsize m a p.
  Proof. pose proof tiny_pos. destruct p; cbn [nsize]; [lra| |]; (eapply Rle_trans; [|apply Rmax_l]; lra). Qed.

  Definition njac_ok (path : list bool) (p : expr) (v : value) (T : etree) : Prop :=
    if mentions a p then
      exists F, FJ path a p = Some (Some F) /\ has_shape (vdim v) (vdim (mr a)) (dyn a T) /\ nonempty (dyn a T) = true /\
        napprox (nsize m a p) (grown c (ncost a p)) (vdim v) (vdim (mr a)) F (dyn a T)
    else FJ path a p = Some None /\ dyn a T = mempty.

  Lemma chain k n : 6 * grown c k <= grown c (6 * k) -> (1 + 6 * grown c k) * (1 + grown c n) <= 1 + grown c (6 * k + n).
  Proof.
    intros H. pose proof (grown_nonneg c C0 n). pose proof (grown_nonneg c C0 k). rewrite <- (chain_cost c). apply Rmult_le_compat_r; lra.
  Qed.
  Lemma final k n e : e = 6 * grown c k -> 6 * grown c k <= grown c (6 * k) ->
    0 <= (1 + e) * (1 + grown c n) * (1 + / 2 ^ 44) - 1 <= grown c (6 * k + n + 1).
  Proof.
    intros -> H. pose proof (chain k n H) as X. pose proof (grown_nonneg c C0 n) as G. pose proof (grown_nonneg c C0 k) as G'.
    assert (U : 0 < / 2 ^ 44) by (apply Rinv_0_lt_compat, pow_lt; lra). split.
    - assert (1 * 1 <= (1 + 6 * grown c k) * (1 + grown c n)) by (apply Rmult_le_compat; lra).
      assert (1 * 1 <= (1 + 6 * grown c k) * (1 + grown c n) * (1 + / 2 ^ 44)) by (apply Rmult_le_compat; lra). lra.
    - pose proof (step1 c C0 (6 * k + n)) as S1. 
      assert ((1 + 6 * grown c k) * (1 + grown c n) * (1 + / 2 ^ 44) <= (1 + grown c (6 * k + n)) * (1 + / 2 ^ 44)) by (apply Rmult_le_compat_r; lra). lra.
  Qed.

  Lemma un_nnode op p path f v T : fits c m (XUn op p) -> nfits c m a (XUn op p) -> (exists t, typ (XUn op p) = Some t) ->
    at_node (true :: path) p f v T -> njac_ok (true :: path) p v T ->
    exists f' w T', at_node path (XUn op p) f' w T' /\ njac_ok path (XUn op p) w T'.
  Proof.
    intros Hf Hj Ht AT E8. destruct (un_at op p path f v T Hf Ht AT) as (f' & w & AT' & LOC).
    exists f', w, (EUn na (vdim w) (orzero (jac_un 0 op w v) (vdim w) (vdim v)) T). split; [exact AT'|].
    assert (E1 := proj1 AT). assert (G1 := proj1 AT'). cbn [feval_p] in G1. rewrite E1 in G1.
    assert (E4 : vty v = Plain (flty f)) by (apply AT).
    unfold njac_ok in *. cbn [mentions fjac dyn]. apply Nat.eqb_neq in Hna as Hna'. rewrite Hna', E1, G1.
    destruct (mentions a p) eqn:Ma.
    - destruct E8 as (F & F1 & F2 & F3 & F4). rewrite F1, F3.
      pose proof (nfits_cost _ Hj Ma) as (V & G & Gc). cbn [nfits mentions] in Hj. specialize (Hj Ma). destruct Hj as (_ & _ & Hjp & Hop).
      pose proof (nfits_cost _ Hjp Ma) as (Vp & Gp & Gcp). cbn [ncost] in Gc. rewrite <- Nat.add_assoc in Gc.
      destruct (local_cost _ _ Gc) as (_ & G6 & G6'). destruct (LOC Hop _ Gc) as (L & J & L1 & L2 & L3 & ST & L4).
      rewrite L1, L2. cbn [orzero]. rewrite (dims _ _ E4).
      pose proof (vdim_6 v) as D1. pose proof (vdim_6 w) as D2. pose proof (vdim_6 (mr a)) as D3.
      assert (SH : has_shape (vdim w) (vdim (mr a)) (mmul J (dyn a T))) by (split; [apply L3|apply F2]).
      eexists. split; [reflexivity|]. split; [exact SH|]. split; [apply (shape_nonempty _ _ _ SH); lia|].
      cbn [nsize ncost] in V |- *. pose proof (nsize_nonneg p). pose proof tiny_pos.
      destruct (final (lcost_un op p) (ncost a p) _ eq_refl G6') as [N1 N2].
      eapply napprox_mono; [eapply nprod_step; [exact Hs|exact L4|exact F4|apply L3|exact D1|lia|lia|exact G6|exact Gp|exact ST|assumption|apply Rmax_r|apply Rmax_l|exact V]|exact N1| |apply Rle_refl|exact N2].
      eapply Rle_trans; [|apply Rmax_l]. lra.
    - destruct E8 as (F1 & F2). rewrite F1, F2. cbn. auto.
  Qed.

  Lemma bin_nnode op l r path fa va Ta fb vb Tb : fits c m (XBin op l r) -> nfits c m a (XBin op l r) -> (exists t, typ (XBin op l r) = Some t) ->
    at_node (true :: path) l fa va Ta -> njac_ok (true :: path) l va Ta -> at_node (false :: path) r fb vb Tb -> njac_ok (false :: path) r vb Tb ->
    exists f' w T', at_node path (XBin op l r) f' w T' /\ njac_ok path (XBin op l r) w T'.
  Proof.
    intros Hf Hj Ht AA A8 AB B8. destruct (bin_at op l r path fa va Ta fb vb Tb Hf Ht AA AB) as (f' & w & AT' & LOCL & LOCR).
    eexists f', w, _. split; [exact AT'|].
    assert (A1 := proj1 AA). assert (B1 := proj1 AB). assert (G1 := proj1 AT'). cbn [feval_p] in G1. rewrite A1, B1 in G1.
    assert (A4 : vty va = Plain (flty fa)) by (apply AA). assert (B4 : vty vb = Plain (flty fb)) by (apply AB).
    unfold njac_ok in *. cbn [mentions fjac dyn]. apply Nat.eqb_neq in Hna as Hna'. rewrite Hna', A1, B1, G1.
    pose proof (vdim_6 va) as D1. pose proof (vdim_6 vb) as D2. pose proof (vdim_6 (mr a)) as D3. pose proof (vdim_6 w) as D4.
    assert (T0 : forall x, 0 <= Rmax tiny x) by (intros; pose proof tiny_pos; eapply Rle_trans; [|apply Rmax_l]; lra).
    pose proof (nsize_nonneg l) as NL. pose proof (nsize_nonneg r) as NR.
    destruct (mentions a l) eqn:Ml; destruct (mentions a r) eqn:Mr; cbn [orb].
    - destruct A8 as (F & F1 & F2 & F3 & F4). destruct B8 as (F' & F1' & F2' & F3' & F4'). rewrite F1, F1', F3, F3'. cbn [andb].
      assert (Mn : mentions a (XBin op l r) = true) by (cbn; now rewrite Ml).
      pose proof (nfits_cost _ Hj Mn) as (V & G & Gc). cbn [nfits] in Hj. specialize (Hj Mn). destruct Hj as (_ & _ & Hjl & Hjr & Hop).
      pose proof (nfits_cost _ Hjl Ml) as (Vl & Gl & Gcl). pose proof (nfits_cost _ Hjr Mr) as (Vr & Gr & Gcr).
      cbn [ncost nsize] in *. rewrite Ml, Mr in *.
      assert (HL : INR (6 * lcost_l op l r + (ncost a l + 1)) * c <= / 2000) by (eapply less_cost; [exact C0| |exact Gc]; lia).
      assert (HR : INR (6 * lcost_r op l r + (ncost a r + 1)) * c <= / 2000) by (eapply less_cost; [exact C0| |exact Gc]; lia).
      destruct (LOCL Hop _ HL) as (L & J & L1 & L2 & L3 & ST & L4). destruct (LOCR Hop _ HR) as (L' & J' & L1' & L2' & L3' & ST' & L4').
      destruct (local_cost _ _ HL) as (_ & G6 & H6). destruct (local_cost _ _ HR) as (_ & G6' & H6').
      rewrite L1, L1', L2, L2'. cbn [orzero]. rewrite (dims _ _ A4), (dims _ _ B4).
      assert (SH : has_shape (vdim w) (vdim (mr a)) (madd (mmul J (dyn a Ta)) (mmul J' (dyn a Tb)))) by (split; [apply L3|apply F2]).
      eexists. split; [reflexivity|]. split; [exact SH|]. split; [apply (shape_nonempty _ _ _ SH); lia|].
      set (cL := (6 * lcost_l op l r + ncost a l)%nat) in *. set (cR := (6 * lcost_r op l r + ncost a r)%nat) in *.
      pose proof (grown_nonneg c C0 (Nat.max cL cR)) as GM.
      eapply napprox_mono; [eapply (nprod2_step _ _ _ _ _ _ _ _ _ _ (grown c (Nat.max cL cR)));
        [exact Hs|exact L4|exact F4|exact L4'|exact F4'|apply L3|apply L3'| | |exact D1|exact D2|lia|lia|exact G6|exact Gl|exact G6'|exact Gr| | |exact ST|exact NL|exact ST'|exact NR|apply Rmax_r|apply Rmax_l|exact V]| | | |].
      + destruct L3 as [-> _]. destruct L3' as [-> _]. reflexivity.
      + destruct F2 as [_ ->]. destruct F2' as [_ ->]. reflexivity.
      + eapply Rle_trans; [apply chain; exact H6|]. apply Rplus_le_compat_l, grown_mono; [exact C0|]. unfold cL. lia.
      + eapply Rle_trans; [apply chain; exact H6'|]. apply Rplus_le_compat_l, grown_mono; [exact C0|]. unfold cR. lia.
      + assert (U : 0 < / 2 ^ 44) by (apply Rinv_0_lt_compat, pow_lt; lra).
        assert (1 * 1 <= (1 + grown c (Nat.max cL cR)) * (1 + / 2 ^ 44)) by (apply Rmult_le_compat; lra). lra.
      + apply T0.
      + apply Rle_refl.
      + eapply Rle_trans; [apply step1; exact C0|]. apply grown_mono; [exact C0|]. lia.
    - destruct A8 as (F & F1 & F2 & F3 & F4). destruct B8 as (F1' & F2'). rewrite F1, F1', F3, F2'. cbn [nonempty mempty msize mzero mrows mcols Nat.mul Nat.ltb Nat.leb andb].
      assert (Mn : mentions a (XBin op l r) = true) by (cbn; now rewrite Ml).
      pose proof (nfits_cost _ Hj Mn) as (V & G & Gc). cbn [nfits] in Hj. specialize (Hj Mn). destruct Hj as (_ & _ & Hjl & Hjr & Hop).
      pose proof (nfits_cost _ Hjl Ml) as (Vl & Gl & Gcl).
      cbn [ncost nsize] in *. rewrite Ml, Mr in *. rewrite <- Nat.add_assoc in Gc.
      destruct (LOCL Hop _ Gc) as (L & J & L1 & L2 & L3 & ST & L4). destruct (local_cost _ _ Gc) as (_ & G6 & H6).
      rewrite L1, L2. cbn [orzero option_map]. rewrite (dims _ _ A4).
      assert (SH : has_shape (vdim w) (vdim (mr a)) (mmul J (dyn a Ta))) by (split; [apply L3|apply F2]).
      eexists. split; [reflexivity|]. split; [exact SH|]. split; [apply (shape_nonempty _ _ _ SH); lia|].
      destruct (final (lcost_l op l r) (ncost a l) _ eq_refl H6) as [N1 N2].
      eapply napprox_mono; [eapply nprod_step; [exact Hs|exact L4|exact F4|apply L3|exact D1|lia|lia|exact G6|exact Gl|exact ST|exact NL|apply Rmax_r|apply Rmax_l|exact V]|exact N1|apply T0|apply Rle_refl|exact N2].
    - destruct A8 as (F1' & F2'). destruct B8 as (F & F1 & F2 & F3 & F4). rewrite F1, F1', F3, F2'. cbn [nonempty mempty msize mzero mrows mcols Nat.mul Nat.ltb Nat.leb andb].
      assert (Mn : mentions a (XBin op l r) = true) by (cbn; now rewrite Ml).
      pose proof (nfits_cost _ Hj Mn) as (V & G & Gc). cbn [nfits] in Hj. specialize (Hj Mn). destruct Hj as (_ & _ & Hjl & Hjr & Hop).
      pose proof (nfits_cost _ Hjr Mr) as (Vr & Gr & Gcr).
      cbn [ncost nsize] in *. rewrite Ml in *. rewrite <- Nat.add_assoc in Gc.
      destruct (LOCR Hop _ Gc) as (L & J & L1 & L2 & L3 & ST & L4). destruct (local_cost _ _ Gc) as (_ & G6 & H6).
      rewrite L1, L2. cbn [orzero option_map]. rewrite (dims _ _ B4).
      assert (SH : has_shape (vdim w) (vdim (mr a)) (mmul J (dyn a Tb))) by (split; [apply L3|apply F2]).
      eexists. split; [reflexivity|]. split; [exact SH|]. split; [apply (shape_nonempty _ _ _ SH); lia|].
      destruct (final (lcost_r op l r) (ncost a r) _ eq_refl H6) as [N1 N2].
      eapply napprox_mono; [eapply nprod_step; [exact Hs|exact L4|exact F4|apply L3|exact D2|lia|lia|exact G6|exact Gr|exact ST|exact NR|apply Rmax_r|apply Rmax_l|exact V]|exact N1|apply T0|apply Rle_refl|exact N2].
    - destruct A8 as (F1 & F2). destruct B8 as (F1' & F2'). rewrite F1, F1', F2, F2'. cbn. auto.
  Qed.

  Lemma napprox_id n : (n <= 6)%nat -> napprox 1 0 n n fid (mid n).
  Proof.
    intros Hn. split; [intros i j Hi Hj; apply (j_id n 1 0 ltac:(lra) ltac:(lra) i j Hi Hj)|]. split; [apply opn_id|].
    apply Req_le. rewrite Rmult_0_l. apply nrm_zero. intros i Hi. apply nrm_zero. intros j Hj.
    destruct (j_id n 1 0 ltac:(lra) ltac:(lra) i j Hi Hj) as (_ & _ & D). rewrite Rmult_0_l in D.
    destruct (Req_dec (val (fid i j) - mnth (mid n) i j) 0) as [E|E]; [exact E|]. apply Rabs_pos_lt in E. lra.
  Qed.

  Theorem njac_tree_ok p : fits c m p -> nfits c m a p -> stored d mem m p -> env_ok mr p ->
    (exists t, typ p = Some t) -> forall path, exists f v T, at_node path p f v T /\ njac_ok path p v T.
  Proof.
    induction p as [b t0|op p IH|op l IHl r IHr]; intros Hf Hj Hst He (t & Ht) path.
    - destruct (leaf_at b t0 path Hst He) as (-> & AT). cbn [env_ok] in He. destruct He as [Tb Vb]. do 3 eexists. split; [exact AT|].
      unfold njac_ok. cbn [mentions fjac dyn]. change (l_addr (leaf_obj b (Plain (flty (mem b))))) with b. destruct (Nat.eqb_spec b a) as [->|N]; [|auto].
      assert (E : l_dim (leaf_obj a (Plain (flty (mem a)))) = vdim (mr a)) by (unfold vdim, vkind; now rewrite Tb).
      rewrite E. pose proof (vdim_6 (mr a)) as D. assert (SH : has_shape (vdim (mr a)) (vdim (mr a)) (mid (vdim (mr a)))) by (split; reflexivity).
      exists fid. split; [reflexivity|]. split; [exact SH|]. split; [apply (shape_nonempty _ _ _ SH); lia|].
      cbn [nsize ncost]. eapply napprox_mono; [apply napprox_id; lia|lra|lra|lra|]. apply grown_nonneg, C0.
    - cbn [stored env_ok] in *. assert (Hp : fits c m p) by (cbn [fits] in Hf; tauto).
      destruct (IH Hp) with (path := true :: path) as (f & v & T & AT & JJ); [|assumption|assumption|cbn [typ] in Ht; destruct (typ p); [eauto|discriminate]|].
      { destruct (mentions a p) eqn:Ma; [cbn [nfits mentions] in Hj; specialize (Hj Ma); tauto|]. destruct p; cbn [nfits]; intros X; rewrite X in Ma; discriminate. }
      apply (un_nnode op p path f v T Hf Hj (ex_intro _ t Ht) AT JJ).
    - assert (JJ : forall q, mentions a (XBin op l r) = true -> q = l \/ q = r -> nfits c m a q).
      { intros q Mn Hq'. cbn [nfits] in Hj. specialize (Hj Mn). destruct Hq' as [-> | ->]; tauto. }
      assert (NJ : forall q, mentions a q = false -> nfits c m a q).
      { intros q Mn. destruct q; cbn [nfits]; intros X; rewrite X in Mn; discriminate. }
      cbn [stored env_ok] in *. assert (Hl : fits c m l) by (cbn [fits] in Hf; tauto). assert (Hr : fits c m r) by (cbn [fits] in Hf; tauto).
      destruct (IHl Hl) with (path := true :: path) as (fa & va & Ta & AA & JA); [|tauto|tauto|cbn [typ] in Ht; destruct (typ l); [eauto|discriminate]|].
      { destruct (mentions a l) eqn:Ml; [apply JJ; [cbn; now rewrite Ml|now left]|now apply NJ]. }
      destruct (IHr Hr) with (path := false :: path) as (fb & vb & Tb & AB & JB); [|tauto|tauto|cbn [typ] in Ht; destruct (typ r); [eauto|destruct (typ l); discriminate]|].
      { destruct (mentions a r) eqn:Mr; [apply JJ; [cbn; rewrite Mr; apply orb_true_r|now right]|now apply NJ]. }
      apply (bin_nnode op l r path fa va Ta fb vb Tb Hf Hj (ex_intro _ t Ht) AA JA AB JB).
  Qed.
End NormTree.
