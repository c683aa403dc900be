(** Reverse-mode Jacobians of whole trees on doubles. *)

From Coq Require Import ZArith Reals List Bool Arith Lra Lia Psatz.
From Flocq Require Import Core BinarySingleNaN.
From Verif Require Import Mat V3 ModelLeaf SpecLeaf ModelFloat SpecFlt FloatProofs FloatDrift FloatExp ModelFloatQ SpecFltQ FloatQuat FloatAct SpecFltLog.
From Verif Require Import ModelJac SpecJac JacProofs LeafProofs ModelExpr SpecExpr ExprProofs SpecDeriv DerivProofs.
From Verif Require Import ModelFloatExpr SpecFltExpr FloatNorm FloatStep FloatStep2 FloatTree ModelFloatJac SpecFltJac FloatJac FloatJacLoc FloatJacTree PropsFltJac.
From Verif Require Import SpecFltNorm NormLib NormStep NormLoc NormTree ModelFloatRev SpecFltRev.
Import ListNotations.
Local Open Scope R_scope.

(** ** Three lists of the same length *)
Inductive Forall3 {A B C : Type} (P : A -> B -> C -> Prop) : list A -> list B -> list C -> Prop :=
| F3_nil : Forall3 P [] [] []
| F3_cons x y z l m n : P x y z -> Forall3 P l m n -> Forall3 P (x :: l) (y :: m) (z :: n).

Lemma F3_app {A B C} (P : A -> B -> C -> Prop) l m n l' m' n' :
  Forall3 P l m n -> Forall3 P l' m' n' -> Forall3 P (l ++ l') (m ++ m') (n ++ n').
Proof. induction 1; intros; cbn; [assumption|]. constructor; auto. Qed.
Lemma F3_map {A B B' C} (P : A -> B' -> C -> Prop) (Q : A -> B -> C -> Prop) (g : B -> B') l m n :
  (forall x y z, Q x y z -> P x (g y) z) -> Forall3 Q l m n -> Forall3 P l (map g m) n.
Proof. intros H. induction 1; cbn; constructor; auto. Qed.
Lemma F3_nth {A B C} (P : A -> B -> C -> Prop) l m n i y : Forall3 P l m n -> nth_error m i = Some y ->
  exists x z, nth_error l i = Some x /\ nth_error n i = Some z /\ P x y z.
Proof. intros H. revert i. induction H; intros [|i] E; cbn in *; try discriminate; [injection E as <-; eauto|now apply IHForall3]. Qed.
Lemma F3_length {A B C} (P : A -> B -> C -> Prop) l m n : Forall3 P l m n -> length l = length m.
Proof. induction 1; cbn; congruence. Qed.

(** ** Adding two matrices *)
Lemma nplus_step S1 S2 e r c F G A B : napprox S1 e r c F A -> napprox S2 e r c G B -> mrows A = mrows B -> mcols A = mcols B ->
  (r <= 6)%nat -> (c <= 6)%nat -> 0 <= e <= / 1000 -> tiny <= S1 -> 0 <= S2 -> S1 + S2 <= vast ->
  napprox (S1 + S2) ((1 + e) * (1 + / 2 ^ 44) - 1) r c (fplus F G) (madd A B).
Proof.
  intros HA HB R1 C1 Hr Hc He T1 P2 HV. pose proof tiny_pos as T0. pose proof vast_big as (VB & _ & V1).
  pose proof (napprox_fro _ _ _ _ _ _ HA ltac:(lra) Hc) as FA. pose proof (napprox_fro _ _ _ _ _ _ HB ltac:(lra) Hc) as FB.
  assert (X1 : (5 / 2 + e) * S1 <= 3 * S1) by (apply Rmult_le_compat_r; lra). assert (X2 : (5 / 2 + e) * S2 <= 3 * S2) by (apply Rmult_le_compat_r; lra).
  set (Q := fun i j => Rabs (val (F i j)) + Rabs (val (G i j))).
  assert (AB : forall W : fmat, frobenius r c (fun i j => Rabs (val (W i j))) <= frobenius r c (vmat W)).
  { intros W. apply Req_le. unfold frobenius, euclid. f_equal. apply rsum_ext. intros i _.
    assert (rsum c (fun j => Rabs (val (W i j)) * Rabs (val (W i j))) = rsum c (fun j => val (W i j) * val (W i j))) as ->; [|reflexivity].
    apply rsum_ext. intros j _. rewrite <- Rabs_mult. apply Rabs_pos_eq, Rle_0_sqr. }
  assert (FQ : frobenius r c Q <= 7 * (S1 + S2)).
  { eapply Rle_trans; [apply fro_add|]. pose proof (AB F). pose proof (AB G). lra. }
  assert (E : forall i j, (i < r)%nat -> (j < c)%nat -> finite (fplus F G i j) /\
    Rabs (val (fplus F G i j) - (val (F i j) + val (G i j))) <= 24 * (u * Q i j) + 46 * eta).
  { intros i j Hi Hj. pose proof (fro_entry r c (vmat F) i j Hi Hj) as EF. pose proof (fro_entry r c (vmat G) i j Hi Hj) as EG. cbv beta in EF, EG.
    pose proof (Rabs_triang (val (F i j)) (val (G i j))) as TR.
    destruct (fadd_ok (F i j) (G i j)) as [Fi Va]; [now apply HA|now apply HB|lra|].
    split; [exact Fi|]. unfold fplus. rewrite Va. pose proof (nearest_err (val (F i j) + val (G i j))) as NE.
    pose proof u_pos. pose proof eta_pos. unfold Q in *.
    assert (u * Rabs (val (F i j) + val (G i j)) <= u * (Rabs (val (F i j)) + Rabs (val (G i j)))) by (apply Rmult_le_compat_l; lra).
    assert (0 <= u * (Rabs (val (F i j)) + Rabs (val (G i j)))) by (apply Rmult_le_pos; [lra|]; pose proof (Rabs_pos (val (F i j))); pose proof (Rabs_pos (val (G i j))); lra).
    lra. }
  split; [intros i j Hi Hj; now apply E|]. split.
  - apply opn_ext with (fun i j => mnth A i j + mnth B i j).
    + intros i j _ _. now rewrite mnth_madd.
    + apply opn_add; [apply HA|apply HB].
  - rewrite (fro_ext r c _ (fun i j => ((val (F i j) - mnth A i j) + (val (G i j) - mnth B i j)) + (val (fplus F G i j) - (val (F i j) + val (G i j)))))
      by (intros i j _ _; rewrite mnth_madd by assumption; ring).
    eapply Rle_trans; [apply fro_add|]. apply grow_sum; [lra|lra| |].
    + eapply Rle_trans; [apply fro_add|]. destruct HA as (_ & _ & DA). destruct HB as (_ & _ & DB). lra.
    + apply (round_fro r c _ _ Q (S1 + S2) Hr Hc ltac:(lra)); [|exact FQ]. intros i j Hi Hj. now apply E.
Qed.

Section RevTree.
  Variable c : R.
  Hypothesis C0 : / 2 ^ 44 <= c.
  Variable M : libm.
  Variable ord : list bool -> order.
  Variable qord : list bool -> qorder.
  Variable jord : list bool -> order.
  Variable sch : list bool -> nat -> nat -> nat -> sums.
  Hypothesis HM : one_ulp M.
  Hypothesis HA : acos_ulp M.
  Hypothesis Hq : forall path, sums_four (qord path).
  Hypothesis Hs : forall path r k n, (1 <= n)%nat -> adds_all (sch path r k n) n.
  Variable mem : nat -> fvalue.
  Variable mr : env.
  Variable na : nat.
  Variable d : R.
  Hypothesis Hd : 0 <= d <= c.
  Notation m := (fun b => den (mr b)).
  Notation AT := (at_node c M ord qord mem mr na).
  Notation REV := (frev M ord qord jord sch mem).

  Lemma tree_at p : fits c m p -> stored d mem m p -> env_ok mr p -> (exists t, typ p = Some t) -> forall path, exists f v T, AT path p f v T.
  Proof.
    induction p as [b t0|op p IH|op l IHl r IHr]; intros Hf Hst He (t & Ht) path.
    - destruct (leaf_at c M ord qord mem mr na d Hd b t0 path Hst He) as (_ & X). eauto.
    - cbn [stored env_ok] in *. assert (Hp : fits c m p) by (cbn [fits] in Hf; tauto).
      destruct (IH Hp Hst He) with (path := true :: path) as (f & v & T & X); [cbn [typ] in Ht; destruct (typ p); [eauto|discriminate]|].
      destruct (un_at c C0 M ord qord jord HM HA mem mr na op p path f v T Hf (ex_intro _ t Ht) X) as (f' & w & Y & _). eauto.
    - cbn [stored env_ok] in *. assert (Hl : fits c m l) by (cbn [fits] in Hf; tauto). assert (Hr : fits c m r) by (cbn [fits] in Hf; tauto).
      destruct (IHl Hl) with (path := true :: path) as (fa & va & Ta & XA); [tauto|tauto|cbn [typ] in Ht; destruct (typ l); [eauto|discriminate]|].
      destruct (IHr Hr) with (path := false :: path) as (fb & vb & Tb & XB); [tauto|tauto|cbn [typ] in Ht; destruct (typ r); [eauto|destruct (typ l); discriminate]|].
      destruct (bin_at c C0 M ord qord jord Hq mem mr na op l r path fa va Ta fb vb Tb Hf (ex_intro _ t Ht) XA XB) as (f' & w & Y & _). eauto.
  Qed.

  Lemma at_unique path p f v T f' v' T' : AT path p f v T -> AT path p f' v' T' -> f' = f /\ v' = v /\ T' = T.
  Proof. intros (A1 & _ & A3 & _) (B1 & _ & B3 & _). rewrite A1 in B1. rewrite A3 in B3. injection B1 as <-. injection B3 as <- <-. auto. Qed.

  (** An adjoint that arrived at a leaf, the exact one, and the bounds. *)
  Definition hit (r : nat) (A : mat) (x : nat * fmat) (o : leaf * mat) (y : nat * (R * nat)) : Prop :=
    fst x = l_addr (fst o) /\ fst y = fst x /\ 0 <= fst (snd y) /\ INR (snd (snd y)) * c <= / 2000 /\
    napprox (fst (snd y)) (grown c (snd (snd y))) r (l_dim (fst o)) (snd x) (mmul A (snd o)).

  Lemma rfits_head S n p : rfits c m S n p -> S <= vast /\ INR n * c <= / 2000.
  Proof. destruct p; cbn [rfits]; tauto. Qed.

  Lemma swap_final k n e : e = 6 * grown c k -> 6 * grown c k <= grown c (6 * k) ->
    0 <= (1 + grown c n) * (1 + e) * (1 + / 2 ^ 44) - 1 <= grown c (n + 6 * k + 1).
  Proof. intros E H. rewrite (Rmult_comm (1 + grown c n)). rewrite (Nat.add_comm n). now apply (final c C0). Qed.

  Lemma assoc_hit r A J x o y : hit r (mmul A J) x o y -> hit r A x (fst o, mmul J (snd o)) y.
  Proof.
    intros (H1 & H2 & H3 & H4 & H5). unfold hit. cbn [fst snd]. split; [exact H1|]. split; [exact H2|]. split; [exact H3|]. split; [exact H4|].
    eapply napprox_meq; [|exact H5]. intros i j _ _. apply mnth_eq, mmul_assoc.
  Qed.

  Lemma frev_ok p : fits c m p -> stored d mem m p -> env_ok mr p -> (exists t, typ p = Some t) ->
    forall path S n FA A r f v T, AT path p f v T -> rfits c m S n p -> 0 <= S -> (r <= 6)%nat ->
    napprox S (grown c n) r (vdim v) FA A -> mcols A = vdim v ->
    exists L, REV path FA p = Some L /\ Forall3 (hit r A) L (occurrences T) (along m S n p).
  Proof.
    assert (T0 : forall x, 0 <= Rmax tiny x) by (intros; pose proof tiny_pos; eapply Rle_trans; [|apply Rmax_l]; lra).
    induction p as [b t0|op p IH|op l IHl r IHr]; intros Hf Hst He (t & Ht) path Sz n FA A rr f v T X Hr HS H6 HN HC.
    - destruct (leaf_at c M ord qord mem mr na d Hd b t0 path Hst He) as (E0 & X'). destruct (at_unique _ _ _ _ _ _ _ _ X X') as (<- & <- & <-).
      cbn [frev occurrences along]. eexists. split; [reflexivity|]. constructor; [|constructor].
      cbn [env_ok] in He. destruct He as [Tb Vb].
      assert (E : l_dim (leaf_obj b t0) = vdim (mr b)) by (unfold vdim, vkind; now rewrite Tb).
      unfold hit. cbn [fst snd]. rewrite E. split; [reflexivity|]. split; [reflexivity|]. split; [exact HS|]. split; [apply (rfits_head _ _ _ Hr)|].
      eapply napprox_meq; [|exact HN]. intros i j _ _. apply mnth_eq. symmetry. apply mmul_mid_r. now rewrite HC.
    - assert (Hp : fits c m p) by (cbn [fits] in Hf; tauto). pose proof Hst as Hst'. pose proof He as He'. cbn [stored env_ok] in Hst', He'.
      assert (Tp : exists t, typ p = Some t) by (cbn [typ] in Ht; destruct (typ p); [eauto|discriminate]).
      destruct (tree_at p Hp Hst' He' Tp (true :: path)) as (f1 & v1 & T1 & X1).
      destruct (un_at c C0 M ord qord jord HM HA mem mr na op p path f1 v1 T1 Hf (ex_intro _ t Ht) X1) as (f' & w & X' & LOC).
      destruct (at_unique _ _ _ _ _ _ _ _ X X') as (-> & -> & <-).
      pose proof (rfits_head _ _ _ Hr) as (V & Gc). cbn [rfits] in Hr. destruct Hr as (_ & _ & Hrp & Hop).
      pose proof (rfits_head _ _ _ Hrp) as (Vp & Gcp).
      assert (Gc' : INR (6 * lcost_un op p + (n + 1)) * c <= / 2000) by (eapply less_cost; [exact C0| |exact Gcp]; lia).
      destruct (LOC Hop _ Gc') as (F & J & L1 & L2 & L3 & ST & L4). destruct (local_cost c C0 _ _ Gc') as (_ & G6 & G6').
      assert (E1 := proj1 X1). assert (E2 := proj1 X). cbn [feval_p] in E2. rewrite E1 in E2.
      cbn [frev occurrences along]. rewrite E1, E2, L1, L2. cbn [orzero].
      assert (Ev : vty v = Plain (flty f)) by (apply X). rewrite (dims _ _ Ev).
      pose proof (vdim_6 v) as D1. pose proof (vdim_6 v1) as D2.
      destruct (swap_final (lcost_un op p) n _ eq_refl G6') as [N1 N2].
      destruct (IH Hp Hst' He' Tp (true :: path) (Rmax tiny (Sz * stretch_un m op p)) (n + 6 * lcost_un op p + 1)%nat (fprod sch (true :: path) (vdim v) FA F) (mmul A J) rr f1 v1 T1 X1 Hrp (T0 _) H6)
        as (L & M1 & M2).
      + eapply napprox_mono; [eapply nprod_step; [exact Hs|exact HN|exact L4|exact HC|lia|exact H6|lia|now apply grown_small|exact G6|exact HS|exact ST|apply Rmax_r|apply Rmax_l|exact Vp]|exact N1|apply T0|apply Rle_refl|exact N2].
      + apply L3.
      + exists L. split; [exact M1|]. eapply F3_map; [|exact M2]. intros x o y. apply assoc_hit.
    - assert (Hl : fits c m l) by (cbn [fits] in Hf; tauto). assert (Hr' : fits c m r) by (cbn [fits] in Hf; tauto).
      pose proof Hst as [SL SR]. pose proof He as [EL ER].
      assert (Tl : exists t, typ l = Some t) by (cbn [typ] in Ht; destruct (typ l); [eauto|discriminate]).
      assert (Tr : exists t, typ r = Some t) by (cbn [typ] in Ht; destruct (typ r); [eauto|destruct (typ l); discriminate]).
      destruct (tree_at l Hl SL EL Tl (true :: path)) as (fa & va & Ta & XA). destruct (tree_at r Hr' SR ER Tr (false :: path)) as (fb & vb & Tb & XB).
      destruct (bin_at c C0 M ord qord jord Hq mem mr na op l r path fa va Ta fb vb Tb Hf (ex_intro _ t Ht) XA XB) as (f' & w & X' & LOCL & LOCR).
      destruct (at_unique _ _ _ _ _ _ _ _ X X') as (-> & -> & <-).
      pose proof (rfits_head _ _ _ Hr) as (V & Gc). cbn [rfits] in Hr. destruct Hr as (_ & _ & Hrl & Hrr & Hop).
      pose proof (rfits_head _ _ _ Hrl) as (Vl & Gcl). pose proof (rfits_head _ _ _ Hrr) as (Vr & Gcr).
      assert (GL : INR (6 * lcost_l op l r + (n + 1)) * c <= / 2000) by (eapply less_cost; [exact C0| |exact Gcl]; lia).
      assert (GR : INR (6 * lcost_r op l r + (n + 1)) * c <= / 2000) by (eapply less_cost; [exact C0| |exact Gcr]; lia).
      destruct (LOCL Hop _ GL) as (F & J & L1 & L2 & L3 & ST & L4). destruct (local_cost c C0 _ _ GL) as (_ & G6 & G6').
      destruct (LOCR Hop _ GR) as (F' & J' & L1' & L2' & L3' & ST' & L4'). destruct (local_cost c C0 _ _ GR) as (_ & K6 & K6').
      assert (A1 := proj1 XA). assert (B1 := proj1 XB). assert (E2 := proj1 X). cbn [feval_p] in E2. rewrite A1, B1 in E2.
      cbn [frev occurrences along]. rewrite A1, B1, E2, L1, L1', L2, L2'. cbn [orzero].
      assert (Ev : vty v = Plain (flty f)) by (apply X). rewrite (dims _ _ Ev).
      pose proof (vdim_6 v) as D1. pose proof (vdim_6 va) as D2. pose proof (vdim_6 vb) as D3.
      destruct (swap_final (lcost_l op l r) n _ eq_refl G6') as [N1 N2]. destruct (swap_final (lcost_r op l r) n _ eq_refl K6') as [N1' N2'].
      destruct (IHl Hl SL EL Tl (true :: path) (Rmax tiny (Sz * stretch_l m op l r)) (n + 6 * lcost_l op l r + 1)%nat (fprod sch (true :: path) (vdim v) FA F) (mmul A J) rr fa va Ta XA Hrl (T0 _) H6)
        as (L & M1 & M2).
      { eapply napprox_mono; [eapply nprod_step; [exact Hs|exact HN|exact L4|exact HC|lia|exact H6|lia|now apply grown_small|exact G6|exact HS|exact ST|apply Rmax_r|apply Rmax_l|exact Vl]|exact N1|apply T0|apply Rle_refl|exact N2]. }
      { apply L3. }
      destruct (IHr Hr' SR ER Tr (false :: path) (Rmax tiny (Sz * stretch_r m op l r)) (n + 6 * lcost_r op l r + 1)%nat (fprod sch (false :: path) (vdim v) FA F') (mmul A J') rr fb vb Tb XB Hrr (T0 _) H6)
        as (L' & M1' & M2').
      { eapply napprox_mono; [eapply nprod_step; [exact Hs|exact HN|exact L4'|exact HC|lia|exact H6|lia|now apply grown_small|exact K6|exact HS|exact ST'|apply Rmax_r|apply Rmax_l|exact Vr]|exact N1'|apply T0|apply Rle_refl|exact N2']. }
      { apply L3'. }
      rewrite M1, M1'. eexists. split; [reflexivity|]. apply F3_app; (eapply F3_map; [|eassumption]); intros x o y; apply assoc_hit.
  Qed.

  (** ** Several occurrences *)
  Lemma gather_mono a ys : forall S n, (forall y, In y ys -> 0 <= fst (snd y)) -> S <= fst (gather a ys S n) /\ (n <= snd (gather a ys S n))%nat.
  Proof.
    induction ys as [|(b & S' & n') ys IH]; intros S n H; cbn [gather]; [cbn; split; [lra|lia]|].
    assert (H' : forall y, In y ys -> 0 <= fst (snd y)) by (intros y Hy; apply H; now right).
    destruct (b =? a)%nat; [|now apply IH]. specialize (H _ (or_introl eq_refl)). cbn [fst snd] in H. destruct (IH (S + S') (Nat.max n n' + 1)%nat H'). split; [lra|lia].
  Qed.

  Lemma hit_sizes r A L os ys : Forall3 (hit r A) L os ys -> forall y, In y ys -> 0 <= fst (snd y).
  Proof. induction 1 as [|x o y l os ys H _ IH]; [intros ? []|]. intros z [<-|Hz]; [apply H|now apply IH]. Qed.

  Lemma collect_ok r q a A L os ys : (r <= 6)%nat -> (q <= 6)%nat -> Forall3 (hit r A) L os ys ->
    (forall o, In o os -> l_addr (fst o) = a -> l_dim (fst o) = q /\ has_shape r q (mmul A (snd o))) ->
    forall F B S n, napprox S (grown c n) r q F B -> has_shape r q B -> tiny <= S ->
    fst (gather a ys S n) <= vast -> INR (snd (gather a ys S n)) * c <= / 2000 ->
    napprox (fst (gather a ys S n)) (grown c (snd (gather a ys S n))) r q
      (fold_left (fun S x => if (fst x =? a)%nat then fplus S (snd x) else S) L F)
      (fold_left madd (map (fun o => mmul A (snd o)) (filter (fun o => (l_addr (fst o) =? a)%nat) os)) B).
  Proof.
    intros Hr Hqq H. induction H as [|x o y L os ys H H3 IH]; intros Ho F B S n HN SB HT HV HC; [exact HN|].
    destruct y as (b & S' & n'). destruct H as (H1 & H2 & H4 & H5 & H6). cbn [fst snd] in *. subst b.
    cbn [gather fold_left filter] in *. rewrite <- H1. destruct (Nat.eqb_spec (fst x) a) as [E|E].
    - destruct (Ho o (or_introl eq_refl) ltac:(congruence)) as (Q & SH). rewrite Q in H6.
      cbn [map fold_left]. pose proof (hit_sizes _ _ _ _ _ H3) as HZ. destruct (gather_mono a ys (S + S') (Nat.max n n' + 1)%nat HZ) as (G1 & G2).
      assert (GC : INR (Nat.max n n' + 1) * c <= / 2000) by (eapply less_cost; [exact C0|exact G2|exact HC]).
      assert (GC' : INR (Nat.max n n') * c <= / 2000) by (eapply less_cost; [exact C0| |exact GC]; lia).
      pose proof (grown_small c C0 _ GC') as GS. pose proof tiny_pos as T0.
      apply IH; try assumption.
      + intros o' Ho'. apply Ho. now right.
      + eapply napprox_mono; [apply (nplus_step S S' (grown c (Nat.max n n')))| | | |].
        * eapply napprox_mono; [exact HN|apply grown_nonneg, C0|lra|lra|]. apply grown_mono; [exact C0|lia].
        * eapply napprox_mono; [exact H6|apply grown_nonneg, C0|lra|lra|]. apply grown_mono; [exact C0|lia].
        * destruct SB as [-> _]. destruct SH as [-> _]. reflexivity.
        * destruct SB as [_ ->]. destruct SH as [_ ->]. reflexivity.
        * exact Hr.
        * exact Hqq.
        * exact GS.
        * exact HT.
        * exact H4.
        * lra.
        * assert (U : 0 < / 2 ^ 44) by (apply Rinv_0_lt_compat, pow_lt; lra).
          assert (1 * 1 <= (1 + grown c (Nat.max n n')) * (1 + / 2 ^ 44)) by (apply Rmult_le_compat; lra). lra.
        * lra.
        * lra.
        * apply step1, C0.
      + lra.
    - apply IH; try assumption. intros o' Ho'. apply Ho. now right.
  Qed.
End RevTree.
