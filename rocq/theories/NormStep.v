(** Products of matrices of doubles: errors relative to how much the factors stretch. *)

From Coq Require Import ZArith Reals List Bool Arith Lra Lia Psatz Permutation.
From Flocq Require Import Core BinarySingleNaN.
From Verif Require Import Mat V3 ModelLeaf SpecLeaf ModelFloat SpecFlt FloatProofs FloatDrift ModelFloatExpr SpecFltExpr FloatNorm FloatStep FloatTree.
From Verif Require Import ModelFloatJac SpecFltJac FloatJac SpecFltNorm NormLib.
Import ListNotations.
Local Open Scope R_scope.

Notation vmat F := (fun i j => val (F i j)).

Lemma napprox_mono S e S' e' r c F J : napprox S e r c F J -> 0 <= e -> 0 <= S -> S <= S' -> e <= e' -> napprox S' e' r c F J.
Proof.
  intros (A & B & D) He H0 HS HE. split; [exact A|]. split; [now apply opn_mono with S|].
  eapply Rle_trans; [exact D|]. apply Rmult_le_compat; lra.
Qed.

Lemma napprox_meq S e r c F J J' : (forall i j, (i < r)%nat -> (j < c)%nat -> mnth J i j = mnth J' i j) -> napprox S e r c F J -> napprox S e r c F J'.
Proof.
  intros E (A & B & D). split; [exact A|]. split; [eapply opn_ext; [exact E|exact B]|].
  eapply Rle_trans; [|exact D]. apply Req_le, fro_ext. intros i j Hi Hj. now rewrite E.
Qed.

(** From errors of entries *)
Lemma napprox_entries B S e r c F J : japprox B e r c F J -> stretches S r c (mnth J) -> (1 <= r <= 6)%nat -> (1 <= c <= 6)%nat ->
  0 <= e -> 0 <= B -> B <= S -> napprox S (6 * e) r c F J.
Proof.
  intros H HS Hr Hc He HB HBS. split; [intros i j Hi Hj; apply (H i j Hi Hj)|]. split; [exact HS|].
  apply Rle_trans with (frobenius r c (fun _ _ => e * B)).
  - apply fro_mono. intros i j Hi Hj. apply (H i j Hi Hj).
  - eapply Rle_trans; [apply fro_const; [apply Rmult_le_pos; assumption|lia|lia]|]. rewrite Rmult_assoc. apply Rmult_le_compat_l; [lra|]. now apply Rmult_le_compat_l.
Qed.

Lemma napprox_fro S e r c F J : napprox S e r c F J -> 0 <= S -> (c <= 6)%nat -> frobenius r c (vmat F) <= (5 / 2 + e) * S.
Proof.
  intros (_ & B & D) HS Hc. rewrite (fro_ext r c (vmat F) (fun i j => mnth J i j + (val (F i j) - mnth J i j))) by (intros; cbv beta; ring).
  eapply Rle_trans; [apply fro_add|]. pose proof (fro_opn S r c (mnth J) HS B Hc). change (fun i j => mnth J i j) with (mnth J). lra.
Qed.

(** ** Rounding *)
Lemma sum_round a b n s : adds_all s n -> (n <= 12)%nat -> (forall i, (i < n)%nat -> finite (a i) /\ finite (b i)) ->
  rsum n (fun i => Rabs (val (a i) * val (b i))) <= 8 * vast ->
  finite (fsums s a b) /\
  Rabs (val (fsums s a b) - rsum n (fun i => val (a i) * val (b i))) <= 24 * (u * rsum n (fun i => Rabs (val (a i) * val (b i)))) + 46 * eta.
Proof.
  intros Hs Hn H HQ. unfold adds_all in Hs. pose proof vast_big as (VB & _ & VB1). pose proof u_pos as U0. pose proof eta_pos as E0.
  assert (L : length (terms s) = n) by (rewrite (Permutation_length Hs), seq_length; reflexivity).
  destruct (fsums_ok a b (fun i => Rabs (val (a i) * val (b i))) s) as [F E].
  - intros i Hi. apply (Permutation_in _ Hs), in_seq in Hi. destruct (H i ltac:(lia)). split; [assumption|]. split; [assumption|]. apply Rle_refl.
  - lia.
  - rewrite (lsum_perm _ _ _ Hs), lsum_seq. lra.
  - split; [exact F|]. rewrite !(lsum_perm _ _ _ Hs), !lsum_seq, L in E. eapply Rle_trans; [exact E|].
    set (Q := rsum n _) in *. assert (Q0 : 0 <= Q).
    { unfold Q. rewrite <- lsum_seq. apply lsum_pos. intros. apply Rabs_pos. }
    assert (NN : 0 <= INR n <= 12) by (split; [apply pos_INR|replace 12 with (INR 12) by (cbn; ring); now apply le_INR]).
    assert (0 <= u * Q) by (apply Rmult_le_pos; lra). clearbody Q. set (n' := INR n) in *. clearbody n'. set (Y := u * Q) in *. clearbody Y.
    assert (n' * Y <= 12 * Y) by (apply Rmult_le_compat_r; lra). assert (n' * eta <= 12 * eta) by (apply Rmult_le_compat_r; lra). lra.
Qed.

Lemma round_fro r c (W : fmat) (P Q : nat -> nat -> R) N : (r <= 6)%nat -> (c <= 6)%nat -> tiny <= N ->
  (forall i j, (i < r)%nat -> (j < c)%nat -> Rabs (val (W i j) - P i j) <= 24 * (u * Q i j) + 46 * eta) ->
  frobenius r c Q <= 7 * N ->
  frobenius r c (fun i j => val (W i j) - P i j) <= 512 * (u * N).
Proof.
  intros Hr Hc HT H HQ. pose proof u_pos as U0. pose proof eta_pos as E0. pose proof tiny_pos as T0. pose proof eta_tiny_u as ET.
  eapply Rle_trans; [apply (fro_mono _ _ _ (fun i j => 24 * u * Q i j + 46 * eta))|].
  - intros i j Hi Hj. eapply Rle_trans; [now apply H|]. right. ring.
  - eapply Rle_trans; [apply fro_add|]. rewrite fro_scal by lra.
    assert (A : frobenius r c (fun _ _ => 46 * eta) <= 6 * (46 * eta)) by (apply fro_const; [lra|assumption|assumption]).
    assert (B : 24 * u * frobenius r c Q <= 24 * u * (7 * N)) by (apply Rmult_le_compat_l; lra).
    assert (u * tiny <= u * N) by (apply Rmult_le_compat_l; lra). lra.
Qed.

(** ** Products *)
Lemma quad_fro r k c (F G : nat -> nat -> R) :
  frobenius r c (fun i j => rsum k (fun l => Rabs (F i l * G l j))) <= frobenius r k F * frobenius k c G.
Proof.
  assert (AB : forall n (f : nat -> R), euclid n (fun i => Rabs (f i)) = euclid n f).
  { intros n f. unfold euclid. f_equal. apply rsum_ext. intros i _. rewrite <- Rabs_mult. apply Rabs_pos_eq, Rle_0_sqr. }
  rewrite (fro_swap k c G). unfold frobenius at 2 3.
  rewrite <- fro_outer by (intros; apply nrm_nonneg). apply fro_mono. intros i j Hi Hj.
  rewrite (rsum_ext k _ (fun l => Rabs (F i l) * Rabs (G l j))) by (intros; apply Rabs_mult).
  eapply Rle_trans; [apply nrm_cs|]. rewrite (AB k (F i)), (AB k (fun l => G l j)). apply Rle_refl.
Qed.

Lemma quad_small SA SB eA eB r k c F G A B : napprox SA eA r k F A -> napprox SB eB k c G B -> 0 <= SA -> 0 <= SB ->
  eA <= / 1000 -> eB <= / 1000 -> (k <= 6)%nat -> (c <= 6)%nat ->
  frobenius r c (fun i j => rsum k (fun l => Rabs (val (F i l) * val (G l j)))) <= 7 * (SA * SB).
Proof.
  intros HA HB S1 S2 EA EB Hk Hc. eapply Rle_trans; [apply quad_fro|].
  pose proof (napprox_fro _ _ _ _ _ _ HA S1 Hk) as FA. pose proof (napprox_fro _ _ _ _ _ _ HB S2 Hc) as FB.
  pose proof (fro_nonneg r k (vmat F)). pose proof (fro_nonneg k c (vmat G)).
  assert (eA * SA <= / 1000 * SA) by (apply Rmult_le_compat_r; lra). assert (eB * SB <= / 1000 * SB) by (apply Rmult_le_compat_r; lra).
  apply Rle_trans with ((2501 / 1000 * SA) * (2501 / 1000 * SB)).
  - apply Rmult_le_compat; lra.
  - assert (0 <= SA * SB) by (apply Rmult_le_pos; lra). lra.
Qed.

Lemma mul_err SA SB eA eB r k c F G A B : napprox SA eA r k F A -> napprox SB eB k c G B -> 0 <= SA -> 0 <= SB -> 0 <= eA -> 0 <= eB ->
  frobenius r c (fun i j => rsum k (fun l => val (F i l) * val (G l j)) - rsum k (fun l => mnth A i l * mnth B l j)) <= ((1 + eA) * (1 + eB) - 1) * (SA * SB).
Proof.
  intros (_ & A1 & A2) (_ & B1 & B2) S1 S2 EA EB.
  set (X := fun i j => val (F i j) - mnth A i j) in *. set (Y := fun i j => val (G i j) - mnth B i j) in *.
  rewrite (fro_ext r c _ (fun i j => prod k (mnth A) Y i j + (prod k X (mnth B) i j + prod k X Y i j))).
  2:{ intros i j _ _. unfold prod. rewrite <- !rsum_plus.
      rewrite (rsum_ext k _ (fun l => mnth A i l * mnth B l j + (mnth A i l * Y l j + (X i l * mnth B l j + X i l * Y l j)))) by (intros; unfold X, Y; ring).
      rewrite rsum_plus. ring. }
  eapply Rle_trans; [apply fro_add|]. eapply Rle_trans; [apply Rplus_le_compat_l, fro_add|].
  pose proof (fro_mul_l SA r k c (mnth A) Y S1 A1) as P1. pose proof (fro_mul_r SB r k c X (mnth B) S2 B1) as P2.
  pose proof (fro_mul_l (frobenius r k X) r k c X Y (fro_nonneg _ _ _) (opn_fro r k X)) as P3.
  pose proof (fro_nonneg r k X). pose proof (fro_nonneg k c Y).
  assert (SA * frobenius k c Y <= SA * (eB * SB)) by (apply Rmult_le_compat_l; lra).
  assert (SB * frobenius r k X <= SB * (eA * SA)) by (apply Rmult_le_compat_l; lra).
  assert (frobenius r k X * frobenius k c Y <= (eA * SA) * (eB * SB)) by (apply Rmult_le_compat; lra).
  change (fun i j => prod k (mnth A) Y i j) with (prod k (mnth A) Y). change (fun i j => prod k X (mnth B) i j) with (prod k X (mnth B)).
  change (fun i j => prod k X Y i j) with (prod k X Y).
  replace (((1 + eA) * (1 + eB) - 1) * (SA * SB)) with (SA * (eB * SB) + (SB * (eA * SA) + (eA * SA) * (eB * SB))) by ring. lra.
Qed.

Lemma nprod_step sch path SA SB eA eB r k c F G A B N : (forall path r c n, (1 <= n)%nat -> adds_all (sch path r c n) n) ->
  napprox SA eA r k F A -> napprox SB eB k c G B -> mcols A = k -> (1 <= k <= 6)%nat -> (r <= 6)%nat -> (c <= 6)%nat ->
  0 <= eA <= / 1000 -> 0 <= eB <= / 1000 -> 0 <= SA -> 0 <= SB ->
  SA * SB <= N -> tiny <= N -> N <= vast ->
  napprox N ((1 + eA) * (1 + eB) * (1 + / 2 ^ 44) - 1) r c (fprod sch path k F G) (mmul A B).
Proof.
  intros Hs HA HB Hc Hk Hr Hcc EA EB S1 S2 HN HT HV.
  assert (S12 : 0 <= SA * SB) by (apply Rmult_le_pos; assumption).
  set (Q := fun i j => rsum k (fun l => Rabs (val (F i l) * val (G l j)))).
  assert (FQ : frobenius r c Q <= 7 * N) by (eapply Rle_trans; [apply (quad_small SA SB eA eB r k c F G A B); try assumption; try lra; lia|lra]).
  assert (E : forall i j, (i < r)%nat -> (j < c)%nat -> finite (fprod sch path k F G i j) /\
    Rabs (val (fprod sch path k F G i j) - rsum k (fun l => val (F i l) * val (G l j))) <= 24 * (u * Q i j) + 46 * eta).
  { intros i j Hi Hj. unfold fprod. apply sum_round; [apply Hs; lia|lia| |].
    - intros l Hl. split; [now apply HA|now apply HB].
    - change (Q i j <= 8 * vast). pose proof (fro_entry r c Q i j Hi Hj) as X. pose proof (Rle_abs (Q i j)).
      assert (0 <= vast) by (unfold vast; apply pow_le; lra). lra. }
  split; [intros i j Hi Hj; now apply E|]. split.
  - apply opn_mono with (SA * SB); [|exact HN]. apply opn_ext with (prod k (mnth A) (mnth B)).
    + intros i j _ _. now rewrite mnth_mmul, Hc.
    + apply opn_mul; [exact S1|apply HA|apply HB].
  - rewrite (fro_ext r c _ (fun i j => (rsum k (fun l => val (F i l) * val (G l j)) - rsum k (fun l => mnth A i l * mnth B l j)) +
      (val (fprod sch path k F G i j) - rsum k (fun l => val (F i l) * val (G l j))))) by (intros i j _ _; rewrite mnth_mmul, Hc; ring).
    eapply Rle_trans; [apply fro_add|].
    replace ((1 + eA) * (1 + eB) * (1 + / 2 ^ 44) - 1) with ((1 + ((1 + eA) * (1 + eB) - 1)) * (1 + / 2 ^ 44) - 1) by ring.
    pose proof (two_small _ _ EA EB). pose proof tiny_pos.
    apply grow_sum; [lra|lra| |].
    + eapply Rle_trans; [apply (mul_err SA SB eA eB r k c F G A B); try assumption; lra|]. apply Rmult_le_compat_l; lra.
    + apply (round_fro r c _ _ Q N Hr Hcc HT); [|exact FQ]. intros i j Hi Hj. now apply E.
Qed.

Lemma nprod2_step sch path SA SB SC SD eA eB eC eD e r k k' c F G F' G' A B C D N :
  (forall path r c n, (1 <= n)%nat -> adds_all (sch path r c n) n) ->
  napprox SA eA r k F A -> napprox SB eB k c G B -> napprox SC eC r k' F' C -> napprox SD eD k' c G' D ->
  mcols A = k -> mcols C = k' -> mrows A = mrows C -> mcols B = mcols D -> (1 <= k <= 6)%nat -> (1 <= k' <= 6)%nat ->
  (r <= 6)%nat -> (c <= 6)%nat ->
  0 <= eA <= / 1000 -> 0 <= eB <= / 1000 -> 0 <= eC <= / 1000 -> 0 <= eD <= / 1000 ->
  (1 + eA) * (1 + eB) <= 1 + e -> (1 + eC) * (1 + eD) <= 1 + e ->
  0 <= SA -> 0 <= SB -> 0 <= SC -> 0 <= SD ->
  SA * SB + SC * SD <= N -> tiny <= N -> N <= vast ->
  napprox N ((1 + e) * (1 + / 2 ^ 44) - 1) r c (fprod2 sch path k k' F G F' G') (madd (mmul A B) (mmul C D)).
Proof.
  intros Hs HA HB HC HD Ca Cc Rac Cbd Hk Hk' Hr Hcc EA EB EC ED E1 E2 S1 S2 S3 S4 HN HT HV.
  assert (S12 : 0 <= SA * SB) by (apply Rmult_le_pos; assumption). assert (S34 : 0 <= SC * SD) by (apply Rmult_le_pos; assumption).
  set (P1 := fun i j => rsum k (fun l => val (F i l) * val (G l j))). set (P2 := fun i j => rsum k' (fun l => val (F' i l) * val (G' l j))).
  set (Q1 := fun i j => rsum k (fun l => Rabs (val (F i l) * val (G l j)))). set (Q2 := fun i j => rsum k' (fun l => Rabs (val (F' i l) * val (G' l j)))).
  set (Q := fun i j => Q1 i j + Q2 i j).
  assert (FQ : frobenius r c Q <= 7 * N).
  { eapply Rle_trans; [apply fro_add|].
    assert (frobenius r c Q1 <= 7 * (SA * SB)) by (apply (quad_small SA SB eA eB r k c F G A B); try assumption; try lra; lia).
    assert (frobenius r c Q2 <= 7 * (SC * SD)) by (apply (quad_small SC SD eC eD r k' c F' G' C D); try assumption; try lra; lia).
    change (fun i j => Q1 i j) with Q1. change (fun i j => Q2 i j) with Q2. lra. }
  assert (E : forall i j, (i < r)%nat -> (j < c)%nat -> finite (fprod2 sch path k k' F G F' G' i j) /\
    Rabs (val (fprod2 sch path k k' F G F' G' i j) - (P1 i j + P2 i j)) <= 24 * (u * Q i j) + 46 * eta).
  { intros i j Hi Hj. unfold fprod2.
    set (a := fun l => if (l <? k)%nat then F i l else F' i (l - k)%nat). set (b := fun l => if (l <? k)%nat then G l j else G' (l - k)%nat j).
    assert (SP : forall g : R -> R, rsum (k + k') (fun l => g (val (a l) * val (b l))) = rsum k (fun l => g (val (F i l) * val (G l j))) + rsum k' (fun l => g (val (F' i l) * val (G' l j)))).
    { intros g. rewrite rsum_split. f_equal; apply rsum_ext; intros l Hl; unfold a, b.
      - rewrite (proj2 (Nat.ltb_lt l k)) by lia. reflexivity.
      - rewrite (proj2 (Nat.ltb_ge (k + l) k)) by lia. replace (k + l - k)%nat with l by lia. reflexivity. }
    pose proof (SP (fun x => x)) as SP1. pose proof (SP Rabs) as SP2. cbv beta in SP1, SP2. fold (P1 i j) (P2 i j) in SP1. fold (Q1 i j) (Q2 i j) in SP2. fold (Q i j) in SP2.
    pose proof (sum_round a b (k + k') (sch path i j (k + k')%nat)) as X. rewrite SP1, SP2 in X. apply X; [apply Hs; lia|lia| |].
    - intros l Hl. unfold a, b. destruct (l <? k)%nat eqn:El; [apply Nat.ltb_lt in El|apply Nat.ltb_ge in El].
      + split; [now apply HA|now apply HB].
      + split; [apply HC|apply HD]; lia || assumption.
    - pose proof (fro_entry r c Q i j Hi Hj) as Z. pose proof (Rle_abs (Q i j)). assert (0 <= vast) by (unfold vast; apply pow_le; lra). lra. }
  assert (MN : forall i j, mnth (madd (mmul A B) (mmul C D)) i j = rsum k (fun l => mnth A i l * mnth B l j) + rsum k' (fun l => mnth C i l * mnth D l j)).
  { intros i j. rewrite mnth_madd by (cbn; assumption). now rewrite !mnth_mmul, Ca, Cc. }
  pose proof (two_small _ _ EA EB) as W1. pose proof (two_small _ _ EC ED) as W2. pose proof tiny_pos.
  split; [intros i j Hi Hj; now apply E|]. split.
  - apply opn_mono with (SA * SB + SC * SD); [|exact HN]. apply opn_ext with (fun i j => prod k (mnth A) (mnth B) i j + prod k' (mnth C) (mnth D) i j).
    + intros i j _ _. now rewrite MN.
    + apply opn_add; apply opn_mul; try assumption; try apply HA; try apply HB; try apply HC; apply HD.
  - rewrite (fro_ext r c _ (fun i j => ((P1 i j - rsum k (fun l => mnth A i l * mnth B l j)) + (P2 i j - rsum k' (fun l => mnth C i l * mnth D l j))) +
      (val (fprod2 sch path k k' F G F' G' i j) - (P1 i j + P2 i j)))) by (intros i j _ _; rewrite MN; ring).
    eapply Rle_trans; [apply fro_add|]. apply grow_sum; [lra|lra| |].
    + eapply Rle_trans; [apply fro_add|].
      pose proof (mul_err SA SB eA eB r k c F G A B HA HB S1 S2 ltac:(lra) ltac:(lra)) as M1.
      pose proof (mul_err SC SD eC eD r k' c F' G' C D HC HD S3 S4 ltac:(lra) ltac:(lra)) as M2.
      assert (((1 + eA) * (1 + eB) - 1) * (SA * SB) <= e * (SA * SB)) by (apply Rmult_le_compat_r; lra).
      assert (((1 + eC) * (1 + eD) - 1) * (SC * SD) <= e * (SC * SD)) by (apply Rmult_le_compat_r; lra).
      assert (e * (SA * SB + SC * SD) <= e * N) by (apply Rmult_le_compat_l; lra). unfold P1, P2. lra.
    + apply (round_fro r c _ _ Q N Hr Hcc HT); [|exact FQ]. intros i j Hi Hj. now apply E.
Qed.
