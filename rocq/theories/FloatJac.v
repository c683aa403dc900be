(** Sums of products and products of matrices on doubles. *)

From Coq Require Import ZArith Reals List Bool Arith Lra Lia Psatz Permutation.
From Flocq Require Import Core BinarySingleNaN.
From Verif Require Import Mat V3 ModelLeaf SpecLeaf ModelFloat SpecFlt FloatProofs FloatDrift.
From Verif Require Import ModelExpr SpecExpr ModelFloatExpr SpecFltExpr FloatNorm FloatStep ModelFloatJac SpecFltJac.
Import ListNotations.
Local Open Scope R_scope.

(** ** Sums over lists *)
Fixpoint lsum (l : list nat) (f : nat -> R) : R := match l with [] => 0 | i :: l => f i + lsum l f end.

Lemma lsum_app l k f : lsum (l ++ k) f = lsum l f + lsum k f.
Proof. induction l as [|i l IH]; cbn; [ring|rewrite IH; ring]. Qed.
Lemma lsum_perm l k f : Permutation l k -> lsum l f = lsum k f.
Proof. induction 1; cbn; lra. Qed.
Lemma lsum_seq n f : lsum (seq 0 n) f = rsum n f.
Proof. induction n as [|n IH]; [reflexivity|]. rewrite seq_S, lsum_app, IH. cbn. ring. Qed.
Lemma lsum_pos l f : (forall i, In i l -> 0 <= f i) -> 0 <= lsum l f.
Proof.
  induction l as [|i l IH]; cbn; intros H; [lra|]. pose proof (H i (or_introl eq_refl)). assert (0 <= lsum l f) by (apply IH; auto). lra.
Qed.
Lemma lsum_abs l f g : (forall i, In i l -> Rabs (f i) <= g i) -> Rabs (lsum l f) <= lsum l g.
Proof.
  induction l as [|i l IH]; cbn; intros H; [rewrite Rabs_R0; lra|]. pose proof (H i (or_introl eq_refl)).
  eapply Rle_trans; [apply Rabs_triang|]. assert (Rabs (lsum l f) <= lsum l g) by (apply IH; auto). lra.
Qed.
Lemma rsum_abs n f g : (forall i, (i < n)%nat -> Rabs (f i) <= g i) -> Rabs (rsum n f) <= rsum n g.
Proof. intros H. rewrite <- !lsum_seq. apply lsum_abs. intros i Hi. apply in_seq in Hi. apply H. lia. Qed.

(** ** Rounding errors of a sum of products *)
Lemma terms_pos s : (1 <= length (terms s))%nat.
Proof. induction s; cbn; rewrite ?app_length; lia. Qed.

Lemma few n U t : 1 <= n <= 12 -> 0 <= U -> 0 <= t -> 2 * n * U + (4 * n - 2) * t <= 24 * U + 46 * t.
Proof.
  intros Hn HU Ht. assert (n * U <= 12 * U) by (apply Rmult_le_compat_r; lra). assert (n * t <= 12 * t) by (apply Rmult_le_compat_r; lra). lra.
Qed.
Lemma once n U : 1 <= n -> 0 <= U -> U <= n * U.
Proof. intros Hn HU. assert (1 * U <= n * U) by (apply Rmult_le_compat_r; lra). lra. Qed.
Lemma last_step n1 n2 U1 U2 t x y Z1 Z2 B s : 0 <= U1 -> 0 <= U2 -> 0 <= t -> 1 <= n1 -> 1 <= n2 ->
  - (2 * n1 * U1 + (4 * n1 - 2) * t) <= x - Z1 <= 2 * n1 * U1 + (4 * n1 - 2) * t ->
  - (2 * n2 * U2 + (4 * n2 - 2) * t) <= y - Z2 <= 2 * n2 * U2 + (4 * n2 - 2) * t ->
  B <= 3 / 2 * (U1 + U2) + / 2 * t -> - (B + t) <= s - (x + y) <= B + t ->
  - (2 * (n1 + n2) * (U1 + U2) + (4 * (n1 + n2) - 2) * t) <= s - (Z1 + Z2) <= 2 * (n1 + n2) * (U1 + U2) + (4 * (n1 + n2) - 2) * t.
Proof.
  intros H1 H2 H3 N1 N2 X Y HB HS. pose proof (once n1 U2 N1 H2). pose proof (once n2 U1 N2 H1). lra.
Qed.

Lemma fsums_ok a b Q s : (forall i, In i (terms s) -> finite (a i) /\ finite (b i) /\ Rabs (val (a i) * val (b i)) <= Q i) ->
  (length (terms s) <= 12)%nat -> lsum (terms s) Q <= big / 8 ->
  finite (fsums s a b) /\
  Rabs (val (fsums s a b) - lsum (terms s) (fun i => val (a i) * val (b i))) <=
    2 * INR (length (terms s)) * (u * lsum (terms s) Q) + (4 * INR (length (terms s)) - 2) * eta.
Proof.
  pose proof u_val as UV. pose proof eta_le as ET. pose proof big_ge as BG. pose proof u_pos as U0.
  induction s as [i|s IHs t IHt|i s IH]; cbn [terms fsums length]; intros H HL HB.
  - destruct (H i (or_introl eq_refl)) as (Fa & Fb & Hq). cbn [lsum] in *.
    destruct (fmul_ok _ _ Fa Fb ltac:(lra)) as [F V]. split; [exact F|]. rewrite V.
    change (INR 1) with 1. pose proof (nearest_err (val (a i) * val (b i))) as N.
    rewrite Rplus_0_r. assert (u * Rabs (val (a i) * val (b i)) <= u * Q i) by (apply Rmult_le_compat_l; lra).
    pose proof (Rabs_pos (val (a i) * val (b i))). assert (0 <= u * Q i) by (apply Rmult_le_pos; lra). rewrite Rplus_0_r. lra.
  - rewrite app_length, plus_INR, !lsum_app in *.
    assert (P : forall i, In i (terms s ++ terms t) -> 0 <= Q i).
    { intros i Hi. destruct (H i Hi) as (_ & _ & X). pose proof (Rabs_pos (val (a i) * val (b i))). lra. }
    assert (P1 : 0 <= lsum (terms s) Q) by (apply lsum_pos; intros; apply P; apply in_or_app; auto).
    assert (P2 : 0 <= lsum (terms t) Q) by (apply lsum_pos; intros; apply P; apply in_or_app; auto).
    pose proof (terms_pos s) as L1. pose proof (terms_pos t) as L2.
    destruct IHs as [F1 E1]; [intros; apply H, in_or_app; auto|lia|lra|].
    destruct IHt as [F2 E2]; [intros; apply H, in_or_app; auto|lia|lra|].
    assert (A1 : Rabs (lsum (terms s) (fun i => val (a i) * val (b i))) <= lsum (terms s) Q) by (apply lsum_abs; intros; apply H, in_or_app; auto).
    assert (A2 : Rabs (lsum (terms t) (fun i => val (a i) * val (b i))) <= lsum (terms t) Q) by (apply lsum_abs; intros; apply H, in_or_app; auto).
    set (n1 := INR (length (terms s))) in *. set (n2 := INR (length (terms t))) in *.
    assert (N1 : 1 <= n1) by (change 1 with (INR 1); now apply le_INR). assert (N2 : 1 <= n2) by (change 1 with (INR 1); now apply le_INR).
    assert (N3 : n1 + n2 <= 12) by (unfold n1, n2; rewrite <- plus_INR; replace 12 with (INR 12) by (cbn; ring); now apply le_INR).
    set (Q1 := lsum (terms s) Q) in *. set (Q2 := lsum (terms t) Q) in *.
    set (Z1 := lsum (terms s) (fun i => val (a i) * val (b i))) in *. set (Z2 := lsum (terms t) (fun i => val (a i) * val (b i))) in *. clearbody n1 n2 Q1 Q2 Z1 Z2.
    set (x := fsums s a b) in *. set (y := fsums t a b) in *. clearbody x y.
    set (U1 := u * Q1) in *. set (U2 := u * Q2) in *.
    assert (HU1 : 0 <= U1) by (apply Rmult_le_pos; lra). assert (HU2 : 0 <= U2) by (apply Rmult_le_pos; lra).
    assert (X1 : 2 * n1 * U1 + (4 * n1 - 2) * eta <= 24 * U1 + 46 * eta) by (apply few; lra).
    assert (X2 : 2 * n2 * U2 + (4 * n2 - 2) * eta <= 24 * U2 + 46 * eta) by (apply few; lra).
    assert (W1 : U1 <= / 1000000 * Q1) by (unfold U1; rewrite UV; lra). assert (W2 : U2 <= / 1000000 * Q2) by (unfold U2; rewrite UV; lra).
    apply Rabs_le_inv in A1, A2. pose proof (Rabs_le_inv _ _ E1) as E1'. pose proof (Rabs_le_inv _ _ E2) as E2'.
    assert (B : Rabs (val x + val y) <= Q1 + Q2 + (24 * U1 + 46 * eta) + (24 * U2 + 46 * eta)) by (apply Rabs_le; lra).
    destruct (fadd_ok x y F1 F2 ltac:(lra)) as [F V]. split; [exact F|].
    pose proof (nearest_err (val x + val y)) as N. rewrite <- V in N.
    assert (UB : u * Rabs (val x + val y) <= U1 + U2 + u * (24 * U1 + 24 * U2 + 92 * eta)).
    { eapply Rle_trans; [apply Rmult_le_compat_l; [lra|exact B]|]. unfold U1, U2. lra. }
    assert (SM : u * (24 * U1 + 24 * U2 + 92 * eta) <= / 2 * (U1 + U2) + / 2 * eta) by (rewrite UV; lra).
    apply Rabs_le. apply Rabs_le_inv in N.
    assert (M1 : U2 <= n1 * U2) by (apply once; lra). assert (M2 : U1 <= n2 * U1) by (apply once; lra).
    replace (u * (Q1 + Q2)) with (U1 + U2) by (unfold U1, U2; ring).
    apply (last_step n1 n2 U1 U2 eta (val x) (val y) Z1 Z2 (u * Rabs (val x + val y))); lra.
  - cbn [lsum] in *. rewrite S_INR.
    assert (Hi : finite (a i) /\ finite (b i) /\ Rabs (val (a i) * val (b i)) <= Q i) by (apply H; now left).
    destruct Hi as (Fa & Fb & Hq). pose proof (Rabs_pos (val (a i) * val (b i))) as A0.
    assert (P : forall i, In i (terms s) -> 0 <= Q i).
    { intros k Hk. destruct (H k (or_intror Hk)) as (_ & _ & X). pose proof (Rabs_pos (val (a k) * val (b k))). lra. }
    assert (P1 : 0 <= lsum (terms s) Q) by (apply lsum_pos; auto).
    pose proof (terms_pos s) as L1. destruct IH as [F1 E1]; [intros; apply H; now right|lia|lra|].
    assert (A1 : Rabs (lsum (terms s) (fun i => val (a i) * val (b i))) <= lsum (terms s) Q) by (apply lsum_abs; intros; apply H; now right).
    set (n1 := INR (length (terms s))) in *.
    assert (N1 : 1 <= n1) by (change 1 with (INR 1); now apply le_INR).
    assert (N3 : n1 + 1 <= 12) by (unfold n1; rewrite <- S_INR; replace 12 with (INR 12) by (cbn; ring); now apply le_INR).
    set (Q1 := lsum (terms s) Q) in *. set (Z1 := lsum (terms s) (fun i => val (a i) * val (b i))) in *. clearbody n1 Q1 Z1.
    set (x := fsums s a b) in *. clearbody x. set (w := val (a i) * val (b i)) in *. set (Q2 := Q i) in *.
    set (U1 := u * Q1) in *. set (U2 := u * Q2).
    assert (HU1 : 0 <= U1) by (apply Rmult_le_pos; lra). assert (HU2 : 0 <= U2) by (apply Rmult_le_pos; lra).
    assert (X1 : 2 * n1 * U1 + (4 * n1 - 2) * eta <= 24 * U1 + 46 * eta) by (apply few; lra).
    assert (W1 : U1 <= / 1000000 * Q1) by (unfold U1; rewrite UV; lra).
    apply Rabs_le_inv in A1, Hq. pose proof (Rabs_le_inv _ _ E1) as E1'.
    assert (B : Rabs (w + val x) <= Q1 + Q2 + (24 * U1 + 46 * eta)) by (apply Rabs_le; lra).
    destruct (ffma_ok (a i) (b i) x Fa Fb F1) as [F V]; [fold w; lra|]. split; [exact F|]. fold w in V.
    pose proof (nearest_err (w + val x)) as N. rewrite <- V in N.
    assert (UB : u * Rabs (w + val x) <= U1 + U2 + u * (24 * U1 + 46 * eta)).
    { eapply Rle_trans; [apply Rmult_le_compat_l; [lra|exact B]|]. unfold U1, U2. lra. }
    assert (SM : u * (24 * U1 + 46 * eta) <= / 2 * U1 + / 2 * eta) by (rewrite UV; lra).
    apply Rabs_le. apply Rabs_le_inv in N.
    assert (M1 : U2 <= n1 * U2) by (apply once; lra).
    replace (u * (Q2 + Q1)) with (U1 + U2) by (unfold U1, U2; ring).
    pose proof (last_step n1 1 U1 U2 eta (val x) w Z1 w (u * Rabs (w + val x)) (val (ffma (a i) (b i) x))) as LS. lra.
Qed.

(** ... relative to exact products [z] of size [P]. *)
Lemma sums_step a b z P e n s N : adds_all s n -> (n <= 12)%nat -> 0 <= e <= 3 / 1000 ->
  (forall i, (i < n)%nat -> finite (a i) /\ finite (b i) /\ Rabs (z i) <= P i /\ Rabs (val (a i) * val (b i) - z i) <= e * P i) ->
  rsum n P <= N -> tiny <= N -> N <= vast ->
  sapprox N ((1 + e) * (1 + / 2 ^ 44) - 1) (fsums s a b) (rsum n z).
Proof.
  intros Hs Hn He H HN HT HV. unfold adds_all in Hs. pose proof vast_big as (VB & _ & _). pose proof tiny_pos as T0. pose proof u_pos as U0.
  assert (L : length (terms s) = n) by (rewrite (Permutation_length Hs), seq_length; reflexivity).
  assert (IN : forall i, In i (terms s) -> (i < n)%nat).
  { intros i Hi. apply (Permutation_in _ Hs) in Hi. apply in_seq in Hi. lia. }
  assert (PP : forall i, (i < n)%nat -> 0 <= P i) by (intros i Hi; destruct (H i Hi) as (_ & _ & X & _); pose proof (Rabs_pos (z i)); lra).
  assert (SQ : lsum (terms s) (fun i => (1 + e) * P i) = (1 + e) * rsum n P) by (rewrite (lsum_perm _ _ _ Hs), lsum_seq; apply rsum_scal_l).
  assert (P0 : 0 <= rsum n P) by (rewrite <- lsum_seq; apply lsum_pos; intros i Hi; apply in_seq in Hi; apply PP; lia).
  assert (EP : e * rsum n P <= 3 / 1000 * rsum n P) by (apply Rmult_le_compat_r; lra).
  destruct (fsums_ok a b (fun i => (1 + e) * P i) s) as [F E].
  - intros i Hi. destruct (H i (IN i Hi)) as (A & B & C & D). split; [exact A|]. split; [exact B|].
    pose proof (abs_le_dist _ _ _ D). lra.
  - lia.
  - rewrite SQ. lra.
  - split; [exact F|]. split.
    { eapply Rle_trans; [apply (rsum_abs n z P); intros; now apply H|exact HN]. }
    rewrite (lsum_perm _ _ (fun i => val (a i) * val (b i)) Hs), lsum_seq, SQ, L in E.
    assert (D : Rabs (rsum n (fun i => val (a i) * val (b i)) - rsum n z) <= e * N).
    { replace (rsum n (fun i => val (a i) * val (b i)) - rsum n z) with (rsum n (fun i => val (a i) * val (b i) + -1 * z i)) by (rewrite rsum_plus, rsum_scal_l; ring).
      eapply Rle_trans; [apply (rsum_abs n _ (fun i => e * P i))|].
      - intros i Hi. replace (val (a i) * val (b i) + -1 * z i) with (val (a i) * val (b i) - z i) by ring. now apply H.
      - rewrite rsum_scal_l. apply Rmult_le_compat_l; lra. }
    replace (val (fsums s a b) - rsum n z) with ((rsum n (fun i => val (a i) * val (b i)) - rsum n z) + (val (fsums s a b) - rsum n (fun i => val (a i) * val (b i)))) by ring.
    eapply Rle_trans; [apply Rabs_triang|]. apply grow_sum; try lra.
    eapply Rle_trans; [exact E|]. pose proof eta_tiny_u as ET. pose proof eta_pos.
    assert (UN : u * tiny <= u * N) by (apply Rmult_le_compat_l; lra).
    assert (NN : 0 <= INR n <= 12) by (split; [apply pos_INR|replace 12 with (INR 12) by (cbn; ring); now apply le_INR]).
    assert (X : u * ((1 + e) * rsum n P) <= 2 * (u * N)) by (assert ((1 + e) * rsum n P <= 2 * N) by lra; assert (u * ((1 + e) * rsum n P) <= u * (2 * N)) by (apply Rmult_le_compat_l; lra); lra).
    assert (X0 : 0 <= u * ((1 + e) * rsum n P)) by (apply Rmult_le_pos; [lra|]; apply Rmult_le_pos; lra).
    set (Y := u * ((1 + e) * rsum n P)) in *. clearbody Y. set (n' := INR n) in *. clearbody n'.
    assert (n' * Y <= 12 * Y) by (apply Rmult_le_compat_r; lra). assert (n' * eta <= 12 * eta) by (apply Rmult_le_compat_r; lra). lra.
Qed.

(** ** Products of matrices *)
Lemma rsum_const n x : rsum n (fun _ => x) = INR n * x.
Proof. induction n as [|n IH]; [cbn; ring|]. cbn [rsum]. rewrite IH, S_INR. ring. Qed.

Lemma rsum_split n k f : rsum (n + k) f = rsum n f + rsum k (fun i => f (n + i)%nat).
Proof.
  induction k as [|k IH]; [rewrite Nat.add_0_r; cbn; ring|]. rewrite Nat.add_succ_r. cbn [rsum]. rewrite IH. ring.
Qed.

Lemma japprox_mono B e B' e' r c F J : japprox B e r c F J -> 0 <= e -> B <= B' -> e <= e' -> 0 <= B -> japprox B' e' r c F J.
Proof.
  intros H E0 HB He B0 i j Hi Hj. destruct (H i j Hi Hj) as (A & X & D). split; [exact A|]. split; [lra|].
  eapply Rle_trans; [exact D|]. apply Rmult_le_compat; lra.
Qed.

Lemma japprox_meq B e r c F J J' : (forall i j, (i < r)%nat -> (j < c)%nat -> mnth J i j = mnth J' i j) -> japprox B e r c F J -> japprox B e r c F J'.
Proof. intros E H i j Hi Hj. rewrite <- E by assumption. now apply H. Qed.

Lemma prod_step sch path SA SB eA eB r k c F G A B N : (forall path r c n, (1 <= n)%nat -> adds_all (sch path r c n) n) ->
  japprox SA eA r k F A -> japprox SB eB k c G B -> mcols A = k -> (1 <= k <= 6)%nat ->
  0 <= eA <= / 1000 -> 0 <= eB <= / 1000 -> 0 <= SA -> 0 <= SB ->
  INR k * (SA * SB) <= N -> tiny <= N -> N <= vast ->
  japprox N ((1 + eA) * (1 + eB) * (1 + / 2 ^ 44) - 1) r c (fprod sch path k F G) (mmul A B).
Proof.
  intros Hs HA HB Hc Hk EA EB S1 S2 HN HT HV i j Hi Hj. rewrite mnth_mmul, Hc. unfold fprod.
  replace ((1 + eA) * (1 + eB) * (1 + / 2 ^ 44) - 1) with ((1 + ((1 + eA) * (1 + eB) - 1)) * (1 + / 2 ^ 44) - 1) by ring.
  apply (sums_step _ _ _ (fun _ => SA * SB)); try assumption.
  - apply Hs. lia.
  - lia.
  - now apply two_small.
  - intros l Hl. destruct (HA i l Hi Hl) as (FA & XA & DA). destruct (HB l j Hl Hj) as (FB & XB & DB).
    split; [exact FA|]. split; [exact FB|]. split; [rewrite Rabs_mult; apply Rmult_le_compat; auto; apply Rabs_pos|].
    apply prod_err; lra.
  - rewrite rsum_const. exact HN.
Qed.

Lemma prod2_step sch path SA SB SC SD eA eB eC eD e r k k' c F G F' G' A B C D N :
  (forall path r c n, (1 <= n)%nat -> adds_all (sch path r c n) n) ->
  japprox SA eA r k F A -> japprox SB eB k c G B -> japprox SC eC r k' F' C -> japprox SD eD k' c G' D ->
  mcols A = k -> mcols C = k' -> mrows A = mrows C -> mcols B = mcols D -> (1 <= k <= 6)%nat -> (1 <= k' <= 6)%nat ->
  0 <= eA <= / 1000 -> 0 <= eB <= / 1000 -> 0 <= eC <= / 1000 -> 0 <= eD <= / 1000 ->
  (1 + eA) * (1 + eB) <= 1 + e -> (1 + eC) * (1 + eD) <= 1 + e -> e <= 3 / 1000 ->
  0 <= SA -> 0 <= SB -> 0 <= SC -> 0 <= SD ->
  INR k * (SA * SB) + INR k' * (SC * SD) <= N -> tiny <= N -> N <= vast ->
  japprox N ((1 + e) * (1 + / 2 ^ 44) - 1) r c (fprod2 sch path k k' F G F' G') (madd (mmul A B) (mmul C D)).
Proof.
  intros Hs HA HB HC HD Ca Cc Rac Cbd Hk Hk' EA EB EC ED E1 E2 E3 S1 S2 S3 S4 HN HT HV i j Hi Hj.
  rewrite mnth_madd by (cbn; assumption). rewrite !mnth_mmul, Ca, Cc. unfold fprod2.
  set (z := fun l => if (l <? k)%nat then mnth A i l * mnth B l j else mnth C i (l - k) * mnth D (l - k) j).
  set (P := fun l => if (l <? k)%nat then SA * SB else SC * SD).
  assert (ZE : rsum k (fun l => mnth A i l * mnth B l j) + rsum k' (fun l => mnth C i l * mnth D l j) = rsum (k + k') z).
  { rewrite rsum_split. f_equal; apply rsum_ext; intros l Hl; unfold z.
    - rewrite (proj2 (Nat.ltb_lt l k)) by lia. reflexivity.
    - rewrite (proj2 (Nat.ltb_ge (k + l) k)) by lia. replace (k + l - k)%nat with l by lia. reflexivity. }
  assert (PE : rsum (k + k') P = INR k * (SA * SB) + INR k' * (SC * SD)).
  { rewrite rsum_split, <- !rsum_const. f_equal; apply rsum_ext; intros l Hl; unfold P.
    - rewrite (proj2 (Nat.ltb_lt l k)) by lia. reflexivity.
    - rewrite (proj2 (Nat.ltb_ge (k + l) k)) by lia. reflexivity. }
  rewrite ZE. pose proof (two_small _ _ EA EB). pose proof (two_small _ _ EC ED).
  apply (sums_step _ _ z P); try lra; try lia.
  - apply Hs. lia.
  - intros l Hl. unfold z, P. destruct (l <? k)%nat eqn:El.
    + apply Nat.ltb_lt in El. destruct (HA i l Hi El) as (FA & XA & DA). destruct (HB l j El Hj) as (FB & XB & DB).
      split; [exact FA|]. split; [exact FB|]. split; [rewrite Rabs_mult; apply Rmult_le_compat; auto; apply Rabs_pos|].
      eapply Rle_trans; [apply (prod_err SA SB eA eB); lra|]. apply Rmult_le_compat_r; [apply Rmult_le_pos; lra|lra].
    + apply Nat.ltb_ge in El. assert (Hl' : (l - k < k')%nat) by lia.
      destruct (HC i _ Hi Hl') as (FA & XA & DA). destruct (HD _ j Hl' Hj) as (FB & XB & DB).
      split; [exact FA|]. split; [exact FB|]. split; [rewrite Rabs_mult; apply Rmult_le_compat; auto; apply Rabs_pos|].
      eapply Rle_trans; [apply (prod_err SC SD eC eD); lra|]. apply Rmult_le_compat_r; [apply Rmult_le_pos; lra|lra].
Qed.
