(** Proofs about noise models. *)

From Coq Require Import Reals Lra Lia List Bool Arith Setoid.
From Verif Require Import Mat ModelJac V3 ModelLeaf ModelExpr ModelEstim SpecEstim.
Import ListNotations.
Local Open Scope R_scope.
Local Open Scope mat_scope.

Lemma mdiag_shape n f : has_shape n n (mdiag n f).
Proof. split; reflexivity. Qed.
Lemma mnth_mdiag n f i j : (i < n)%nat -> (j < n)%nat ->
  mnth (mdiag n f) i j = if (i =? j)%nat then f i else 0.
Proof. intros Hi Hj. now rewrite mnth_in by assumption. Qed.
Lemma mdiag_is n f : is_diagonal n f (mdiag n f).
Proof. split; [apply mdiag_shape|]. intros. now apply mnth_mdiag. Qed.

Lemma meq_ext n p A B : has_shape n p A -> has_shape n p B ->
  (forall i j, (i < n)%nat -> (j < p)%nat -> mnth A i j = mnth B i j) -> A == B.
Proof.
  intros (Ra & Ca) (Rb & Cb) H. split; [congruence|]. split; [congruence|].
  intros i j Hi Hj. rewrite <- !mnth_in by congruence. apply H; congruence.
Qed.

Lemma diag_eq n f D : is_diagonal n f D -> D == mdiag n f.
Proof.
  intros (S & H). apply (meq_ext n n); [exact S|apply mdiag_shape|].
  intros i j Hi Hj. now rewrite H, mnth_mdiag.
Qed.

(** Row and column scaling. *)
Lemma mnth_diag_l n f A i j : mrows A = n -> (i < n)%nat ->
  mnth (mdiag n f ** A) i j = f i * mnth A i j.
Proof.
  intros Ha Hi. rewrite mnth_mmul. cbn [mcols mdiag].
  rewrite (rsum_single n i); auto.
  - rewrite mnth_mdiag, Nat.eqb_refl by assumption. reflexivity.
  - intros k Hk Hki. rewrite mnth_mdiag by assumption.
    destruct (i =? k)%nat eqn:E; [apply Nat.eqb_eq in E; congruence|ring].
Qed.
Lemma mnth_diag_r n f A i j : mcols A = n -> (j < n)%nat ->
  mnth (A ** mdiag n f) i j = mnth A i j * f j.
Proof.
  intros Ha Hj. rewrite mnth_mmul. rewrite Ha.
  rewrite (rsum_single n j); auto.
  - rewrite mnth_mdiag, Nat.eqb_refl by assumption. reflexivity.
  - intros k Hk Hki. rewrite mnth_mdiag by assumption.
    destruct (k =? j)%nat eqn:E; [apply Nat.eqb_eq in E; congruence|ring].
Qed.

Lemma mdiag_mul n f g : mdiag n f ** mdiag n g == mdiag n (fun i => f i * g i).
Proof.
  apply (meq_ext n n); [split; reflexivity|split; reflexivity|]. intros i j Hi Hj.
  rewrite mnth_diag_l, !mnth_mdiag by auto. destruct (i =? j)%nat; ring.
Qed.
Lemma mdiag_ext n f g : (forall i, (i < n)%nat -> f i = g i) -> mdiag n f == mdiag n g.
Proof.
  intros H. apply (meq_ext n n); [split; reflexivity|split; reflexivity|]. intros i j Hi Hj.
  rewrite !mnth_mdiag by auto. destruct (i =? j)%nat; [now apply H|reflexivity].
Qed.
Lemma mdiag_1 n : mdiag n (fun _ => 1) == mid n.
Proof.
  apply (meq_ext n n); [split; reflexivity|split; reflexivity|]. intros i j Hi Hj.
  rewrite mnth_mdiag by auto. rewrite mnth_in by auto. reflexivity.
Qed.
Lemma mdiag_tr n f : mtr (mdiag n f) == mdiag n f.
Proof.
  apply (meq_ext n n); [split; reflexivity|split; reflexivity|]. intros i j Hi Hj.
  rewrite mnth_mtr, !mnth_mdiag by auto. rewrite Nat.eqb_sym.
  destruct (i =? j)%nat eqn:E; [apply Nat.eqb_eq in E; now subst|reflexivity].
Qed.

Lemma all_pos_iff n f : all_pos n f = true <-> forall i, (i < n)%nat -> 0 < f i.
Proof.
  induction n as [|n IH]; cbn.
  - split; [intros _ i Hi; lia|reflexivity].
  - rewrite andb_true_iff, IH. split.
    + intros (H & H') i Hi. destruct (Rlt_dec 0 (f n)); [|discriminate].
      destruct (Nat.eq_dec i n) as [->|]; [assumption|apply H; lia].
    + intros H. split; [intros i Hi; apply H; lia|].
      destruct (Rlt_dec 0 (f n)) as [|N]; [reflexivity|]. exfalso. apply N, H. lia.
Qed.

(** Positive definite: positive eigenvalues. *)
Lemma eigen_pos n S U lam : positive_definite n S -> eigen_decomposition n S U lam ->
  forall k, (k < n)%nat -> 0 < lam k.
Proof.
  intros ((Rs & Cs) & P) ((Ru & Cu) & UU & UU' & D & HD & E) k Hk.
  apply diag_eq in HD. rewrite HD in E. clear D HD.
  assert (ED : mtr U ** S ** U == mdiag n lam).
  { rewrite E. rewrite !mmul_assoc. rewrite UU. rewrite <- !mmul_assoc. rewrite UU.
    rewrite mmul_mid_l by reflexivity. rewrite mmul_mid_r by reflexivity. reflexivity. }
  set (x := fun i => mnth U i k).
  assert (Q : rsum n (fun i => x i * mvec S x i) = lam k).
  { apply (proj1 (meq_nth _ _)) in ED. destruct ED as (_ & _ & ED). specialize (ED k k).
    rewrite mnth_mdiag, Nat.eqb_refl in ED by assumption. rewrite <- ED.
    assert (A : mnth (mtr U ** S ** U) k k = mnth (mtr U ** (S ** U)) k k)
      by (apply (proj2 (proj2 (proj1 (meq_nth _ _) (mmul_assoc (mtr U) S U))))).
    rewrite A, mnth_mmul. cbn [mcols mtr]. rewrite Ru. apply rsum_ext. intros i Hi.
    rewrite mnth_mtr, mnth_mmul. reflexivity. }
  rewrite <- Q. apply P.
  apply (proj1 (meq_nth _ _)) in UU. destruct UU as (_ & _ & UU). specialize (UU k k).
  rewrite mnth_mmul in UU. cbn [mcols mtr] in UU. rewrite Ru in UU.
  rewrite mnth_mid in UU.
  destruct (Classical_Prop.classic (exists i, (i < n)%nat /\ x i <> 0)) as [H|H]; [exact H|].
  exfalso. rewrite rsum_0 in UU.
  - destruct (Nat.ltb_lt k n) as (_ & B). rewrite (B Hk) in UU. rewrite Nat.eqb_refl in UU. cbn in UU. lra.
  - intros i Hi. destruct (Req_dec (x i) 0) as [Z|Z]; [|exfalso; eauto].
    rewrite mnth_mtr. fold (x i). rewrite Z. ring.
Qed.
