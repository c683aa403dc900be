(** Euclidean norms of finite vectors and matrices. *)

From Coq Require Import Reals Arith Lra Lia Psatz.
From Verif Require Import Mat SpecFltNorm.
Local Open Scope R_scope.

Lemma sumsq_nonneg n f : 0 <= rsum n (fun i => f i * f i).
Proof. induction n as [|n IH]; cbn [rsum]; [lra|]. pose proof (Rle_0_sqr (f n)) as H. unfold Rsqr in H. lra. Qed.
Lemma nrm_nonneg n f : 0 <= euclid n f.
Proof. apply sqrt_pos. Qed.
Lemma nrm_sq n f : euclid n f * euclid n f = rsum n (fun i => f i * f i).
Proof. apply sqrt_sqrt, sumsq_nonneg. Qed.
Lemma nrm_ext n f g : (forall i, (i < n)%nat -> f i = g i) -> euclid n f = euclid n g.
Proof. intros H. unfold euclid. f_equal. apply rsum_ext. intros i Hi. now rewrite H. Qed.
Lemma nrm_S n f : euclid (S n) f * euclid (S n) f = euclid n f * euclid n f + f n * f n.
Proof. rewrite !nrm_sq. cbn [rsum]. ring. Qed.

Lemma sq_le x y : 0 <= y -> x * x <= y * y -> x <= y.
Proof. intros Hy H. destruct (Rle_dec x y) as [|N]; [assumption|]. apply Rnot_le_lt in N. assert (y * y < x * x) by (apply Rmult_le_0_lt_compat; lra). lra. Qed.

Lemma nrm_mono n f g : (forall i, (i < n)%nat -> Rabs (f i) <= g i) -> euclid n f <= euclid n g.
Proof.
  intros H. apply sqrt_le_1_alt. induction n as [|n IH]; cbn [rsum]; [lra|].
  assert (A : f n * f n <= g n * g n).
  { specialize (H n ltac:(lia)). pose proof (Rabs_pos (f n)). rewrite <- (Rabs_pos_eq (f n * f n)) by apply Rle_0_sqr. rewrite Rabs_mult.
    apply Rmult_le_compat; lra. }
  specialize (IH ltac:(auto)). lra.
Qed.
Lemma nrm_scal n a f : 0 <= a -> euclid n (fun i => a * f i) = a * euclid n f.
Proof.
  intros Ha. unfold euclid. rewrite (rsum_ext _ _ (fun i => (a * a) * (f i * f i))) by (intros; ring).
  rewrite rsum_scal_l, sqrt_mult_alt by (apply Rmult_le_pos; assumption). rewrite sqrt_square by assumption. reflexivity.
Qed.
Lemma nrm_scal_r n a f : 0 <= a -> euclid n (fun i => f i * a) = euclid n f * a.
Proof. intros Ha. rewrite (nrm_ext _ _ (fun i => a * f i)) by (intros; ring). rewrite nrm_scal by assumption. ring. Qed.
Lemma nrm_opp n f : euclid n (fun i => - f i) = euclid n f.
Proof. unfold euclid. f_equal. apply rsum_ext. intros. ring. Qed.
Lemma nrm_zero n f : (forall i, (i < n)%nat -> f i = 0) -> euclid n f = 0.
Proof. intros H. unfold euclid. rewrite rsum_0; [apply sqrt_0|]. intros i Hi. rewrite H by assumption. ring. Qed.
Lemma nrm_entry n f i : (i < n)%nat -> Rabs (f i) <= euclid n f.
Proof.
  intros Hi. apply sq_le; [apply nrm_nonneg|]. rewrite nrm_sq, <- Rabs_mult, Rabs_pos_eq by apply Rle_0_sqr.
  induction n as [|n IH]; [lia|]. cbn [rsum]. pose proof (sumsq_nonneg n f). pose proof (Rle_0_sqr (f n)) as Q. unfold Rsqr in Q.
  destruct (Nat.eq_dec i n) as [->|N]; [lra|]. specialize (IH ltac:(lia)). lra.
Qed.
Lemma nrm_const n a : 0 <= a -> euclid n (fun _ => a) <= INR n * a.
Proof.
  intros Ha. apply sq_le; [apply Rmult_le_pos; [apply pos_INR|exact Ha]|]. rewrite nrm_sq.
  assert (E : rsum n (fun _ => a * a) = INR n * (a * a)).
  { induction n as [|n IH]; [cbn; ring|]. cbn [rsum]. rewrite IH, S_INR. ring. }
  rewrite E. assert (N : INR n <= INR n * INR n).
  { destruct n as [|n]; [cbn; lra|]. rewrite S_INR. pose proof (pos_INR n). nra. }
  assert (Q : 0 <= a * a) by (apply Rmult_le_pos; lra). assert (INR n * (a * a) <= INR n * INR n * (a * a)) by (apply Rmult_le_compat_r; lra). lra.
Qed.
Lemma nrm_const_sqrt n a : 0 <= a -> euclid n (fun _ => a) * euclid n (fun _ => a) = INR n * (a * a).
Proof. intros Ha. rewrite nrm_sq. induction n as [|n IH]; [cbn; ring|]. cbn [rsum]. rewrite IH, S_INR. ring. Qed.

(** Cauchy-Schwarz and the triangle inequality *)
Lemma nrm_cs n f g : Rabs (rsum n (fun i => f i * g i)) <= euclid n f * euclid n g.
Proof.
  induction n as [|n IH]; cbn [rsum].
  - rewrite Rabs_R0. apply Rmult_le_pos; apply nrm_nonneg.
  - set (x := euclid n f) in *. set (y := euclid n g) in *.
    assert (X0 : 0 <= x) by apply nrm_nonneg. assert (Y0 : 0 <= y) by apply nrm_nonneg.
    pose proof (nrm_S n f) as X1. pose proof (nrm_S n g) as Y1. fold x in X1. fold y in Y1.
    pose proof (nrm_nonneg (S n) f) as X2. pose proof (nrm_nonneg (S n) g) as Y2.
    set (x' := euclid (S n) f) in *. set (y' := euclid (S n) g) in *. set (a := f n) in *. set (b := g n) in *.
    eapply Rle_trans; [apply Rabs_triang|]. apply Rle_trans with (x * y + Rabs (a * b)); [lra|].
    apply sq_le; [apply Rmult_le_pos; lra|]. rewrite Rabs_mult.
    replace (x' * y' * (x' * y')) with ((x' * x') * (y' * y')) by ring. rewrite X1, Y1.
    assert (A : Rabs a * Rabs a = a * a) by (rewrite <- Rabs_mult, Rabs_pos_eq; [reflexivity|apply Rle_0_sqr]).
    assert (B : Rabs b * Rabs b = b * b) by (rewrite <- Rabs_mult, Rabs_pos_eq; [reflexivity|apply Rle_0_sqr]).
    rewrite <- A, <- B. set (p := Rabs a). set (q := Rabs b). pose proof (Rle_0_sqr (x * q - y * p)) as Q. unfold Rsqr in Q. lra.
Qed.
Lemma nrm_add n f g : euclid n (fun i => f i + g i) <= euclid n f + euclid n g.
Proof.
  apply sq_le; [pose proof (nrm_nonneg n f); pose proof (nrm_nonneg n g); lra|].
  rewrite nrm_sq. rewrite (rsum_ext _ _ (fun i => f i * f i + (2 * (f i * g i) + g i * g i))) by (intros; ring).
  rewrite !rsum_plus, rsum_scal_l, <- !nrm_sq. pose proof (nrm_cs n f g) as H. pose proof (Rle_abs (rsum n (fun i => f i * g i))). lra.
Qed.

(** ** Matrices given by their entries *)
Notation entries := (nat -> nat -> R) (only parsing).

Definition prod (k : nat) (A B : entries) : entries := fun i j => rsum k (fun l => A i l * B l j).
Notation opn := stretches.

Lemma fro_nonneg r c A : 0 <= frobenius r c A. Proof. apply nrm_nonneg. Qed.
Lemma fro_ext r c A B : (forall i j, (i < r)%nat -> (j < c)%nat -> A i j = B i j) -> frobenius r c A = frobenius r c B.
Proof. intros H. apply nrm_ext. intros i Hi. apply nrm_ext. intros j Hj. now apply H. Qed.
Lemma fro_mono r c A B : (forall i j, (i < r)%nat -> (j < c)%nat -> Rabs (A i j) <= B i j) -> frobenius r c A <= frobenius r c B.
Proof. intros H. apply nrm_mono. intros i Hi. rewrite Rabs_pos_eq by apply nrm_nonneg. apply nrm_mono. intros j Hj. now apply H. Qed.
Lemma fro_add r c A B : frobenius r c (fun i j => A i j + B i j) <= frobenius r c A + frobenius r c B.
Proof.
  unfold frobenius. eapply Rle_trans; [|apply nrm_add]. apply nrm_mono. intros i Hi. rewrite Rabs_pos_eq by apply nrm_nonneg. apply nrm_add.
Qed.
Lemma fro_scal r c a A : 0 <= a -> frobenius r c (fun i j => a * A i j) = a * frobenius r c A.
Proof. intros Ha. unfold frobenius. rewrite <- nrm_scal by assumption. apply nrm_ext. intros i _. now apply nrm_scal. Qed.
Lemma fro_sq r c A : frobenius r c A * frobenius r c A = rsum r (fun i => rsum c (fun j => A i j * A i j)).
Proof. unfold frobenius. rewrite nrm_sq. apply rsum_ext. intros i _. apply nrm_sq. Qed.
Lemma fro_swap r c A : frobenius r c A = frobenius c r (fun j i => A i j).
Proof.
  apply Rle_antisym; (apply sq_le; [apply fro_nonneg|]); rewrite !fro_sq, rsum_swap; apply Rle_refl.
Qed.
Lemma fro_entry r c A i j : (i < r)%nat -> (j < c)%nat -> Rabs (A i j) <= frobenius r c A.
Proof.
  intros Hi Hj. eapply Rle_trans; [apply (nrm_entry c (A i) j Hj)|]. unfold frobenius.
  pose proof (nrm_entry r (fun i => euclid c (A i)) i Hi) as H. cbv beta in H. rewrite Rabs_pos_eq in H by apply nrm_nonneg. exact H.
Qed.
Lemma fro_outer r c f g : (forall j, (j < c)%nat -> 0 <= g j) -> (forall i, (i < r)%nat -> 0 <= f i) -> frobenius r c (fun i j => f i * g j) = euclid r f * euclid c g.
Proof.
  intros Hg Hf. unfold frobenius. rewrite (nrm_ext _ _ (fun i => f i * euclid c g)) by (intros i Hi; apply nrm_scal; auto).
  apply nrm_scal_r, nrm_nonneg.
Qed.

Lemma opn_mono S S' r c A : opn S r c A -> S <= S' -> opn S' r c A.
Proof. intros H HS x. eapply Rle_trans; [apply H|]. apply Rmult_le_compat_r; [apply nrm_nonneg|exact HS]. Qed.
Lemma opn_ext S r c A B : (forall i j, (i < r)%nat -> (j < c)%nat -> A i j = B i j) -> opn S r c A -> opn S r c B.
Proof.
  intros E H x. eapply Rle_trans; [|apply H]. apply Req_le, nrm_ext. intros i Hi. apply rsum_ext. intros j Hj. now rewrite E.
Qed.
Lemma opn_fro r c A : opn (frobenius r c A) r c A.
Proof.
  intros x. unfold frobenius. rewrite <- nrm_scal_r by apply nrm_nonneg. apply nrm_mono. intros i Hi. apply nrm_cs.
Qed.
Lemma opn_add S S' r c A B : opn S r c A -> opn S' r c B -> opn (S + S') r c (fun i j => A i j + B i j).
Proof.
  intros HA HB x. rewrite (nrm_ext _ _ (fun i => rsum c (fun j => A i j * x j) + rsum c (fun j => B i j * x j))).
  - eapply Rle_trans; [apply nrm_add|]. specialize (HA x). specialize (HB x). lra.
  - intros i _. rewrite <- rsum_plus. apply rsum_ext. intros. ring.
Qed.
Lemma opn_opp S r c A : opn S r c A -> opn S r c (fun i j => - A i j).
Proof.
  intros H x. eapply Rle_trans; [|apply H]. apply Req_le. rewrite <- (nrm_opp r). apply nrm_ext. intros i _.
  replace (- rsum c (fun j => - A i j * x j)) with (-1 * rsum c (fun j => - A i j * x j)) by ring. rewrite <- rsum_scal_l. apply rsum_ext. intros. ring.
Qed.
Lemma opn_T S r c A : 0 <= S -> opn S r c A -> opn S c r (fun j i => A i j).
Proof.
  intros HS H x. set (y := fun j => rsum r (fun i => A i j * x i)). change (euclid c y <= S * euclid r x).
  assert (E : euclid c y * euclid c y = rsum r (fun i => x i * rsum c (fun j => A i j * y j))).
  { rewrite nrm_sq. rewrite (rsum_ext c _ (fun j => rsum r (fun i => x i * (A i j * y j)))).
    - rewrite rsum_swap. apply rsum_ext. intros i _. apply rsum_scal_l.
    - intros j _. unfold y at 1. rewrite <- rsum_scal_r. apply rsum_ext. intros. ring. }
  pose proof (nrm_cs r x (fun i => rsum c (fun j => A i j * y j))) as CS. cbv beta in CS. rewrite <- E in CS.
  specialize (H y). pose proof (nrm_nonneg c y) as Y0. pose proof (nrm_nonneg r x) as X0.
  rewrite Rabs_pos_eq in CS by (apply Rmult_le_pos; assumption).
  destruct (Req_dec (euclid c y) 0) as [Z|NZ]; [rewrite Z; apply Rmult_le_pos; assumption|].
  apply (Rmult_le_reg_r (euclid c y)); [lra|]. eapply Rle_trans; [exact CS|].
  apply Rle_trans with (euclid r x * (S * euclid c y)); [apply Rmult_le_compat_l; assumption|]. right. ring.
Qed.
Lemma opn_mul SA SB r k c A B : 0 <= SA -> opn SA r k A -> opn SB k c B -> opn (SA * SB) r c (prod k A B).
Proof.
  intros HS HA HB x.
  rewrite (nrm_ext r _ (fun i => rsum k (fun l => A i l * rsum c (fun j => B l j * x j)))).
  - eapply Rle_trans; [apply HA|]. rewrite Rmult_assoc. apply Rmult_le_compat_l; [exact HS|]. apply HB.
  - intros i _. unfold prod. rewrite (rsum_ext c _ (fun j => rsum k (fun l => A i l * (B l j * x j)))).
    + rewrite rsum_swap. apply rsum_ext. intros l _. apply rsum_scal_l.
    + intros j _. rewrite <- rsum_scal_r. apply rsum_ext. intros. ring.
Qed.
Lemma fro_mul_l S r k c A X : 0 <= S -> opn S r k A -> frobenius r c (prod k A X) <= S * frobenius k c X.
Proof.
  intros HS H. rewrite fro_swap, (fro_swap k c). unfold frobenius. rewrite <- nrm_scal by exact HS. apply nrm_mono. intros j Hj.
  rewrite Rabs_pos_eq by apply nrm_nonneg. apply (H (fun l => X l j)).
Qed.
Lemma fro_mul_r S r k c X B : 0 <= S -> opn S k c B -> frobenius r c (prod k X B) <= S * frobenius r k X.
Proof.
  intros HS H. unfold frobenius. rewrite <- nrm_scal by exact HS. apply nrm_mono. intros i Hi.
  rewrite Rabs_pos_eq by apply nrm_nonneg. pose proof (opn_T _ _ _ _ HS H (X i)) as Q. eapply Rle_trans; [|exact Q].
  apply Req_le, nrm_ext. intros j _. apply rsum_ext. intros. ring.
Qed.
Lemma unit_vec c j : (j < c)%nat -> euclid c (fun l => if (l =? j)%nat then 1 else 0) = 1.
Proof.
  intros Hj. unfold euclid. rewrite (rsum_single c j).
  - rewrite Nat.eqb_refl, Rmult_1_l. apply sqrt_1.
  - exact Hj.
  - intros l _ N. apply Nat.eqb_neq in N. rewrite N. ring.
Qed.
Lemma opn_col S r c A j : opn S r c A -> (j < c)%nat -> euclid r (fun i => A i j) <= S.
Proof.
  intros H Hj. specialize (H (fun l => if (l =? j)%nat then 1 else 0)). rewrite unit_vec, Rmult_1_r in H by exact Hj.
  eapply Rle_trans; [|exact H]. apply Req_le, nrm_ext. intros i _. rewrite (rsum_single c j); [rewrite Nat.eqb_refl; ring|exact Hj|].
  intros l _ N. apply Nat.eqb_neq in N. rewrite N. ring.
Qed.
Lemma fro_opn S r c A : 0 <= S -> opn S r c A -> (c <= 6)%nat -> frobenius r c A <= 5 / 2 * S.
Proof.
  intros HS H Hc. rewrite fro_swap. apply Rle_trans with (euclid c (fun _ => S)).
  - apply nrm_mono. intros j Hj. rewrite Rabs_pos_eq by apply nrm_nonneg. now apply opn_col with c.
  - apply sq_le; [lra|]. rewrite nrm_const_sqrt by exact HS. assert (INR c <= 6) by (replace 6 with (INR 6) by (cbn; ring); now apply le_INR).
    pose proof (Rle_0_sqr S) as Q. unfold Rsqr in Q. assert (INR c * (S * S) <= 6 * (S * S)) by (apply Rmult_le_compat_r; lra). lra.
Qed.
Lemma opn_entry S r c A i j : opn S r c A -> (i < r)%nat -> (j < c)%nat -> Rabs (A i j) <= S.
Proof. intros H Hi Hj. eapply Rle_trans; [|apply (opn_col _ _ _ _ j H Hj)]. apply (nrm_entry r (fun i => A i j) i Hi). Qed.
Lemma fro_const r c a : 0 <= a -> (r <= 6)%nat -> (c <= 6)%nat -> frobenius r c (fun _ _ => a) <= 6 * a.
Proof.
  intros Ha Hr Hc. apply sq_le; [lra|]. rewrite fro_sq.
  assert (K : forall n x, rsum n (fun _ => x) = INR n * x) by (intros n x; induction n as [|n IH]; [cbn; ring|]; cbn [rsum]; rewrite IH, S_INR; ring).
  rewrite (rsum_ext r _ (fun _ => INR c * (a * a))) by (intros; apply K). rewrite K.
  assert (B : forall n, (n <= 6)%nat -> 0 <= INR n <= 6) by (intros n Hn; split; [apply pos_INR|replace 6 with (INR 6) by (cbn; ring); now apply le_INR]).
  pose proof (B r Hr) as [R0 R1]. pose proof (B c Hc) as [C0 C1].
  assert (Q : 0 <= a * a) by (apply Rmult_le_pos; lra). rewrite <- Rmult_assoc. replace (6 * a * (6 * a)) with (6 * 6 * (a * a)) by ring.
  apply Rmult_le_compat_r; [exact Q|]. apply Rmult_le_compat; lra.
Qed.
