(** Real matrices of arbitrary size: the mathematical support library.

    Nothing in this file models the C[+] code.  Eigen matrices are represented by
    a shape and an entry function; [meq] is "same shape and same entries". *)

From Coq Require Import Reals Lra Lia List Setoid Morphisms Bool Arith.
Import ListNotations.
Local Open Scope R_scope.

(** ** Finite sums *)

Fixpoint rsum (n : nat) (f : nat -> R) : R :=
  match n with
  | O => 0
  | S k => rsum k f + f k
  end.

Lemma rsum_ext n f g :
  (forall i, (i < n)%nat -> f i = g i) -> rsum n f = rsum n g.
Proof.
  induction n as [|n IH]; intros H; simpl; [reflexivity|].
  rewrite IH by (intros; apply H; lia). rewrite H by lia. reflexivity.
Qed.

Lemma rsum_0 n f : (forall i, (i < n)%nat -> f i = 0) -> rsum n f = 0.
Proof.
  induction n as [|n IH]; intros H; simpl; [reflexivity|].
  rewrite IH by (intros; apply H; lia). rewrite H by lia. ring.
Qed.

Lemma rsum_plus n f g : rsum n (fun i => f i + g i) = rsum n f + rsum n g.
Proof. induction n as [|n IH]; simpl; [ring|rewrite IH; ring]. Qed.

Lemma rsum_scal_l n c f : rsum n (fun i => c * f i) = c * rsum n f.
Proof. induction n as [|n IH]; simpl; [ring|rewrite IH; ring]. Qed.

Lemma rsum_scal_r n c f : rsum n (fun i => f i * c) = rsum n f * c.
Proof. induction n as [|n IH]; simpl; [ring|rewrite IH; ring]. Qed.

Lemma rsum_swap n m f :
  rsum n (fun i => rsum m (fun j => f i j)) = rsum m (fun j => rsum n (fun i => f i j)).
Proof.
  induction n as [|n IH]; simpl.
  - symmetry. apply rsum_0. reflexivity.
  - rewrite IH, <- rsum_plus. reflexivity.
Qed.

Lemma rsum_single n k f :
  (k < n)%nat -> (forall i, (i < n)%nat -> i <> k -> f i = 0) -> rsum n f = f k.
Proof.
  revert k; induction n as [|n IH]; intros k Hk H; [lia|]. simpl.
  destruct (Nat.eq_dec k n) as [->|Hne].
  - rewrite rsum_0; [ring|]. intros i Hi. apply H; lia.
  - rewrite (IH k) by (try lia; intros; apply H; lia).
    rewrite (H n) by lia. ring.
Qed.

(** ** Matrices *)

Record mat := Mat { mrows : nat; mcols : nat; mget : nat -> nat -> R }.

(** Entry lookup that is 0 outside of the shape. *)
Definition mnth (A : mat) (i j : nat) : R :=
  if ((i <? mrows A) && (j <? mcols A))%nat then mget A i j else 0.

(** Same shape, same entries. *)
Definition meq (A B : mat) : Prop :=
  mrows A = mrows B /\ mcols A = mcols B /\
  forall i j, (i < mrows A)%nat -> (j < mcols A)%nat -> mget A i j = mget B i j.

Declare Scope mat_scope.
Delimit Scope mat_scope with mat.
Infix "==" := meq (at level 70, no associativity) : mat_scope.
Local Open Scope mat_scope.

Lemma mnth_in A i j :
  (i < mrows A)%nat -> (j < mcols A)%nat -> mnth A i j = mget A i j.
Proof.
  intros Hi Hj. unfold mnth.
  apply Nat.ltb_lt in Hi. apply Nat.ltb_lt in Hj. rewrite Hi, Hj. reflexivity.
Qed.

Lemma mnth_out_r A i j : (mrows A <= i)%nat -> mnth A i j = 0.
Proof.
  intros Hi. unfold mnth. apply Nat.ltb_ge in Hi. rewrite Hi. reflexivity.
Qed.

Lemma mnth_out_c A i j : (mcols A <= j)%nat -> mnth A i j = 0.
Proof.
  intros Hi. unfold mnth. apply Nat.ltb_ge in Hi. rewrite Hi, andb_false_r. reflexivity.
Qed.

Lemma meq_nth A B :
  A == B <-> mrows A = mrows B /\ mcols A = mcols B /\ forall i j, mnth A i j = mnth B i j.
Proof.
  split; intros (Hr & Hc & H); repeat split; auto; intros i j.
  - unfold mnth. rewrite <- Hr, <- Hc.
    destruct (i <? mrows A)%nat eqn:Hi, (j <? mcols A)%nat eqn:Hj; simpl; auto.
    apply Nat.ltb_lt in Hi, Hj. auto.
  - intros Hi Hj. specialize (H i j).
    rewrite !mnth_in in H by lia. exact H.
Qed.

Lemma meq_refl A : A == A.
Proof. repeat split. Qed.

Lemma meq_sym A B : A == B -> B == A.
Proof.
  intros (Hr & Hc & H); repeat split; auto. intros. symmetry. apply H; lia.
Qed.

Lemma meq_trans A B C : A == B -> B == C -> A == C.
Proof.
  rewrite !meq_nth. intros (Hr & Hc & H) (Hr' & Hc' & H').
  split; [congruence|]. split; [congruence|]. intros. rewrite H. apply H'.
Qed.

Global Instance meq_equiv : Equivalence meq.
Proof.
  split; [exact meq_refl | exact meq_sym | exact meq_trans].
Qed.

Global Instance mrows_proper : Proper (meq ==> eq) mrows.
Proof. intros A B (H & _). exact H. Qed.

Global Instance mcols_proper : Proper (meq ==> eq) mcols.
Proof. intros A B (_ & H & _). exact H. Qed.

Global Instance mnth_proper : Proper (meq ==> eq ==> eq ==> eq) mnth.
Proof.
  intros A B H i i' <- j j' <-. apply meq_nth in H. apply H.
Qed.

Definition mzero (r c : nat) : mat := Mat r c (fun _ _ => 0).

Definition mid (n : nat) : mat := Mat n n (fun i j => if (i =? j)%nat then 1 else 0).

Definition mmul (A B : mat) : mat :=
  Mat (mrows A) (mcols B) (fun i j => rsum (mcols A) (fun k => mnth A i k * mnth B k j)).

(** Sum; the shape is that of the left operand. *)
Definition madd (A B : mat) : mat :=
  Mat (mrows A) (mcols A) (fun i j => mnth A i j + mnth B i j).

Definition mopp (A : mat) : mat := Mat (mrows A) (mcols A) (fun i j => - mnth A i j).

Definition mscal (a : R) (A : mat) : mat :=
  Mat (mrows A) (mcols A) (fun i j => a * mnth A i j).

Definition mtr (A : mat) : mat := Mat (mcols A) (mrows A) (fun i j => mnth A j i).

Infix "**" := mmul (at level 40, left associativity) : mat_scope.
Infix "[+]" := madd (at level 50, left associativity) : mat_scope.

Ltac mnth_cases :=
  unfold mnth; simpl;
  repeat match goal with
  | |- context [ (?a <? ?b)%nat ] => destruct (a <? b)%nat eqn:?
  end; simpl.

Lemma mnth_mmul A B i j :
  mnth (A ** B) i j = rsum (mcols A) (fun k => mnth A i k * mnth B k j).
Proof.
  unfold mnth at 1. simpl.
  destruct (i <? mrows A)%nat eqn:Hi, (j <? mcols B)%nat eqn:Hj; simpl; auto;
    symmetry; apply rsum_0; intros k Hk.
  - apply Nat.ltb_ge in Hj. rewrite (mnth_out_c B) by lia. ring.
  - apply Nat.ltb_ge in Hi. rewrite (mnth_out_r A) by lia. ring.
  - apply Nat.ltb_ge in Hi. rewrite (mnth_out_r A) by lia. ring.
Qed.

Lemma mnth_mzero r c i j : mnth (mzero r c) i j = 0.
Proof. unfold mnth, mzero; simpl. destruct (_ && _)%bool; reflexivity. Qed.

Lemma mnth_mid n i j :
  mnth (mid n) i j = if ((i =? j) && (i <? n))%nat then 1 else 0.
Proof.
  unfold mnth; simpl.
  destruct (i =? j)%nat eqn:E; simpl.
  - apply Nat.eqb_eq in E. subst j. destruct (i <? n)%nat; reflexivity.
  - destruct (_ && _)%bool; reflexivity.
Qed.

Lemma mnth_madd A B i j :
  mrows A = mrows B -> mcols A = mcols B ->
  mnth (A [+] B) i j = mnth A i j + mnth B i j.
Proof.
  intros Hr Hc. unfold mnth at 1; simpl.
  destruct (i <? mrows A)%nat eqn:Hi, (j <? mcols A)%nat eqn:Hj; simpl; auto.
  - apply Nat.ltb_ge in Hj. rewrite !mnth_out_c by lia. ring.
  - apply Nat.ltb_ge in Hi. rewrite !mnth_out_r by lia. ring.
  - apply Nat.ltb_ge in Hi. rewrite !mnth_out_r by lia. ring.
Qed.

Lemma mnth_mtr A i j : mnth (mtr A) i j = mnth A j i.
Proof.
  unfold mnth at 1; simpl.
  destruct (i <? mcols A)%nat eqn:Hi, (j <? mrows A)%nat eqn:Hj; simpl; auto.
  - apply Nat.ltb_ge in Hj. rewrite mnth_out_r by lia. ring.
  - apply Nat.ltb_ge in Hi. rewrite mnth_out_c by lia. ring.
  - apply Nat.ltb_ge in Hj. rewrite mnth_out_r by lia. ring.
Qed.

Lemma mnth_mscal a A i j : mnth (mscal a A) i j = a * mnth A i j.
Proof.
  unfold mnth at 1; simpl.
  destruct (i <? mrows A)%nat eqn:Hi, (j <? mcols A)%nat eqn:Hj; simpl; auto.
  - apply Nat.ltb_ge in Hj. rewrite mnth_out_c by lia. ring.
  - apply Nat.ltb_ge in Hi. rewrite mnth_out_r by lia. ring.
  - apply Nat.ltb_ge in Hi. rewrite mnth_out_r by lia. ring.
Qed.

Lemma mnth_mopp A i j : mnth (mopp A) i j = - mnth A i j.
Proof.
  unfold mnth at 1; simpl.
  destruct (i <? mrows A)%nat eqn:Hi, (j <? mcols A)%nat eqn:Hj; simpl; auto.
  - apply Nat.ltb_ge in Hj. rewrite mnth_out_c by lia. ring.
  - apply Nat.ltb_ge in Hi. rewrite mnth_out_r by lia. ring.
  - apply Nat.ltb_ge in Hi. rewrite mnth_out_r by lia. ring.
Qed.

Global Instance mmul_proper : Proper (meq ==> meq ==> meq) mmul.
Proof.
  intros A A' HA B B' HB. apply meq_nth.
  pose proof (mrows_proper _ _ HA). pose proof (mcols_proper _ _ HA).
  pose proof (mcols_proper _ _ HB).
  repeat split; simpl; auto. intros i j. rewrite !mnth_mmul, H0.
  apply rsum_ext. intros k _. rewrite HA, HB. reflexivity.
Qed.

Global Instance madd_proper : Proper (meq ==> meq ==> meq) madd.
Proof.
  intros A A' HA B B' HB.
  pose proof (mrows_proper _ _ HA). pose proof (mcols_proper _ _ HA).
  repeat split; simpl; auto. intros i j _ _. rewrite HA, HB. reflexivity.
Qed.

Global Instance mtr_proper : Proper (meq ==> meq) mtr.
Proof.
  intros A A' HA.
  pose proof (mrows_proper _ _ HA). pose proof (mcols_proper _ _ HA).
  repeat split; simpl; auto.
  intros i j _ _. rewrite HA. reflexivity.
Qed.

Global Instance mscal_proper : Proper (eq ==> meq ==> meq) mscal.
Proof.
  intros a a' <- A A' HA.
  pose proof (mrows_proper _ _ HA). pose proof (mcols_proper _ _ HA).
  repeat split; simpl; auto. intros i j _ _. rewrite HA. reflexivity.
Qed.

Global Instance mopp_proper : Proper (meq ==> meq) mopp.
Proof.
  intros A A' HA.
  pose proof (mrows_proper _ _ HA). pose proof (mcols_proper _ _ HA).
  repeat split; simpl; auto. intros i j _ _. rewrite HA. reflexivity.
Qed.

Lemma mmul_assoc A B C : (A ** B) ** C == A ** (B ** C).
Proof.
  apply meq_nth. repeat split; simpl; auto. intros i j.
  rewrite !mnth_mmul.
  rewrite (rsum_ext (mcols (A ** B)) _
    (fun l => rsum (mcols A) (fun k => mnth A i k * mnth B k l * mnth C l j))).
  2:{ intros l _. rewrite mnth_mmul, rsum_scal_r. reflexivity. }
  simpl. rewrite rsum_swap. apply rsum_ext. intros k _.
  rewrite mnth_mmul, <- rsum_scal_l. apply rsum_ext. intros l _. ring.
Qed.

Lemma mmul_mid_l A n : n = mrows A -> mid n ** A == A.
Proof.
  intros ->. apply meq_nth. repeat split; simpl; auto. intros i j.
  rewrite mnth_mmul. simpl.
  destruct (Nat.lt_ge_cases i (mrows A)) as [Hi|Hi].
  - rewrite (rsum_single _ i); auto.
    + rewrite mnth_mid, Nat.eqb_refl. apply Nat.ltb_lt in Hi. rewrite Hi. simpl. ring.
    + intros k _ Hk. rewrite mnth_mid.
      replace (i =? k)%nat with false by (symmetry; apply Nat.eqb_neq; auto).
      simpl. ring.
  - rewrite (mnth_out_r A) by lia. apply rsum_0. intros k Hk.
    rewrite mnth_mid.
    replace (i =? k)%nat with false by (symmetry; apply Nat.eqb_neq; lia). simpl. ring.
Qed.

Lemma mmul_mid_r A n : n = mcols A -> A ** mid n == A.
Proof.
  intros ->. apply meq_nth. repeat split; simpl; auto. intros i j.
  rewrite mnth_mmul.
  destruct (Nat.lt_ge_cases j (mcols A)) as [Hi|Hi].
  - rewrite (rsum_single _ j); auto.
    + rewrite mnth_mid, Nat.eqb_refl. apply Nat.ltb_lt in Hi. rewrite Hi. simpl. ring.
    + intros k _ Hk. rewrite mnth_mid.
      replace (k =? j)%nat with false by (symmetry; apply Nat.eqb_neq; auto).
      simpl. ring.
  - rewrite (mnth_out_c A) by lia. apply rsum_0. intros k Hk.
    rewrite mnth_mid.
    replace (k =? j)%nat with false by (symmetry; apply Nat.eqb_neq; lia). simpl. ring.
Qed.

Lemma mmul_madd_l A B C :
  mrows B = mrows C -> mcols B = mcols C -> A ** (B [+] C) == (A ** B) [+] (A ** C).
Proof.
  intros Hr Hc. apply meq_nth. repeat split; simpl; auto. intros i j.
  rewrite (mnth_madd (A ** B) (A ** C)) by (simpl; congruence).
  rewrite !mnth_mmul, <- rsum_plus. apply rsum_ext. intros k _.
  rewrite mnth_madd by congruence. ring.
Qed.

Lemma mmul_madd_r A B C :
  mrows A = mrows B -> mcols A = mcols B -> (A [+] B) ** C == (A ** C) [+] (B ** C).
Proof.
  intros Hr Hc. apply meq_nth. repeat split; simpl; auto. intros i j.
  rewrite (mnth_madd (A ** C) (B ** C)) by (simpl; congruence).
  rewrite !mnth_mmul, <- Hc, <- rsum_plus. simpl. apply rsum_ext. intros k _.
  rewrite mnth_madd by congruence. ring.
Qed.

Lemma mmul_mzero_r A r c : A ** mzero r c == mzero (mrows A) c.
Proof.
  apply meq_nth. repeat split; simpl; auto. intros i j.
  rewrite mnth_mmul, mnth_mzero. apply rsum_0. intros k _.
  rewrite mnth_mzero. ring.
Qed.

Lemma mmul_mzero_l A r c : mzero r c ** A == mzero r (mcols A).
Proof.
  apply meq_nth. repeat split; simpl; auto. intros i j.
  rewrite mnth_mmul, mnth_mzero. apply rsum_0. intros k _.
  rewrite mnth_mzero. ring.
Qed.

Lemma madd_mzero_r A r c : A [+] mzero r c == A.
Proof.
  repeat split. intros i j Hi Hj. simpl in *. rewrite mnth_mzero, mnth_in by auto. ring.
Qed.

Lemma madd_mzero_l A r c : r = mrows A -> c = mcols A -> mzero r c [+] A == A.
Proof.
  intros -> ->. repeat split. intros i j Hi Hj. simpl in *.
  rewrite mnth_mzero, mnth_in by auto. ring.
Qed.

Lemma madd_assoc A B C :
  mrows A = mrows B -> mcols A = mcols B -> mrows B = mrows C -> mcols B = mcols C ->
  (A [+] B) [+] C == A [+] (B [+] C).
Proof.
  intros. repeat split. intros i j Hi Hj. cbn [mget madd].
  rewrite !mnth_madd by (simpl; congruence). ring.
Qed.

Lemma madd_comm A B :
  mrows A = mrows B -> mcols A = mcols B -> A [+] B == B [+] A.
Proof.
  intros. repeat split; simpl; auto. intros. ring.
Qed.

Lemma mtr_mmul A B : mcols A = mrows B -> mtr (A ** B) == mtr B ** mtr A.
Proof.
  intros H. apply meq_nth. repeat split; simpl; auto. intros i j.
  rewrite mnth_mtr, !mnth_mmul. simpl. rewrite H. apply rsum_ext. intros k _.
  rewrite !mnth_mtr. ring.
Qed.

Lemma mtr_mtr A : mtr (mtr A) == A.
Proof.
  apply meq_nth. repeat split; auto. intros. rewrite !mnth_mtr. reflexivity.
Qed.

(** Sum of a list of matrices of a given shape. *)
Definition msum (r c : nat) (l : list mat) : mat :=
  fold_right madd (mzero r c) l.

Definition has_shape (r c : nat) (A : mat) : Prop := mrows A = r /\ mcols A = c.

Lemma msum_shape r c l :
  (forall A, In A l -> has_shape r c A) -> has_shape r c (msum r c l).
Proof.
  induction l as [|A l IH]; intros H; simpl; [split; reflexivity|].
  destruct (H A (or_introl eq_refl)) as [Hr Hc]. split; simpl; auto.
Qed.

Lemma msum_app r c l1 l2 :
  (forall A, In A (l1 ++ l2)%list -> has_shape r c A) ->
  msum r c (l1 ++ l2)%list == msum r c l1 [+] msum r c l2.
Proof.
  induction l1 as [|A l IH]; intros H.
  - change (([] ++ l2)%list) with l2. change (msum r c []) with (mzero r c).
    destruct (msum_shape r c l2) as [Hr Hc]; [exact H|].
    symmetry. apply madd_mzero_l; congruence.
  - change (((A :: l) ++ l2)%list) with (A :: (l ++ l2)%list).
    change (msum r c (A :: (l ++ l2)%list)) with (A [+] msum r c (l ++ l2)%list).
    change (msum r c (A :: l)) with (A [+] msum r c l).
    rewrite IH by (intros; apply H; right; assumption).
    destruct (H A (or_introl eq_refl)) as [Hr Hc].
    destruct (msum_shape r c l) as [Hr1 Hc1];
      [intros; apply H; right; apply in_or_app; auto|].
    destruct (msum_shape r c l2) as [Hr2 Hc2];
      [intros; apply H; right; apply in_or_app; auto|].
    symmetry. apply madd_assoc; congruence.
Qed.

Lemma mmul_msum A r c l :
  (forall B, In B l -> has_shape r c B) ->
  A ** msum r c l == msum (mrows A) c (map (mmul A) l).
Proof.
  induction l as [|B l IH]; intros H.
  - apply mmul_mzero_r.
  - cbn [map]. change (msum r c (B :: l)) with (B [+] msum r c l).
    change (msum (mrows A) c ((A ** B) :: map (mmul A) l))
      with ((A ** B) [+] msum (mrows A) c (map (mmul A) l)).
    destruct (H B (or_introl eq_refl)) as [Hr Hc].
    destruct (msum_shape r c l) as [Hr1 Hc1]; [intros; apply H; right; assumption|].
    rewrite mmul_madd_l by congruence.
    rewrite IH by (intros; apply H; right; assumption). reflexivity.
Qed.

(** Vertical stacking of blocks with a common number of columns. *)
Fixpoint vstack (c : nat) (l : list mat) : mat :=
  match l with
  | [] => mzero 0 c
  | A :: l' =>
      let B := vstack c l' in
      Mat (mrows A + mrows B) c
        (fun i j => if (i <? mrows A)%nat then mnth A i j else mnth B (i - mrows A) j)
  end.

Lemma vstack_rows c l : mrows (vstack c l) = list_sum (map mrows l).
Proof. induction l as [|A l IH]; simpl; auto. Qed.

Lemma vstack_cols c l : mcols (vstack c l) = c.
Proof. destruct l; reflexivity. Qed.

(** Matrix applied to a (column) vector given as a function. *)
Definition mvec (A : mat) (v : nat -> R) (i : nat) : R :=
  rsum (mcols A) (fun k => mnth A i k * v k).

Lemma mvec_mmul A B v i :
  mcols A = mrows B -> mvec (A ** B) v i = mvec A (mvec B v) i.
Proof.
  intros H. unfold mvec. simpl.
  rewrite (rsum_ext (mcols B) _
    (fun l => rsum (mcols A) (fun k => mnth A i k * mnth B k l * v l))).
  2:{ intros. rewrite mnth_mmul, <- rsum_scal_r. reflexivity. }
  rewrite rsum_swap. apply rsum_ext. intros k _.
  rewrite <- rsum_scal_l. apply rsum_ext. intros. ring.
Qed.

Lemma mvec_madd A B v i :
  mrows A = mrows B -> mcols A = mcols B ->
  mvec (A [+] B) v i = mvec A v i + mvec B v i.
Proof.
  intros Hr Hc. unfold mvec. simpl. rewrite <- Hc, <- rsum_plus. apply rsum_ext.
  intros. rewrite mnth_madd by auto. ring.
Qed.

Lemma mvec_mid n v i : (i < n)%nat -> mvec (mid n) v i = v i.
Proof.
  intros Hi. unfold mvec. simpl. rewrite (rsum_single n i); auto.
  - rewrite mnth_mid, Nat.eqb_refl. apply Nat.ltb_lt in Hi. rewrite Hi. simpl. ring.
  - intros k _ Hk. rewrite mnth_mid.
    replace (i =? k)%nat with false by (symmetry; apply Nat.eqb_neq; auto). simpl. ring.
Qed.

Lemma mvec_mzero r c v i : mvec (mzero r c) v i = 0.
Proof. apply rsum_0. intros. rewrite mnth_mzero. ring. Qed.

Global Instance mvec_proper : Proper (meq ==> eq ==> eq ==> eq) mvec.
Proof.
  intros A B H v v' <- i i' <-. unfold mvec.
  rewrite (mcols_proper _ _ H). apply rsum_ext. intros. rewrite H. reflexivity.
Qed.
