(** C38: noise models normalise residuals. *)

From Coq Require Import Reals Lra Lia List Bool Arith Setoid.
From Verif Require Import Mat ModelJac V3 ModelLeaf ModelExpr ModelEstim SpecEstim NoiseProofs.
Import ListNotations.
Local Open Scope R_scope.
Local Open Scope mat_scope.

Lemma sqrt_inv_sq x : 0 < x -> sqrt (1 / x) * x * sqrt (1 / x) = 1.
Proof.
  intros H. assert (P : 0 <= 1 / x) by (apply Rlt_le, Rdiv_lt_0_compat; lra).
  replace (sqrt (1 / x) * x * sqrt (1 / x)) with (sqrt (1 / x) * sqrt (1 / x) * x) by ring.
  rewrite sqrt_sqrt by assumption. field. lra.
Qed.
Lemma sqrt_inv_square x : 0 < x -> sqrt (1 / (x * x)) = / x.
Proof.
  intros H. replace (1 / (x * x)) with (/ x * / x) by (field; lra).
  rewrite sqrt_square; [reflexivity|]. left. now apply Rinv_0_lt_compat.
Qed.

(** For a positive definite covariance, whatever correct decomposition the eigensolver
    returns: FullNoise is defined, keeps the covariance, and its inverseSqrtCov is a
    symmetric matrix that whitens it. *)
Theorem c38_full_whitens n S solver :
  positive_definite n S ->
  eigen_decomposition n S (fst (solver S)) (snd (solver S)) ->
  exists N, FullNoise solver S = Some N /\ covariance N = S /\
    has_shape n n (inverseSqrtCov N) /\
    whitens n (inverseSqrtCov N) S /\
    mtr (inverseSqrtCov N) == inverseSqrtCov N /\
    inverseSqrtCov N ** inverseSqrtCov N ** S == mid n.
Proof.
  intros P E. pose proof (eigen_pos _ _ _ _ P E) as Pos. unfold FullNoise.
  destruct (solver S) as (U, lam). cbn [fst snd] in *.
  destruct P as ((Rs & Cs) & _). rewrite Rs.
  rewrite (proj2 (all_pos_iff n lam)) by assumption. eexists. split; [reflexivity|].
  cbn [covariance inverseSqrtCov]. split; [reflexivity|].
  destruct E as ((Ru & Cu) & UU & UU' & D & HD & E). apply diag_eq in HD. rewrite HD in E.
  clear D HD. set (g := fun i => sqrt (1 / lam i)).
  split; [split; cbn; assumption|].
  assert (T : mtr (U ** mdiag n g ** mtr U) == U ** mdiag n g ** mtr U).
  { rewrite mtr_mmul by (cbn; congruence). rewrite mtr_mtr.
    rewrite mtr_mmul by (cbn; congruence). rewrite mdiag_tr.
    symmetry. apply mmul_assoc. }
  assert (G : U ** mdiag n g ** mtr U ** S == U ** mdiag n (fun i => g i * lam i) ** mtr U).
  { rewrite E. rewrite !mmul_assoc. rewrite <- (mmul_assoc (mtr U) U). rewrite UU.
    rewrite mmul_mid_l by reflexivity. rewrite <- (mmul_assoc (mdiag n g)).
    rewrite mdiag_mul. reflexivity. }
  assert (I : forall h k, (forall i, (i < n)%nat -> h i * k i = 1) ->
    U ** mdiag n h ** mtr U ** (U ** mdiag n k ** mtr U) == mid n).
  { intros h k H. rewrite !mmul_assoc. rewrite <- (mmul_assoc (mtr U) U). rewrite UU.
    rewrite mmul_mid_l by reflexivity. rewrite <- (mmul_assoc (mdiag n h)).
    rewrite mdiag_mul. rewrite (mdiag_ext n _ (fun _ => 1)) by assumption. rewrite mdiag_1.
    rewrite mmul_mid_l by (cbn; congruence). exact UU'. }
  split; [|split; [exact T|]].
  - unfold whitens. rewrite T, G. apply I. intros i Hi. unfold g. now apply sqrt_inv_sq, Pos.
  - rewrite mmul_assoc, G. apply I. intros i Hi. unfold g.
    etransitivity; [|apply (sqrt_inv_sq (lam i)); now apply Pos]. ring.
Qed.

(** inverseSqrtCov does not depend on the decomposition chosen: FullNoise is a function of
    the covariance. *)
Theorem c38_full_unique n S sol1 sol2 N1 N2 :
  positive_definite n S ->
  eigen_decomposition n S (fst (sol1 S)) (snd (sol1 S)) ->
  eigen_decomposition n S (fst (sol2 S)) (snd (sol2 S)) ->
  FullNoise sol1 S = Some N1 -> FullNoise sol2 S = Some N2 ->
  inverseSqrtCov N1 == inverseSqrtCov N2.
Proof.
  intros P E1 E2. unfold FullNoise.
  pose proof (eigen_pos _ _ _ _ P E1) as P1. pose proof (eigen_pos _ _ _ _ P E2) as P2.
  destruct (sol1 S) as (U, l1), (sol2 S) as (V, l2). cbn [fst snd] in *.
  destruct P as ((Rs & Cs) & _). rewrite Rs.
  rewrite !(proj2 (all_pos_iff _ _)) by assumption.
  intros [= <-] [= <-]. cbn [inverseSqrtCov].
  destruct E1 as ((Ru & Cu) & UU & UU' & D1 & HD1 & E1).
  destruct E2 as ((Rv & Cv) & VV & VV' & D2 & HD2 & E2).
  apply diag_eq in HD1, HD2. rewrite HD1 in E1. rewrite HD2 in E2. clear D1 D2 HD1 HD2.
  set (W := mtr U ** V).
  assert (SW : has_shape n n W) by (unfold W; split; cbn; assumption). destruct SW as (Rw & Cw).
  (* both diagonal forms are related by W *)
  assert (C : mdiag n l1 ** W == W ** mdiag n l2).
  { assert (A : mtr U ** S ** V == mdiag n l1 ** W).
    { rewrite E1. unfold W. rewrite !mmul_assoc. rewrite <- (mmul_assoc (mtr U) U). rewrite UU.
      rewrite mmul_mid_l by reflexivity. reflexivity. }
    rewrite <- A, E2. unfold W. rewrite !mmul_assoc. rewrite VV.
    rewrite mmul_mid_r by reflexivity. reflexivity. }
  assert (C' : mdiag n (fun i => sqrt (1 / l1 i)) ** W == W ** mdiag n (fun i => sqrt (1 / l2 i))).
  { apply (meq_ext n n); [split; cbn; auto|split; cbn; auto|].
    intros i j Hi Hj. rewrite mnth_diag_l, mnth_diag_r by assumption.
    apply meq_nth in C. destruct C as (_ & _ & C). specialize (C i j).
    rewrite mnth_diag_l, mnth_diag_r in C by assumption.
    destruct (Req_dec (mnth W i j) 0) as [Z|Z]; [rewrite Z; ring|].
    assert (l1 i = l2 j) as -> by (apply (Rmult_eq_reg_r (mnth W i j)); [lra|assumption]).
    ring. }
  (* f(l1) = W f(l2) W^T, so U f(l1) U^T = V f(l2) V^T *)
  assert (UW : U ** W == V).
  { unfold W. rewrite <- mmul_assoc, UU'. apply mmul_mid_l. congruence. }
  assert (WV : W ** mtr V == mtr U).
  { unfold W. rewrite mmul_assoc, VV'. apply mmul_mid_r. cbn; congruence. }
  rewrite <- WV, mmul_assoc, <- (mmul_assoc (mdiag n _) W), C'.
  rewrite <- !mmul_assoc. rewrite UW. reflexivity.
Qed.

(** Diagonal noise: the covariance is diag(sigma^2), and inverseSqrtCov whitens it. *)
Theorem c38_diagonal_whitens n (sigma : nat -> R) :
  (forall i, (i < n)%nat -> sigma i <> 0) ->
  is_diagonal n (fun i => Rsqr (sigma i)) (covariance (DiagonalNoise n sigma)) /\
  whitens n (inverseSqrtCov (DiagonalNoise n sigma)) (covariance (DiagonalNoise n sigma)) /\
  mtr (inverseSqrtCov (DiagonalNoise n sigma)) == inverseSqrtCov (DiagonalNoise n sigma).
Proof.
  intros H. cbn [DiagonalNoise covariance inverseSqrtCov]. split; [apply mdiag_is|].
  split; [|apply mdiag_tr]. unfold whitens. rewrite mdiag_tr, !mdiag_mul, <- mdiag_1.
  apply mdiag_ext. intros i Hi. field. now apply H.
Qed.

(** The two ways to give the standard deviations agree. *)
Theorem c38_stddev_list l :
  covariance (DiagonalNoise_list l) == covariance (DiagonalNoise (length l) (fun i => nth i l 0)) /\
  inverseSqrtCov (DiagonalNoise_list l)
    == inverseSqrtCov (DiagonalNoise (length l) (fun i => nth i l 0)).
Proof.
  unfold DiagonalNoise_list, DiagonalNoise. cbn [covariance inverseSqrtCov].
  rewrite !map_length. split; apply mdiag_ext; intros i Hi.
  - rewrite (nth_indep _ 0 ((fun s => s * s) 0)) by now rewrite map_length.
    apply (map_nth (fun s => s * s)).
  - rewrite (nth_indep _ 0 ((fun s => 1 / s) 0)) by now rewrite map_length.
    rewrite (map_nth (fun s => 1 / s)). unfold Rdiv. ring.
Qed.

Lemma diag_pd n (sigma : nat -> R) : (forall i, (i < n)%nat -> 0 < sigma i) ->
  positive_definite n (mdiag n (fun i => sigma i * sigma i)).
Proof.
  intros H. split; [apply mdiag_shape|]. intros x (k & Hk & Hx).
  assert (Q : rsum n (fun i => x i * mvec (mdiag n (fun i => sigma i * sigma i)) x i)
              = rsum n (fun i => Rsqr (sigma i * x i))).
  { apply rsum_ext. intros i Hi. unfold mvec. cbn [mcols mdiag].
    rewrite (rsum_single n i); auto.
    - rewrite mnth_mdiag, Nat.eqb_refl by assumption. unfold Rsqr. ring.
    - intros j Hj Hij. rewrite mnth_mdiag by assumption.
      destruct (i =? j)%nat eqn:E; [apply Nat.eqb_eq in E; congruence|ring]. }
  rewrite Q. clear Q.
  assert (G : forall m, (forall i, (i < m)%nat -> 0 <= Rsqr (sigma i * x i)) /\
                        0 <= rsum m (fun i => Rsqr (sigma i * x i))).
  { intros m. split; [intros; apply Rle_0_sqr|]. induction m as [|m IH]; cbn; [lra|].
    pose proof (Rle_0_sqr (sigma m * x m)). lra. }
  assert (L : forall m, (k < m)%nat -> 0 < rsum m (fun i => Rsqr (sigma i * x i)) \/ (n < m)%nat).
  { induction m as [|m IH]; [lia|]. intros Hm. cbn [rsum].
    pose proof (Rle_0_sqr (sigma m * x m)). destruct (Nat.eq_dec k m) as [->|].
    - left. pose proof (proj2 (G m)). pose proof (H m Hk).
      assert (0 < Rsqr (sigma m * x m))
        by (apply Rlt_0_sqr, Rmult_integral_contrapositive_currified; lra). lra.
    - destruct IH as [?|?]; [lia|left; lra|right; lia]. }
  destruct (L n Hk); [assumption|lia].
Qed.

(** Full noise built from a diagonal covariance is the diagonal noise. *)
Theorem c38_constructions_agree n sigma solver N :
  (forall i, (i < n)%nat -> 0 < sigma i) ->
  let S := covariance (DiagonalNoise n sigma) in
  eigen_decomposition n S (fst (solver S)) (snd (solver S)) ->
  FullNoise solver S = Some N ->
  inverseSqrtCov N == inverseSqrtCov (DiagonalNoise n sigma).
Proof.
  intros H S E EN. pose proof (diag_pd n sigma H) as P.
  set (triv := fun _ : mat => (mid n, fun i => sigma i * sigma i)).
  assert (ET : eigen_decomposition n S (fst (triv S)) (snd (triv S))).
  { cbn [triv fst snd]. assert (T : mtr (mid n) == mid n).
    { rewrite <- mdiag_1. apply mdiag_tr. }
    split; [split; reflexivity|]. rewrite T.
    split; [now apply mmul_mid_l|]. split; [now apply mmul_mid_l|].
    exists (mdiag n (fun i => sigma i * sigma i)). split; [apply mdiag_is|].
    rewrite mmul_mid_l by reflexivity. rewrite T, mmul_mid_r by reflexivity. reflexivity. }
  destruct (c38_full_whitens n S triv P ET) as (N' & EN' & _).
  rewrite (c38_full_unique n S solver triv N N' P E ET EN EN').
  unfold FullNoise in EN'. cbn [triv] in EN'. destruct (all_pos _ _); [|discriminate].
  injection EN' as <-. cbn [inverseSqrtCov]. cbn [mrows S DiagonalNoise covariance mdiag].
  assert (T : mtr (mid n) == mid n) by (rewrite <- mdiag_1; apply mdiag_tr).
  change (mtr (mid n)) with (mtr (mid n)). rewrite T.
  rewrite mmul_mid_r by reflexivity. rewrite mmul_mid_l by reflexivity.
  apply mdiag_ext. intros i Hi. now apply sqrt_inv_square, H.
Qed.

(** A covariance with a direction of zero or negative variance has no normalisation. *)
Theorem c38_full_undefined n S solver :
  has_shape n n S ->
  eigen_decomposition n S (fst (solver S)) (snd (solver S)) ->
  ~ positive_definite n S -> FullNoise solver S = None.
Proof.
  intros Sh E NP. unfold FullNoise. destruct (solver S) as (U, lam). cbn [fst snd] in *.
  rewrite (proj1 Sh). destruct (all_pos n lam) eqn:A; [|reflexivity]. exfalso. apply NP.
  split; [exact Sh|]. rewrite all_pos_iff in A. intros x (k & Hk & Hx).
  destruct E as ((Ru & Cu) & UU & UU' & D & HD & E). apply diag_eq in HD. rewrite HD in E.
  clear D HD.
  (* y = U^T x; x^T S x = sum lam y^2 *)
  set (y := fun i => rsum n (fun j => mnth U j i * x j)).
  assert (X : forall i, (i < n)%nat -> x i = rsum n (fun j => mnth U i j * y j)).
  { intros i Hi. rewrite <- (mvec_mid n x i Hi).
    assert (Q : mvec (mid n) x i = mvec (U ** mtr U) x i).
    { apply meq_nth in UU'. destruct UU' as (R1 & C1 & UU'). unfold mvec. rewrite C1.
      apply rsum_ext. intros j _. now rewrite UU'. }
    rewrite Q, mvec_mmul by (cbn; congruence). unfold mvec. rewrite Cu.
    apply rsum_ext. intros j Hj. f_equal. cbn [mcols mtr]. rewrite Ru. unfold y.
    apply rsum_ext. intros l Hl. now rewrite mnth_mtr. }
  assert (Q : rsum n (fun i => x i * mvec S x i) = rsum n (fun j => lam j * Rsqr (y j))).
  { assert (M : forall i, mvec S x i = rsum n (fun j => mnth U i j * (lam j * y j))).
    { intros i. assert (M : mvec S x i = mvec (U ** mdiag n lam ** mtr U) x i).
      { apply meq_nth in E. destruct E as (_ & C1 & E). unfold mvec. rewrite C1.
        apply rsum_ext. intros j _. now rewrite E. }
      rewrite M, mvec_mmul by (cbn; congruence). unfold mvec at 1. cbn [mcols mmul mdiag].
      apply rsum_ext. intros j Hj. rewrite mnth_diag_r by assumption.
      rewrite Rmult_assoc. f_equal. f_equal. unfold mvec. cbn [mcols mtr]. rewrite Ru.
      apply rsum_ext. intros l Hl. now rewrite mnth_mtr. }
    rewrite (rsum_ext n _ (fun i => rsum n (fun j => x i * (mnth U i j * (lam j * y j))))).
    2: { intros i Hi. rewrite M. now rewrite <- rsum_scal_l. }
    rewrite rsum_swap. apply rsum_ext. intros j Hj.
    rewrite (rsum_ext n _ (fun i => mnth U i j * x i * (lam j * y j))) by (intros; ring).
    rewrite rsum_scal_r. fold (y j). unfold Rsqr. ring. }
  rewrite Q.
  assert (Y : exists j, (j < n)%nat /\ y j <> 0).
  { destruct (Classical_Prop.classic (exists j, (j < n)%nat /\ y j <> 0)) as [H|H]; [exact H|].
    exfalso. apply Hx. rewrite (X k Hk). apply rsum_0. intros j Hj.
    destruct (Req_dec (y j) 0) as [Z|Z]; [rewrite Z; ring|exfalso; eauto]. }
  clear - A Y. destruct Y as (j & Hj & Y).
  assert (G : forall m, (m <= n)%nat -> 0 <= rsum m (fun j => lam j * Rsqr (y j)) /\
             ((j < m)%nat -> 0 < rsum m (fun j => lam j * Rsqr (y j)))).
  { induction m as [|m IH]; cbn; intros Hm; [split; [lra|lia]|].
    destruct (IH ltac:(lia)) as (G1 & G2). pose proof (A m ltac:(lia)) as Pm.
    pose proof (Rle_0_sqr (y m)). assert (0 <= lam m * Rsqr (y m)) by (apply Rmult_le_pos; lra).
    split; [lra|]. intros Hjm. destruct (Nat.eq_dec j m) as [->|].
    - assert (0 < lam m * Rsqr (y m)) by (apply Rmult_lt_0_compat; [lra|now apply Rlt_0_sqr]). lra.
    - pose proof (G2 ltac:(lia)). lra. }
  now apply (G n).
Qed.

(** Normalisation loses nothing: both noises' matrices are invertible. *)
Theorem c38_invertible :
  (forall n S solver N, positive_definite n S ->
     eigen_decomposition n S (fst (solver S)) (snd (solver S)) ->
     FullNoise solver S = Some N -> injective_matrix n (inverseSqrtCov N)) /\
  (forall n sigma, (forall i, (i < n)%nat -> sigma i <> 0) ->
     injective_matrix n (inverseSqrtCov (DiagonalNoise n sigma))).
Proof.
  split.
  - intros n S solver N P E. pose proof (eigen_pos _ _ _ _ P E) as Pos. unfold FullNoise.
    destruct (solver S) as (U, lam). cbn [fst snd] in *.
    destruct P as ((Rs & Cs) & _). rewrite Rs.
    rewrite (proj2 (all_pos_iff n lam)) by assumption. intros [= <-]. cbn [inverseSqrtCov].
    destruct E as ((Ru & Cu) & UU & UU' & _).
    split; [split; cbn; assumption|].
    exists (U ** mdiag n (fun i => sqrt (1 / lam i) * lam i) ** mtr U).
    split; [split; cbn; assumption|].
    rewrite !mmul_assoc. rewrite <- (mmul_assoc (mtr U) U). rewrite UU.
    rewrite mmul_mid_l by reflexivity. rewrite <- (mmul_assoc (mdiag n _)).
    rewrite mdiag_mul. rewrite (mdiag_ext n _ (fun _ => 1)).
    2: { intros i Hi. now apply sqrt_inv_sq, Pos. }
    rewrite mdiag_1. rewrite mmul_mid_l by (cbn; congruence). exact UU'.
  - intros n sigma H. split; [split; reflexivity|]. exists (mdiag n sigma).
    split; [split; reflexivity|]. cbn [inverseSqrtCov DiagonalNoise].
    rewrite mdiag_mul, <- mdiag_1. apply mdiag_ext. intros i Hi. apply Rinv_r. now apply H.
Qed.

(** Not vacuous: the covariance [[2,1],[1,2]], whose eigenvectors are (1,1) and (1,-1). *)
Definition ex_cov : mat := Mat 2 2 (fun i j => if (i =? j)%nat then 2 else 1).
Definition ex_solver (_ : mat) : mat * (nat -> R) :=
  (Mat 2 2 (fun i j => if ((i =? 1) && (j =? 1))%nat then - / sqrt 2 else / sqrt 2),
   fun i => if (i =? 0)%nat then 3 else 1).
Example c38_example :
  positive_definite 2 ex_cov /\
  eigen_decomposition 2 ex_cov (fst (ex_solver ex_cov)) (snd (ex_solver ex_cov)).
Proof.
  assert (S2 : / sqrt 2 * / sqrt 2 = / 2).
  { rewrite <- Rinv_mult by (apply Rgt_not_eq, sqrt_lt_R0; lra). now rewrite sqrt_sqrt by lra. }
  split.
  - split; [split; reflexivity|]. intros x (k & Hk & Hx). cbn.
    assert (E : 0 + x 0%nat * (0 + 2 * x 0%nat + 1 * x 1%nat) +
                x 1%nat * (0 + 1 * x 0%nat + 2 * x 1%nat)
              = x 0%nat * x 0%nat + x 1%nat * x 1%nat
                + (x 0%nat + x 1%nat) * (x 0%nat + x 1%nat)) by ring.
    unfold mvec. cbn. rewrite E.
    pose proof (Rle_0_sqr (x 0%nat)). pose proof (Rle_0_sqr (x 1%nat)).
    pose proof (Rle_0_sqr (x 0%nat + x 1%nat)). unfold Rsqr in *.
    destruct k as [|[|]]; [| |lia]; apply Rlt_0_sqr in Hx; unfold Rsqr in Hx; lra.
  - cbn [fst snd ex_solver]. split; [split; reflexivity|].
    assert (Q : forall i j, (i < 2)%nat -> (j < 2)%nat ->
       i = 0%nat /\ j = 0%nat \/ i = 0%nat /\ j = 1%nat \/ i = 1%nat /\ j = 0%nat \/
       i = 1%nat /\ j = 1%nat) by lia.
    split; [|split].
    + split; [reflexivity|]. split; [reflexivity|]. intros i j Hi Hj. cbn in Hi, Hj.
      destruct (Q i j Hi Hj) as [(-> & ->)|[(-> & ->)|[(-> & ->)|(-> & ->)]]]; cbn; lra.
    + split; [reflexivity|]. split; [reflexivity|]. intros i j Hi Hj. cbn in Hi, Hj.
      destruct (Q i j Hi Hj) as [(-> & ->)|[(-> & ->)|[(-> & ->)|(-> & ->)]]]; cbn; lra.
    + exists (mdiag 2 (fun i => if (i =? 0)%nat then 3 else 1)). split; [apply mdiag_is|].
      split; [reflexivity|]. split; [reflexivity|]. intros i j Hi Hj. cbn in Hi, Hj.
      destruct (Q i j Hi Hj) as [(-> & ->)|[(-> & ->)|[(-> & ->)|(-> & ->)]]]; cbn; lra.
Qed.

Print Assumptions c38_full_whitens.
Print Assumptions c38_full_unique.
Print Assumptions c38_diagonal_whitens.
Print Assumptions c38_stddev_list.
Print Assumptions c38_constructions_agree.
Print Assumptions c38_full_undefined.
Print Assumptions c38_invertible.
