(** Every local Jacobian is the derivative of its operation. *)

From Coq Require Import Reals Lra Lia List Bool Arith Ratan.
From Verif Require Import Mat V3 ModelLeaf SpecLeaf LeafProofs ModelExpr SpecExpr ExprProofs
  Calc SpecDeriv.
Import ListNotations.
Local Open Scope R_scope.
Local Open Scope mat_scope.

(** ** Coordinates and matrices *)

Lemma dpl_rsum n f x a : (forall i, (i < n)%nat -> derivable_pt_lim (f i) x (a i)) ->
  derivable_pt_lim (fun s => rsum n (fun i => f i s)) x (rsum n a).
Proof.
  induction n as [|n IH]; intros H; cbn; [apply dpl_const|].
  apply dpl_plus; [apply IH; intros; apply H; lia|apply H; lia].
Qed.

Lemma mvec_Mat r c f d i : (i < r)%nat -> mvec (Mat r c f) d i = rsum c (fun j => f i j * d j).
Proof.
  intros H. unfold mvec. cbn. apply rsum_ext. intros j Hj.
  rewrite mnth_in by (cbn; auto). reflexivity.
Qed.
Lemma mvec_mopp A d i : mvec (mopp A) d i = - mvec A d i.
Proof.
  unfold mvec. cbn [mcols mopp].
  replace (- rsum (mcols A) (fun j => mnth A i j * d j))
    with ((-1) * rsum (mcols A) (fun j => mnth A i j * d j)) by ring.
  rewrite <- rsum_scal_l. apply rsum_ext. intros. rewrite mnth_mopp. ring.
Qed.
Lemma mvec_mscal a A d i : mvec (mscal a A) d i = a * mvec A d i.
Proof.
  unfold mvec. cbn [mcols mscal]. rewrite <- rsum_scal_l. apply rsum_ext. intros.
  rewrite mnth_mscal. ring.
Qed.
Lemma mvec_zero A d i : (forall j, (j < mcols A)%nat -> d j = 0) -> mvec A d i = 0.
Proof. intros H. unfold mvec. apply rsum_0. intros j Hj. rewrite H by exact Hj. ring. Qed.
Lemma mvec_meq A B d i : A == B -> mvec A d i = mvec B d i.
Proof.
  intros H. unfold mvec. pose proof H as (_ & E & _). rewrite E. apply rsum_ext.
  intros j _. f_equal. now apply meq_nth.
Qed.

Definition t3 (v : V3) (i : nat) : R := vget v i.
Definition t6 (w u : V3) (i : nat) : R := if (i <? 3)%nat then vget w i else vget u (i - 3).

Lemma tv_t3 v : tv (t3 v) = v. Proof. destruct v; reflexivity. Qed.
Lemma tv_t6 w u : tv (t6 w u) = w. Proof. destruct w; reflexivity. Qed.
Lemma tw_t6 w u : tw (t6 w u) = u. Proof. destruct u; reflexivity. Qed.

Ltac lt3 i := destruct i as [|[|[|i]]]; [| | |exfalso; lia].
Ltac lt6 i := destruct i as [|[|[|[|[|[|i]]]]]]; [| | | | | |exfalso; lia].

Lemma mvec_m3 M d i : (i < 3)%nat -> mvec (of_m3 M) d i = t3 (app3 M (tv d)) i.
Proof. intros H. unfold of_m3. rewrite mvec_Mat by exact H. lt3 i; cbn; ring. Qed.
Lemma mvec_blocks a b c e d i : (i < 6)%nat -> mvec (of_blocks a b c e) d i =
  t6 (vadd (app3 a (tv d)) (app3 b (tw d))) (vadd (app3 c (tv d)) (app3 e (tw d))) i.
Proof.
  intros H. unfold of_blocks. rewrite mvec_Mat by exact H. lt6 i; cbn; ring.
Qed.
Lemma mvec_wide a b d i : (i < 3)%nat -> mvec (of_wide a b) d i =
  t3 (vadd (app3 a (tv d)) (app3 b (tw d))) i.
Proof. intros H. unfold of_wide. rewrite mvec_Mat by exact H. lt3 i; cbn; ring. Qed.
Lemma mvec_scalar x d : mvec (of_scalar x) d 0 = x * d 0%nat.
Proof. unfold of_scalar. rewrite mvec_Mat by lia. cbn. ring. Qed.

(** ** Curves of a given kind *)

Definition dvec (x : dval) : V3 := mkV (dcoord x 0) (dcoord x 1) (dcoord x 2).
Definition dvec2 (x : dval) : V3 := mkV (dcoord x 3) (dcoord x 4) (dcoord x 5).

Lemma k_rot x : dkind x = KRot -> x = DRot (drot x).
Proof. destruct x; cbn; intros; try discriminate; reflexivity. Qed.
Lemma k_rt x : dkind x = KRT -> x = DRT (drot x) (dtr x).
Proof. destruct x; cbn; intros; try discriminate; reflexivity. Qed.
Lemma k_rel x : dkind x = KRel -> x = DRel (dvec x).
Proof. destruct x as [| |v| | | |]; cbn; intros; try discriminate; destruct v; reflexivity. Qed.
Lemma k_trans x : dkind x = KTrans -> x = DTrans (dvec x).
Proof. destruct x as [|v| | | | |]; cbn; intros; try discriminate; destruct v; reflexivity. Qed.
Lemma k_twist x : dkind x = KTwist -> x = DTwist (dvec x) (dvec2 x).
Proof.
  destruct x as [| | | |w u| |]; cbn; intros; try discriminate; destruct w, u; reflexivity.
Qed.
Lemma k_scalar x : dkind x = KScalar -> x = DScalar (dcoord x 0).
Proof. destruct x; cbn; intros; try discriminate; reflexivity. Qed.

Lemma moves_kind r d : moves r d -> near (fun s => dkind (r s) = dkind (r 0)).
Proof. intros (H & _). apply (near_impl _ _ (fun s H => proj1 H) H). Qed.
Lemma moves_valid r d : moves r d -> near (fun s => dvalid (r s)).
Proof. intros (H & _). apply (near_impl _ _ (fun s H => proj2 H) H). Qed.

Lemma moves_rot r d : moves r d -> dkind (r 0) = KRot ->
  near (fun s => r s = DRot (drot (r s)) /\ is_rot (drot (r s))) /\
  m3_deriv (fun s => drot (r s)) 0 (mul3 (skew (tv d)) (drot (r 0))).
Proof.
  intros (H & D) K. rewrite K in *. split; [|exact D].
  apply (near_impl _ _) with (2 := H). intros s (Hk & Hv). pose proof (k_rot _ Hk) as E.
  split; [exact E|]. rewrite E in Hv. exact Hv.
Qed.
Lemma moves_rt r d : moves r d -> dkind (r 0) = KRT ->
  near (fun s => r s = DRT (drot (r s)) (dtr (r s)) /\ is_rot (drot (r s))) /\
  m3_deriv (fun s => drot (r s)) 0 (mul3 (skew (tv d)) (drot (r 0))) /\
  v3_deriv (fun s => dtr (r s)) 0 (vadd (vcross (tv d) (dtr (r 0))) (tw d)).
Proof.
  intros (H & D) K. rewrite K in *. split; [|exact D].
  apply (near_impl _ _) with (2 := H). intros s (Hk & Hv). pose proof (k_rt _ Hk) as E.
  split; [exact E|]. rewrite E in Hv. exact Hv.
Qed.
Lemma moves_vec r d k : moves r d -> dkind (r 0) = k -> affine_kind k = true ->
  near (fun s => dkind (r s) = k) /\
  forall i, (i < tsize k)%nat -> derivable_pt_lim (fun s => dcoord (r s) i) 0 (d i).
Proof.
  intros M K A. pose proof (moves_kind _ _ M) as Hk. rewrite K in Hk. split; [exact Hk|].
  destruct M as (_ & D). rewrite K in D. destruct k; try discriminate A; exact D.
Qed.
Lemma vec_v3 r d k : tsize k = 3%nat \/ k = KTwist ->
  (forall i, (i < tsize k)%nat -> derivable_pt_lim (fun s => dcoord (r s) i) 0 (d i)) ->
  v3_deriv (fun s => dvec (r s)) 0 (tv d).
Proof.
  intros K D. assert (T : (3 <= tsize k)%nat) by (destruct K as [->| ->]; cbn; lia).
  repeat split; cbn; apply D; lia.
Qed.
Lemma vec_v3' r d :
  (forall i, (i < 6)%nat -> derivable_pt_lim (fun s => dcoord (r s) i) 0 (d i)) ->
  v3_deriv (fun s => dvec2 (r s)) 0 (tw d).
Proof. intros D. repeat split; cbn; apply D; lia. Qed.

Lemma mo_rot c f d w : near (fun s => c s = Some (DRot (f s)) /\ is_rot (f s)) ->
  m3_deriv f 0 (mul3 (skew w) (f 0)) -> tv d = w -> moves_opt c d.
Proof.
  intros H D <-. exists (fun s => DRot (f s)). split.
  - apply (near_impl _ _ (fun s H => proj1 H) H).
  - split; [|exact D]. apply (near_impl _ _) with (2 := H). intros s (_ & R). split; [reflexivity|exact R].
Qed.
Lemma mo_rt c f g d w u : near (fun s => c s = Some (DRT (f s) (g s)) /\ is_rot (f s)) ->
  m3_deriv f 0 (mul3 (skew w) (f 0)) -> v3_deriv g 0 (vadd (vcross w (g 0)) u) ->
  tv d = w -> tw d = u -> moves_opt c d.
Proof.
  intros H D D' <- <-. exists (fun s => DRT (f s) (g s)). split.
  - apply (near_impl _ _ (fun s H => proj1 H) H).
  - split; [|split; [exact D|exact D']]. apply (near_impl _ _) with (2 := H).
    intros s (_ & R). split; [reflexivity|exact R].
Qed.
Lemma mo_vec c k g d : affine_kind k = true -> near (fun s => c s = mkd k (g s)) ->
  (forall i, (i < tsize k)%nat -> derivable_pt_lim (fun s => g s i) 0 (d i)) -> moves_opt c d.
Proof.
  intros A H D.
  assert (X : exists r : (nat -> R) -> dval, forall f, mkd k f = Some (r f)).
  { destruct k; try discriminate A; eexists; intros f; reflexivity. }
  destruct X as (r & Hr).
  assert (Hk : forall f, dkind (r f) = k).
  { intros f. specialize (Hr f). destruct k; cbn in Hr; try discriminate Hr;
      injection Hr as <-; reflexivity. }
  assert (Hc : forall f i, (i < tsize k)%nat -> dcoord (r f) i = f i).
  { intros f i Hi. specialize (Hr f). destruct k; try discriminate A; cbn in Hr, Hi;
      injection Hr as <-; first [lt6 i; reflexivity | lt3 i; reflexivity |
        destruct i; [reflexivity|lia]]. }
  exists (fun s => r (g s)). split.
  - apply (near_impl _ _) with (2 := H). intros s ->. apply Hr.
  - split.
    + apply near_all. intros s. rewrite !Hk. split; [reflexivity|].
      specialize (Hr (g s)). destruct k; try discriminate A; cbn in Hr; injection Hr as <-; exact I.
    + rewrite Hk. assert (Y : forall i, (i < tsize k)%nat ->
        derivable_pt_lim (fun s => dcoord (r (g s)) i) 0 (d i)).
      { intros i Hi. apply (dpl_ext (fun s => g s i)); [|auto]. intros s. now rewrite Hc. }
      destruct k; try discriminate A; exact Y.
Qed.
Lemma mo_v3 c k (mk : V3 -> dval) f d v : affine_kind k = true -> tsize k = 3%nat ->
  (forall g, mkd k g = Some (mk (mkV (g 0%nat) (g 1%nat) (g 2%nat)))) ->
  near (fun s => c s = Some (mk (f s))) -> v3_deriv f 0 v -> tv d = v -> moves_opt c d.
Proof.
  intros A T Hk H (D1 & D2 & D3) E. apply (mo_vec c k (fun s => t3 (f s))); [exact A| |].
  - apply (near_impl _ _) with (2 := H). intros s ->. rewrite Hk. destruct (f s); reflexivity.
  - intros i Hi. rewrite T in Hi. subst v. cbn in D1, D2, D3. lt3 i; assumption.
Qed.
Lemma mo_twist c f g d w u :
  near (fun s => c s = Some (DTwist (f s) (g s))) -> v3_deriv f 0 w -> v3_deriv g 0 u ->
  tv d = w -> tw d = u -> moves_opt c d.
Proof.
  intros H (D1 & D2 & D3) (D4 & D5 & D6) <- <-. apply (mo_vec c KTwist (fun s => t6 (f s) (g s)));
    [reflexivity| |].
  - apply (near_impl _ _) with (2 := H). intros s ->. destruct (f s), (g s); reflexivity.
  - intros i Hi. cbn in Hi, D1, D2, D3, D4, D5, D6. lt6 i; assumption.
Qed.

Lemma mo_ext c d d' k : moves_opt c d ->
  (forall x, c 0 = Some x -> dkind x = k) ->
  (forall i, (i < tsize k)%nat -> d i = d' i) -> moves_opt c d'.
Proof.
  intros (r & H & M) K E. exists r. split; [exact H|].
  specialize (K (r 0) (near_0 _ H)). destruct M as (N & D). split; [exact N|].
  rewrite K in *.
  destruct k; cbn in E;
    try (intros i Hi; rewrite <- E by exact Hi; apply D; exact Hi).
  - replace (tv d') with (tv d) by (unfold tv; rewrite !E by lia; reflexivity). exact D.
  - replace (tv d') with (tv d) by (unfold tv; rewrite !E by lia; reflexivity).
    replace (tw d') with (tw d) by (unfold tw; rewrite !E by lia; reflexivity). exact D.
Qed.

Lemma moves_const x d : dvalid x -> (forall i, (i < tsize (dkind x))%nat -> d i = 0) ->
  moves (fun _ => x) d.
Proof.
  intros V Z. split; [apply near_all; auto|].
  destruct (dkind x) eqn:K; cbn in Z; try (intros i Hi; rewrite Z by exact Hi; apply dpl_const).
  - replace (tv d) with v0 by (unfold tv, v0; rewrite !Z by lia; reflexivity).
    eapply m3d_val; [apply m3d_const|]. v3ring.
  - replace (tv d) with v0 by (unfold tv, v0; rewrite !Z by lia; reflexivity).
    replace (tw d) with v0 by (unfold tw, v0; rewrite !Z by lia; reflexivity). split.
    + eapply m3d_val; [apply m3d_const|]. v3ring.
    + eapply v3d_val; [apply v3d_const|]. v3ring.
Qed.

(** ** Binary operations *)

Lemma t3_add v w i : t3 (vadd v w) i = t3 v i + t3 w i.
Proof. destruct i as [|[|[|i]]]; cbn; ring. Qed.
Lemma t6_add v w v' w' i : t6 (vadd v w) (vadd v' w') i = t6 v v' i + t6 w w' i.
Proof. unfold t6. destruct (i <? 3)%nat; apply t3_add. Qed.
Lemma tv_add d d' : tv (fun i => d i + d' i) = vadd (tv d) (tv d').
Proof. reflexivity. Qed.
Lemma tw_add d d' : tw (fun i => d i + d' i) = vadd (tw d) (tw d').
Proof. reflexivity. Qed.

(** Adjoint action of a rotation or motion on velocities. *)
Definition adj (x : dval) (d : nat -> R) : nat -> R :=
  match x with
  | DRot m => t3 (app3 m (tv d))
  | DRT m t => t6 (app3 m (tv d)) (vadd (vcross t (app3 m (tv d))) (app3 m (tw d)))
  | _ => d
  end.

Lemma conj_skew m w n : is_rot m ->
  mul3 m (mul3 (skew w) n) = mul3 (skew (app3 m w)) (mul3 m n).
Proof.
  intros H. rewrite <- mul3_assoc, rot_skew by exact H. apply mul3_assoc.
Qed.

Lemma compose_moves r1 r2 d1 d2 : moves r1 d1 -> moves r2 d2 ->
  dkind (r1 0) = dkind (r2 0) -> group_kind (dkind (r1 0)) = true ->
  moves_opt (fun s => dcompose (r1 s) (r2 s)) (fun i => d1 i + adj (r1 0) d2 i).
Proof.
  intros M1 M2 K G. destruct (dkind (r1 0)) eqn:K1; try discriminate G.
  - destruct (moves_rot _ _ M1 K1) as (N1 & D1).
    destruct (moves_rot _ _ M2 (eq_sym K)) as (N2 & D2).
    pose proof (near_0 _ N1) as (E1 & R1).
    apply (mo_rot _ (fun s => mul3 (drot (r1 s)) (drot (r2 s))) _
             (vadd (tv d1) (app3 (drot (r1 0)) (tv d2)))).
    + apply (near_impl2 _ _ _) with (2 := N1) (3 := N2). intros s (A1 & B1) (A2 & B2).
      rewrite A1, A2. cbn. split; [reflexivity|]. now apply is_rot_mul.
    + eapply m3d_val; [apply m3d_mul; eassumption|]. cbv beta.
      rewrite skew_add, mul3_add_l, conj_skew by exact R1. f_equal. apply mul3_assoc.
    + rewrite tv_add. f_equal. rewrite E1. cbn. apply tv_t3.
  - destruct (moves_rt _ _ M1 K1) as (N1 & D1 & T1).
    destruct (moves_rt _ _ M2 (eq_sym K)) as (N2 & D2 & T2).
    pose proof (near_0 _ N1) as (E1 & R1).
    apply (mo_rt _ (fun s => mul3 (drot (r1 s)) (drot (r2 s)))
             (fun s => vadd (app3 (drot (r1 s)) (dtr (r2 s))) (dtr (r1 s))) _
             (vadd (tv d1) (app3 (drot (r1 0)) (tv d2)))
             (vadd (tw d1) (vadd (vcross (dtr (r1 0)) (app3 (drot (r1 0)) (tv d2)))
                (app3 (drot (r1 0)) (tw d2))))).
    + apply (near_impl2 _ _ _) with (2 := N1) (3 := N2). intros s (A1 & B1) (A2 & B2).
      rewrite A1, A2. cbn. split; [reflexivity|]. now apply is_rot_mul.
    + eapply m3d_val; [apply m3d_mul; eassumption|]. cbv beta.
      rewrite skew_add, mul3_add_l, conj_skew by exact R1. f_equal. apply mul3_assoc.
    + eapply v3d_val; [apply v3d_add; [apply v3d_app; eassumption|eassumption]|]. cbv beta.
      rewrite app3_mul, skew_app, app3_add_r, rot_cross by exact R1.
      generalize (app3 (drot (r1 0)) (dtr (r2 0))), (app3 (drot (r1 0)) (tv d2)),
        (app3 (drot (r1 0)) (tw d2)), (tv d1), (tw d1), (dtr (r1 0)). clear. intros. v3ring.
    + rewrite tv_add. f_equal. rewrite E1. cbn [adj drot]. apply tv_t6.
    + rewrite tw_add. f_equal. rewrite E1. cbn [adj drot]. apply tw_t6.
Qed.

Definition ddl (o : binop) (x y z : dval) (d : nat -> R) : nat -> R :=
  match o with
  | OCompose | OSum | OSubtract => d
  | OComposeFlipped => adj y d
  | ORotate => t3 (vcross (tv d) (dvec z))
  | OTransform => t3 (vadd (vcross (tv d) (dvec z)) (tw d))
  | OScale => fun i => dcoord y i * d 0%nat
  | OScaleR => fun i => dcoord y 0 * d i
  | OScaleDiv => fun i => / dcoord y 0 * d i
  | OProduct => fun _ => dcoord y 0 * d 0%nat
  | ODivide => fun _ => / dcoord y 0 * d 0%nat
  | ODot => fun _ => rsum (tsize (dkind x)) (fun j => dcoord y j * d j)
  end.
Definition ddr (o : binop) (x y z : dval) (d : nat -> R) : nat -> R :=
  match o with
  | OCompose => adj x d
  | OComposeFlipped | OSum => d
  | OSubtract => fun i => - d i
  | ORotate | OTransform => t3 (app3 (drot x) (tv d))
  | OScale => fun i => dcoord x 0 * d i
  | OScaleR => fun i => dcoord x i * d 0%nat
  | OScaleDiv => fun i => - dcoord x i / (dcoord y 0 * dcoord y 0) * d 0%nat
  | OProduct => fun _ => dcoord x 0 * d 0%nat
  | ODivide => fun _ => - dcoord x 0 / (dcoord y 0 * dcoord y 0) * d 0%nat
  | ODot => fun _ => rsum (tsize (dkind x)) (fun j => dcoord x j * d j)
  end.

Lemma affine_of_vec k : vec_kind k = true -> affine_kind k = true.
Proof. destruct k; auto. Qed.
Lemma affine_of_col k : col_kind k = true -> affine_kind k = true.
Proof. destruct k; auto. Qed.
Lemma tsize_pos k : (0 < tsize k)%nat.
Proof. destruct k; cbn; lia. Qed.

Lemma kind_bin_affine o k1 k2 k : kind_bin o k1 k2 = Some k -> o = OSum \/ o = OSubtract ->
  affine_kind k1 = true /\ affine_kind k2 = true /\ affine_kind k = true /\
  tsize k1 = tsize k /\ tsize k2 = tsize k.
Proof.
  intros H [-> | ->]; destruct k1, k2; cbn in H; try discriminate H; injection H as <-; cbn; auto.
Qed.
Lemma dsem_bin_kind o x y z : dsem_bin o x y = Some z -> kind_bin o (dkind x) (dkind y) = Some (dkind z).
Proof.
  unfold dsem_bin. destruct (kind_bin o (dkind x) (dkind y)) as [k|] eqn:K; [|discriminate].
  intros H. f_equal.
  assert (Hm : forall f, mkd k f = Some z -> k = dkind z).
  { intros f. destruct k; cbn; intros E; try discriminate E; injection E as <-; reflexivity. }
  destruct o, x, y; cbn in K, H; try discriminate K;
    try (injection K as <-; cbn in H; unfold odiv in H; 
         repeat match type of H with context [Req_EM_T ?a ?b] => destruct (Req_EM_T a b) end;
         try discriminate H; injection H as <-; reflexivity).
Qed.

Lemma dbin_moves o r1 r2 d1 d2 z : moves r1 d1 -> moves r2 d2 ->
  dsem_bin o (r1 0) (r2 0) = Some z ->
  moves_opt (fun s => dsem_bin o (r1 s) (r2 s))
    (fun i => ddl o (r1 0) (r2 0) z d1 i + ddr o (r1 0) (r2 0) z d2 i).
Proof.
  intros M1 M2 Z. pose proof (dsem_bin_kind _ _ _ _ Z) as K.
  set (k1 := dkind (r1 0)) in *. set (k2 := dkind (r2 0)) in *. set (k := dkind z) in *.
  pose proof (near_and _ _ (moves_kind _ _ M1) (moves_kind _ _ M2)) as NK.
  fold k1 k2 in NK.
  assert (Hred : forall f, near (fun s => dkind (r1 s) = k1 -> dkind (r2 s) = k2 ->
            f s = dsem_bin o (r1 s) (r2 s)) ->
            forall d, moves_opt f d -> moves_opt (fun s => dsem_bin o (r1 s) (r2 s)) d).
  { intros f Hf d (r & Hr & Mr). exists r. split; [|exact Mr].
    eapply near_impl; [|exact (near_and _ _ NK (near_and _ _ Hf Hr))].
    cbn. intros s ((A & B) & C & D). rewrite <- C by auto. exact D. }
  destruct o; cbn [ddl ddr].
  - (* Compose *)
    apply (Hred (fun s => dcompose (r1 s) (r2 s))).
    { apply near_all. intros s A B. unfold dsem_bin. rewrite A, B, K. reflexivity. }
    apply compose_moves; auto; fold k1 k2; destruct k1, k2; cbn in K; try discriminate K; reflexivity.
  - (* ComposeFlipped *)
    apply (Hred (fun s => dcompose (r2 s) (r1 s))).
    { apply near_all. intros s A B. unfold dsem_bin. rewrite A, B, K. reflexivity. }
    assert (C : moves_opt (fun s => dcompose (r2 s) (r1 s)) (fun i => d2 i + adj (r2 0) d1 i)).
    { apply compose_moves; auto; fold k1 k2; destruct k1, k2; cbn in K; try discriminate K; reflexivity. }
    apply (mo_ext _ _ _ k C); [|intros i _; ring].
    intros x E. unfold dsem_bin in Z. fold k1 k2 in Z. rewrite K, E in Z. injection Z as <-. reflexivity.
  - (* Rotate *)
    assert (K1 : k1 = KRot) by (destruct k1, k2; cbn in K; try discriminate K; reflexivity).
    assert (K2 : k2 = KTrans) by (rewrite K1 in K; destruct k2; cbn in K; try discriminate K; reflexivity).
    destruct (moves_rot _ _ M1 K1) as (N1 & D1).
    destruct (moves_vec _ _ _ M2 K2 eq_refl) as (N2 & D2).
    pose proof (vec_v3 _ _ _ (or_introl eq_refl : tsize KTrans = 3%nat \/ _) D2) as V2.
    pose proof (near_0 _ N1) as (E1 & R1). pose proof (k_trans _ K2) as E2.
    apply (mo_v3 _ KTrans DTrans (fun s => app3 (drot (r1 s)) (dvec (r2 s))) _
      (vadd (app3 (mul3 (skew (tv d1)) (drot (r1 0))) (dvec (r2 0))) (app3 (drot (r1 0)) (tv d2))));
      [reflexivity|reflexivity|reflexivity| | |].
    + apply (near_impl2 _ _ _) with (2 := N1) (3 := N2). intros s (A1 & _) A2.
      rewrite A1, (k_trans _ A2). reflexivity.
    + apply v3d_app; assumption.
    + rewrite tv_add, !tv_t3. f_equal. rewrite app3_mul, skew_app. f_equal.
      rewrite E1, E2 in Z. cbn in Z. injection Z as <-. reflexivity.
  - (* Transform *)
    assert (K1 : k1 = KRT) by (destruct k1, k2; cbn in K; try discriminate K; reflexivity).
    assert (K2 : k2 = KTrans) by (rewrite K1 in K; destruct k2; cbn in K; try discriminate K; reflexivity).
    destruct (moves_rt _ _ M1 K1) as (N1 & D1 & T1).
    destruct (moves_vec _ _ _ M2 K2 eq_refl) as (N2 & D2).
    pose proof (vec_v3 _ _ _ (or_introl eq_refl : tsize KTrans = 3%nat \/ _) D2) as V2.
    pose proof (near_0 _ N1) as (E1 & R1). pose proof (k_trans _ K2) as E2.
    apply (mo_v3 _ KTrans DTrans (fun s => vadd (app3 (drot (r1 s)) (dvec (r2 s))) (dtr (r1 s))) _
      (vadd (vadd (app3 (mul3 (skew (tv d1)) (drot (r1 0))) (dvec (r2 0))) (app3 (drot (r1 0)) (tv d2)))
        (vadd (vcross (tv d1) (dtr (r1 0))) (tw d1))));
      [reflexivity|reflexivity|reflexivity| | |].
    + apply (near_impl2 _ _ _) with (2 := N1) (3 := N2). intros s (A1 & _) A2.
      rewrite A1, (k_trans _ A2). reflexivity.
    + apply v3d_add; [apply v3d_app; assumption|exact T1].
    + rewrite tv_add, !tv_t3. rewrite app3_mul, skew_app.
      assert (Ez : dvec z = vadd (app3 (drot (r1 0)) (dvec (r2 0))) (dtr (r1 0))).
      { rewrite E1, E2 in Z. cbn in Z. injection Z as <-. reflexivity. }
      rewrite Ez. generalize (app3 (drot (r1 0)) (dvec (r2 0))), (app3 (drot (r1 0)) (tv d2)),
        (tv d1), (tw d1), (dtr (r1 0)). clear. intros. v3ring.
  - (* Sum *)
    destruct (kind_bin_affine _ _ _ _ K (or_introl eq_refl)) as (A1 & A2 & A & S1 & S2).
    destruct (moves_vec _ _ _ M1 eq_refl A1) as (_ & D1).
    destruct (moves_vec _ _ _ M2 eq_refl A2) as (_ & D2).
    apply (Hred (fun s => mkd k (fun i => dcoord (r1 s) i + dcoord (r2 s) i))).
    { apply near_all. intros s B C. unfold dsem_bin. rewrite B, C, K. reflexivity. }
    apply (mo_vec _ k (fun s i => dcoord (r1 s) i + dcoord (r2 s) i)); [exact A|apply near_all; auto|].
    intros i Hi. apply dpl_plus; [apply D1; fold k1; lia|apply D2; fold k2; lia].
  - (* Subtract *)
    destruct (kind_bin_affine _ _ _ _ K (or_intror eq_refl)) as (A1 & A2 & A & S1 & S2).
    destruct (moves_vec _ _ _ M1 eq_refl A1) as (_ & D1).
    destruct (moves_vec _ _ _ M2 eq_refl A2) as (_ & D2).
    apply (Hred (fun s => mkd k (fun i => dcoord (r1 s) i - dcoord (r2 s) i))).
    { apply near_all. intros s B C. unfold dsem_bin. rewrite B, C, K. reflexivity. }
    apply (mo_vec _ k (fun s i => dcoord (r1 s) i - dcoord (r2 s) i)); [exact A|apply near_all; auto|].
    intros i Hi. apply dpl_minus; [apply D1; fold k1; lia|apply D2; fold k2; lia].
  - (* Scale *)
    assert (K1 : k1 = KScalar) by (destruct k1, k2; cbn in K; try discriminate K; reflexivity).
    assert (K2 : k2 = k /\ col_kind k = true)
      by (rewrite K1 in K; destruct k2; cbn in K; try discriminate K; injection K as <-; auto).
    destruct K2 as (K2 & A).
    destruct (moves_vec _ _ _ M1 K1 eq_refl) as (N1 & D1).
    destruct (moves_vec _ _ _ M2 K2 (affine_of_col _ A)) as (N2 & D2).
    apply (Hred (fun s => mkd k (fun i => dcoord (r1 s) 0 * dcoord (r2 s) i))).
    { apply near_all. intros s B C. unfold dsem_bin. rewrite B, C, K.
      rewrite K1 in B. rewrite (k_scalar _ B). reflexivity. }
    apply (mo_vec _ k (fun s i => dcoord (r1 s) 0 * dcoord (r2 s) i));
      [apply affine_of_col, A|apply near_all; auto|].
    intros i Hi. eapply dpl_val; [apply dpl_mult; [apply D1; cbn; lia|apply D2, Hi]|]. cbv beta. ring.
  - (* ScaleR *)
    assert (K2 : k2 = KScalar) by (destruct k1, k2; cbn in K; try discriminate K; reflexivity).
    assert (K1 : k1 = k /\ col_kind k = true)
      by (rewrite K2 in K; destruct k1; cbn in K; try discriminate K; injection K as <-; auto).
    destruct K1 as (K1 & A).
    destruct (moves_vec _ _ _ M2 K2 eq_refl) as (N2 & D2).
    destruct (moves_vec _ _ _ M1 K1 (affine_of_col _ A)) as (N1 & D1).
    apply (Hred (fun s => mkd k (fun i => dcoord (r1 s) i * dcoord (r2 s) 0))).
    { apply near_all. intros s B C. unfold dsem_bin. rewrite B, C, K.
      rewrite K2 in C. rewrite (k_scalar _ C). cbn.
      destruct (r1 s); reflexivity. }
    apply (mo_vec _ k (fun s i => dcoord (r1 s) i * dcoord (r2 s) 0));
      [apply affine_of_col, A|apply near_all; auto|].
    intros i Hi. eapply dpl_val; [apply dpl_mult; [apply D1, Hi|apply D2; cbn; lia]|]. cbv beta. ring.
  - (* ScaleDiv *)
    assert (K2 : k2 = KScalar) by (destruct k1, k2; cbn in K; try discriminate K; reflexivity).
    assert (K1 : k1 = k /\ col_kind k = true)
      by (rewrite K2 in K; destruct k1; cbn in K; try discriminate K; injection K as <-; auto).
    destruct K1 as (K1 & A).
    destruct (moves_vec _ _ _ M2 K2 eq_refl) as (N2 & D2).
    destruct (moves_vec _ _ _ M1 K1 (affine_of_col _ A)) as (N1 & D1).
    assert (NZ : dcoord (r2 0) 0 <> 0).
    { unfold dsem_bin in Z. fold k1 k2 in Z. rewrite K in Z. rewrite (k_scalar _ K2) in Z.
      destruct (r1 0); destruct (Req_EM_T (dcoord (r2 0) 0) 0); try discriminate Z; assumption. }
    assert (D20 : derivable_pt_lim (fun s => dcoord (r2 s) 0) 0 (d2 0%nat)) by (apply D2; cbn; lia).
    assert (NN : near (fun s => dcoord (r2 s) 0 <> 0)).
    { destruct (Rtotal_order (dcoord (r2 0) 0) 0) as [L|[L|L]]; [|contradiction|].
      - apply (near_impl (fun s => dcoord (r2 s) 0 < 0)); [intros; lra|].
        apply (dpl_near_lt _ _ _ D20 L).
      - apply (near_impl (fun s => 0 < dcoord (r2 s) 0)); [intros; lra|].
        apply (dpl_near_gt _ _ _ D20 L). }
    apply (Hred (fun s => mkd k (fun i => dcoord (r1 s) i / dcoord (r2 s) 0))).
    { apply (near_impl _ _) with (2 := NN). intros s X B C. unfold dsem_bin. rewrite B, C, K.
      rewrite K2 in C. rewrite (k_scalar _ C). cbn.
      destruct (r1 s); destruct (Req_EM_T (dcoord (r2 s) 0) 0); try contradiction; reflexivity. }
    apply (mo_vec _ k (fun s i => dcoord (r1 s) i / dcoord (r2 s) 0));
      [apply affine_of_col, A|apply near_all; auto|].
    intros i Hi. eapply dpl_val; [apply dpl_div; [apply D1, Hi|apply D2; cbn; lia|exact NZ]|].
    cbv beta. unfold Rsqr. field. exact NZ.
  - (* Product *)
    assert (K1 : k1 = KScalar) by (destruct k1, k2; cbn in K; try discriminate K; reflexivity).
    assert (K2 : k2 = KScalar) by (destruct k1, k2; cbn in K; try discriminate K; reflexivity).
    destruct (moves_vec _ _ _ M1 K1 eq_refl) as (N1 & D1).
    destruct (moves_vec _ _ _ M2 K2 eq_refl) as (N2 & D2).
    apply (mo_vec _ KScalar (fun s _ => dcoord (r1 s) 0 * dcoord (r2 s) 0)); [reflexivity| |].
    + apply (near_impl2 _ _ _) with (2 := N1) (3 := N2). intros s A1 A2.
      rewrite (k_scalar _ A1), (k_scalar _ A2). reflexivity.
    + intros i Hi. cbn in Hi. eapply dpl_val; [apply dpl_mult; [apply D1|apply D2]; cbn; lia|].
      cbv beta. ring.
  - (* Divide *)
    assert (K1 : k1 = KScalar) by (destruct k1, k2; cbn in K; try discriminate K; reflexivity).
    assert (K2 : k2 = KScalar) by (destruct k1, k2; cbn in K; try discriminate K; reflexivity).
    destruct (moves_vec _ _ _ M1 K1 eq_refl) as (N1 & D1).
    destruct (moves_vec _ _ _ M2 K2 eq_refl) as (N2 & D2).
    assert (NZ : dcoord (r2 0) 0 <> 0).
    { rewrite (k_scalar _ K1), (k_scalar _ K2) in Z. cbn in Z. unfold odiv in Z.
      destruct (Req_EM_T (dcoord (r2 0) 0) 0); try discriminate Z; assumption. }
    assert (D20 : derivable_pt_lim (fun s => dcoord (r2 s) 0) 0 (d2 0%nat)) by (apply D2; cbn; lia).
    assert (NN : near (fun s => dcoord (r2 s) 0 <> 0)).
    { destruct (Rtotal_order (dcoord (r2 0) 0) 0) as [L|[L|L]]; [|contradiction|].
      - apply (near_impl (fun s => dcoord (r2 s) 0 < 0)); [intros; lra|].
        apply (dpl_near_lt _ _ _ D20 L).
      - apply (near_impl (fun s => 0 < dcoord (r2 s) 0)); [intros; lra|].
        apply (dpl_near_gt _ _ _ D20 L). }
    apply (mo_vec _ KScalar (fun s _ => dcoord (r1 s) 0 / dcoord (r2 s) 0)); [reflexivity| |].
    + apply (near_impl2 _ _ _) with (2 := NN) (3 := near_and _ _ N1 N2). intros s X (A1 & A2).
      rewrite (k_scalar _ A1), (k_scalar _ A2). cbn. unfold odiv.
      destruct (Req_EM_T (dcoord (r2 s) 0) 0); [contradiction|reflexivity].
    + intros i Hi. cbn in Hi.
      eapply dpl_val; [apply dpl_div; [apply D1; cbn; lia|apply D2; cbn; lia|exact NZ]|].
      cbv beta. unfold Rsqr. field. exact NZ.
  - (* Dot *)
    assert (KK : k1 = k2 /\ col_kind k1 = true)
      by (destruct k1, k2; cbn in K; try discriminate K; auto).
    destruct KK as (K2 & A).
    destruct (moves_vec _ _ _ M1 eq_refl (affine_of_col _ A)) as (N1 & D1).
    destruct (moves_vec _ _ _ M2 (eq_sym K2) (affine_of_col _ A)) as (N2 & D2).
    fold k1. apply (mo_vec _ KScalar (fun s _ => rsum (tsize k1) (fun i => dcoord (r1 s) i * dcoord (r2 s) i)));
      [reflexivity| |].
    + apply (near_impl _ _) with (2 := NK). intros s (A1 & A2). unfold dsem_bin. rewrite A1, A2, K.
      reflexivity.
    + intros _ _. rewrite <- rsum_plus.
      apply (dpl_rsum _ (fun i s => dcoord (r1 s) i * dcoord (r2 s) i)).
      intros i Hi. eapply dpl_val; [apply dpl_mult; [apply D1|apply D2]; exact Hi|]. cbv beta. ring.
Qed.

(** ** The code's local Jacobians of binary operations *)

Local Arguments mvec : simpl never.
Local Arguments of_m3 : simpl never.
Local Arguments of_wide : simpl never.
Local Arguments of_scalar : simpl never.
Local Arguments mid : simpl never.
Local Arguments mopp : simpl never.
Local Arguments mscal : simpl never.

Definition zero_below (n : nat) (d : nat -> R) : Prop := forall i, (i < n)%nat -> d i = 0.
Definition is_plain (v : value) : Prop := exists l, vty v = Plain l.

Lemma v_scalar v : valid v -> vkind v = KScalar -> exists s, v = VScalar s.
Proof.
  destruct v as [s| | | | | | | | | |l|l]; cbn; intros V K; try discriminate K; eauto;
    destruct l; cbn in V, K; try contradiction; discriminate K.
Qed.

Lemma jacr_compose_shape val x b : valid x -> group_kind (vkind x) = true -> vkind val = vkind x ->
  has_shape (vdim val) (vdim x) (orzero (jacr_compose val x b) (vdim val) (vdim x)).
Proof.
  intros V G K. unfold vdim. rewrite K.
  destruct x as [| | | | | | | | | |l|l]; try discriminate G; cbn; try (split; reflexivity);
    destruct l; cbn in V; try contradiction; try discriminate G; cbn; split; reflexivity.
Qed.
Lemma jacr_compose_ok val x b d i : valid x -> group_kind (vkind x) = true ->
  (forall l, x = VIdent l -> kind_of l = KRot) -> (i < vdim x)%nat ->
  mvec (orzero (jacr_compose val x b) (vdim val) (vdim x)) d i = adj (den x) d i.
Proof.
  intros V G N Hi.
  destruct x as [| | | | |q|m|an ax|m t r c|q t|l|l]; try discriminate G; cbn in Hi.
  - cbn. rewrite mvec_m3 by exact Hi. reflexivity.
  - cbn. rewrite mvec_m3 by exact Hi. reflexivity.
  - cbn. rewrite mvec_m3 by exact Hi. reflexivity.
  - cbn [orzero jacr_compose adj den]. unfold adjoint. rewrite mvec_blocks by exact Hi.
    rewrite app3_z, vadd_0_r, app3_mul, skew_app. reflexivity.
  - cbn [orzero jacr_compose adj den]. unfold adjoint. rewrite mvec_blocks by exact Hi.
    rewrite app3_z, vadd_0_r, app3_mul, skew_app. reflexivity.
  - specialize (N l eq_refl). cbn [jacr_compose rot_matrix den]. cbn in Hi. rewrite N in *. cbn in Hi |- *.
    unfold vdim, vkind, ty_kind in Hi. cbn in Hi. rewrite N in Hi. cbn in Hi.
    rewrite mvec_m3 by exact Hi. reflexivity.
  - destruct l; cbn in V; try contradiction; discriminate G.
Qed.

Section BinJac.
  Variables (o : binop) (a b val : value) (t : ty).
  Hypothesis Va : valid a.
  Hypothesis Vb : valid b.
  Hypothesis Ht : ty_bin o (vty a) (vty b) = Some t.
  Hypothesis Hs : sem_bin o a b = Some val.

  Lemma bj_facts : dsem_bin o (den a) (den b) = Some (den val) /\ vty val = t /\ valid val /\
    kind_bin o (vkind a) (vkind b) = Some (vkind val).
  Proof.
    destruct (bin_sound o a b t Ht Va Vb) as (S1 & S2). rewrite Hs in S1, S2. cbn in S1.
    destruct (S2 val eq_refl) as (T & V). symmetry in S1. repeat split; auto.
    rewrite <- (valid_dkind a Va), <- (valid_dkind b Vb), <- (valid_dkind val V).
    now apply dsem_bin_kind.
  Qed.

  Lemma jac_bin_shape :
    has_shape (vdim val) (vdim a) (orzero (jac_l o val a b) (vdim val) (vdim a)) /\
    has_shape (vdim val) (vdim b) (orzero (jac_r o val a b) (vdim val) (vdim b)).
  Proof.
    destruct bj_facts as (D & T & V & K).
    destruct o.
    - assert (X : vkind a = vkind val /\ vkind b = vkind val /\ group_kind (vkind a) = true)
        by (destruct (vkind a), (vkind b); cbn in K; try discriminate K; injection K as <-; auto).
      destruct X as (X & Y & G). split.
      + cbn. unfold vdim. rewrite X. split; reflexivity.
      + cbn [jac_r]. assert (Z : vdim b = vdim a) by (unfold vdim; congruence). rewrite Z.
        apply jacr_compose_shape; auto.
    - assert (X : vkind a = vkind val /\ vkind b = vkind val /\ group_kind (vkind b) = true)
        by (destruct (vkind a), (vkind b); cbn in K; try discriminate K; injection K as <-; auto).
      destruct X as (X & Y & G). split.
      + cbn [jac_l]. assert (Z : vdim a = vdim b) by (unfold vdim; congruence). rewrite Z.
        apply jacr_compose_shape; auto.
      + cbn. unfold vdim. rewrite Y. split; reflexivity.
    - assert (X : vkind a = KRot /\ vkind b = KTrans /\ vkind val = KTrans)
        by (destruct (vkind a), (vkind b); cbn in K; try discriminate K; injection K as <-; auto).
      destruct X as (X & Y & G). unfold vdim. rewrite X, Y, G. split.
      + destruct val; cbn; split; reflexivity.
      + destruct val, a, b; cbn; split; reflexivity.
    - assert (X : vkind a = KRT /\ vkind b = KTrans /\ vkind val = KTrans)
        by (destruct (vkind a), (vkind b); cbn in K; try discriminate K; injection K as <-; auto).
      destruct X as (X & Y & G). unfold vdim. rewrite X, Y, G. split.
      + destruct val as [| | | | | | | | | |l|l]; cbn; try (split; reflexivity).
        destruct l; cbn; split; reflexivity.
      + destruct a; cbn; split; reflexivity.
    - destruct (kind_bin_affine _ _ _ _ K (or_introl eq_refl)) as (_ & _ & _ & E1 & E2).
      unfold vdim. rewrite E1, E2. cbn. split; split; reflexivity.
    - destruct (kind_bin_affine _ _ _ _ K (or_intror eq_refl)) as (_ & _ & _ & E1 & E2).
      unfold vdim. rewrite E1, E2. cbn. split; split; reflexivity.
    - assert (X : vkind a = KScalar /\ vkind b = vkind val)
        by (destruct (vkind a), (vkind b); cbn in K; try discriminate K; injection K as <-; auto).
      destruct X as (X & Y). destruct (v_scalar a Va X) as (s & ->).
      unfold vdim. rewrite X, Y. cbn. unfold vdim. rewrite Y. split; split; reflexivity.
    - assert (X : vkind b = KScalar /\ vkind a = vkind val)
        by (destruct (vkind a), (vkind b); cbn in K; try discriminate K; injection K as <-; auto).
      destruct X as (X & Y). destruct (v_scalar b Vb X) as (s & ->).
      unfold vdim. rewrite X, Y. cbn. unfold vdim. rewrite Y. split; split; reflexivity.
    - assert (X : vkind b = KScalar /\ vkind a = vkind val)
        by (destruct (vkind a), (vkind b); cbn in K; try discriminate K; injection K as <-; auto).
      destruct X as (X & Y). destruct (v_scalar b Vb X) as (s & ->).
      unfold vdim. rewrite X, Y. cbn.
      destruct (Req_EM_T s 0), (Req_EM_T (s * s) 0); cbn; unfold vdim; rewrite ?Y; split; split; reflexivity.
    - assert (X : vkind a = KScalar /\ vkind b = KScalar /\ vkind val = KScalar)
        by (destruct (vkind a), (vkind b); cbn in K; try discriminate K; injection K as <-; auto).
      destruct X as (X & Y & Z). destruct (v_scalar b Vb Y) as (s & ->). destruct (v_scalar a Va X) as (s' & ->).
      unfold vdim. rewrite Z. cbn. split; split; reflexivity.
    - assert (X : vkind a = KScalar /\ vkind b = KScalar /\ vkind val = KScalar)
        by (destruct (vkind a), (vkind b); cbn in K; try discriminate K; injection K as <-; auto).
      destruct X as (X & Y & Z). destruct (v_scalar b Vb Y) as (s & ->). destruct (v_scalar a Va X) as (s' & ->).
      unfold vdim. rewrite Z. cbn. unfold odiv.
      destruct (Req_EM_T s 0), (Req_EM_T (s * s) 0); cbn; split; split; reflexivity.
    - assert (X : vkind a = vkind b /\ vkind val = KScalar)
        by (destruct (vkind a), (vkind b); cbn in K; try discriminate K; injection K as <-; auto).
      destruct X as (X & Y). unfold vdim. rewrite X, Y. cbn. unfold vdim. rewrite X. split; split; reflexivity.
  Qed.

  Lemma compose_ident x y s : ty_compose x y = Some s -> (exists l, y = Plain l) ->
    forall l, x = Ident l -> kind_of l = KRot.
  Proof.
    intros H (l' & ->) l ->. cbn in H. destruct (kind_of l), (kind_of l'); try discriminate H; reflexivity.
  Qed.
  Lemma jacl_ok d i : is_plain a -> (i < vdim val)%nat ->
    mvec (orzero (jac_l o val a b) (vdim val) (vdim a)) d i = ddl o (den a) (den b) (den val) d i.
  Proof.
    intros Pa Hi. destruct bj_facts as (D & T & V & K).
    destruct o; cbn [ddl].
    - cbn. now rewrite mvec_mid.
    - assert (X : vkind b = vkind a /\ vkind b = vkind val /\ group_kind (vkind b) = true)
        by (destruct (vkind a), (vkind b); cbn in K; try discriminate K; injection K as <-; auto).
      destruct X as (X & Y & G). cbn [jac_l].
      replace (vdim a) with (vdim b) by (unfold vdim; congruence).
      apply jacr_compose_ok; auto.
      + cbn in Ht. intros l ->. eapply compose_ident; eauto.
      + unfold vdim in *. congruence.
    - assert (X : exists x, val = VTrans x).
      { destruct Pa as (l & Pa). rewrite Pa in Ht. cbn in Ht.
        assert (E : t = Plain LTrans).
        { destruct l; try discriminate Ht; destruct (vty b) as [l'|l'|l']; try discriminate Ht;
          destruct l'; try discriminate Ht; injection Ht as <-; reflexivity. }
        rewrite E in T. destruct val; try discriminate T. eauto. }
      destruct X as (x & ->). cbn in Hi |- *. rewrite mvec_m3 by exact Hi.
      rewrite skew_app. f_equal. unfold dvec. cbn. clear. v3ring.
    - assert (X : exists x, val = VTrans x).
      { destruct Pa as (l & Pa). rewrite Pa in Ht. cbn in Ht.
        assert (E : t = Plain LTrans).
        { destruct l; try discriminate Ht; destruct (vty b) as [l'|l'|l']; try discriminate Ht;
          destruct l'; try discriminate Ht; injection Ht as <-; reflexivity. }
        rewrite E in T. destruct val; try discriminate T. eauto. }
      destruct X as (x & ->). cbn in Hi |- *. rewrite mvec_wide by exact Hi.
      rewrite skew_app, app3_i. f_equal. unfold dvec. cbn. clear. v3ring.
    - cbn. now rewrite mvec_mid.
    - cbn. now rewrite mvec_mid.
    - assert (X : vkind a = KScalar /\ vkind b = vkind val)
        by (destruct (vkind a), (vkind b); cbn in K; try discriminate K; injection K as <-; auto).
      destruct X as (X & Y). cbn [jac_l orzero]. rewrite mvec_Mat by (unfold vdim in *; congruence).
      cbn. rewrite coord_den by exact Vb. ring.
    - assert (X : vkind b = KScalar /\ vkind a = vkind val)
        by (destruct (vkind a), (vkind b); cbn in K; try discriminate K; injection K as <-; auto).
      destruct X as (X & Y). destruct (v_scalar b Vb X) as (s & ->).
      cbn [jac_l orzero]. rewrite mvec_mscal, mvec_mid by (unfold vdim in *; congruence). reflexivity.
    - assert (X : vkind b = KScalar /\ vkind a = vkind val)
        by (destruct (vkind a), (vkind b); cbn in K; try discriminate K; injection K as <-; auto).
      destruct X as (X & Y). destruct (v_scalar b Vb X) as (s & ->).
      cbn [jac_l]. destruct (Req_EM_T s 0) as [->|N].
      + exfalso. unfold sem_bin in Hs. rewrite Ht in Hs.
        destruct a; destruct (Req_EM_T 0 0); try discriminate Hs; contradiction.
      + cbn [orzero]. rewrite mvec_mscal, mvec_mid by exact Hi. reflexivity.
    - assert (X : vkind a = KScalar /\ vkind b = KScalar /\ vkind val = KScalar)
        by (destruct (vkind a), (vkind b); cbn in K; try discriminate K; injection K as <-; auto).
      destruct X as (X & Y & Z). destruct (v_scalar b Vb Y) as (s & ->). destruct (v_scalar a Va X) as (s' & ->).
      unfold vdim in Hi. rewrite Z in Hi. cbn in Hi. destruct i; [|lia]. cbn. apply mvec_scalar.
    - assert (X : vkind a = KScalar /\ vkind b = KScalar /\ vkind val = KScalar)
        by (destruct (vkind a), (vkind b); cbn in K; try discriminate K; injection K as <-; auto).
      destruct X as (X & Y & Z). destruct (v_scalar b Vb Y) as (s & ->). destruct (v_scalar a Va X) as (s' & ->).
      unfold vdim in Hi. rewrite Z in Hi. cbn in Hi. destruct i; [|lia].
      cbn in Hs |- *. unfold odiv in *. destruct (Req_EM_T s 0); [discriminate Hs|].
      cbn. rewrite mvec_scalar. field. assumption.
    - assert (X : vkind a = vkind b /\ vkind val = KScalar)
        by (destruct (vkind a), (vkind b); cbn in K; try discriminate K; injection K as <-; auto).
      destruct X as (X & Y). cbn [jac_l orzero].
      rewrite mvec_Mat by (unfold vdim in Hi; rewrite Y in Hi; exact Hi).
      unfold vdim. rewrite valid_dkind, X by exact Va. apply rsum_ext. intros j _. now rewrite coord_den.
  Qed.

  Lemma jacr_ok d i : is_plain b -> (o = ORotate \/ o = OTransform -> is_plain a) -> (i < vdim val)%nat ->
    mvec (orzero (jac_r o val a b) (vdim val) (vdim b)) d i = ddr o (den a) (den b) (den val) d i.
  Proof.
    intros Pb Pa Hi. destruct bj_facts as (D & T & V & K).
    destruct o; cbn [ddr].
    - assert (X : vkind b = vkind a /\ vkind a = vkind val /\ group_kind (vkind a) = true)
        by (destruct (vkind a), (vkind b); cbn in K; try discriminate K; injection K as <-; auto).
      destruct X as (X & Y & G). cbn [jac_r].
      replace (vdim b) with (vdim a) by (unfold vdim; congruence).
      apply jacr_compose_ok; auto.
      + cbn in Ht. intros l ->. eapply compose_ident; eauto.
      + unfold vdim in *. congruence.
    - cbn. now rewrite mvec_mid.
    - specialize (Pa (or_introl eq_refl)). destruct Pa as (l & Pa), Pb as (l' & Pb).
      rewrite Pa, Pb in Ht. destruct a; try discriminate Pa; cbn in Pa; injection Pa as <-; try discriminate Ht;
        destruct b; try discriminate Pb; cbn in Pb; injection Pb as <-; try discriminate Ht;
        cbn in Ht; injection Ht as <-; destruct val; try discriminate T; cbn in Hi |- *;
        rewrite mvec_m3 by exact Hi; reflexivity.
    - specialize (Pa (or_intror eq_refl)). destruct Pa as (l & Pa), Pb as (l' & Pb).
      rewrite Pa, Pb in Ht. destruct a; try discriminate Pa; cbn in Pa; injection Pa as <-; try discriminate Ht;
        destruct b; try discriminate Pb; cbn in Pb; injection Pb as <-; try discriminate Ht;
        cbn in Ht; injection Ht as <-; destruct val; try discriminate T; cbn in Hi |- *;
        rewrite mvec_m3 by exact Hi; reflexivity.
    - cbn. now rewrite mvec_mid.
    - cbn. rewrite mvec_mopp. now rewrite mvec_mid.
    - assert (X : vkind a = KScalar /\ vkind b = vkind val)
        by (destruct (vkind a), (vkind b); cbn in K; try discriminate K; injection K as <-; auto).
      destruct X as (X & Y). destruct (v_scalar a Va X) as (s & ->).
      cbn [jac_r orzero]. rewrite mvec_mscal, mvec_mid by (unfold vdim in *; congruence). reflexivity.
    - assert (X : vkind b = KScalar /\ vkind a = vkind val)
        by (destruct (vkind a), (vkind b); cbn in K; try discriminate K; injection K as <-; auto).
      destruct X as (X & Y). cbn [jac_r orzero]. rewrite mvec_Mat by (unfold vdim in *; congruence).
      cbn. rewrite coord_den by exact Va. ring.
    - assert (X : vkind b = KScalar /\ vkind a = vkind val)
        by (destruct (vkind a), (vkind b); cbn in K; try discriminate K; injection K as <-; auto).
      destruct X as (X & Y). destruct (v_scalar b Vb X) as (s & ->).
      assert (N : s <> 0).
      { intros ->. unfold sem_bin in Hs. rewrite Ht in Hs.
        destruct a; destruct (Req_EM_T 0 0); try discriminate Hs; contradiction. }
      cbn [jac_r]. destruct (Req_EM_T (s * s) 0) as [E|N'].
      + exfalso. apply N. now apply Rmult_integral in E as [E|E].
      + cbn [orzero]. rewrite mvec_Mat by (unfold vdim in *; congruence).
        cbn. rewrite coord_den by exact Va. ring.
    - assert (X : vkind a = KScalar /\ vkind b = KScalar /\ vkind val = KScalar)
        by (destruct (vkind a), (vkind b); cbn in K; try discriminate K; injection K as <-; auto).
      destruct X as (X & Y & Z). destruct (v_scalar b Vb Y) as (s & ->). destruct (v_scalar a Va X) as (s' & ->).
      unfold vdim in Hi. rewrite Z in Hi. cbn in Hi. destruct i; [|lia]. cbn. apply mvec_scalar.
    - assert (X : vkind a = KScalar /\ vkind b = KScalar /\ vkind val = KScalar)
        by (destruct (vkind a), (vkind b); cbn in K; try discriminate K; injection K as <-; auto).
      destruct X as (X & Y & Z). destruct (v_scalar b Vb Y) as (s & ->). destruct (v_scalar a Va X) as (s' & ->).
      unfold vdim in Hi. rewrite Z in Hi. cbn in Hi. destruct i; [|lia].
      cbn in Hs |- *. unfold odiv in *. destruct (Req_EM_T s 0) as [|N]; [discriminate Hs|].
      destruct (Req_EM_T (s * s) 0) as [E|N'].
      { exfalso. apply N. now apply Rmult_integral in E as [E|E]. }
      cbn. rewrite mvec_scalar. reflexivity.
    - assert (X : vkind a = vkind b /\ vkind val = KScalar)
        by (destruct (vkind a), (vkind b); cbn in K; try discriminate K; injection K as <-; auto).
      destruct X as (X & Y). cbn [jac_r orzero].
      rewrite mvec_Mat by (unfold vdim in Hi; rewrite Y in Hi; exact Hi).
      unfold vdim. rewrite valid_dkind by exact Va. apply rsum_ext. intros j _. now rewrite coord_den.
  Qed.
End BinJac.
