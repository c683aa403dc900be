(** The difference y' [-] y along a moving object: its derivative is the velocity. *)

From Coq Require Import Reals Lra Lia List Bool Arith Ratan.
From Verif Require Import Mat V3 ModelLeaf SpecLeaf LeafProofs ModelExpr SpecExpr
  Calc SpecDeriv DerivProofs PropsDeriv PropsLie SpecNum.
Local Open Scope R_scope.

Lemma sinc_inv_limit e : 0 < e -> exists eta, 0 < eta <= 1 /\
  forall th, 0 < th < eta -> 0 < sin th /\ Rabs (th / sin th - 1) < e.
Proof.
  intros He. exists (Rmin 1 e). split.
  { split; [apply Rmin_pos; lra|apply Rmin_l]. }
  intros th (H0 & H1).
  assert (T1 : th < 1) by (eapply Rlt_le_trans; [exact H1|apply Rmin_l]).
  assert (T2 : th < e) by (eapply Rlt_le_trans; [exact H1|apply Rmin_r]).
  destruct (sin_small_bounds th) as (L & _); [lra|].
  pose proof (sin_lt_x th H0) as U.
  assert (P : 0 < sin th) by nra. split; [exact P|].
  replace (th / sin th - 1) with ((th - sin th) / sin th) by (field; lra).
  rewrite Rabs_pos_eq by (apply Rmult_le_pos; [lra|left; now apply Rinv_0_lt_compat]).
  apply (Rmult_lt_reg_r (sin th)); [exact P|]. unfold Rdiv. rewrite Rmult_assoc, Rinv_l by lra.
  rewrite Rmult_1_r.
  assert (Q : th - sin th <= th * th * th / 6) by lra.
  assert (Q2 : th / 2 <= sin th) by nra.
  apply Rle_lt_trans with (th * th * th / 6); [exact Q|].
  apply Rlt_le_trans with (e * (th / 2)); [nra|]. apply Rmult_le_compat_l; lra.
Qed.

Lemma Vinv_coef_bound n : 0 < n < 1 ->
  Rabs ((1 - (sin n / n) / 2 / ((1 - cos n) / (n * n))) / (n * n)) <= 1.
Proof.
  intros (H0 & H1).
  destruct (sin_small_bounds n) as (L & U); [lra|].
  destruct (cos_small_bounds n) as (L' & U'); [lra|].
  assert (C : 0 < 1 - cos n) by nra.
  replace ((1 - sin n / n / 2 / ((1 - cos n) / (n * n))) / (n * n))
    with ((2 * (1 - cos n) - n * sin n) / (2 * (1 - cos n) * (n * n))) by (field; lra).
  assert (D : 0 < 2 * (1 - cos n) * (n * n)) by nra.
  assert (B1 : n * n * (11 / 12) <= 2 * (1 - cos n)) by nra.
  assert (B2 : Rabs (2 * (1 - cos n) - n * sin n) <= n * n * n * n / 4).
  { assert (X1 : n * sin n <= n * (n - n * n * n / 6 + n * n * n * n * n / 120)) by (apply Rmult_le_compat_l; lra).
    assert (X2 : n * (n - n * n * n / 6) <= n * sin n) by (apply Rmult_le_compat_l; lra).
    assert (P4 : 0 < n * n * n * n) by (repeat apply Rmult_lt_0_compat; lra).
    assert (P6 : n * n * n * n * (n * n) <= n * n * n * n) by nra.
    apply Rabs_le. split; nra. }
  unfold Rdiv. rewrite Rabs_mult, Rabs_inv, (Rabs_pos_eq (2 * (1 - cos n) * (n * n))) by lra.
  apply (Rmult_le_reg_r (2 * (1 - cos n) * (n * n))); [exact D|].
  rewrite Rmult_assoc, Rinv_l, Rmult_1_r, Rmult_1_l by lra.
  eapply Rle_trans; [exact B2|]. 
  assert (n * n * (11 / 12) * (n * n) <= 2 * (1 - cos n) * (n * n)) by (apply Rmult_le_compat_r; nra).
  assert (P4 : 0 < n * n * n * n) by (repeat apply Rmult_lt_0_compat; lra). nra.
Qed.

(** *** log near the identity *)
Section Log0.
  Variables (eps : R) (M : R -> M3) (w : V3).
  Hypothesis He : 0 <= eps.
  Hypothesis NR : near (fun s => is_rot (M s)).
  Hypothesis M0 : M 0 = i3.
  Hypothesis DM : m3_deriv M 0 (skew w).

  Let th (s : R) : R := acos ((trace3 (M s) - 1) / 2).
  Let fac (s : R) : R := if Rlt_dec eps (th s * th s) then th s / sin (th s) else 1.
  Let g (s : R) : V3 := vscal (1 / 2) (uncross (sub3 (M s) (tr3 (M s)))).
  Definition log0 (s : R) : V3 := vscal (fac s) (g s).

  Lemma th_small eta : 0 < eta <= 1 -> near (fun s => 0 <= th s < eta).
  Proof.
    intros (H0 & H1).
    assert (DX : derivable_pt_lim (fun s => (trace3 (M s) - 1) / 2) 0 0).
    { eapply dpl_val.
      - unfold Rdiv. apply (dpl_mult (fun s => trace3 (M s) - 1) (fun _ => / 2)).
        + apply dpl_minus; [apply dpl_trace, DM|apply dpl_const].
        + apply dpl_const.
      - clear. destruct w. unfold trace3, skew. cbn. ring. }
    assert (C : cos eta < (trace3 (M 0) - 1) / 2).
    { rewrite M0. replace ((trace3 i3 - 1) / 2) with 1 by (unfold trace3, i3; cbn; field).
      rewrite <- cos_0. apply cos_decreasing_1; pose proof PI2_3_2; unfold PI2 in *; lra. }
    apply (near_impl2 _ _ _) with (2 := NR) (3 := dpl_near_gt _ _ _ DX C).
    intros s Hr Hc. pose proof (acos_bound ((trace3 (M s) - 1) / 2)) as AB. fold (th s) in AB.
    split; [lra|]. apply Rnot_le_lt. intros K.
    pose proof (rot_trace_bound _ Hr) as TB.
    assert (E : cos (th s) = (trace3 (M s) - 1) / 2) by (apply cos_acos; lra).
    assert (cos (th s) <= cos eta).
    { destruct (Req_dec eta (th s)) as [<-|N]; [lra|]. left. apply cos_decreasing_1; pose proof PI2_3_2; unfold PI2 in *; lra. }
    lra.
  Qed.

  Lemma log0_some : near (fun s => log_mat eps (M s) = Some (log0 s)).
  Proof.
    destruct (sinc_inv_limit 1 ltac:(lra)) as (eta & H & S).
    apply (near_impl2 _ _ _) with (2 := NR) (3 := th_small eta H).
    intros s Hr Ht. unfold log_mat. pose proof (rot_trace_bound _ Hr) as TB.
    destruct (Rle_dec _ _) as [K1|K1]; [|exfalso; apply K1; lra].
    destruct (Rle_dec _ 1) as [K2|K2]; [|exfalso; apply K2; lra].
    fold (th s). unfold log0, fac, g. destruct (Rlt_dec eps (th s * th s)) as [K|K].
    - assert (P : 0 < th s < eta) by nra. destruct (S _ P) as (P1 & _).
      unfold odiv. destruct (Req_EM_T (2 * sin (th s)) 0) as [Z|Z]; [lra|]. f_equal.
      unfold uncross, vscal, scal3, sub3, tr3. cbn. f_equal; field; lra.
    - f_equal. unfold uncross, vscal, scal3, sub3, tr3. cbn. f_equal; field.
  Qed.

  Lemma fac_limit e : 0 < e -> near (fun s => Rabs (fac s - 1) < e).
  Proof.
    intros P. destruct (sinc_inv_limit e P) as (eta & H & S).
    apply (near_impl _ _) with (2 := th_small eta H). intros s Ht. unfold fac.
    destruct (Rlt_dec eps (th s * th s)) as [K|K].
    - apply S. nra.
    - replace (1 - 1) with 0 by ring. now rewrite Rabs_R0.
  Qed.

  Lemma g0 : g 0 = v0.
  Proof. unfold g. rewrite M0. unfold uncross, vscal, sub3, tr3, i3, v0. cbn. f_equal; ring. Qed.
  Lemma dg : v3_deriv g 0 w.
  Proof.
    clear NR. unfold m3_deriv in DM. decompose [and] DM. unfold g, v3_deriv, uncross, vscal, sub3, tr3.
    cbn [vx vy vz m00 m01 m02 m10 m11 m12 m20 m21 m22].
    repeat split; (eapply dpl_val; [apply (dpl_mult (fun _ => 1 / 2)); [apply dpl_const|apply dpl_minus; eassumption]|]);
      unfold skew; cbn; field.
  Qed.
  Lemma log0_0 : log0 0 = v0.
  Proof. unfold log0. rewrite g0. unfold vscal, v0. cbn. f_equal; ring. Qed.
  Lemma log0_deriv : v3_deriv log0 0 w.
  Proof.
    destruct dg as (A & B & C). pose proof g0 as G.
    unfold log0, vscal. repeat split; cbn [vx vy vz];
      (apply dpl_prod_1; [rewrite G; reflexivity|assumption|exact fac_limit]).
  Qed.

  (** *** log of a rigid motion near the identity *)
  Variables (t : R -> V3) (u : V3).
  Hypothesis T0 : t 0 = v0.
  Hypothesis DT : v3_deriv t 0 u.

  Let cf (s : R) : R :=
    if Rlt_dec eps (vnorm2 (log0 s))
    then (1 - (sin (vnorm (log0 s)) / vnorm (log0 s)) / 2 / ((1 - cos (vnorm (log0 s))) / vnorm2 (log0 s)))
         / vnorm2 (log0 s)
    else 0.
  Definition rtlog0 (s : R) : V3 := app3 (rodrigues (- (1 / 2)) (cf s) (log0 s)) (t s).

  Lemma norm_small : near (fun s => vnorm (log0 s) < 1).
  Proof.
    pose proof (dpl_norm2 _ _ _ log0_deriv) as D.
    assert (Z : vnorm2 (log0 0) < 1).
    { rewrite log0_0. unfold vnorm2, vdot, v0. cbn. lra. }
    apply (near_impl _ _) with (2 := dpl_near_lt _ _ _ D Z). intros s H.
    rewrite <- vnorm_sq in H. pose proof (vnorm_nonneg (log0 s)). nra.
  Qed.

  Lemma rtlog0_some : near (fun s => rt_log eps (M s) (t s) = Some (log0 s, rtlog0 s)).
  Proof.
    apply (near_impl2 _ _ _) with (2 := log0_some) (3 := norm_small). intros s L N.
    unfold rtlog0, cf. destruct (Rlt_dec eps (vnorm2 (log0 s))) as [K|K].
    - rewrite (rt_log_general eps (M s) (t s) (log0 s) He L K); [reflexivity|]. pose proof PI2_3_2. unfold PI2 in *. lra.
    - unfold rt_log. rewrite L. destruct (Rlt_dec eps (vnorm2 (log0 s))) as [K'|K']; [contradiction|].
      f_equal. f_equal. unfold rodrigues. clear. generalize (log0 s) (t s). intros. v3ring.
  Qed.

  Lemma cf_bound : near (fun s => Rabs (cf s) <= 1).
  Proof.
    apply (near_impl _ _) with (2 := norm_small). intros s N. unfold cf.
    destruct (Rlt_dec eps (vnorm2 (log0 s))) as [K|K]; [|rewrite Rabs_R0; lra].
    pose proof (vnorm_nonneg (log0 s)) as P. rewrite <- vnorm_sq in K |- *.
    apply Vinv_coef_bound. nra.
  Qed.

  Lemma rtlog0_deriv : v3_deriv rtlog0 0 u.
  Proof.
    set (c1 := fun s => app3 (skew (log0 s)) (t s)).
    set (c2 := fun s => app3 (skew (log0 s)) (c1 s)).
    assert (Z : forall v, app3 (skew v0) v = v0) by (intros []; unfold app3, skew, v0; cbn; f_equal; ring).
    assert (Z' : forall m, app3 m v0 = v0) by (intros []; unfold app3, v0; cbn; f_equal; ring).
    assert (A : vadd v0 v0 = v0) by (unfold vadd, v0; cbn; f_equal; ring).
    assert (D1 : v3_deriv c1 0 v0).
    { eapply v3d_val; [apply v3d_app; [apply m3d_skew, log0_deriv|exact DT]|].
      rewrite T0, log0_0, Z, Z', A. reflexivity. }
    assert (D2 : v3_deriv c2 0 v0).
    { eapply v3d_val; [apply v3d_app; [apply m3d_skew, log0_deriv|exact D1]|].
      unfold c1. rewrite T0, log0_0, !Z, Z', A. reflexivity. }
    assert (C20 : c2 0 = v0) by (unfold c2, c1; rewrite log0_0, !Z; reflexivity).
    assert (D3 : v3_deriv (fun s => vscal (cf s) (c2 s)) 0 v0).
    { destruct D2 as (X & Y & W). unfold vscal. repeat split; cbn [vx vy vz];
        (apply dpl_prod_bounded with (M := 1); [rewrite C20; reflexivity|assumption|exact cf_bound]). }
    eapply v3d_val.
    - apply (v3d_near (fun s => vadd (vadd (t s) (vscal (- (1 / 2)) (c1 s))) (vscal (cf s) (c2 s)))).
      + apply near_all. intros s. unfold rtlog0, c2, c1, rodrigues.
        generalize (log0 s) (t s) (cf s). clear. intros. v3ring.
      + apply v3d_add; [apply v3d_add; [exact DT|]|exact D3].
        apply (v3d_scal (fun _ => - (1 / 2))); [apply dpl_const|exact D1].
    - clear. destruct u. unfold vadd, vscal, v0. cbn. f_equal; ring.
  Qed.

  Lemma rtlog0_0 : rtlog0 0 = v0.
  Proof. unfold rtlog0. rewrite T0. clear. destruct (rodrigues _ _ _). unfold app3, v0. cbn. f_equal; ring. Qed.
End Log0.

Lemma ddiff_moves eps r d : 0 <= eps -> moves r d -> exists f : R -> nat -> R,
  near (fun s => ddiff eps (r s) (r 0) = Some (f s)) /\
  forall i, (i < tsize (dkind (r 0%R)))%nat -> derivable_pt_lim (fun s => f s i) 0 (d i) /\ f 0 i = 0.
Proof.
  intros He M.
  destruct (affine_kind (dkind (r 0))) eqn:A.
  - destruct (moves_vec r d _ M eq_refl A) as (N & D).
    exists (fun s i => dcoord (r s) i - dcoord (r 0) i). split.
    + apply (near_impl _ _) with (2 := N). intros s K.
      destruct (r s), (r 0); try discriminate K; try discriminate A; reflexivity.
    + intros i Hi. split; [|ring]. eapply dpl_val; [apply dpl_minus; [apply D, Hi|apply dpl_const]|ring].
  - destruct (dkind (r 0)) eqn:K; try discriminate A.
    + destruct (moves_rot _ _ M K) as (N & D).
      pose proof (near_0 _ N) as (E0 & R0). cbv beta in E0, R0.
      set (Q := fun s => mul3 (drot (r s)) (tr3 (drot (r 0)))).
      assert (NQ : near (fun s => is_rot (Q s))).
      { apply (near_impl _ _) with (2 := N). intros s (_ & Hs). apply is_rot_mul; [exact Hs|now apply is_rot_tr]. }
      assert (Q0 : Q 0 = i3) by now apply rot_mul_tr.
      assert (DQ : m3_deriv Q 0 (skew (tv d))).
      { eapply m3d_val; [apply m3d_mul; [exact D|apply m3d_const]|].
        cbv beta. rewrite mul3_assoc, rot_mul_tr by exact R0. clear. v3ring. }
      exists (fun s => vget (log0 eps Q s)). split.
      * apply (near_impl2 _ _ _) with (2 := N) (3 := log0_some eps Q (tv d) He NQ Q0 DQ). intros s (Es & _) L.
        rewrite Es, E0. cbn [ddiff]. fold (Q s). rewrite L. reflexivity.
      * intros i Hi. destruct (log0_deriv eps Q (tv d) He NQ Q0 DQ) as (X & Y & Z).
        pose proof (log0_0 eps Q Q0) as L0. cbn in Hi.
        destruct i as [|[|[|i]]]; [..|exfalso; lia]; (split; [assumption|rewrite L0; reflexivity]).
    + destruct (moves_rt _ _ M K) as (N & D & DT).
      pose proof (near_0 _ N) as (E0 & R0). cbv beta in E0, R0.
      set (Q := fun s => mul3 (drot (r s)) (tr3 (drot (r 0)))).
      set (t := fun s => vsub (dtr (r s)) (app3 (Q s) (dtr (r 0)))).
      assert (NQ : near (fun s => is_rot (Q s))).
      { apply (near_impl _ _) with (2 := N). intros s (_ & Hs). apply is_rot_mul; [exact Hs|now apply is_rot_tr]. }
      assert (Q0 : Q 0 = i3) by now apply rot_mul_tr.
      assert (DQ : m3_deriv Q 0 (skew (tv d))).
      { eapply m3d_val; [apply m3d_mul; [exact D|apply m3d_const]|].
        cbv beta. rewrite mul3_assoc, rot_mul_tr by exact R0. clear. v3ring. }
      assert (T0 : t 0 = v0).
      { unfold t. rewrite Q0, app3_i. clear. generalize (dtr (r 0)). intros. v3ring. }
      assert (Dt : v3_deriv t 0 (tw d)).
      { eapply v3d_val; [apply v3d_sub; [exact DT|apply v3d_app; [exact DQ|apply v3d_const]]|].
        rewrite Q0. clear. generalize (dtr (r 0)) (tv d) (tw d). intros. v3ring. }
      exists (fun s i => if (i <? 3)%nat then vget (log0 eps Q s) i else vget (rtlog0 eps Q t s) (i - 3)). split.
      * apply (near_impl2 _ _ _) with (2 := N) (3 := rtlog0_some eps Q (tv d) He NQ Q0 DQ t). intros s (Es & _) L.
        rewrite Es, E0. cbn [ddiff]. fold (Q s).
        replace (vsub (dtr (r s)) (app3 (Q s) (dtr (r 0)))) with (t s) by reflexivity. rewrite L. reflexivity.
      * intros i Hi. destruct (log0_deriv eps Q (tv d) He NQ Q0 DQ) as (X & Y & Z).
        destruct (rtlog0_deriv eps Q (tv d) He NQ Q0 DQ t (tw d) T0 Dt) as (X' & Y' & Z').
        pose proof (log0_0 eps Q Q0) as L0. pose proof (rtlog0_0 eps Q t T0) as L0'. cbn in Hi.
        destruct i as [|[|[|[|[|[|i]]]]]]; [..|exfalso; lia]; (split; [assumption|rewrite ?L0, ?L0'; reflexivity]).
Qed.
