(** Differentiation of scalar, vector and matrix curves, and of the coefficient functions
    of the SO(3) exponential. *)

From Coq Require Import Reals Lra List Bool Arith Ratan.
From Verif Require Import Mat V3 ModelLeaf SpecLeaf LeafProofs.
Local Open Scope R_scope.

(** ** Near zero *)

Lemma near_all (P : R -> Prop) : (forall s, P s) -> near P.
Proof. exists 1. split; [lra|auto]. Qed.
Lemma near_0 P : near P -> P 0.
Proof. intros (e & He & H). apply H. rewrite Rabs_R0. exact He. Qed.
Lemma near_and P Q : near P -> near Q -> near (fun s => P s /\ Q s).
Proof.
  intros (e & He & H) (e' & He' & H'). exists (Rmin e e'). split; [now apply Rmin_pos|].
  intros s Hs. split; [apply H|apply H']; eapply Rlt_le_trans; eauto using Rmin_l, Rmin_r.
Qed.
Lemma near_impl (P Q : R -> Prop) : (forall s, P s -> Q s) -> near P -> near Q.
Proof. intros H (e & He & HP). exists e. split; auto. Qed.
Lemma near_impl2 (P Q S : R -> Prop) : (forall s, P s -> Q s -> S s) -> near P -> near Q -> near S.
Proof.
  intros H HP HQ. apply (near_impl (fun s => P s /\ Q s)); [intuition|now apply near_and].
Qed.

(** ** Scalar curves *)

Lemma dpl_near f g l : near (fun s => f s = g s) -> derivable_pt_lim f 0 l ->
  derivable_pt_lim g 0 l.
Proof.
  intros (e & He & E) D eps Heps. destruct (D eps Heps) as (d & Hd).
  assert (P : 0 < Rmin d e) by (apply Rmin_pos; [apply cond_pos|exact He]).
  exists (mkposreal _ P). intros h Hh Hl. cbn in Hl.
  rewrite <- (E 0), <- (E (0 + h)).
  - apply Hd; [exact Hh|]. eapply Rlt_le_trans; [exact Hl|apply Rmin_l].
  - rewrite Rplus_0_l. eapply Rlt_le_trans; [exact Hl|apply Rmin_r].
  - rewrite Rabs_R0. exact He.
Qed.

Lemma dpl_ext f g x l : (forall s, f s = g s) -> derivable_pt_lim f x l -> derivable_pt_lim g x l.
Proof.
  intros E D eps Heps. destruct (D eps Heps) as (d & Hd). exists d. intros h Hh Hl.
  rewrite <- !E. now apply Hd.
Qed.
Lemma dpl_val f x l l' : derivable_pt_lim f x l -> l = l' -> derivable_pt_lim f x l'.
Proof. now intros D <-. Qed.
Lemma dpl_const c x : derivable_pt_lim (fun _ => c) x 0.
Proof. apply derivable_pt_lim_const. Qed.
Lemma dpl_id x : derivable_pt_lim (fun s => s) x 1.
Proof. apply derivable_pt_lim_id. Qed.
Lemma dpl_plus f g x a b : derivable_pt_lim f x a -> derivable_pt_lim g x b ->
  derivable_pt_lim (fun s => f s + g s) x (a + b).
Proof. apply derivable_pt_lim_plus. Qed.
Lemma dpl_minus f g x a b : derivable_pt_lim f x a -> derivable_pt_lim g x b ->
  derivable_pt_lim (fun s => f s - g s) x (a - b).
Proof. apply derivable_pt_lim_minus. Qed.
Lemma dpl_opp f x a : derivable_pt_lim f x a -> derivable_pt_lim (fun s => - f s) x (- a).
Proof. apply derivable_pt_lim_opp. Qed.
Lemma dpl_mult f g x a b : derivable_pt_lim f x a -> derivable_pt_lim g x b ->
  derivable_pt_lim (fun s => f s * g s) x (a * g x + f x * b).
Proof. apply derivable_pt_lim_mult. Qed.
Lemma dpl_div f g x a b : derivable_pt_lim f x a -> derivable_pt_lim g x b -> g x <> 0 ->
  derivable_pt_lim (fun s => f s / g s) x ((a * g x - b * f x) / Rsqr (g x)).
Proof. apply derivable_pt_lim_div. Qed.
Lemma dpl_comp f g x a b : derivable_pt_lim f x a -> derivable_pt_lim g (f x) b ->
  derivable_pt_lim (fun s => g (f s)) x (b * a).
Proof. apply derivable_pt_lim_comp. Qed.
Lemma dpl_sin f x a : derivable_pt_lim f x a ->
  derivable_pt_lim (fun s => sin (f s)) x (cos (f x) * a).
Proof. intros D. apply (dpl_comp f sin); [exact D|apply derivable_pt_lim_sin]. Qed.
Lemma dpl_cos f x a : derivable_pt_lim f x a ->
  derivable_pt_lim (fun s => cos (f s)) x (- sin (f x) * a).
Proof. intros D. apply (dpl_comp f cos); [exact D|apply derivable_pt_lim_cos]. Qed.
Lemma dpl_sqrt f x a : derivable_pt_lim f x a -> 0 < f x ->
  derivable_pt_lim (fun s => sqrt (f s)) x (a / (2 * sqrt (f x))).
Proof.
  intros D H. eapply dpl_val;
    [apply (dpl_comp f sqrt); [exact D|apply derivable_pt_lim_sqrt; exact H]|].
  assert (0 < sqrt (f x)) by now apply sqrt_lt_R0. field. lra.
Qed.
Lemma dpl_acos f x a : derivable_pt_lim f x a -> -1 < f x < 1 ->
  derivable_pt_lim (fun s => acos (f s)) x (- a / sqrt (1 - f x * f x)).
Proof.
  intros D H. eapply dpl_val.
  - apply (dpl_comp f acos); [exact D|].
    exact (proj2_sig (derivable_pt_acos _ H)).
  - assert (E : derive_pt acos (f x) (derivable_pt_acos _ H)
                = - 1 / sqrt (1 - (f x)²)) by apply derive_pt_acos.
    unfold derive_pt in E. rewrite E. unfold Rsqr.
    assert (0 < sqrt (1 - f x * f x)) by (apply sqrt_lt_R0; nra). field. lra.
Qed.

Lemma dpl_unique f x a b : derivable_pt_lim f x a -> derivable_pt_lim f x b -> a = b.
Proof. apply uniqueness_limite. Qed.

(** A differentiable curve stays near its value. *)
Lemma dpl_near_close f l e : derivable_pt_lim f 0 l -> 0 < e ->
  near (fun s => Rabs (f s - f 0) < e).
Proof.
  intros D He.
  assert (C : continuity_pt f 0).
  { apply derivable_continuous_pt. exists l. exact D. }
  destruct (C e He) as (d & Hd & H). exists d. split; [exact Hd|].
  intros s Hs. destruct (Req_dec s 0) as [->|N].
  - unfold Rminus. rewrite Rplus_opp_r, Rabs_R0. exact He.
  - apply (H s). split; [split; [exact I|auto]|]. cbn. unfold R_dist. now rewrite Rminus_0_r.
Qed.

Lemma dpl_near_lt f l c : derivable_pt_lim f 0 l -> f 0 < c -> near (fun s => f s < c).
Proof.
  intros D H. apply (near_impl (fun s => Rabs (f s - f 0) < c - f 0)).
  - intros s Hs. apply Rabs_def2 in Hs. lra.
  - eapply dpl_near_close; eauto. lra.
Qed.
Lemma dpl_near_gt f l c : derivable_pt_lim f 0 l -> c < f 0 -> near (fun s => c < f s).
Proof.
  intros D H. apply (near_impl (fun s => Rabs (f s - f 0) < f 0 - c)).
  - intros s Hs. apply Rabs_def2 in Hs. lra.
  - eapply dpl_near_close; eauto. lra.
Qed.

(** ** Vector and matrix curves *)

Ltac dpl := repeat first [apply dpl_const | eassumption | apply dpl_plus | apply dpl_minus
  | apply dpl_opp | apply dpl_mult].
Ltac dplv := eapply dpl_val; [dpl|].

Lemma v3d_near f g l : near (fun s => f s = g s) -> v3_deriv f 0 l -> v3_deriv g 0 l.
Proof.
  intros E (A & B & C). repeat split; (eapply dpl_near; [|eassumption]);
    apply (near_impl _ _ (fun s H => f_equal _ H) E).
Qed.
Lemma m3d_near f g l : near (fun s => f s = g s) -> m3_deriv f 0 l -> m3_deriv g 0 l.
Proof.
  intros E H. unfold m3_deriv in *. decompose [and] H.
  repeat split; (eapply dpl_near; [|eassumption]);
    apply (near_impl _ _ (fun s H => f_equal _ H) E).
Qed.
Lemma v3d_val f x l l' : v3_deriv f x l -> l = l' -> v3_deriv f x l'.
Proof. now intros D <-. Qed.
Lemma m3d_val f x l l' : m3_deriv f x l -> l = l' -> m3_deriv f x l'.
Proof. now intros D <-. Qed.
Lemma v3d_unique f x a b : v3_deriv f x a -> v3_deriv f x b -> a = b.
Proof.
  intros (A & B & C) (A' & B' & C'). apply v3_ext; eapply dpl_unique; eauto.
Qed.
Lemma m3d_unique f x a b : m3_deriv f x a -> m3_deriv f x b -> a = b.
Proof.
  intros H H'. unfold m3_deriv in *. decompose [and] H. decompose [and] H'. clear H H'.
  destruct a, b; cbn in *. f_equal; eapply dpl_unique; eauto.
Qed.

Lemma v3d_const c x : v3_deriv (fun _ => c) x v0.
Proof. repeat split; apply dpl_const. Qed.
Lemma m3d_const c x : m3_deriv (fun _ => c) x z3.
Proof. repeat split; apply dpl_const. Qed.
Lemma v3d_add f g x a b : v3_deriv f x a -> v3_deriv g x b ->
  v3_deriv (fun s => vadd (f s) (g s)) x (vadd a b).
Proof. intros (A & B & C) (A' & B' & C'). repeat split; cbn; dpl. Qed.
Lemma v3d_sub f g x a b : v3_deriv f x a -> v3_deriv g x b ->
  v3_deriv (fun s => vsub (f s) (g s)) x (vsub a b).
Proof. intros (A & B & C) (A' & B' & C'). repeat split; cbn; dpl. Qed.
Lemma v3d_opp f x a : v3_deriv f x a -> v3_deriv (fun s => vopp (f s)) x (vopp a).
Proof. intros (A & B & C). repeat split; cbn; dpl. Qed.
Lemma v3d_scal h f x l a : derivable_pt_lim h x l -> v3_deriv f x a ->
  v3_deriv (fun s => vscal (h s) (f s)) x (vadd (vscal l (f x)) (vscal (h x) a)).
Proof. intros H (A & B & C). repeat split; cbn; dpl. Qed.
Lemma dpl_norm2 f x a : v3_deriv f x a ->
  derivable_pt_lim (fun s => vnorm2 (f s)) x (2 * vdot (f x) a).
Proof.
  intros (A & B & C). unfold vnorm2, vdot. dplv. cbn. ring.
Qed.
Lemma v3d_app F f x A a : m3_deriv F x A -> v3_deriv f x a ->
  v3_deriv (fun s => app3 (F s) (f s)) x (vadd (app3 A (f x)) (app3 (F x) a)).
Proof.
  intros H (B & C & D). unfold m3_deriv in H. decompose [and] H. clear H.
  repeat split; cbn; (dplv; [cbn; ring]).
Qed.
Lemma m3d_mul F G x A B : m3_deriv F x A -> m3_deriv G x B ->
  m3_deriv (fun s => mul3 (F s) (G s)) x (add3 (mul3 A (G x)) (mul3 (F x) B)).
Proof.
  intros H H'. unfold m3_deriv in H, H'. decompose [and] H. decompose [and] H'. clear H H'.
  repeat split; cbn; (dplv; [cbn; ring]).
Qed.
Lemma m3d_add F G x A B : m3_deriv F x A -> m3_deriv G x B ->
  m3_deriv (fun s => add3 (F s) (G s)) x (add3 A B).
Proof.
  intros H H'. unfold m3_deriv in H, H'. decompose [and] H. decompose [and] H'. clear H H'.
  repeat split; cbn; dpl.
Qed.
Lemma m3d_sub F G x A B : m3_deriv F x A -> m3_deriv G x B ->
  m3_deriv (fun s => sub3 (F s) (G s)) x (sub3 A B).
Proof.
  intros H H'. unfold m3_deriv in H, H'. decompose [and] H. decompose [and] H'. clear H H'.
  repeat split; cbn; dpl.
Qed.
Lemma m3d_scal h F x l A : derivable_pt_lim h x l -> m3_deriv F x A ->
  m3_deriv (fun s => scal3 (h s) (F s)) x (add3 (scal3 l (F x)) (scal3 (h x) A)).
Proof.
  intros H H'. unfold m3_deriv in H'. decompose [and] H'. clear H'.
  repeat split; cbn; dpl.
Qed.
Lemma m3d_tr F x A : m3_deriv F x A -> m3_deriv (fun s => tr3 (F s)) x (tr3 A).
Proof. intros H. unfold m3_deriv in *. decompose [and] H. repeat split; cbn; assumption. Qed.
Lemma m3d_skew f x a : v3_deriv f x a -> m3_deriv (fun s => skew (f s)) x (skew a).
Proof. intros (A & B & C). repeat split; cbn; dpl. Qed.
Lemma v3d_uncross F x A : m3_deriv F x A -> v3_deriv (fun s => uncross (F s)) x (uncross A).
Proof. intros H. unfold m3_deriv in *. decompose [and] H. repeat split; cbn; assumption. Qed.
Lemma dpl_trace F x A : m3_deriv F x A -> derivable_pt_lim (fun s => trace3 (F s)) x (trace3 A).
Proof. intros H. unfold m3_deriv in *. decompose [and] H. unfold trace3. dpl. Qed.

(** ** The exponential's coefficient functions along a curve of vectors

    A = sin t / t, B = (1 - cos t) / t^2, C = (1 - A) / t^2 with t = |v|. *)

Definition cA (v : V3) : R := sin (vnorm v) / vnorm v.
Definition cB (v : V3) : R := (1 - cos (vnorm v)) / vnorm2 v.
Definition cC (v : V3) : R := (1 - cA v) / vnorm2 v.

Lemma coef_rel v : v <> v0 ->
  vnorm2 v * cC v = 1 - cA v /\ cA v * cA v + cB v * cB v * vnorm2 v = 2 * cB v.
Proof.
  intros H. pose proof (vnorm_neq0 v H) as P. pose proof (vnorm_sq v) as N.
  assert (P2 : 0 < vnorm2 v) by (rewrite <- N; nra).
  unfold cC, cB, cA. split; [field; lra|]. rewrite <- N.
  pose proof (sin_cos_1 (vnorm v)) as S.
  set (n := vnorm v) in *. set (x := sin n) in *. set (y := cos n) in *.
  assert (E : x * x = 1 - y * y) by lra.
  replace (x / n * (x / n)) with (x * x / (n * n)) by (field; lra). rewrite E. field. lra.
Qed.

Section Curve.
  Variable f : R -> V3.
  Variables (x : R) (d : V3).
  Hypothesis D : v3_deriv f x d.
  Hypothesis nz : f x <> v0.

  Let p := vdot (f x) d.
  Let n := vnorm (f x).
  Let Pn : 0 < n. Proof. apply vnorm_neq0, nz. Qed.
  Let N2 : vnorm2 (f x) = n * n. Proof. symmetry. apply vnorm_sq. Qed.

  Lemma dpl_norm : derivable_pt_lim (fun s => vnorm (f s)) x (p / n).
  Proof.
    eapply dpl_val.
    - apply (dpl_sqrt (fun s => vnorm2 (f s))); [apply dpl_norm2, D|]. rewrite N2. nra.
    - fold (vnorm (f x)). fold n. unfold p. field. lra.
  Qed.

  Lemma dpl_cA : derivable_pt_lim (fun s => cA (f s)) x ((cC (f x) - cB (f x)) * p).
  Proof.
    eapply dpl_val.
    - apply (dpl_div (fun s => sin (vnorm (f s))) (fun s => vnorm (f s)));
        [apply dpl_sin, dpl_norm|apply dpl_norm|fold n; lra].
    - unfold cC, cB, cA. rewrite N2. fold n. unfold Rsqr. field. lra.
  Qed.

  Lemma dpl_cB : derivable_pt_lim (fun s => cB (f s)) x
    ((cA (f x) - 2 * cB (f x)) / vnorm2 (f x) * p).
  Proof.
    eapply dpl_val.
    - apply (dpl_div (fun s => 1 - cos (vnorm (f s))) (fun s => vnorm2 (f s)));
        [apply dpl_minus; [apply dpl_const|apply dpl_cos, dpl_norm]|apply dpl_norm2, D|].
      rewrite N2. nra.
    - unfold cB, cA. rewrite N2. fold n. fold p. unfold Rsqr. field. lra.
  Qed.

  Lemma dpl_cC : derivable_pt_lim (fun s => cC (f s)) x
    ((cB (f x) - 3 * cC (f x)) / vnorm2 (f x) * p).
  Proof.
    eapply dpl_val.
    - apply (dpl_div (fun s => 1 - cA (f s)) (fun s => vnorm2 (f s)));
        [apply dpl_minus; [apply dpl_const|apply dpl_cA]|apply dpl_norm2, D|].
      rewrite N2. nra.
    - unfold cC, Rsqr. fold p. rewrite N2. field. lra.
  Qed.

  Lemma coef_k : (cA (f x) - 2 * cB (f x)) / vnorm2 (f x)
    = cA (f x) * cC (f x) - cB (f x) * cB (f x).
  Proof.
    destruct (coef_rel _ nz) as (R1 & R2).
    assert (P2 : 0 < vnorm2 (f x)) by (rewrite N2; nra).
    apply (Rmult_eq_reg_r (vnorm2 (f x))); [|lra].
    replace ((cA (f x) - 2 * cB (f x)) / vnorm2 (f x) * vnorm2 (f x)) with
      (cA (f x) - 2 * cB (f x)) by (field; lra).
    replace ((cA (f x) * cC (f x) - cB (f x) * cB (f x)) * vnorm2 (f x)) with
      (cA (f x) * (vnorm2 (f x) * cC (f x)) - cB (f x) * cB (f x) * vnorm2 (f x)) by ring.
    rewrite R1. lra.
  Qed.
End Curve.

(** Curves of matrices I + a [v] + b [v]^2. *)
Lemma m3d_rodrigues a b f x a' b' d : derivable_pt_lim a x a' -> derivable_pt_lim b x b' ->
  v3_deriv f x d ->
  m3_deriv (fun s => rodrigues (a s) (b s) (f s)) x
    (add3 (add3 (scal3 a' (skew (f x))) (scal3 (a x) (skew d)))
       (add3 (scal3 b' (mul3 (skew (f x)) (skew (f x))))
          (scal3 (b x) (add3 (mul3 (skew d) (skew (f x))) (mul3 (skew (f x)) (skew d)))))).
Proof.
  intros Ha Hb Hd. unfold rodrigues. eapply m3d_val.
  - apply m3d_add; [apply m3d_const|apply m3d_add].
    + apply m3d_scal; [exact Ha|apply m3d_skew, Hd].
    + apply (m3d_scal b (fun s => mul3 (skew (f s)) (skew (f s)))); [exact Hb|].
      apply m3d_mul; apply m3d_skew, Hd.
  - rewrite add3_z_l. reflexivity.
Qed.

Lemma so3_exp_cA v : v <> v0 -> so3_exp v = rodrigues (cA v) (cB v) v.
Proof. apply so3_exp_nz. Qed.
Lemma so3_V_cB v : v <> v0 -> so3_V v = rodrigues (cB v) (cC v) v.
Proof. apply so3_V_nz. Qed.

(** A curve with a nonzero value stays nonzero. *)
Lemma near_nz f d : v3_deriv f 0 d -> f 0 <> v0 -> near (fun s => f s <> v0).
Proof.
  intros D H.
  assert (P : 0 < vnorm2 (f 0)).
  { pose proof (vnorm_neq0 _ H) as P. rewrite <- vnorm_sq. nra. }
  apply (near_impl (fun s => 0 < vnorm2 (f s))).
  - intros s Hs E. rewrite E in Hs. revert Hs. v3unf. lra.
  - eapply (dpl_near_gt (fun s => vnorm2 (f s))); [apply dpl_norm2, D|exact P].
Qed.

(** The ring identities behind the derivative of exp. *)
Lemma exp_deriv_identity A B C k v d :
  let p := vdot v d in let n := vnorm2 v in
  k = A * C - B * B ->
  add3 (add3 (scal3 ((C - B) * p) (skew v)) (scal3 A (skew d)))
    (add3 (scal3 (k * p) (mul3 (skew v) (skew v)))
       (scal3 B (add3 (mul3 (skew d) (skew v)) (mul3 (skew v) (skew d)))))
  = add3 (mul3 (skew (vadd (vscal A d) (vadd (vscal B (vcross v d)) (vscal (C * p) v))))
            (rodrigues A B v))
      (add3 (scal3 (2 * B - (A * A + B * B * n)) (mul3 (skew d) (skew v)))
         (scal3 (p * B * (n * C - (1 - A))) (skew v))).
Proof. cbv zeta. intros ->. unfold rodrigues. v3ring. Qed.

Lemma V_app_identity B C v d :
  app3 (rodrigues B C v) d
  = vadd (vscal (1 - vnorm2 v * C) d) (vadd (vscal B (vcross v d)) (vscal (C * vdot v d) v)).
Proof. unfold rodrigues. v3ring. Qed.

Lemma so3_exp_deriv_nz f d : v3_deriv f 0 d -> f 0 <> v0 ->
  m3_deriv (fun s => so3_exp (f s)) 0 (mul3 (skew (app3 (so3_V (f 0)) d)) (so3_exp (f 0))).
Proof.
  intros D H. apply (m3d_near (fun s => rodrigues (cA (f s)) (cB (f s)) (f s))).
  { apply (near_impl _ _ (fun s Hs => eq_sym (so3_exp_cA (f s) Hs)) (near_nz f d D H)). }
  eapply m3d_val.
  - exact (m3d_rodrigues _ _ f 0 _ _ d (dpl_cA f 0 d D H) (dpl_cB f 0 d D H) D).
  - rewrite (exp_deriv_identity _ _ _ _ _ _ (coef_k f 0 H)).
    destruct (coef_rel _ H) as (R1 & R2). rewrite R2, R1.
    rewrite (so3_V_cB _ H), V_app_identity, R1, (so3_exp_cA _ H).
    replace (1 - (1 - cA (f 0))) with (cA (f 0)) by ring.
    generalize (mul3 (skew d) (skew (f 0))) as X1.
    generalize (mul3 (skew (vadd (vscal (cA (f 0)) d) (vadd (vscal (cB (f 0)) (vcross (f 0) d))
      (vscal (cC (f 0) * vdot (f 0) d) (f 0))))) (rodrigues (cA (f 0)) (cB (f 0)) (f 0))) as X2.
    v3ring.
Qed.

(** ** exp at zero *)

Lemma dpl_prod_1 g h l : g 0 = 0 -> derivable_pt_lim g 0 l ->
  (forall e, 0 < e -> near (fun s => Rabs (h s - 1) < e)) ->
  derivable_pt_lim (fun s => h s * g s) 0 l.
Proof.
  intros G D H e He.
  set (e1 := Rmin 1 (e / (2 * (Rabs l + 2)))).
  assert (P0 : 0 <= Rabs l) by apply Rabs_pos.
  assert (P1 : 0 < e1).
  { apply Rmin_pos; [lra|]. apply Rdiv_lt_0_compat; lra. }
  destruct (H e1 P1) as (d1 & Hd1 & H1).
  set (e2 := Rmin 1 (e / 4)).
  assert (P2 : 0 < e2) by (apply Rmin_pos; lra).
  destruct (D e2 P2) as (d2 & H2).
  assert (P : 0 < Rmin d1 d2) by (apply Rmin_pos; [lra|apply cond_pos]).
  exists (mkposreal _ P). intros s Hs Hl. cbn in Hl. rewrite G, Rplus_0_l, Rmult_0_r.
  assert (L1 : Rabs s < d1) by (eapply Rlt_le_trans; [exact Hl|apply Rmin_l]).
  assert (L2 : Rabs s < d2) by (eapply Rlt_le_trans; [exact Hl|apply Rmin_r]).
  specialize (H1 s L1). specialize (H2 s Hs L2). rewrite G, Rplus_0_l in H2.
  set (q := (g s - 0) / s) in *.
  replace ((h s * g s - 0) / s - l) with ((h s - 1) * q + (q - l)) by (unfold q; field; lra).
  assert (Q : Rabs q <= Rabs l + 1).
  { replace q with ((q - l) + l) by ring. eapply Rle_trans; [apply Rabs_triang|].
    assert (e2 <= 1) by apply Rmin_l. lra. }
  eapply Rle_lt_trans; [apply Rabs_triang|]. rewrite Rabs_mult.
  assert (E1 : Rabs (h s - 1) * Rabs q <= e1 * (Rabs l + 1)).
  { apply Rmult_le_compat; try apply Rabs_pos; lra. }
  assert (E2 : e1 * (Rabs l + 1) <= e / 2).
  { apply Rle_trans with (e / (2 * (Rabs l + 2)) * (Rabs l + 1)).
    - apply Rmult_le_compat_r; [lra|apply Rmin_r].
    - apply Rle_trans with (e / (2 * (Rabs l + 2)) * (Rabs l + 2)).
      + apply Rmult_le_compat_l; [apply Rlt_le, Rdiv_lt_0_compat; lra|lra].
      + right. field. lra. }
  assert (e2 <= e / 4) by apply Rmin_r. lra.
Qed.

Lemma dpl_prod_bounded g h M : g 0 = 0 -> derivable_pt_lim g 0 0 ->
  near (fun s => Rabs (h s) <= M) -> derivable_pt_lim (fun s => h s * g s) 0 0.
Proof.
  intros G D (d1 & Hd1 & H1) e He.
  assert (PM : 0 <= M).
  { assert (Z : Rabs 0 < d1) by (rewrite Rabs_R0; exact Hd1).
    specialize (H1 0 Z). pose proof (Rabs_pos (h 0)). lra. }
  assert (P1 : 0 < e / (M + 1)) by (apply Rdiv_lt_0_compat; lra).
  destruct (D _ P1) as (d2 & H2).
  assert (P : 0 < Rmin d1 d2) by (apply Rmin_pos; [lra|apply cond_pos]).
  exists (mkposreal _ P). intros s Hs Hl. cbn in Hl. rewrite G, Rplus_0_l, Rmult_0_r.
  assert (L1 : Rabs s < d1) by (eapply Rlt_le_trans; [exact Hl|apply Rmin_l]).
  assert (L2 : Rabs s < d2) by (eapply Rlt_le_trans; [exact Hl|apply Rmin_r]).
  specialize (H1 s L1). specialize (H2 s Hs L2). rewrite G, Rplus_0_l in H2.
  replace ((h s * g s - 0) / s - 0) with (h s * ((g s - 0) / s - 0)) by (field; lra).
  rewrite Rabs_mult.
  apply Rle_lt_trans with (M * (e / (M + 1))).
  - apply Rmult_le_compat; try apply Rabs_pos; lra.
  - apply Rlt_le_trans with ((M + 1) * (e / (M + 1))); [nra|]. right. field. lra.
Qed.

Definition eA (v : V3) : R := if Req_EM_T (vnorm v) 0 then 1 else cA v.
Definition eB (v : V3) : R := if Req_EM_T (vnorm v) 0 then 1 / 2 else cB v.

Lemma so3_exp_e v : so3_exp v = rodrigues (eA v) (eB v) v.
Proof.
  unfold eA, eB. destruct (Req_EM_T (vnorm v) 0) as [E|E].
  - rewrite (vnorm_eq0 _ E), so3_exp_0, rodrigues_at_0. reflexivity.
  - apply so3_exp_cA. intros ->. apply E, vnorm_0.
Qed.

Lemma eB_bound v : Rabs (eB v) <= 1 / 2.
Proof.
  unfold eB. destruct (Req_EM_T (vnorm v) 0) as [E|E]; [rewrite Rabs_pos_eq; lra|].
  pose proof (vnorm_nonneg v) as P. unfold cB. rewrite <- vnorm_sq, cos_half_1.
  assert (P' : 0 < vnorm v) by lra. set (n := vnorm v) in *.
  assert (S : Rabs (sin (n / 2)) <= n / 2).
  { destruct (Rle_dec (n / 2) 1) as [K|K].
    - rewrite Rabs_pos_eq.
      + left. apply sin_lt_x. lra.
      + apply sin_ge_0; pose proof PI_RGT_0; pose proof PI2_3_2; unfold PI2 in *; lra.
    - eapply Rle_trans with 1; [|lra]. apply Rabs_le. pose proof (SIN_bound (n / 2)). lra. }
  rewrite Rabs_pos_eq.
  - apply (Rmult_le_reg_r (n * n)); [nra|].
    replace (2 * (sin (n / 2) * sin (n / 2)) / (n * n) * (n * n))
      with (2 * (sin (n / 2) * sin (n / 2))) by (field; lra).
    replace (sin (n / 2) * sin (n / 2)) with (Rabs (sin (n / 2)) * Rabs (sin (n / 2))).
    + pose proof (Rabs_pos (sin (n / 2))). nra.
    + rewrite <- Rabs_mult. apply Rabs_pos_eq, sq_nonneg.
  - apply Rmult_le_pos; [pose proof (sq_nonneg (sin (n / 2))); lra|].
    left. apply Rinv_0_lt_compat. nra.
Qed.

Lemma eA_limit e : 0 < e -> exists d, 0 < d /\ forall v, vnorm2 v < d -> Rabs (eA v - 1) < e.
Proof.
  intros He. pose proof (derivable_pt_lim_sin 0) as D. rewrite cos_0 in D.
  destruct (D e He) as ([d Hd] & H). cbn in H.
  exists (d * d). split; [nra|]. intros v Hv. unfold eA.
  destruct (Req_EM_T (vnorm v) 0) as [E|E].
  - unfold Rminus. rewrite Rplus_opp_r, Rabs_R0. exact He.
  - unfold cA. pose proof (vnorm_nonneg v) as P. rewrite <- vnorm_sq in Hv.
    specialize (H (vnorm v) E). rewrite Rplus_0_l, sin_0, Rminus_0_r in H. apply H.
    rewrite Rabs_pos_eq by exact P. nra.
Qed.

Lemma so3_exp_deriv_0 f d : v3_deriv f 0 d -> f 0 = v0 ->
  m3_deriv (fun s => so3_exp (f s)) 0 (skew d).
Proof.
  intros D H.
  apply (m3d_near (fun s => rodrigues (eA (f s)) (eB (f s)) (f s))).
  { apply near_all. intros s. symmetry. apply so3_exp_e. }
  assert (LA : forall e, 0 < e -> near (fun s => Rabs (eA (f s) - 1) < e)).
  { intros e He. destruct (eA_limit e He) as (q & Hq & HA).
    apply (near_impl (fun s => vnorm2 (f s) < q)); [auto|].
    eapply (dpl_near_lt (fun s => vnorm2 (f s))); [apply dpl_norm2, D|].
    rewrite H. v3unf. lra. }
  assert (LB : near (fun s => Rabs (eB (f s)) <= 1 / 2)) by (apply near_all; intros; apply eB_bound).
  assert (M : m3_deriv (fun s => mul3 (skew (f s)) (skew (f s))) 0 z3).
  { eapply m3d_val; [apply m3d_mul; apply m3d_skew, D|]. cbv beta. rewrite H. v3ring. }
  pose proof (m3d_skew _ _ _ D) as S.
  assert (Z : skew (f 0) = z3) by (rewrite H; v3ring).
  assert (Z2 : mul3 (skew (f 0)) (skew (f 0)) = z3) by (rewrite Z; v3ring).
  unfold m3_deriv in M, S. decompose [and] M. decompose [and] S. clear M S.
  unfold rodrigues, add3, scal3.
  assert (X : forall c g1 g2 l, g1 0 = 0 -> g2 0 = 0 -> derivable_pt_lim g1 0 l ->
    derivable_pt_lim g2 0 0 ->
    derivable_pt_lim (fun s => c + (eA (f s) * g1 s + eB (f s) * g2 s)) 0 l).
  { intros c g1 g2 l E1 E2 D1 D2. eapply dpl_val.
    - apply dpl_plus; [apply dpl_const|apply dpl_plus;
        [apply dpl_prod_1|eapply dpl_prod_bounded]; eauto].
    - ring. }
  repeat split; cbn [m00 m01 m02 m10 m11 m12 m20 m21 m22 i3];
    (apply X; [now rewrite Z|now rewrite Z2|assumption|assumption]).
Qed.

Lemma so3_exp_deriv f d : v3_deriv f 0 d ->
  m3_deriv (fun s => so3_exp (f s)) 0 (mul3 (skew (app3 (so3_V (f 0)) d)) (so3_exp (f 0))).
Proof.
  intros D. destruct (Req_EM_T (vnorm (f 0)) 0) as [E|E].
  - apply vnorm_eq0 in E. rewrite E, so3_V_0, app3_i, so3_exp_0, mul3_i_r.
    now apply so3_exp_deriv_0.
  - apply so3_exp_deriv_nz; [exact D|]. intros H. apply E. rewrite H. apply vnorm_0.
Qed.

(** ** log *)

Lemma rot_mul_inj m v w : is_rot m -> mul3 (skew v) m = mul3 (skew w) m -> v = w.
Proof.
  intros Hm E. apply skew_inj. rewrite <- (mul3_i_r (skew v)), <- (mul3_i_r (skew w)).
  rewrite <- (rot_mul_tr m Hm), <- !mul3_assoc, E. reflexivity.
Qed.

Lemma acos_range x : -1 <= x <= 1 -> 0 < acos x -> acos x < PI -> -1 < x < 1.
Proof.
  intros (H1 & H2) P1 P2. split.
  - destruct (Rle_lt_or_eq_dec _ _ H1) as [L|E]; [exact L|]. subst x.
    exfalso. revert P2. replace (-1) with (- (1)) by lra. rewrite acos_opp, acos_1. lra.
  - destruct (Rle_lt_or_eq_dec _ _ H2) as [L|E]; [exact L|]. subst x.
    exfalso. rewrite acos_1 in P1. lra.
Qed.

Section LogCurve.
  Variable eps : R.
  Hypothesis eps_pos : 0 <= eps.
  Variable M : R -> M3.
  Variable w : V3.
  Hypothesis rot : near (fun s => is_rot (M s)).
  Hypothesis D : m3_deriv M 0 (mul3 (skew w) (M 0)).
  Hypothesis big : eps < rot_angle (M 0) * rot_angle (M 0).
  Hypothesis small : rot_angle (M 0) < PI.

  Let x s := (trace3 (M s) - 1) / 2.
  Let x' := trace3 (mul3 (skew w) (M 0)) / 2.
  Let Dx : derivable_pt_lim x 0 x'.
  Proof.
    unfold x, x', Rdiv. eapply dpl_val.
    - apply dpl_mult; [apply dpl_minus; [apply dpl_trace, D|apply dpl_const]|apply dpl_const].
    - cbv beta. ring.
  Qed.
  Let rot0 : is_rot (M 0). Proof. exact (near_0 _ rot). Qed.
  Let ang_pos : 0 < rot_angle (M 0).
  Proof.
    assert (0 <= rot_angle (M 0)) by apply acos_bound. nra.
  Qed.
  Let x_range : -1 < x 0 < 1.
  Proof. apply acos_range; auto. apply rot_trace_bound, rot0. Qed.

  Lemma log_near : near (fun s => is_rot (M s) /\ rot_angle (M s) < PI /\
    eps < rot_angle (M s) * rot_angle (M s)).
  Proof.
    assert (Da : derivable_pt_lim (fun s => acos (x s)) 0 (- x' / sqrt (1 - x 0 * x 0)))
      by (apply dpl_acos; auto).
    apply near_and; [exact rot|]. apply near_and.
    - exact (dpl_near_lt (fun s => acos (x s)) _ PI Da small).
    - eapply (dpl_near_gt (fun s => acos (x s) * acos (x s))); [apply dpl_mult; exact Da|exact big].
  Qed.

  Definition log_curve (s : R) : V3 :=
    vscal (acos (x s) / (2 * sin (acos (x s)))) (uncross (sub3 (M s) (tr3 (M s)))).

  Lemma log_curve_eq : near (fun s => log_mat eps (M s) = Some (log_curve s) /\
    so3_exp (log_curve s) = M s /\ vnorm (log_curve s) = rot_angle (M s)).
  Proof.
    apply (near_impl (fun s => is_rot (M s) /\ rot_angle (M s) < PI /\
      eps < rot_angle (M s) * rot_angle (M s))); [|exact log_near].
    intros s (H1 & H2 & H3).
    destruct (exp_log_general eps (M s) H1 eps_pos H2 H3) as (v & E1 & E2 & E3).
    assert (v = log_curve s).
    { unfold log_mat in E1. pose proof (rot_trace_bound _ H1) as TB.
      destruct (Rle_dec _ _) as [K1|K1]; [|exfalso; apply K1; lra].
      destruct (Rle_dec _ 1) as [K2|K2]; [|exfalso; apply K2; lra].
      unfold rot_angle in H3, H2. destruct (Rlt_dec _ _) as [K3|K3]; [|contradiction].
      unfold odiv in E1. destruct (Req_EM_T _ 0) as [K4|K4]; [discriminate|].
      injection E1 as <-. unfold log_curve, x, uncross. v3unf. f_equal; ring. }
    subst v. auto.
  Qed.

  Lemma log_curve_diff : exists d, v3_deriv log_curve 0 d.
  Proof.
    eexists. unfold log_curve. apply v3d_scal.
    - apply (dpl_div (fun s => acos (x s)) (fun s => 2 * sin (acos (x s)))).
      + apply dpl_acos; [exact Dx|exact x_range].
      + apply dpl_mult; [apply dpl_const|apply dpl_sin, dpl_acos; [exact Dx|exact x_range]].
      + fold (rot_angle (M 0)).
        assert (0 < sin (rot_angle (M 0))) by (apply sin_gt_0; auto).
        unfold rot_angle in *. fold (x 0) in H. lra.
    - apply v3d_uncross, m3d_sub; [exact D|apply m3d_tr, D].
  Qed.

  Lemma log_curve_0 : log_curve 0 <> v0 /\ vnorm (log_curve 0) = rot_angle (M 0) /\
    so3_exp (log_curve 0) = M 0.
  Proof.
    destruct (near_0 _ log_curve_eq) as (_ & E & N). split; [|auto].
    intros H. rewrite H, vnorm_0 in N. rewrite <- N in ang_pos. lra.
  Qed.

  (** The velocity of the logarithm: V(log M)^-1 w. *)
  Lemma log_curve_deriv : v3_deriv log_curve 0 (app3 (so3_Vinv (log_curve 0)) w).
  Proof.
    destruct log_curve_diff as (d & Hd). pose proof (so3_exp_deriv log_curve d Hd) as E.
    destruct log_curve_0 as (N0 & N & E0).
    assert (W : app3 (so3_V (log_curve 0)) d = w).
    { apply (rot_mul_inj (M 0)); [exact rot0|]. rewrite <- E0 at 1.
      eapply m3d_unique; [exact E|]. apply (m3d_near M); [|exact D].
      apply (near_impl _ _ (fun s H => eq_sym (proj1 (proj2 H))) log_curve_eq). }
    rewrite <- W, <- app3_mul.
    destruct (V_Vinv (log_curve 0) N0) as (_ & I); [rewrite N; pose proof PI_RGT_0; lra|].
    rewrite I, app3_i. exact Hd.
  Qed.
End LogCurve.

(** ** The translation part of SE(3) *)

(** The "B" block of the twist Jacobians, in terms of the coefficients. *)
Definition EB (v u : V3) : M3 :=
  add3 (add3 (scal3 (cB v) (skew u)) (scal3 (cC v) (add3 (outer3 v u) (outer3 u v))))
    (scal3 (vdot v u)
       (add3 (add3 (scal3 (cC v - cB v) i3)
                (scal3 ((cA v - 2 * cB v) / vnorm2 v) (skew v)))
          (scal3 ((cB v - 3 * cC v) / vnorm2 v) (outer3 v v)))).

Lemma V_deriv_identity B C l v d u :
  let n := vnorm2 v in let A := 1 - n * C in let k := A * C - B * B in
  let p := vdot v d in
  app3 (add3 (add3 (scal3 (k * p) (skew v)) (scal3 B (skew d)))
       (add3 (scal3 (l * p) (mul3 (skew v) (skew v)))
          (scal3 C (add3 (mul3 (skew d) (skew v)) (mul3 (skew v) (skew d)))))) u
  = vadd (vadd (vcross (app3 (rodrigues B C v) d) (app3 (rodrigues B C v) u))
      (app3 (add3 (add3 (scal3 B (skew u)) (scal3 C (add3 (outer3 v u) (outer3 u v))))
               (scal3 (vdot v u) (add3 (add3 (scal3 (C - B) i3) (scal3 k (skew v)))
                                    (scal3 l (outer3 v v))))) d))
     (vadd (vscal (2 * B - (A * A + B * B * n)) (vcross d u))
           (vscal (p * (B - 3 * C - l * n)) u)).
Proof. cbv zeta. unfold rodrigues. v3ring. Qed.

Lemma V_deriv f g d u : v3_deriv f 0 d -> v3_deriv g 0 u -> f 0 <> v0 ->
  v3_deriv (fun s => app3 (so3_V (f s)) (g s)) 0
    (vadd (vcross (app3 (so3_V (f 0)) d) (app3 (so3_V (f 0)) (g 0)))
       (vadd (app3 (EB (f 0) (g 0)) d) (app3 (so3_V (f 0)) u))).
Proof.
  intros D Dg H.
  apply (v3d_near (fun s => app3 (rodrigues (cB (f s)) (cC (f s)) (f s)) (g s))).
  { apply (near_impl (fun s => f s <> v0)); [|apply (near_nz f d D H)].
    intros s Hs. now rewrite (so3_V_cB _ Hs). }
  eapply v3d_val.
  - apply v3d_app; [|exact Dg].
    exact (m3d_rodrigues _ _ f 0 _ _ d (dpl_cB f 0 d D H) (dpl_cC f 0 d D H) D).
  - rewrite <- (so3_V_cB _ H) at 1.
    destruct (coef_rel _ H) as (R1 & R2).
    assert (EA : cA (f 0) = 1 - vnorm2 (f 0) * cC (f 0)) by lra.
    unfold EB. rewrite (coef_k f 0 H).
    set (l := (cB (f 0) - 3 * cC (f 0)) / vnorm2 (f 0)).
    assert (L : l * vnorm2 (f 0) = cB (f 0) - 3 * cC (f 0)).
    { unfold l. pose proof (vnorm_neq0 _ H) as P. pose proof (vnorm_sq (f 0)).
      field. nra. }
    rewrite EA. rewrite EA in R2. rewrite V_deriv_identity. rewrite R2, L.
    rewrite (so3_V_cB _ H).
    generalize (app3 (rodrigues (cB (f 0)) (cC (f 0)) (f 0)) u) as X1.
    generalize (vcross (app3 (rodrigues (cB (f 0)) (cC (f 0)) (f 0)) d)
      (app3 (rodrigues (cB (f 0)) (cC (f 0)) (f 0)) (g 0))) as X2.
    intros X2 X1.
    v3ring.
Qed.

Lemma eade_B_EB v u : v <> v0 -> eade_B v u = Some (EB v u).
Proof.
  intros H. pose proof (vnorm_neq0 v H) as P. pose proof (vnorm_sq v) as N.
  assert (P2 : 0 < vnorm2 v) by (rewrite <- N; nra).
  unfold eade_B, odiv. fold (vnorm v).
  destruct (Req_EM_T (vnorm v) 0); [lra|]. destruct (Req_EM_T (vnorm2 v) 0); [lra|].
  reflexivity.
Qed.

Lemma eade_B_0 u : eade_B v0 u = None.
Proof.
  unfold eade_B, odiv. fold (vnorm v0). rewrite vnorm_0.
  destruct (Req_EM_T 0 0); [reflexivity|contradiction].
Qed.

Section RTLogCurve.
  Variable eps : R.
  Hypothesis eps_pos : 0 <= eps.
  Variable M : R -> M3.
  Variable t : R -> V3.
  Variables w u : V3.
  Hypothesis rot : near (fun s => is_rot (M s)).
  Hypothesis D : m3_deriv M 0 (mul3 (skew w) (M 0)).
  Hypothesis Dt : v3_deriv t 0 (vadd (vcross w (t 0)) u).
  Hypothesis big : eps < rot_angle (M 0) * rot_angle (M 0).
  Hypothesis small : rot_angle (M 0) < PI.

  Let lc := log_curve M.
  Let L0 := log_curve_0 eps eps_pos M w rot D big small.
  Let Dl : v3_deriv lc 0 (app3 (so3_Vinv (lc 0)) w).
  Proof. exact (log_curve_deriv eps eps_pos M w rot D big small). Qed.

  Definition tlog_curve (s : R) : V3 := app3 (so3_Vinv (log_curve M s)) (t s).

  Lemma tlog_near : near (fun s => rt_log eps (M s) (t s) = Some (lc s, tlog_curve s) /\
    so3_exp (lc s) = M s /\ app3 (so3_V (lc s)) (tlog_curve s) = t s).
  Proof.
    apply (near_impl2 (fun s => is_rot (M s) /\ rot_angle (M s) < PI /\
      eps < rot_angle (M s) * rot_angle (M s))
      (fun s => log_mat eps (M s) = Some (log_curve M s) /\
        so3_exp (log_curve M s) = M s /\ vnorm (log_curve M s) = rot_angle (M s))).
    - intros s (H1 & H2 & H3) (E1 & E2 & E3). unfold lc, tlog_curve.
      assert (B : eps < vnorm2 (log_curve M s)) by (rewrite <- vnorm_sq, E3; exact H3).
      assert (NZ : log_curve M s <> v0).
      { intros Z. rewrite Z in B. revert B. v3unf. lra. }
      assert (PI2' : vnorm (log_curve M s) < 2 * PI) by (rewrite E3; pose proof PI_RGT_0; lra).
      split; [|split; [exact E2|]].
      + apply rt_log_general; auto.
      + rewrite <- app3_mul. destruct (V_Vinv _ NZ PI2') as (I & _). now rewrite I, app3_i.
    - exact (log_near eps eps_pos M w rot D big small).
    - exact (log_curve_eq eps eps_pos M w rot D big small).
  Qed.

  Lemma cB_pos v : v <> v0 -> vnorm v < 2 * PI -> 0 < cB v.
  Proof.
    intros H Hpi. pose proof (vnorm_neq0 v H) as P. pose proof (vnorm_sq v) as N.
    assert (P2 : 0 < vnorm2 v) by (rewrite <- N; nra).
    unfold cB. apply Rdiv_lt_0_compat; [|exact P2].
    pose proof (cos_lt_1 (vnorm v) (conj P Hpi)). lra.
  Qed.

  Lemma tlog_diff : exists d, v3_deriv tlog_curve 0 d.
  Proof.
    destruct L0 as (NZ & N & _).
    assert (P : 0 < cB (lc 0)).
    { apply cB_pos; [exact NZ|]. fold lc in N. rewrite N. pose proof PI_RGT_0. lra. }
    assert (P2 : vnorm2 (lc 0) <> 0) by (intros E; apply NZ, vnorm2_eq0, E).
    eexists. unfold tlog_curve. apply v3d_app; [|exact Dt].
    unfold so3_Vinv. apply (m3d_rodrigues (fun _ => - (1 / 2))
      (fun s => (1 - cA (lc s) / 2 / cB (lc s)) / vnorm2 (lc s)) lc); [apply dpl_const| |exact Dl].
    apply (dpl_div (fun s => 1 - cA (lc s) / 2 / cB (lc s)) (fun s => vnorm2 (lc s)));
      [|apply dpl_norm2, Dl|exact P2].
    apply dpl_minus; [apply dpl_const|].
    apply (dpl_div (fun s => cA (lc s) / 2) (fun s => cB (lc s))); [| |lra].
    - apply (dpl_div (fun s => cA (lc s)) (fun _ => 2)); [|apply dpl_const|lra].
      exact (dpl_cA lc 0 _ Dl NZ).
    - exact (dpl_cB lc 0 _ Dl NZ).
  Qed.

  Lemma tlog_deriv : let Vi := so3_Vinv (lc 0) in
    v3_deriv tlog_curve 0
      (vadd (app3 (mul3 (mul3 (opp3 Vi) (EB (lc 0) (tlog_curve 0))) Vi) w) (app3 Vi u)).
  Proof.
    intros Vi. destruct tlog_diff as (d & Hd). destruct L0 as (NZ & N & E0).
    destruct (V_Vinv (lc 0) NZ) as (I1 & I2).
    { fold lc in N. rewrite N. pose proof PI_RGT_0. lra. }
    pose proof (V_deriv lc tlog_curve _ _ Dl Hd NZ) as E.
    assert (K : vadd (vcross w (t 0)) u =
      vadd (vcross (app3 (so3_V (lc 0)) (app3 (so3_Vinv (lc 0)) w))
              (app3 (so3_V (lc 0)) (tlog_curve 0)))
        (vadd (app3 (EB (lc 0) (tlog_curve 0)) (app3 (so3_Vinv (lc 0)) w))
           (app3 (so3_V (lc 0)) d))).
    { eapply v3d_unique; [exact Dt|]. eapply v3d_near; [|exact E].
      apply (near_impl _ _ (fun s H => proj2 (proj2 H)) tlog_near). }
    rewrite <- app3_mul, I1, app3_i in K.
    rewrite (proj2 (proj2 (near_0 _ tlog_near))) in K.
    assert (K' : app3 (so3_V (lc 0)) d =
      vsub u (app3 (EB (lc 0) (tlog_curve 0)) (app3 Vi w))).
    { revert K. fold Vi. generalize (app3 (so3_V (lc 0)) d) as X.
      generalize (app3 (EB (lc 0) (tlog_curve 0)) (app3 Vi w)) as Y.
      generalize (vcross w (t 0)) as Z. clear. intros Z Y X K. destruct X, Y, Z, u.
      unfold vadd, vsub in *. cbn in *. injection K as K1 K2 K3. f_equal; lra. }
    eapply v3d_val; [exact Hd|].
    rewrite <- (app3_i d), <- I2, app3_mul, K'. fold Vi.
    rewrite app3_sub_r, !app3_mul, app3_opp_l.
    generalize (app3 Vi (app3 (EB (lc 0) (tlog_curve 0)) (app3 Vi w))) as X.
    generalize (app3 Vi u) as Y. clear. v3ring.
  Qed.
End RTLogCurve.
