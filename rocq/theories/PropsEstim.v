(** C39, C40: factors. *)

From Coq Require Import Reals Lra Lia List Bool Arith Setoid Ratan.
From Verif Require Import Mat ModelMeta MetaProofs ModelJac SpecJac JacProofs NaryProofs V3 ModelLeaf SpecLeaf
  LeafProofs ModelExpr SpecExpr ExprProofs PropsExpr PropsVec Calc SpecDeriv DerivProofs DerivTree
  PropsDeriv ModelApprox PropsApprox ModelCompound SpecCompound PropsCompound ModelEstim SpecEstim
  NoiseProofs.
Import ListNotations.
Local Open Scope R_scope.
Local Open Scope mat_scope.

(** ** Stacked coordinates *)

Local Arguments stacked : simpl never.

Lemma coords_length d : length (coords_of d) = tsize (dkind d).
Proof. unfold coords_of. now rewrite map_length, seq_length. Qed.
Lemma coords_nth d i : (i < tsize (dkind d))%nat -> nth i (coords_of d) 0 = dcoord d i.
Proof.
  intros H. unfold coords_of. rewrite (nth_indep _ 0 (dcoord d 0%nat)) by now rewrite map_length, seq_length.
  rewrite map_nth. f_equal. now rewrite seq_nth.
Qed.
Lemma stacked_cons d ds : stacked (d :: ds) = coords_of d ++ stacked ds.
Proof. reflexivity. Qed.
Lemma LSc a l : list_sum (a :: l) = (a + list_sum l)%nat.
Proof. reflexivity. Qed.
Lemma stacked_length c : Forall valid c ->
  length (stacked (map den c)) = list_sum (map (fun w => tsize (vkind w)) c).
Proof.
  induction 1 as [|v c V _ IH]; [reflexivity|]. cbn [map]. rewrite stacked_cons, app_length, IH, LSc.
  rewrite coords_length, valid_dkind by assumption. reflexivity.
Qed.
Lemma stacked_nth c : Forall valid c -> forall k v j, nth_error c k = Some v ->
  (j < tsize (vkind v))%nat ->
  nth (list_sum (map (fun w => tsize (vkind w)) (firstn k c)) + j) (stacked (map den c)) 0
  = dcoord (den v) j.
Proof.
  induction 1 as [|w c V _ IH]; intros [|k] v j E Hj; try discriminate;
    cbn [map firstn nth_error] in *; rewrite stacked_cons.
  - injection E as ->. cbn [list_sum fold_right Nat.add].
    assert (K : dkind (den v) = vkind v) by now apply valid_dkind.
    rewrite app_nth1 by (rewrite coords_length, K; exact Hj).
    apply coords_nth. now rewrite K.
  - rewrite LSc. assert (K : dkind (den w) = vkind w) by now apply valid_dkind.
    rewrite app_nth2 by (rewrite coords_length, K; lia).
    rewrite coords_length, K.
    replace (tsize (vkind w) + list_sum (map (fun w0 : value => tsize (vkind w0)) (firstn k c)) + j
             - tsize (vkind w))%nat
      with (list_sum (map (fun w0 : value => tsize (vkind w0)) (firstn k c)) + j)%nat by lia.
    now apply IH.
Qed.
Lemma compound_vector_nth garbage c : Forall valid c ->
  mrows (compound_vector garbage c) = length (stacked (map den c)) /\
  forall i, (i < length (stacked (map den c)))%nat ->
    mnth (compound_vector garbage c) i 0 = nth i (stacked (map den c)) 0.
Proof.
  intros V. destruct (c32_value_as_vector garbage c V) as (H1 & H2 & H3).
  rewrite stacked_length by assumption. split; [exact H2|]. intros i Hi. rewrite <- H2 in Hi.
  destruct (H3 i Hi) as (k & v & j & E & Hj & ->). rewrite (H1 k v j E Hj).
  symmetry. now apply stacked_nth.
Qed.

(** Differences of vectors of the same kinds. *)
Lemma stacked_sub (r x z : list dval) :
  each3 (fun a b c => dkind a = dkind b /\ dkind a = dkind c /\
           forall i, (i < tsize (dkind a))%nat -> dcoord a i = dcoord b i - dcoord c i) r x z ->
  length (stacked r) = length (stacked x) /\ length (stacked r) = length (stacked z) /\
  forall i, (i < length (stacked r))%nat ->
    nth i (stacked r) 0 = nth i (stacked x) 0 - nth i (stacked z) 0.
Proof.
  revert x z. induction r as [|a r IH]; intros [|b x] [|c z] H;
    try (destruct H as (L1 & L2 & _); discriminate).
  - cbn. repeat split; auto. unfold stacked. cbn. intros; lia.
  - apply each3_cons_inv in H. destruct H as ((K1 & K2 & E) & H).
    destruct (IH x z H) as (L1 & L2 & N). rewrite !stacked_cons, !app_length, !coords_length, <- K1, <- K2.
    split; [lia|]. split; [lia|]. intros i Hi.
    destruct (Nat.lt_ge_cases i (tsize (dkind a))) as [Li|Li].
    + rewrite !app_nth1 by (rewrite coords_length, <- ?K1, <- ?K2; exact Li).
      rewrite !coords_nth by (rewrite <- ?K1, <- ?K2; exact Li). now apply E.
    + rewrite !app_nth2 by (rewrite coords_length, <- ?K1, <- ?K2; exact Li).
      rewrite !coords_length, <- K1, <- K2. apply N. lia.
Qed.

(** Equal stacked coordinates: equal vectors. *)
Lemma vec_coords_inj a b : vec_kind (dkind a) = true -> dkind a = dkind b ->
  (forall i, (i < tsize (dkind a))%nat -> dcoord a i = dcoord b i) -> a = b.
Proof.
  destruct a as [a|[x y z]|[x y z]|[x y z]|[x y z] [u v w]| |],
           b as [b|[x' y' z']|[x' y' z']|[x' y' z']|[x' y' z'] [u' v' w']| |];
    try discriminate; cbn; intros _ _ H.
  - f_equal. apply (H 0%nat). lia.
  - pose proof (H 0%nat ltac:(lia)). pose proof (H 1%nat ltac:(lia)). pose proof (H 2%nat ltac:(lia)).
    cbn in *. congruence.
  - pose proof (H 0%nat ltac:(lia)). pose proof (H 1%nat ltac:(lia)). pose proof (H 2%nat ltac:(lia)).
    cbn in *. congruence.
  - pose proof (H 0%nat ltac:(lia)). pose proof (H 1%nat ltac:(lia)). pose proof (H 2%nat ltac:(lia)).
    pose proof (H 3%nat ltac:(lia)). pose proof (H 4%nat ltac:(lia)). pose proof (H 5%nat ltac:(lia)).
    cbn in *. congruence.
Qed.
Lemma stacked_inj x z :
  each2 (fun a b => vec_kind (dkind a) = true /\ dkind a = dkind b) x z ->
  (forall i, (i < length (stacked x))%nat -> nth i (stacked x) 0 = nth i (stacked z) 0) -> x = z.
Proof.
  revert z. induction x as [|a x IH]; intros [|b z] H N;
    try (destruct H as (L & _); discriminate); [reflexivity|].
  apply each2_cons_inv in H. destruct H as ((V & K) & H).
  rewrite !stacked_cons, app_length, coords_length in N. f_equal.
  - apply vec_coords_inj; auto. intros i Hi. specialize (N i ltac:(lia)).
    rewrite !app_nth1, !coords_nth in N by (rewrite ?coords_length, <- ?K; exact Hi). exact N.
  - apply IH; auto. intros i Hi. specialize (N (tsize (dkind a) + i)%nat ltac:(lia)).
    rewrite !app_nth2 in N by (rewrite coords_length, <- ?K; lia).
    rewrite !coords_length, <- K in N.
    replace (tsize (dkind a) + i - tsize (dkind a))%nat with i in N by lia. exact N.
Qed.

(** ** Fresh addresses *)

Lemma same_shape_refl e : same_shape e e.
Proof. induction e; cbn; auto. Qed.
Lemma env_ok_ext m m' e : (forall a, In a (leaf_addrs e) -> m a = m' a) -> env_ok m e -> env_ok m' e.
Proof.
  induction e as [a t|o e IH|o l IHl r IHr]; cbn; intros H; auto.
  - now rewrite <- (H a (or_introl eq_refl)).
  - intros (A & B). split; [apply IHl|apply IHr]; auto; intros; apply H; rewrite in_app_iff; auto.
Qed.
Lemma good_ext eps m m' e k : (forall a, In a (leaf_addrs e) -> m a = m' a) ->
  good eps m e k -> good eps m' e k.
Proof.
  intros H (A & B & C). split; [exact A|]. split; [now apply (env_ok_ext m)|].
  apply (exps_exact_ext eps (fun a => den (m a)) _ e e (same_shape_refl e)); auto.
  intros a Ha. cbn. now rewrite H.
Qed.

(** ** C39: the residual *)

(** The expressions a measurement functor returns. *)
Definition elements (p : prediction) : list expr :=
  match p with PVector e => [e] | PCompound es => es end.

Section Residual.
  Variable eps : R.
  Hypothesis He : 0 < eps < 1.
  Let He0 : 0 <= eps. Proof. lra. Qed.

  (** Difference of a prediction and a measurement, both vectors. *)
  Lemma sub_ok m e k z v x : vec_kind k = true -> good eps m e k -> means eps m e = Some x ->
    valid v -> vkind v = k -> ~ In z (leaf_addrs e) ->
    exists r, eval eps (with_measurement m z v) (XBin OSubtract e (XLeaf z (vty v))) = Some r /\
      valid r /\ vkind r = k /\
      forall i, (i < tsize k)%nat -> dcoord (den r) i = dcoord x i - dcoord (den v) i.
  Proof.
    intros Vk G M V Kv Fz. set (m' := with_measurement m z v).
    assert (Ez : m' z = v) by (unfold m', with_measurement; now rewrite Nat.eqb_refl).
    assert (Ee : forall a, In a (leaf_addrs e) -> m a = m' a).
    { intros a Ha. unfold m', with_measurement. destruct (a =? z)%nat eqn:E; [|reflexivity].
      apply Nat.eqb_eq in E. rewrite E in Ha. contradiction. }
    assert (G1 : good eps m' e k) by (eapply good_ext; eauto).
    assert (G2 : good eps m' (XLeaf z (vty v)) k).
    { rewrite <- Kv. apply good_leaf; rewrite Ez; auto. }
    assert (GS : good eps m' (XBin OSubtract e (XLeaf z (vty v))) k).
    { eapply good_bin; [exact G1|exact G2|]. destruct k; try discriminate; reflexivity. }
    assert (D : deval eps (fun a => den (m' a)) e = Some x).
    { rewrite <- M, (good_means eps m e k He0 G). symmetry.
      apply deval_ext; [apply same_shape_refl|]. intros a Ha. now rewrite Ee. }
    assert (Kx : dkind x = k) by now destruct (good_deval _ _ _ _ _ He0 G1 D).
    assert (Kd : dkind (den v) = k) by now rewrite valid_dkind.
    assert (DS : exists w, deval eps (fun a => den (m' a)) (XBin OSubtract e (XLeaf z (vty v))) = Some w /\
      forall i, (i < tsize k)%nat -> dcoord w i = dcoord x i - dcoord (den v) i).
    { cbn [deval]. rewrite D, Ez. unfold dsem_bin. rewrite Kx, Kd.
      clear Kv G M G1 G2 GS D.
      destruct x as [a|[a b c]|[a b c]|[a b c]|[a b c] [a' b' c']| |]; cbn in Kx; subst k; try discriminate;
        destruct (den v) as [p|[p q s]|[p q s]|[p q s]|[p q s] [p' q' s']| |]; try discriminate;
        eexists; (split; [reflexivity|]); cbn; intros i Hi;
        destruct i as [|[|[|[|[|[|]]]]]]; try lia; cbn; try ring. }
    destruct DS as (w & DS & W).
    destruct (from_deval eps He _ _ _ _ GS DS) as (r & E & Vr & Kr & Dr).
    exists r. rewrite Dr. auto.
  Qed.

  Lemma elem_minus_vec a b : valid a -> valid b -> vkind a = vkind b -> vec_kind (vkind a) = true ->
    exists r, elem_minus eps a b = Some r /\ valid r /\ vkind r = vkind a /\
      forall i, (i < tsize (vkind a))%nat -> dcoord (den r) i = dcoord (den a) i - dcoord (den b) i.
  Proof.
    intros Va Vb K Vk.
    assert (X : difference_exact eps (den b) (den a)).
    { pose proof (valid_dkind a Va) as Ka. destruct (den b), (den a); try exact I; exfalso; cbn in Ka;
        rewrite <- Ka in Vk; discriminate. }
    destruct (elem_minus_ok eps He a b Va Vb K X) as (d & E & V & Kd & D & _).
    exists d. split; [exact E|]. split; [exact V|].
    assert (Kd' : vkind d = vkind a) by (rewrite Kd; destruct (vkind a); try discriminate; reflexivity).
    split; [exact Kd'|]. intros i Hi.
    pose proof (valid_dkind a Va) as Ka. pose proof (valid_dkind b Vb) as Kb. rewrite <- K in Kb.
    pose proof (valid_dkind d V) as Kdd. rewrite Kd' in Kdd.
    destruct (den a) as [p|[p q s]|[p q s]|[p q s]|[p q s] [p' q' s']| |]; cbn in Ka; rewrite <- Ka in *;
      try discriminate Vk;
      destruct (den b) as [x|[x y w]|[x y w]|[x y w]|[x y w] [x' y' w']| |]; try discriminate Kb;
      destruct (den d) as [t|[t u v]|[t u v]|[t u v]|[t u v] [t' u' v']| |]; try discriminate Kdd; cbn in D.
    - destruct i; cbn in *; [lra|lia].
    - unfold vadd in D. cbn in D. injection D as D1 D2 D3. destruct i as [|[|[|]]]; cbn in *; try lia; lra.
    - unfold vadd in D. cbn in D. injection D as D1 D2 D3. destruct i as [|[|[|]]]; cbn in *; try lia; lra.
    - destruct D as (D & D'). unfold vadd in D, D'. cbn in D, D'.
      injection D as D1 D2 D3. injection D' as D4 D5 D6.
      destruct i as [|[|[|[|[|[|]]]]]]; cbn in *; try lia; lra.
  Qed.

  (** One element of a factor: a vector expression of the measurement's kind, over valid
      leaf objects, that has a value, and does not mention the factor's own measurement. *)
  Definition element_ok (m : env) (z : nat) (e : expr) (x : dval) (v : value) : Prop :=
    exists k, vec_kind k = true /\ good eps m e k /\ means eps m e = Some x /\
      valid v /\ vkind v = k /\ ~ In z (leaf_addrs e).

  Lemma compound_eval_ok m z es xs vs : each3 (element_ok m z) es xs vs ->
    exists c, compound_eval eps m es = Some c /\ Forall valid c /\ map den c = xs /\
      each2 (fun a b => valid b /\ vkind a = vkind b /\ vec_kind (vkind a) = true) c vs.
  Proof.
    revert xs vs. induction es as [|e es IH]; intros [|x xs] [|v vs] H;
      try (destruct H as (L1 & L2 & _); discriminate).
    - exists []. split; [reflexivity|]. split; [constructor|]. split; [reflexivity|].
      split; [reflexivity|]. intros [|i] a b Ea; discriminate.
    - apply each3_cons_inv in H. destruct H as ((k & Vk & G & M & V & Kv & Fz) & H).
      destruct (IH xs vs H) as (c & E & Vc & D & (L & K)).
      unfold means in M. destruct (eval eps m e) as [w|] eqn:Ew; [|discriminate].
      injection M as M. pose proof (eval_valid eps He0 m e k w G Ew) as Vw.
      assert (Kw : vkind w = k).
      { rewrite <- valid_dkind by exact Vw.
        assert (Hd : deval eps (fun a => den (m a)) e = Some (den w)).
        { rewrite <- (good_means eps m e k He0 G). unfold means. now rewrite Ew. }
        now destruct (good_deval _ _ _ _ _ He0 G Hd). }
      exists (w :: c). cbn [compound_eval]. rewrite Ew, E. split; [reflexivity|].
      split; [constructor; auto|]. split; [cbn; congruence|]. split; [cbn; lia|].
      intros [|i] a b Ea Eb; cbn in Ea, Eb; [|now apply (K i)].
      injection Ea as <-. injection Eb as <-. rewrite Kw. auto.
  Qed.

  Lemma minus_ok c vs : Forall valid c ->
    each2 (fun a b => valid b /\ vkind a = vkind b /\ vec_kind (vkind a) = true) c vs ->
    exists r, compound_minus eps c vs = Some r /\ Forall valid r /\
      each3 (fun a b c => dkind a = dkind b /\ dkind a = dkind c /\
           forall i, (i < tsize (dkind a))%nat -> dcoord a i = dcoord b i - dcoord c i)
        (map den r) (map den c) (map den vs).
  Proof.
    revert vs. induction c as [|w c IH]; intros [|v vs] Vc H;
      try (destruct H as (L & _); discriminate).
    - exists []. split; [reflexivity|]. split; [constructor|apply each3_nil].
    - apply each2_cons_inv in H. destruct H as ((V & K & Vk) & H). inversion_clear Vc as [|? ? Vw Vc'].
      destruct (IH vs Vc' H) as (r & E & Vr & X).
      destruct (elem_minus_vec w v Vw V K Vk) as (d & Ed & Vd & Kd & D).
      exists (d :: r). unfold compound_minus in *. cbn [expand2]. rewrite Ed, E. split; [reflexivity|].
      split; [constructor; auto|]. cbn [map]. apply each3_cons; [|exact X].
      rewrite !valid_dkind by assumption. rewrite Kd. repeat split; auto.
  Qed.

  Lemma residual_ok m z p xs vs : each3 (element_ok m z) (elements p) xs vs ->
    exists r, residual eps m z p vs = Some r /\ Forall valid r /\
      each3 (fun a b c => dkind a = dkind b /\ dkind a = dkind c /\
           forall i, (i < tsize (dkind a))%nat -> dcoord a i = dcoord b i - dcoord c i)
        (map den r) xs (map den vs).
  Proof.
    destruct p as [e|es]; cbn [elements residual]; intros H.
    - destruct xs as [|x [|]], vs as [|v [|]]; try (destruct H as (L1 & L2 & _); discriminate).
      apply each3_cons_inv in H. destruct H as ((k & Vk & G & M & V & Kv & Fz) & _).
      destruct (sub_ok m e k z v x Vk G M V Kv Fz) as (r & E & Vr & Kr & D). rewrite E.
      exists [r]. split; [reflexivity|]. split; [auto|]. cbn [map]. apply each3_cons; [|apply each3_nil].
      assert (Kx : dkind x = k).
      { assert (Hd : deval eps (fun a => den (m a)) e = Some x)
          by now rewrite <- (good_means eps m e k He0 G).
        now destruct (good_deval _ _ _ _ _ He0 G Hd). }
      rewrite !valid_dkind by assumption. rewrite Kr, Kx, Kv. auto.
    - destruct (compound_eval_ok m z es xs vs H) as (c & E & Vc & D & K). rewrite E, <- D.
      destruct (minus_ok c vs Vc K) as (r & E' & Vr & X). rewrite E'. exists r. auto.
  Qed.

  Lemma normalised_ok garbage n L r xs zs : Forall valid r -> has_shape n n L ->
    n = length (stacked xs) ->
    each3 (fun a b c => dkind a = dkind b /\ dkind a = dkind c /\
           forall i, (i < tsize (dkind a))%nat -> dcoord a i = dcoord b i - dcoord c i)
        (map den r) xs zs ->
    has_shape n 1 (L ** compound_vector garbage r) /\
    forall i, mnth (L ** compound_vector garbage r) i 0 = normalised n L xs zs i.
  Proof.
    intros V (Rl & Cl) En H. destruct (stacked_sub _ _ _ H) as (L1 & L2 & N).
    destruct (compound_vector_nth garbage r V) as (Rr & Nr).
    split; [split; cbn; auto|]. intros i. rewrite mnth_mmul, Cl. unfold normalised.
    apply rsum_ext. intros j Hj. f_equal. rewrite Nr by lia. apply N. lia.
  Qed.
End Residual.

(** evaluate returns the normalised residual L (f(parameters) - measurement): the predicted
    and measured vectors are subtracted coordinate by coordinate, elements of compounds in
    order, and the difference is multiplied by the noise's inverseSqrtCov. *)
Theorem c39_residual : forall eps garbage m z f params xs n, 0 < eps < 1 ->
  each3 (element_ok eps m z) (elements (functor f (map param_expr params))) xs (measured f) ->
  n = length (stacked xs) -> has_shape n n (inverseSqrtCov (noise_of f)) ->
  exists r, evaluate eps garbage m z f params = Some r /\ has_shape n 1 r /\
    forall i, (i < n)%nat ->
      mnth r i 0 = normalised n (inverseSqrtCov (noise_of f)) xs (map den (measured f)) i.
Proof.
  intros eps garbage m z f params xs n He H En Sh.
  destruct (residual_ok eps He m z _ xs (measured f) H) as (r & E & V & X).
  destruct (normalised_ok garbage n _ r xs _ V Sh En X) as (S1 & N).
  unfold evaluate. rewrite E. eexists. split; [reflexivity|]. split; [exact S1|]. intros i _. apply N.
Qed.
Print Assumptions c39_residual.

(** evaluateWithJacobians returns the same residual. *)
Theorem c39_same_residual_with_jacobians : forall eps garbage na m z f params xs n r r' js, 0 < eps < 1 ->
  each3 (element_ok eps m z) (elements (functor f (map param_expr params))) xs (measured f) ->
  n = length (stacked xs) -> has_shape n n (inverseSqrtCov (noise_of f)) ->
  evaluate eps garbage m z f params = Some r ->
  evaluateWithJacobians eps garbage na m f params = Some (r', js) -> r' == r.
Proof.
  intros eps garbage na m z f params xs n r r' js He H En Sh Er Er'.
  destruct (c39_residual eps garbage m z f params xs n He H En Sh) as (r0 & E0 & S0 & N0).
  rewrite Er in E0. injection E0 as <-.
  destruct (compound_eval_ok eps He m z _ xs _ H) as (c & E & Vc & D & K).
  destruct (minus_ok eps He c _ Vc K) as (d & E' & Vd & X).
  unfold evaluateWithJacobians in Er'.
  assert (P : forall c' js', prediction_with_jacobians eps na m (functor f (map param_expr params)) params
     = Some (c', js') -> c' = c).
  { intros c' js'. destruct (functor f (map param_expr params)) as [e|es]; cbn [elements] in E; cbn.
    - cbn in E. destruct (eval eps m e); [|discriminate]. intros [= <- _]. congruence.
    - rewrite E. destruct (trees eps na m es); [|discriminate]. now intros [= <- _]. }
  destruct (prediction_with_jacobians _ _ _ _ _) as [[c' js']|]; [|discriminate].
  rewrite (P c' js' eq_refl) in Er'. rewrite E' in Er'.
  injection Er' as <- _. rewrite D in X.
  destruct (normalised_ok garbage n _ d xs _ Vd Sh En X) as (S1 & N1).
  apply (meq_ext n 1); auto. intros i j Hi Hj. assert (j = 0%nat) as -> by lia.
  now rewrite N1, N0.
Qed.
Print Assumptions c39_same_residual_with_jacobians.

(** With an invertible normalisation, the residual is zero exactly when the prediction
    equals the measurement. *)
Theorem c39_zero_iff : forall eps garbage m z f params xs n r, 0 < eps < 1 ->
  each3 (element_ok eps m z) (elements (functor f (map param_expr params))) xs (measured f) ->
  n = length (stacked xs) -> injective_matrix n (inverseSqrtCov (noise_of f)) ->
  evaluate eps garbage m z f params = Some r ->
  (forall i, (i < n)%nat -> mnth r i 0 = 0) <-> xs = map den (measured f).
Proof.
  intros eps garbage m z f params xs n r He H En (Sh & M & SM & I) Er.
  destruct (c39_residual eps garbage m z f params xs n He H En Sh) as (r0 & E0 & S0 & N0).
  rewrite Er in E0. injection E0 as <-.
  destruct (residual_ok eps He m z _ xs (measured f) H) as (d & _ & V & X).
  destruct (stacked_sub _ _ _ X) as (L1 & L2 & _). split.
  - intros Z. apply stacked_inj.
    + assert (KK : forall i x v, nth_error xs i = Some x -> nth_error (measured f) i = Some v ->
        vec_kind (dkind x) = true /\ dkind x = dkind (den v)).
      { intros i x v Ex Ev. destruct H as (La & Lb & H).
        destruct (nth_error_3 (elements (functor f (map param_expr params)))
                    (elements (functor f (map param_expr params))) xs i x) as (e & _ & Ee & _); try congruence.
        destruct (H i e x v Ee Ex Ev) as (k & Vk & G & Me & Vv & Kv & _).
        assert (Hd : deval eps (fun a => den (m a)) e = Some x)
          by (rewrite <- (good_means eps m e k ltac:(lra) G); exact Me).
        destruct (good_deval eps m e k x ltac:(lra) G Hd) as (Kx & _).
        rewrite Kx, valid_dkind by assumption. auto. }
      destruct H as (La & Lb & _). split; [rewrite map_length; congruence|].
      intros i a b Ea Eb. rewrite nth_error_map in Eb.
      destruct (nth_error (measured f) i) as [v|] eqn:Ev; [|discriminate]. injection Eb as <-.
      eapply KK; eauto.
    + intros i Hi. rewrite <- En in Hi.
      set (y := fun j => nth j (stacked xs) 0 - nth j (stacked (map den (measured f))) 0).
      assert (Y : y i = 0); [|unfold y in Y; lra].
      rewrite <- (mvec_mid n y i Hi).
      assert (Q : mvec (mid n) y i = mvec (M ** inverseSqrtCov (noise_of f)) y i).
      { apply meq_nth in I. destruct I as (_ & C & I). unfold mvec. rewrite C.
        apply rsum_ext. intros j _. now rewrite I. }
      rewrite Q, mvec_mmul by (destruct Sh, SM; congruence). unfold mvec at 1.
      apply rsum_0. intros j Hj. destruct SM as (RM & CM), Sh as (RS & CS). rewrite CM in Hj.
      specialize (Z j Hj). rewrite N0 in Z by assumption. unfold mvec. rewrite CS.
      unfold normalised in Z. fold y in Z. unfold y in *. rewrite Z. ring.
  - intros -> i Hi. rewrite N0 by assumption. unfold normalised. apply rsum_0. intros; ring.
Qed.
Print Assumptions c39_zero_iff.

(** ** C40: Jacobians of factors *)

Section Core.
  Variables (eps : R) (na : nat) (m : env) (e : expr) (k : kind) (a : nat) (l : lty) (x : dval).
  Hypothesis He : 0 <= eps < 1.
  Hypothesis G : good eps m e k.
  Hypothesis Hx : means eps m e = Some x.
  Hypothesis Hv : valid (m a).
  Hypothesis Hl : vty (m a) = Plain l.
  Hypothesis Hs : smooth eps (fun b => den (m b)) a e.

  (** As for c01, but the object may also be absent from the expression. *)
  Lemma core_gen p t : prepare e = Some (p, t) -> exists v T,
    tree eps na m p = Some (v, T) /\ wf_tree T /\ edim T = vdim v /\ vkind v = k /\ valid v /\
    is_derivative eps m e a (true_jacobian (leaf_obj a (Plain l)) T).
  Proof.
    intros P. pose proof (core_x eps m e k x He G Hx) as Dx. destruct G as (Gk & Ge & Gx).
    assert (Inv : forall c d, c 0 = den (m a) -> moves c d ->
      inv eps na m a l d (fun s => deval eps (dupd (fun b => den (m b)) a (c s)) e)
        (In a (leaf_addrs e)) p t).
    { intros c d C M. apply (tree_moves eps (proj1 He) (proj2 He) na m a l c d C Hl M e p t x); auto. }
    destruct (Inv (dpert (den (m a)) (fun _ => 0)) (fun _ => 0)) as (v & T & I);
      [apply dpert_0|apply dpert_moves, valid_dvalid, Hv|].
    exists v, T. destruct I as [I1 I2 I3 I4 I5 I6 I7 I8 I9 I10].
    assert (Kv : vkind v = k).
    { unfold vkind. rewrite I2. exact (proj2 (prepare_kind _ _ _ _ P Gk)). }
    repeat split; auto.
    intros c d C M. destruct (Inv c d C M) as (v' & T' & J). destruct J as [J1 _ _ _ _ _ _ _ _ J10].
    rewrite I1 in J1. injection J1 as <- <-. exact J10.
  Qed.
End Core.

Lemma mvec_vstack_l n A l d i : mcols A = n -> (i < mrows A)%nat ->
  mvec (vstack n (A :: l)) d i = mvec A d i.
Proof.
  intros C Hi. unfold mvec. rewrite vstack_cols, C. apply rsum_ext. intros j Hj. f_equal.
  rewrite mnth_in by (cbn; lia). cbn [vstack mget]. now rewrite (proj2 (Nat.ltb_lt _ _) Hi).
Qed.
Lemma mvec_vstack_r n A l d i : (mrows A <= i)%nat ->
  mvec (vstack n (A :: l)) d i = mvec (vstack n l) d (i - mrows A).
Proof.
  intros Hi. unfold mvec. rewrite !vstack_cols. apply rsum_ext. intros j Hj. f_equal.
  unfold mnth at 1. cbn [vstack mrows mcols mget]. rewrite (proj2 (Nat.ltb_ge i (mrows A))) by lia.
  destruct (i <? mrows A + mrows (vstack n l))%nat eqn:E.
  - rewrite (proj2 (Nat.ltb_lt _ _) Hj). reflexivity.
  - apply Nat.ltb_ge in E. rewrite mnth_out_r by lia. reflexivity.
Qed.

Section Stack.
  Variables (eps : R) (m : env) (a n : nat).
  Hypothesis He : 0 < eps < 1.

  (** An expression with its derivative. *)
  Definition with_derivative (e : expr) (J : mat) : Prop :=
    exists k x, vec_kind k = true /\ good eps m e k /\ means eps m e = Some x /\
      has_shape (tsize k) n J /\ is_derivative eps m e a J.

  Lemma stack_deriv es Js c d : Forall2 with_derivative es Js -> c 0 = den (m a) -> moves c d ->
    exists r, near (fun s => devals eps (dupd (fun b => den (m b)) a (c s)) es = Some (r s)) /\
      near (fun s => length (stacked (r s)) = mrows (vstack n Js)) /\
      forall i, (i < mrows (vstack n Js))%nat ->
        derivable_pt_lim (fun s => nth i (stacked (r s)) 0) 0 (mvec (vstack n Js) d i).
  Proof.
    intros H C M. assert (He' : 0 <= eps < 1) by lra.
    induction H as [|e J es Js (k & x & Vk & G & Hx & (RJ & CJ) & D) _ IH].
    - exists (fun _ => []). cbn. split; [now apply near_all|]. split; [now apply near_all|].
      intros i Hi. lia.
    - destruct IH as (r & N1 & N2 & DR). destruct (D c d C M) as (q & Q1 & Q2).
      assert (Kq : dkind (q 0) = k).
      { pose proof (near_0 _ Q1) as Q0. cbn in Q0.
        rewrite (core_at0 eps m e k a x He' G Hx c C) in Q0. injection Q0 as <-.
        now destruct (good_deval eps m e k x (proj1 He') G (core_x _ _ _ _ _ He' G Hx)). }
      assert (NK : near (fun s => dkind (q s) = k)).
      { eapply near_impl; [|exact (moves_kind _ _ Q2)]. cbn. intros s ->. exact Kq. }
      exists (fun s => q s :: r s). split; [|split].
      + eapply near_impl2; [|exact Q1|exact N1]. cbn. intros s -> ->. reflexivity.
      + eapply near_impl2; [|exact NK|exact N2]. cbn [vstack mrows]. intros s Ks Ns.
        rewrite stacked_cons, app_length, coords_length, Ks, Ns, RJ. reflexivity.
      + intros i Hi. cbn [vstack mrows] in Hi.
        destruct (Nat.lt_ge_cases i (mrows J)) as [Li|Li].
        * rewrite mvec_vstack_l by assumption.
          apply (dpl_near (fun s => dcoord (q s) i)).
          { eapply near_impl; [|exact NK]. cbn. intros s Ks. rewrite stacked_cons.
            rewrite app_nth1 by (rewrite coords_length, Ks; lia).
            rewrite coords_nth by (rewrite Ks; lia). reflexivity. }
          destruct Q2 as (_ & Q2). rewrite Kq in Q2.
          destruct k; try discriminate Vk; apply Q2; lia.
        * rewrite mvec_vstack_r by assumption.
          apply (dpl_near (fun s => nth (i - mrows J) (stacked (r s)) 0)).
          { eapply near_impl; [|exact NK]. cbn. intros s Ks. rewrite stacked_cons.
            rewrite app_nth2 by (rewrite coords_length, Ks; lia).
            now rewrite coords_length, Ks, RJ. }
          apply DR. lia.
  Qed.

  (** The derivative of the normalised residual is L times that of the prediction. *)
  Lemma residual_derivative es Js L zs : Forall2 with_derivative es Js ->
    mcols L = mrows L -> mrows L = mrows (vstack n Js) ->
    is_residual_derivative eps m es zs L a (L ** vstack n Js).
  Proof.
    intros H CL RL c d C M. destruct (stack_deriv es Js c d H C M) as (r & N1 & N2 & DR).
    exists r. split; [exact N1|]. intros i Hi. unfold normalised.
    rewrite mvec_mmul by congruence. unfold mvec at 1. rewrite CL.
    apply dpl_rsum. intros j Hj.
    apply (dpl_val _ _ (0 * (nth j (stacked (r 0)) 0 - nth j (stacked zs) 0)
                        + mnth L i j * (mvec (vstack n Js) d j - 0))); [|ring].
    apply (dpl_mult (fun _ => mnth L i j)
             (fun s => nth j (stacked (r s)) 0 - nth j (stacked zs) 0)); [apply dpl_const|].
    apply (dpl_minus (fun s => nth j (stacked (r s)) 0)); [apply DR; congruence|apply dpl_const].
  Qed.
End Stack.

(** The elements that contain a leaf of the given type come first. *)
Definition has_leaf_type (m : env) (t : ty) (e : expr) : Prop :=
  exists b, In b (leaf_addrs e) /\ vty (m b) = t.
Definition type_first (m : env) (t : ty) (es : list expr) : Prop :=
  exists sel post, es = (sel ++ post)%list /\
    Forall (has_leaf_type m t) sel /\ Forall (fun e => ~ has_leaf_type m t e) post.

(** A parameter of the factor: a valid leaf object at which every element is smooth.  A
    vector prediction must contain it; in a compound prediction the elements that contain
    its type must come before the others (the library's Jacobians of compounds are wrong
    otherwise, c07_static_nary_stacks_refuted). *)
Definition param_ok (eps : R) (m : env) (p : prediction) (q : param) : Prop :=
  (exists l, snd q = Plain l) /\ vty (m (fst q)) = snd q /\ valid (m (fst q)) /\
  Forall (smooth eps (fun b => den (m b)) (fst q)) (elements p) /\
  match p with
  | PVector e => In (fst q) (leaf_addrs e)
  | PCompound es => type_first m (snd q) es
  end.

Lemma ty_code_inj t t' : ty_code t = ty_code t' -> t = t'.
Proof. destruct t as [[]|[]|[]], t' as [[]|[]|[]]; cbn; intros H; try reflexivity; discriminate. Qed.

Lemma trees_ok eps na m a l es : 0 < eps < 1 -> valid (m a) -> vty (m a) = Plain l ->
  Forall (fun e => (exists k x, vec_kind k = true /\ good eps m e k /\ means eps m e = Some x) /\
                   smooth eps (fun b => den (m b)) a e) es ->
  exists ts, trees eps na m es = Some ts /\ Forall wf_tree ts /\
    Forall2 (with_derivative eps m a (l_dim (leaf_obj a (Plain l)))) es
      (map (true_jacobian (leaf_obj a (Plain l))) ts) /\
    Forall2 (fun e T => contains_same_type (l_type (leaf_obj a (Plain l))) T = true <->
                        has_leaf_type m (Plain l) e) es ts.
Proof.
  intros He Hv Hl. induction 1 as [|e es ((k & x & Vk & G & Hx) & Hs) _ IH].
  - exists []. cbn. auto.
  - destruct IH as (ts & E & W & D & T).
    destruct (prepare_total e k (proj1 G)) as (p & t & P & _ & _).
    destruct (core_gen eps na m e k a l x ltac:(lra) G Hx Hv Hl Hs p t P)
      as (v & t0 & E0 & W0 & D0 & K0 & V0 & J0).
    exists (t0 :: ts). cbn [trees map]. rewrite P, E0, E. split; [reflexivity|].
    split; [constructor; auto|]. split.
    + constructor; [|exact D]. exists k, x. split; [exact Vk|]. split; [exact G|]. split; [exact Hx|].
      split; [split|exact J0].
      * rewrite (proj1 (true_jacobian_shape _ _ W0)), D0. unfold vdim. now rewrite K0.
      * exact (proj2 (true_jacobian_shape _ _ W0)).
    + constructor; [|exact T]. rewrite contains_in.
      rewrite (tree_leaves_env eps na m p e v t0 (proj1 (proj2 G)) (prepare_leaves _ _ _ P) E0).
      rewrite map_map, in_map_iff. split.
      * intros (b & Eb & Hb). exists b. split; [exact Hb|]. apply ty_code_inj.
        exact (f_equal (fun x => match x with LType n _ => n end) Eb).
      * intros (b & Hb & Eb). exists b. split; [|exact Hb]. now rewrite Eb.
Qed.

Lemma Forall2_app_inv_sum {A B} (P : A -> B -> Prop) l1 l2 l' : Forall2 P (l1 ++ l2) l' ->
  exists l1' l2', l' = (l1' ++ l2')%list /\ Forall2 P l1 l1' /\ Forall2 P l2 l2'.
Proof. intros H. apply Forall2_app_inv_l in H as (x & y & H1 & H2 & E). eauto 6. Qed.
Lemma Forall2_imp {A B} (P : A -> B -> Prop) (Q : A -> Prop) (S : B -> Prop) l l' :
  Forall2 P l l' -> Forall Q l -> (forall a b, P a b -> Q a -> S b) -> Forall S l'.
Proof.
  intros H F I. induction H as [|x y l l' Hp _ IH]; [constructor|].
  inversion_clear F. constructor; eauto.
Qed.

(** evaluateWithJacobians returns one matrix per parameter, in order.  What is proved: it
    is the derivative of the (stacked) prediction, and L times it is the derivative of the
    returned residual.  Missing: the factor L, so the matrix itself is the derivative of
    the returned residual only if L is the identity (next two theorems). *)
Theorem c40_jacobians_partial : forall eps garbage na m z f params xs n, 0 < eps < 1 ->
  each3 (element_ok eps m z) (elements (functor f (map param_expr params))) xs (measured f) ->
  n = length (stacked xs) -> has_shape n n (inverseSqrtCov (noise_of f)) ->
  Forall (param_ok eps m (functor f (map param_expr params))) params ->
  exists r js, evaluateWithJacobians eps garbage na m f params = Some (r, js) /\
    length js = length params /\
    forall i a l, nth_error params i = Some (a, Plain l) ->
      exists J, nth_error js i = Some (Ok J) /\ has_shape n (tsize (kind_of l)) J /\
        is_residual_derivative eps m (elements (functor f (map param_expr params)))
          (map den (measured f)) (mid n) a J /\
        is_residual_derivative eps m (elements (functor f (map param_expr params)))
          (map den (measured f)) (inverseSqrtCov (noise_of f)) a (inverseSqrtCov (noise_of f) ** J).
Proof.
  intros eps garbage na m z f params xs n He H En (RL & CL) PO.
  destruct (compound_eval_ok eps He m z _ xs _ H) as (c & E & Vc & D & K).
  destruct (minus_ok eps He c _ Vc K) as (d & E' & Vd & X).
  set (p := functor f (map param_expr params)) in *.
  assert (EL : Forall (fun e => exists k x, vec_kind k = true /\ good eps m e k /\ means eps m e = Some x)
                 (elements p)).
  { apply Forall_forall. intros e Hin. apply In_nth_error in Hin. destruct Hin as (i & Hi).
    destruct H as (L1 & L2 & H). destruct (nth_error_3 xs (measured f) (elements p) i e)
      as (x & v & Ex & Ev); try congruence.
    destruct (H i e x v Hi Ex Ev) as (k & H1 & H2 & H3 & _). eauto. }
  (* the per-parameter claim *)
  assert (Q : exists js, prediction_with_jacobians eps na m p params = Some (c, js) /\
     length js = length params /\
     forall i a l, nth_error params i = Some (a, Plain l) ->
       exists J Js, nth_error js i = Some (Ok J) /\ J == vstack (l_dim (leaf_obj a (Plain l))) Js /\
         Forall2 (with_derivative eps m a (l_dim (leaf_obj a (Plain l)))) (elements p) Js).
  { destruct p as [e|es] eqn:Ep; cbn [elements prediction_with_jacobians] in *.
    - cbn in E. destruct (eval eps m e) as [w|] eqn:Ew; [|discriminate]. injection E as <-.
      eexists. split; [reflexivity|]. split; [apply map_length|]. intros i a l Hi.
      rewrite nth_error_map, Hi. cbn [option_map].
      pose proof (Forall_nth _ _ _ _ PO Hi) as ((l' & El) & Ht & Hv & Hs & Ha). cbn in *.
      inversion_clear EL as [|? ? (k & x & Vk & G & Hx) _]. inversion_clear Hs as [|? ? Hs' _].
      destruct (c01_jacobian_is_derivative eps na m e k a l x ltac:(lra) G Hx Ha Ht Hs')
        as (_ & J & EJ & SJ & DJ).
      destruct (c01_other_modes_same_matrix eps na (fun _ _ => 0) m e k a l x J ltac:(lra) G Hx Ha Ht Hs' EJ)
        as ((v & J1 & E1 & _ & Q1) & _ & _).
      unfold param_leaf. cbn [fst snd]. rewrite E1. exists J1, [J]. split; [reflexivity|]. split.
      + rewrite Q1. destruct SJ as (RJ & CJ). change (l_dim (leaf_obj a (Plain l))) with (tsize (kind_of l)).
        apply (meq_ext (tsize k) (tsize (kind_of l)));
          [split; assumption|split; [rewrite vstack_rows; cbn; lia|apply vstack_cols]|].
        intros i' j Hi' Hj. rewrite (mnth_in (vstack _ _)) by first [rewrite vstack_rows; cbn; lia | rewrite vstack_cols; exact Hj].
        cbn [vstack mget].
        now rewrite (proj2 (Nat.ltb_lt _ _)) by lia.
      + constructor; [|constructor]. exists k, x. auto.
    - rewrite E.
      assert (TS : exists ts, trees eps na m es = Some ts /\
        forall a l, valid (m a) -> vty (m a) = Plain l ->
          Forall (smooth eps (fun b => den (m b)) a) es ->
          Forall wf_tree ts /\
          Forall2 (with_derivative eps m a (l_dim (leaf_obj a (Plain l)))) es
            (map (true_jacobian (leaf_obj a (Plain l))) ts) /\
          Forall2 (fun e T => contains_same_type (l_type (leaf_obj a (Plain l))) T = true <->
                        has_leaf_type m (Plain l) e) es ts).
      { assert (ET : exists ts, trees eps na m es = Some ts).
        { clear - EL He. induction EL as [|e es (k & x & Vk & G & Hx) _ (ts & IH)]; [exists []; reflexivity|].
          destruct (prepare_total e k (proj1 G)) as (p & t & P & _ & _). cbn [trees]. rewrite P, IH.
          destruct (tree eps na m p) as [[v T]|] eqn:ET; [eauto|]. exfalso.
          pose proof (tree_value eps na m p) as TV. rewrite ET in TV. cbn in TV.
          assert (He0 : 0 <= eps) by lra.
          pose proof (core_x eps m e k x ltac:(lra) G Hx) as Dx.
          pose proof (prepare_sound eps He0 m e p t P (proj1 (proj2 G)) (proj2 (proj2 G))) as S1.
          destruct S1 as (S1 & _). rewrite <- TV in S1. cbn in S1. congruence. }
        destruct ET as (ts & ET). exists ts. split; [exact ET|]. intros a l Hv Hl Hs.
        assert (FA : Forall (fun e => (exists k x, vec_kind k = true /\ good eps m e k /\ means eps m e = Some x) /\
                   smooth eps (fun b => den (m b)) a e) es).
        { rewrite Forall_forall in *. auto. }
        destruct (trees_ok eps na m a l es He Hv Hl FA) as (ts' & E1 & H1). rewrite ET in E1.
        injection E1 as <-. exact H1. }
      destruct TS as (ts & ET & TS). rewrite ET. eexists. split; [reflexivity|].
      split; [apply map_length|]. intros i a l Hi. rewrite nth_error_map, Hi. cbn [option_map].
      pose proof (Forall_nth _ _ _ _ PO Hi) as ((l' & El) & Ht & Hv & Hs & sel & post & Ees & Hsel & Hpost).
      cbn [fst snd] in *. destruct (TS a l Hv Ht Hs) as (W & D2 & C2).
      unfold param_leaf. cbn [fst snd]. rewrite Ees in C2.
      apply Forall2_app_inv_sum in C2 as (ts1 & ts2 & Ets & C3 & C4).
      destruct (nary_fwd_prefix_correct (leaf_obj a (Plain l))) with (sel := ts1) (post := ts2)
        as (res & ER & QR).
      + destruct l; cbn; lia.
      + now rewrite <- Ets.
      + eapply Forall2_imp; [exact C3|exact Hsel|]. cbn. tauto.
      + eapply Forall2_imp; [exact C4|exact Hpost|]. cbn. intros e T IFF N.
        destruct (contains_same_type _ T); [|reflexivity]. exfalso. apply N, IFF. reflexivity.
      + rewrite <- Ets in ER, QR. rewrite ER. exists res, (map (true_jacobian (leaf_obj a (Plain l))) ts).
        auto. }
  destruct Q as (js & EQ & LQ & Q). unfold evaluateWithJacobians. fold p. rewrite EQ, E'.
  eexists _, js. split; [reflexivity|]. split; [exact LQ|]. intros i a l Hi.
  destruct (Q i a l Hi) as (J & Js & EJ & QJ & F). exists J. split; [exact EJ|].
  set (nl := l_dim (leaf_obj a (Plain l))) in *.
  assert (RV : mrows (vstack nl Js) = n).
  { rewrite En, <- D, stacked_length by exact Vc. rewrite vstack_rows.
    clear - F E He. revert c E. induction F as [|e J es Js (k & x & Vk & G & Hx & (RJ & _) & _) _ IH];
      intros c E; cbn [compound_eval] in E; [injection E as <-; reflexivity|].
    destruct (eval eps m e) as [w|] eqn:Ew; [|discriminate].
    destruct (compound_eval eps m es) as [ws|]; [|discriminate]. injection E as <-.
    cbn [map]. rewrite !LSc, (IH ws eq_refl), RJ. f_equal. f_equal.
    assert (Hd : deval eps (fun a => den (m a)) e = Some (den w)).
    { rewrite <- (good_means eps m e k ltac:(lra) G). unfold means. now rewrite Ew. }
    rewrite <- valid_dkind by (eapply eval_valid; [|exact G|exact Ew]; lra).
    symmetry. now destruct (good_deval eps m e k _ ltac:(lra) G Hd). }
  assert (RJ : forall L, has_shape n n L ->
    is_residual_derivative eps m (elements p) (map den (measured f)) L a (L ** J)).
  { intros L (R1 & C1) cc dd C M.
    destruct (residual_derivative eps m a nl He (elements p) Js L (map den (measured f)) F
                ltac:(congruence) ltac:(congruence) cc dd C M) as (rr & N & DD).
    exists rr. split; [exact N|]. intros i' Hi'. eapply dpl_val; [now apply DD|].
    apply mvec_meq. now rewrite QJ. }
  split; [|split].
  - destruct QJ as (R1 & C1 & _). split; [congruence|]. rewrite C1, vstack_cols. reflexivity.
  - intros cc dd C M. destruct (RJ (mid n) (conj eq_refl eq_refl) cc dd C M) as (rr & N & DD).
    exists rr. split; [exact N|]. intros i' Hi'. eapply dpl_val; [now apply DD|].
    apply mvec_meq. apply mmul_mid_l. destruct QJ as (R1 & _). congruence.
  - apply RJ. split; assumption.
Qed.
Print Assumptions c40_jacobians_partial.

(** With unit noise (L the identity) the matrices are the derivatives of the returned
    residual. *)
Theorem c40_unit_noise : forall eps garbage na m z f params xs n, 0 < eps < 1 ->
  each3 (element_ok eps m z) (elements (functor f (map param_expr params))) xs (measured f) ->
  n = length (stacked xs) -> inverseSqrtCov (noise_of f) = mid n ->
  Forall (param_ok eps m (functor f (map param_expr params))) params ->
  exists r js, evaluateWithJacobians eps garbage na m f params = Some (r, js) /\
    length js = length params /\
    forall i a l, nth_error params i = Some (a, Plain l) ->
      exists J, nth_error js i = Some (Ok J) /\
        is_residual_derivative eps m (elements (functor f (map param_expr params)))
          (map den (measured f)) (inverseSqrtCov (noise_of f)) a J.
Proof.
  intros eps garbage na m z f params xs n He H En EL PO.
  assert (Sh : has_shape n n (inverseSqrtCov (noise_of f))) by (rewrite EL; split; reflexivity).
  destruct (c40_jacobians_partial eps garbage na m z f params xs n He H En Sh PO)
    as (r & js & E & L & Q).
  exists r, js. split; [exact E|]. split; [exact L|]. intros i a l Hi.
  destruct (Q i a l Hi) as (J & EJ & _ & D & _). exists J. split; [exact EJ|]. rewrite EL. exact D.
Qed.
Print Assumptions c40_unit_noise.

(** The derivative of the residual is unique. *)
Lemma residual_derivative_unique eps m es zs L a J J' c d i :
  is_residual_derivative eps m es zs L a J -> is_residual_derivative eps m es zs L a J' ->
  c 0 = den (m a) -> moves c d -> (i < mrows L)%nat -> mvec J d i = mvec J' d i.
Proof.
  intros D D' C M Hi. destruct (D c d C M) as (r & N & X). destruct (D' c d C M) as (r' & N' & X').
  apply (dpl_unique (fun s => normalised (mrows L) L (r s) zs i) 0); [now apply X|].
  apply (dpl_near (fun s => normalised (mrows L) L (r' s) zs i)); [|now apply X'].
  eapply near_impl2; [|exact N|exact N']. cbn. intros s -> [= ->]. reflexivity.
Qed.

(** *** A factor that predicts the displacement a - b between two positions *)
Definition ex_f (sigma : R) : factor :=
  Factor (fun args => match args with
                      | [a; b] => PVector (XBin OSubtract a b)
                      | _ => PCompound []
                      end)
    [VTrans (mkV 1 1 1)] (DiagonalNoise 3 (fun _ => sigma)).
Definition ex_params : list param := [(0%nat, Plain LTrans); (1%nat, Plain LTrans)].
Definition ex_fm : env := fun i => match i with 0%nat => VTrans (mkV 1 2 3) | _ => VTrans v0 end.

Lemma ex_f_good : good (1/4) ex_fm (XBin OSubtract (XLeaf 0 (Plain LTrans)) (XLeaf 1 (Plain LTrans))) KTrans.
Proof. repeat split. Qed.
Lemma ex_f_means : means (1/4) ex_fm (XBin OSubtract (XLeaf 0 (Plain LTrans)) (XLeaf 1 (Plain LTrans)))
  = Some (DTrans (mkV 1 2 3)).
Proof.
  rewrite (good_means (1/4) ex_fm _ KTrans ltac:(lra) ex_f_good). cbn. unfold v0. cbn.
  repeat f_equal; ring.
Qed.
Lemma ex_f_elements sigma : each3 (element_ok (1/4) ex_fm 9)
  (elements (functor (ex_f sigma) (map param_expr ex_params))) [DTrans (mkV 1 2 3)] (measured (ex_f sigma)).
Proof.
  apply each3_cons; [|apply each3_nil]. exists KTrans. split; [reflexivity|].
  split; [exact ex_f_good|]. split; [exact ex_f_means|]. split; [exact I|]. split; [reflexivity|].
  cbn. intros [?|[?|[]]]; discriminate.
Qed.
Lemma ex_f_params sigma : Forall (param_ok (1/4) ex_fm (functor (ex_f sigma) (map param_expr ex_params))) ex_params.
Proof.
  assert (S : forall a, smooth (1/4) (fun b => den (ex_fm b)) a
     (XBin OSubtract (XLeaf 0 (Plain LTrans)) (XLeaf 1 (Plain LTrans)))).
  { intros a. cbn. repeat split. intros _ [?|?]; discriminate. }
  unfold ex_params. apply Forall_cons; [|apply Forall_cons; [|apply Forall_nil]];
    (split; [cbn; eauto|]); (split; [reflexivity|]);
    (split; [exact I|]); (split; [apply Forall_cons; [apply S|apply Forall_nil]|]); cbn; auto.
Qed.

(** Non-vacuity of c39 and c40: residual (a - b - z) / sigma. *)
Example c39_example : exists r, evaluate (1/4) (fun _ => 0) ex_fm 9 (ex_f (1/10)) ex_params = Some r /\
  mnth r 0 0 = 0 /\ mnth r 1 0 = 10 /\ mnth r 2 0 = 20.
Proof.
  destruct (c39_residual (1/4) (fun _ => 0) ex_fm 9 (ex_f (1/10)) ex_params [DTrans (mkV 1 2 3)] 3)
    as (r & E & S & N); [lra|apply ex_f_elements|reflexivity|split; reflexivity|].
  exists r. split; [exact E|]. rewrite !N by lia. unfold normalised, stacked. cbn. repeat split; field.
Qed.

(** The returned Jacobians are not those of the returned residual: with sigma = 1/10 the
    residual's derivative is ten times the returned matrix. *)
Theorem c40_whitened_refuted : exists eps m z f params xs r js J, 0 < eps < 1 /\
  each3 (element_ok eps m z) (elements (functor f (map param_expr params))) xs (measured f) /\
  has_shape (length (stacked xs)) (length (stacked xs)) (inverseSqrtCov (noise_of f)) /\
  Forall (param_ok eps m (functor f (map param_expr params))) params /\
  evaluateWithJacobians eps (fun _ => 0) 100 m f params = Some (r, js) /\
  nth_error js 0 = Some (Ok J) /\
  ~ is_residual_derivative eps m (elements (functor f (map param_expr params)))
      (map den (measured f)) (inverseSqrtCov (noise_of f)) (fst (nth 0 params (0%nat, Plain LTrans))) J.
Proof.
  assert (Sh : has_shape 3 3 (inverseSqrtCov (noise_of (ex_f (1/10))))) by (split; reflexivity).
  destruct (c40_jacobians_partial (1/4) (fun _ => 0) 100 ex_fm 9 (ex_f (1/10)) ex_params
              [DTrans (mkV 1 2 3)] 3 ltac:(lra) (ex_f_elements (1/10)) eq_refl Sh (ex_f_params (1/10)))
    as (r & js & E & _ & Q).
  destruct (Q 0%nat 0%nat LTrans eq_refl) as (J & EJ & SJ & DI & DL).
  exists (1/4), ex_fm, 9%nat, (ex_f (1/10)), ex_params, [DTrans (mkV 1 2 3)], r, js, J.
  split; [lra|]. split; [apply ex_f_elements|]. split; [exact Sh|]. split; [apply ex_f_params|].
  split; [exact E|]. split; [exact EJ|]. intros D. cbn [nth ex_params fst] in D.
  set (d := fun i : nat => match i with 0%nat => 1 | _ => 0 end).
  set (c := dpert (den (ex_fm 0%nat)) d).
  assert (C : c 0 = den (ex_fm 0%nat)) by apply dpert_0.
  assert (M : moves c d) by (apply dpert_moves; exact I).
  pose proof (residual_derivative_unique _ _ _ _ _ _ _ _ c d 0%nat D DL C M ltac:(cbn; lia)) as U.
  rewrite mvec_mmul in U by (destruct SJ; cbn; congruence).
  assert (Ten : mvec (inverseSqrtCov (noise_of (ex_f (1/10)))) (mvec J d) 0 = 10 * mvec J d 0).
  { unfold mvec at 1. cbn [ex_f noise_of DiagonalNoise inverseSqrtCov mcols mdiag rsum].
    rewrite !mnth_mdiag by lia. cbn [Nat.eqb]. field. }
  assert (One : mvec J d 0 = 1).
  { destruct (DI c d C M) as (q & N & X). specialize (X 0%nat ltac:(cbn; lia)).
    apply (dpl_unique (fun s => normalised 3 (mid 3) (q s) (map den (measured (ex_f (1/10)))) 0) 0 _ _ X).
    apply (dpl_near (fun s => s)); [|apply dpl_id].
    eapply near_impl; [|exact N]. cbn. intros s [= <-]. unfold normalised, stacked. cbn. ring. }
  rewrite Ten, One in U. lra.
Qed.
Print Assumptions c40_whitened_refuted.
