(** C26: no dangling references.  C30: rebinding a proxy. *)
From Coq Require Import Reals List Arith Bool Lia Lra.
From Verif Require Import Mat V3 ModelMeta ModelJac ModelLeaf ModelExpr SpecExpr ModelDyn SpecDyn DynProofs
  PropsDyn ModelStore SpecStore StoreProofs.
Import ListNotations.
Local Open Scope nat_scope.

Lemma destroy_vals l : forall s, vals (destroy l s) = vals s.
Proof. induction l as [|a l IH]; intros s; cbn; [reflexivity|]. now rewrite IH. Qed.
Lemma destroy_other l : forall s a, ~ In a l -> objs (destroy l s) a = objs s a.
Proof.
  induction l as [|b l IH]; intros s a H; cbn; [reflexivity|]. rewrite IH; [|intros X; apply H; now right].
  cbn. unfold setf. destruct (Nat.eqb_spec a b) as [->|]; [|reflexivity]. exfalso. apply H. now left.
Qed.
Lemma destroy_gone l : forall s a, In a l -> objs (destroy l s) a = None.
Proof.
  induction l as [|b l IH]; intros s a H; [destruct H|]. cbn.
  destruct (in_dec Nat.eq_dec a l) as [L|L]; [now apply IH|]. destruct H as [->|H]; [|contradiction].
  rewrite destroy_other by exact L. cbn. unfold setf. now rewrite Nat.eqb_refl.
Qed.

Section D.
  Variable s : state.
  Variable z : nat.
  Hypothesis Snd : sound s z.

  Lemma s_bounded a o x : objs s a = Some o -> In x (obj_addrs o) -> x < z.
  Proof. intros O H. apply (Snd a o O). exact H. Qed.
  Lemma s_np a o x d l : objs s a = Some o -> In x (obj_addrs o) -> objs s x <> Some (OProxy d l).
  Proof. intros O H. apply (Snd a o O). exact H. Qed.
  Lemma s_leaves a e b : stands s no_stop (NRef a) e -> In b (leaf_addrs e) -> b < z.
  Proof.
    intros St H. eapply (stands_leaves (fun x => x < z) s); [|exact St| |exact H].
    - intros x o y _ O Hy. eapply s_bounded; eauto.
    - intros x [<-|[]]. inversion St; subst; match goal with H : objs s a = Some _ |- _ => exact (proj1 (proj2 (Snd _ _ H))) end.
  Qed.

  Lemma kept_ok x : safe x -> well_typed s x -> forall y, In y (kept s x) ->
    y < z /\ forall d l, objs s y <> Some (OProxy d l).
  Proof.
    induction x as [a0|a0|v t|v t|o x IH|o x IHx y IHy|l x IH|x IH|l x IH]; cbn [safe well_typed kept];
      intros Sf Wt w Hw; try (now apply IH); try (now destruct Hw).
    - destruct (objs s a0) as [[t|n|n l|d l]|] eqn:O; [| | | |congruence].
      1-3: destruct Hw as [<-|[]]; split; [exact (proj1 (proj2 (Snd _ _ O)))|rewrite O; discriminate].
      destruct Hw as [<-|[]]. split; [eapply s_bounded|intros; eapply s_np]; eauto; now left.
    - destruct (objs s a0) as [[t|n|n l|d l]|] eqn:O; try (now destruct Hw).
      1-2: apply outer_addrs in Hw; split; [eapply s_bounded|intros; eapply s_np]; eauto.
      destruct Hw as [<-|[]]. split; [eapply s_bounded|intros; eapply s_np]; eauto; now left.
    - apply in_app_or in Hw. destruct Hw as [Hw|Hw]; [apply (IHx (proj1 Sf) (proj1 Wt) w Hw)
        |apply (IHy (proj2 Sf) (proj2 Wt) w Hw)].
    - destruct Sf as (a & ->). destruct Hw as [<-|[]]. destruct Wt as (_ & D). specialize (D a eq_refl).
      unfold is_dyn in D. destruct (objs s a) as [[t|n|n l|d l]|] eqn:O; try discriminate.
      split; [exact (proj1 (proj2 (Snd _ _ O)))|]. discriminate.
  Qed.

  Lemma reach_ok l : (forall y, In y l -> y < z /\ forall d l', objs s y <> Some (OProxy d l')) ->
    forall y, reach s l y -> y < z /\ forall d l', objs s y <> Some (OProxy d l').
  Proof.
    intros H. induction 1 as [a Ha|a o b _ _ O Hb]; [auto|].
    split; [eapply s_bounded|intros; eapply s_np]; eauto.
  Qed.

  Lemma inv_start Q : inv s (S z) Q (B s (S z) []).
  Proof.
    assert (N : forall a, z <= a -> objs s a = None).
    { intros a L. destruct (objs s a) as [o|] eqn:O; [|reflexivity]. exfalso.
      pose proof (proj1 (proj2 (Snd a o O))). lia. }
    constructor; cbn.
    - lia.
    - auto.
    - intros a L. apply N. lia.
    - intros t [].
    - intros a o x L O. rewrite N in O by lia. discriminate.
    - intros a o x L O. rewrite N in O by lia. discriminate.
    - intros a o L _ O. rewrite N in O by lia. discriminate.
    - intros a n l L O. rewrite N in O by lia. discriminate.
  Qed.

  Lemma all_stand a o : objs s a = Some o ->
    (exists e, stands s no_stop (NRef a) e /\ forall n l, o = ODyn n l -> evaluates_as e (Plain l)) /\ a < S z.
  Proof. intros O. destruct (Snd a o O) as (A & L & _). split; [exact A|lia]. Qed.

  Lemma z_empty : objs s z = None.
  Proof. destruct (objs s z) as [o|] eqn:O; [|reflexivity]. pose proof (proj1 (proj2 (Snd z o O))). lia. Qed.

  Definition spec (x : src) (s' : state) (z' : nat) : Prop :=
    z < z' /\
    (exists e, stands s' no_stop (NRef z) e /\ reflects s (vals s') x e) /\
    (forall y, reach s' [z] y -> y = z \/ z < y \/ reach s (kept s x) y) /\
    (forall a, a < z -> objs s' a = objs s a /\ vals s' a = vals s a) /\
    sound s' z'.

  (** The last step, for an object whose references are those of a node [n]. *)
  Lemma declare_node x b n e o s1 : safe x -> well_typed s x ->
    inv s (S z) (reach s (kept s x)) b ->
    (forall y, In y (addrs n) -> ok (S z) (reach s (kept s x)) b y) ->
    stands (st b) no_stop n e -> reflects s (vals (st b)) x e -> obj_addrs o = addrs n ->
    (forall s', stands s' no_stop n e -> objs s' z = Some o -> stands s' no_stop (NRef z) e) ->
    (forall m l, o = ODyn m l -> evaluates_as e (Plain l)) ->
    (forall y, objs s1 y = setf (objs (st b)) z (Some o) y) -> vals s1 = vals (st b) ->
    spec x (destroy (temps b) s1) (next b).
  Proof.
    intros Sf Wt I A St R OA StO Ev E1 EV.
    set (Q := reach s (kept s x)) in *. set (sF := destroy (temps b) s1).
    pose proof (reach_ok _ (kept_ok x Sf Wt)) as KQ. fold Q in KQ.
    assert (Qc : closed Q s) by (intros a p y Ha O Hy; eapply re_step; eauto).
    assert (Bd : forall a p y, objs s a = Some p -> In y (obj_addrs p) -> y < S z).
    { intros a p y O H. pose proof (s_bounded a p y O H). lia. }
    assert (Qok : forall y, Q y -> ok (S z) Q b y).
    { intros y H. apply (Q_ok s); auto.
      - intros y' d l H'. apply KQ. exact H'.
      - intros y' H'. pose proof (proj1 (KQ y' H')). lia. }
    assert (OC : closed (ok (S z) Q b) (st b)).
    { intros a p y Ha O Hy. destruct Ha as ([[L Ha]|[L T]] & _).
      - apply Qok. apply (Qc a p y Ha); [|exact Hy]. now rewrite <- (proj1 (i_old _ _ _ _ I a L)).
      - exact (i_obj _ _ _ _ I a p y ltac:(lia) O Hy). }
    assert (zT : ~ In z (temps b)).
    { intros T. pose proof (i_tmp _ _ _ _ I z T). lia. }
    assert (Fz : objs sF z = Some o).
    { unfold sF. rewrite destroy_other by exact zT. rewrite E1. unfold setf. now rewrite Nat.eqb_refl. }
    assert (FV : vals sF = vals (st b)) by (unfold sF; now rewrite destroy_vals).
    assert (Fo : forall y, y <> z -> ~ In y (temps b) -> objs sF y = objs (st b) y).
    { intros y Nz T. unfold sF. rewrite destroy_other by exact T. rewrite E1. unfold setf.
      destruct (Nat.eqb_spec y z); [contradiction|reflexivity]. }
    assert (okF : forall y, ok (S z) Q b y -> objs sF y = objs (st b) y).
    { intros y ([[L H]|[L T]] & _); apply Fo; auto.
      - pose proof (proj1 (KQ y H)). lia.
      - intros T. pose proof (i_tmp _ _ _ _ I y T). lia.
      - lia. }
    assert (oldF : forall y, y < z -> objs sF y = objs s y).
    { intros y L. rewrite Fo; [apply I; lia|lia|]. intros T. pose proof (i_tmp _ _ _ _ I y T). lia. }
    assert (StF : stands sF no_stop (NRef z) e).
    { apply StO; [|exact Fz]. exact (stands_agree _ (st b) sF no_stop OC okF n e St A). }
    unfold spec. split; [pose proof (i_next _ _ _ _ I); lia|].
    split; [|split; [|split]].
    - exists e. split; [exact StF|]. now rewrite FV.
    - intros y Hy.
      assert (H : y = z \/ ok (S z) Q b y).
      { induction Hy as [a Ha|a p y Ha IH O Hb].
        - destruct Ha as [->|[]]. now left.
        - right. destruct IH as [->|IH].
          + rewrite Fz in O. injection O as <-. rewrite OA in Hb. auto.
          + rewrite (okF a IH) in O. exact (OC a p y IH O Hb). }
      destruct H as [->|([[L H]|[L T]] & _)]; [now left|right; right; exact H|right; left; lia].
    - intros a L. split; [auto|]. rewrite FV. apply I. lia.
    - (* sound *)
      pose proof (i_next _ _ _ _ I) as N.
      intros a p O.
      destruct (lt_eq_lt_dec a z) as [[L| ->]|L].
      + rewrite (oldF a L) in O. destruct (Snd a p O) as ((e0 & St0 & Ev0) & _ & B0).
        split; [|split; [lia|]].
        * exists e0. split; [|exact Ev0].
          apply (stands_agree (fun y => y < z) s sF no_stop); auto.
          -- intros x0 o0 y _ O0 H0. eapply s_bounded; eauto.
          -- intros y [<-|[]]. exact L.
        * intros y Hy. destruct (B0 y Hy) as (Ly & Np). split; [lia|]. now rewrite oldF.
      + rewrite Fz in O. injection O as <-. split; [|split; [lia|]].
        * exists e. split; [exact StF|]. exact Ev.
        * intros y Hy. rewrite OA in Hy. pose proof (A y Hy) as K.
          split; [exact (ok_lt s (S z) Q b y I K)|]. rewrite (okF y K). apply K.
      + assert (T : ~ In a (temps b)).
        { intros T. unfold sF in O. rewrite destroy_gone in O by exact T. discriminate. }
        rewrite (Fo a ltac:(lia) T) in O.
        destruct (i_heap _ _ _ _ I a p ltac:(lia) T O) as (m & l & ->).
        destruct (i_dyn _ _ _ _ I a m l ltac:(lia) O) as (e0 & St0 & Ev0).
        assert (An : forall y, In y (addrs m) -> ok (S z) Q b y).
        { intros y Hy. exact (i_obj _ _ _ _ I a _ y ltac:(lia) O Hy). }
        assert (La : a < next b).
        { destruct (le_lt_dec (next b) a) as [G|G]; [|exact G].
          rewrite (i_new _ _ _ _ I a G) in O. discriminate. }
        split; [|split; [exact La|]].
        * exists e0. split; [|intros n' l' [= <- <-]; exact Ev0].
          eapply st_dyn; [rewrite (Fo a ltac:(lia) T); exact O|].
          exact (stands_agree _ (st b) sF no_stop OC okF m e0 St0 An).
        * intros y Hy. pose proof (An y Hy) as K.
          split; [exact (ok_lt s (S z) Q b y I K)|]. rewrite (okF y K). apply K.
  Qed.

  Lemma declare_ok x s' z' : (forall a, x <> SName a) -> safe x -> well_typed s x ->
    declare x z s = Some (s', z') -> spec x s' z'.
  Proof.
    intros Nn Sf Wt H. unfold declare in H.
    destruct (build x (B s (S z) [])) as [[[a c] b1]|] eqn:E; [|discriminate].
    set (Q := reach s (kept s x)).
    pose proof (reach_ok _ (kept_ok x Sf Wt)) as KQ. fold Q in KQ.
    assert (Bd : forall a p y, objs s a = Some p -> In y (obj_addrs p) -> y < S z).
    { intros a0 p y O H0. pose proof (s_bounded a0 p y O H0). lia. }
    assert (Lv : forall a e b, stands s no_stop (NRef a) e -> In b (leaf_addrs e) -> b < S z).
    { intros a0 e b H0 H1. pose proof (s_leaves a0 e b H0 H1). lia. }
    assert (Qp : forall y d l, Q y -> objs s y <> Some (OProxy d l)) by (intros; now apply KQ).
    assert (Ql : forall y, Q y -> y < S z) by (intros y Hy; pose proof (proj1 (KQ y Hy)); lia).
    destruct (build_ok s (S z) Q Bd Lv Qp Ql all_stand x Sf Wt ltac:(intros; now apply re_in)
                _ (inv_start Q) a c b1 E) as (I1 & X1 & Op & La & e & St & R).
    assert (c = XVal) as -> by (inversion Op; subst; [exfalso; now apply (Nn a)|reflexivity..]).
    destruct (objs (st b1) a) as [[t|n|n l|d l]|] eqn:O; [| | | |discriminate].
    - (* a leaf *)
      injection H as <- <-.
      assert (e = XLeaf a t) as ->.
      { inversion St as [|? ? O'|? ? ? O'|? ? ? ? O'|? ? ? ? O'| | | |]; subst; rewrite O in O'; congruence. }
      set (s1 := State (setf (vals (st b1)) z (vals (st b1) a)) (setf (objs (st b1)) z (Some (OLeaf t)))
                       (setf (cache (st b1)) z None)).
      assert (V : forall y, y <> z -> vals s1 y = vals (st b1) y).
      { intros y Hy. cbn. unfold setf. destruct (Nat.eqb_spec y z); [contradiction|reflexivity]. }
      change (spec x (destroy (temps b1) s1) (next b1)).
      assert (zT : ~ In z (temps b1)).
      { intros T. pose proof (i_tmp _ _ _ _ I1 z T). lia. }
      assert (R2 : reflects s (vals s1) x (XLeaf z t)).
      { inversion Op as [|L|L EX]; subst.
        - eapply reflects_kcopy; [exact Lv|exact R|]. constructor; [lia|]. cbn. unfold setf.
          now rewrite Nat.eqb_refl.
        - inversion R as [|? e0 ? St0 C| | | | | | |]; subst. econstructor; [exact St0|].
          inversion C; subst. constructor. cbn. unfold setf. rewrite Nat.eqb_refl. congruence. }
      set (sF := destroy (temps b1) s1).
      assert (Fz : objs sF z = Some (OLeaf t)).
      { unfold sF. rewrite destroy_other by exact zT. cbn. unfold setf. now rewrite Nat.eqb_refl. }
      assert (FV : vals sF = vals s1) by (unfold sF; now rewrite destroy_vals).
      assert (Fo : forall y, y <> z -> ~ In y (temps b1) -> objs sF y = objs (st b1) y).
      { intros y Nz T. unfold sF. rewrite destroy_other by exact T. cbn. unfold setf.
        destruct (Nat.eqb_spec y z); [contradiction|reflexivity]. }
      assert (oldF : forall y, y < z -> objs sF y = objs s y).
      { intros y L. rewrite Fo; [apply I1; lia|lia|]. intros T. pose proof (i_tmp _ _ _ _ I1 y T). lia. }
      pose proof (i_next _ _ _ _ I1) as N.
      assert (StF : stands sF no_stop (NRef z) (XLeaf z t)) by now apply st_leaf.
      split; [lia|]. split; [|split; [|split]].
      + exists (XLeaf z t). split; [exact StF|]. now rewrite FV.
      + intros y Hy. left. induction Hy as [y Hy|y o w Hy IH Oy Hw].
        * destruct Hy as [->|[]]. reflexivity.
        * rewrite IH, Fz in Oy. injection Oy as <-. destruct Hw.
      + intros y L. split; [auto|]. rewrite FV, V by lia. apply I1. lia.
      + (* sound: nothing else than z is new and alive that was not made by build *)
        intros y p Oy.
        destruct (lt_eq_lt_dec y z) as [[L| ->]|L].
        * rewrite (oldF y L) in Oy. destruct (Snd y p Oy) as ((e0 & St0 & Ev0) & _ & B0).
          split; [|split; [lia|]].
          -- exists e0. split; [|exact Ev0].
             apply (stands_agree (fun w => w < z) s sF no_stop); auto.
             ++ intros x0 o0 w _ O0 H0. eapply s_bounded; eauto.
             ++ intros w [<-|[]]. exact L.
          -- intros w Hw. destruct (B0 w Hw) as (Lw & Np). split; [lia|]. now rewrite oldF.
        * rewrite Fz in Oy. injection Oy as <-. split; [|split; [lia|intros w []]].
          exists (XLeaf z t). split; [exact StF|discriminate].
        * assert (T : ~ In y (temps b1)).
          { intros T. unfold sF in Oy. rewrite destroy_gone in Oy by exact T. discriminate. }
          rewrite (Fo y ltac:(lia) T) in Oy.
          destruct (i_heap _ _ _ _ I1 y p ltac:(lia) T Oy) as (m & l & ->).
          destruct (i_dyn _ _ _ _ I1 y m l ltac:(lia) Oy) as (e0 & St0 & Ev0).
          assert (Qc : closed Q s) by (intros a0 p w Ha O0 Hw; eapply re_step; eauto).
          assert (Qok : forall w, Q w -> ok (S z) Q b1 w) by (intros w Hw; apply (Q_ok s); auto).
          assert (OC : closed (ok (S z) Q b1) (st b1)).
          { intros a0 p w Ha O0 Hw. destruct Ha as ([[L0 Ha]|[L0 T0]] & _).
            - apply Qok. apply (Qc a0 p w Ha); [|exact Hw]. now rewrite <- (proj1 (i_old _ _ _ _ I1 a0 L0)).
            - exact (i_obj _ _ _ _ I1 a0 p w ltac:(lia) O0 Hw). }
          assert (okF : forall w, ok (S z) Q b1 w -> objs sF w = objs (st b1) w).
          { intros w ([[L0 H]|[L0 T0]] & _); apply Fo; auto.
            - pose proof (proj1 (KQ w H)). lia.
            - intros T0. pose proof (i_tmp _ _ _ _ I1 w T0). lia.
            - lia. }
          assert (An : forall w, In w (addrs m) -> ok (S z) Q b1 w).
          { intros w Hw. exact (i_obj _ _ _ _ I1 y _ w ltac:(lia) Oy Hw). }
          assert (Ly : y < next b1).
          { destruct (le_lt_dec (next b1) y) as [G|G]; [|exact G].
            rewrite (i_new _ _ _ _ I1 y G) in Oy. discriminate. }
          split; [|split; [exact Ly|]].
          -- exists e0. split; [|intros n' l' [= <- <-]; exact Ev0].
             eapply st_dyn; [rewrite (Fo y ltac:(lia) T); exact Oy|].
             exact (stands_agree _ (st b1) sF no_stop OC okF m e0 St0 An).
          -- intros w Hw. pose proof (An w Hw) as K.
             split; [exact (ok_lt s (S z) Q b1 w I1 K)|]. rewrite (okF w K). apply K.
    - (* an operation *)
      destruct (copy_node n b1) as [n' b2] eqn:C. injection H as <- <-.
      assert (M : member a XVal b1 = Some (n', b2)) by (unfold member; rewrite O; cbn; now rewrite C).
      destruct (member_ok s (S z) Q Bd Lv Qp Ql b1 x a XVal e I1 Op St R n' b2 M)
        as (I2 & X2 & A & W & e' & St' & R' & Cp).
      eapply declare_node with (n := n') (e := e') (o := OExpr n'); eauto; try reflexivity.
      + intros s2 H0 H1. eapply st_expr; eauto.
      + discriminate.
    - destruct (copy_node n b1) as [n' b2] eqn:C. injection H as <- <-.
      assert (M : member a XVal b1 = Some (n', b2)) by (unfold member; rewrite O; cbn; now rewrite C).
      destruct (member_ok s (S z) Q Bd Lv Qp Ql b1 x a XVal e I1 Op St R n' b2 M)
        as (I2 & X2 & A & W & e' & St' & R' & Cp).
      eapply declare_node with (n := n') (e := e') (o := ODyn n' l); eauto; try reflexivity.
      + intros s2 H0 H1. eapply st_dyn; eauto.
      + intros m l0 [= <- <-]. eapply evaluates_copy; [exact Cp|].
        destruct (le_lt_dec (S z) a) as [L|L].
        * destruct (i_dyn _ _ _ _ I1 a n l L O) as (e0 & St0 & Ev0).
          assert (St1 : stands (st b1) no_stop (NRef a) e0) by (eapply st_dyn; eauto).
          now rewrite (stands_det _ _ _ St1 e St).
        * pose proof O as O'. rewrite (proj1 (i_old _ _ _ _ I1 a L)) in O'.
          destruct (all_stand a _ O') as ((e0 & St0 & Ev0) & _). specialize (Ev0 n l eq_refl).
          assert (St1 : stands (st b1) no_stop (NRef a) e0).
          { apply (stands_agree (fun w => w < S z) s (st b1) no_stop); auto.
            - intros x0 o0 w _ O0 H0. eapply Bd; eauto.
            - intros w Hw. apply I1. exact Hw.
            - intros w [<-|[]]. exact L. }
          now rewrite (stands_det _ _ _ St1 e St).
    - injection H as <- <-.
      assert (M : member a XVal b1 = Some (NProxy d l, b1)) by (unfold member; now rewrite O).
      destruct (member_ok s (S z) Q Bd Lv Qp Ql b1 x a XVal e I1 Op St R (NProxy d l) b1 M)
        as (I2 & X2 & A & W & e' & St' & R' & Cp).
      eapply declare_node with (n := NProxy d l) (e := e') (o := OProxy d l); eauto; try reflexivity.
      + intros s2 H0 H1. eapply st_var; eauto.
      + discriminate.
  Qed.
End D.

Lemma declare_spec s z x s' z' : sound s z -> safe x -> well_typed s x -> declare x z s = Some (s', z') ->
  spec s z (initializer x) s' z'.
Proof.
  intros Sn Sf Wt H.
  destruct x as [a| | | | | | | |]; cbn [initializer]; try (apply declare_ok; auto; discriminate).
  apply declare_ok; auto; [discriminate|].
  revert H. unfold declare. cbn [build st]. destruct (objs s a); auto.
Qed.

(** Every object built by a full expression, from any mix of temporaries, moved-from and
    named operands, stands (after the temporaries are gone) for the expression that was
    written; and all it leads to is itself, what the declaration created for it, and what
    the named operands lead to. *)
Theorem c26_no_dangling : forall s z x s' z', sound s z -> safe x -> well_typed s x ->
  declare x z s = Some (s', z') ->
  exists e, stands s' no_stop (NRef z) e /\ reflects s (vals s') (initializer x) e /\
    forall y, reach s' [z] y -> y = z \/ z < y \/ reach s (kept s (initializer x)) y.
Proof.
  intros s z x s' z' Sn Sf Wt H. destruct (declare_spec _ _ _ _ _ Sn Sf Wt H) as (_ & (e & St & R) & K & _).
  exists e. auto.
Qed.

(** It stays evaluable, with the value of that expression at the then current leaf
    values, in every later memory that still has those objects, whatever else has been
    destroyed, created or changed. *)
Theorem c26_stays_evaluable : forall eps na s z x s' z', sound s z -> safe x -> well_typed s x ->
  declare x z s = Some (s', z') ->
  exists e, reflects s (vals s') (initializer x) e /\
    forall s'', (forall y, z <= y \/ reach s (kept s (initializer x)) y -> objs s'' y = objs s' y) ->
    exists F, forall f, F <= f ->
      option_map fst (node_eval eps na f s'' (NRef z)) = eval eps (vals s'') e.
Proof.
  intros eps na s z x s' z' Sn Sf Wt H.
  destruct (declare_spec _ _ _ _ _ Sn Sf Wt H) as (_ & (e & St & R) & K & _).
  exists e. split; [exact R|]. intros s'' A. apply c28_eval_is_current.
  apply (stands_agree (reach s' [z]) s' s'' no_stop); auto.
  - intros a o b Ha O Hb. eapply re_step; eauto.
  - intros y Hy. apply A. destruct (K y Hy) as [->|[L|L]]; [left; lia|left; lia|now right].
  - intros y [<-|[]]. apply re_in. now left.
Qed.

Lemma stands_vals s v a e : stands s no_stop a e -> stands (State v (objs s) (cache s)) no_stop a e.
Proof.
  intros St. apply (stands_agree (fun _ => True) s); auto. intros ? ? ? ? ? ?; exact I.
Qed.

(** Rebinding a proxy variable changes what that variable stands for, and nothing else:
    every other object, however it was built from the variable, stands for the same
    expression as before. *)
Theorem c30_rebinds_only_that_proxy : forall s z p q s', sound s z -> rebind p q s = Some s' ->
  (forall a e, a <> p -> stands s no_stop (NRef a) e -> stands s' no_stop (NRef a) e) /\
  (forall e, stands s no_stop (NRef q) e -> stands s' no_stop (NRef p) e).
Proof.
  intros s z p q s' Sn H. unfold rebind in H.
  destruct (objs s p) as [[t|n|n l|d l]|] eqn:Op; try discriminate.
  destruct (objs s q) as [[t|n|n l'|d' l']|] eqn:Oq; try discriminate.
  destruct (lty_eqb l l') eqn:E; [|discriminate]. injection H as <-.
  assert (Ag : forall y, y <> p -> objs (put p (Some (OProxy d' l')) s) y = objs s y).
  { intros y Hy. cbn. unfold setf. destruct (Nat.eqb_spec y p); [contradiction|reflexivity]. }
  assert (Cl : closed (fun y => y <> p) s).
  { intros a o b Ha O Hb ->. exact (proj2 (proj2 (proj2 (Sn a o O)) p Hb) d l Op). }
  split.
  - intros a e Ha St. apply (stands_agree _ s _ no_stop Cl Ag _ e St). intros y [<-|[]]. exact Ha.
  - intros e St. eapply st_var; [cbn; unfold setf; now rewrite Nat.eqb_refl|].
    assert (St' : stands s no_stop (NProxy d' l') e).
    { inversion St as [|? ? P|? ? ? P|? ? ? ? P|? ? ? ? P| | | |]; subst; rewrite Oq in P; try discriminate.
      injection P as <- <-. assumption. }
    apply (stands_agree _ s _ no_stop Cl Ag _ e St'). intros y [<-|[]] ->.
    exact (proj2 (proj2 (proj2 (Sn q _ Oq)) p (or_introl eq_refl)) d l Op).
Qed.

(** No program makes a dangling reference: in every memory it reaches, all live objects
    stand for expressions, no reference leads to a dead object, and every proxy points at
    a live Dynamic of its type. *)
Theorem c26_programs : forall p s z s' z', sound s z -> runs p (s, z) (s', z') -> sound s' z'.
Proof.
  intros p s z s' z' Sn H.
  remember (s, z) as a eqn:Ea. remember (s', z') as b eqn:Eb. revert s z Sn Ea.
  induction H as [s1|x s1 z1 s2 z2 l s3 Sf Wt D _ IH|a v s1 z1 l s2 _ IH|p q s1 z1 s2 l s3 R _ IH
    |a s1 z1 l s2 F _ IH]; intros s z Sn Ea.
  - rewrite Ea in Eb. injection Eb as <- <-. exact Sn.
  - injection Ea as <- <-. eapply (IH Eb); [|reflexivity].
    apply (declare_spec _ _ _ _ _ Sn Sf Wt D).
  - injection Ea as <- <-. eapply (IH Eb); [|reflexivity].
    intros y o O. destruct (Sn y o O) as ((e & St & Ev) & B). split; [|exact B].
    exists e. split; [now apply stands_vals|exact Ev].
  - injection Ea as <- <-. eapply (IH Eb); [|reflexivity].
    pose proof (c30_rebinds_only_that_proxy _ _ _ _ _ Sn R) as (K1 & K2).
    unfold rebind in R.
    destruct (objs s1 p) as [[t|n|n l0|d l0]|] eqn:Op; try discriminate.
    destruct (objs s1 q) as [[t|n|n l'|d' l']|] eqn:Oq; try discriminate.
    destruct (lty_eqb l0 l') eqn:E; [|discriminate]. injection R as <-.
    assert (Np : forall y o w d0 l1, objs s1 y = Some o -> In w (obj_addrs o) ->
       objs (put p (Some (OProxy d' l')) s1) w <> Some (OProxy d0 l1)).
    { intros y o w d0 l1 O Hw. cbn. unfold setf. destruct (Nat.eqb_spec w p) as [->|].
      - exfalso. exact (proj2 (proj2 (proj2 (Sn y o O)) p Hw) d l0 Op).
      - apply (proj2 (proj2 (Sn y o O)) w Hw). }
    intros y o O. cbn in O. unfold setf in O. destruct (Nat.eqb_spec y p) as [->|N].
    + injection O as <-. destruct (Sn q _ Oq) as ((e & St & _) & _ & B).
      split; [exists e; split; [auto|discriminate]|]. split; [exact (proj1 (proj2 (Sn p _ Op)))|].
      intros w Hw. split; [apply (B w Hw)|]. intros. exact (Np q _ w _ _ Oq Hw).
    + destruct (Sn y o O) as ((e & St & Ev) & L & B).
      split; [exists e; split; [auto|exact Ev]|]. split; [exact L|].
      intros w Hw. split; [apply (B w Hw)|]. intros. exact (Np y _ w _ _ O Hw).
  - injection Ea as <- <-. eapply (IH Eb); [|reflexivity].
    assert (Ag : forall y, y <> a -> objs (put a None s1) y = objs s1 y).
    { intros y Hy. cbn. unfold setf. destruct (Nat.eqb_spec y a); [contradiction|reflexivity]. }
    assert (Cl : closed (fun y => y <> a) s1).
    { intros y o w Hy O Hw ->. exact (F y o Hy O Hw). }
    intros y o O. cbn in O. unfold setf in O. destruct (Nat.eqb_spec y a) as [->|N]; [discriminate|].
    destruct (Sn y o O) as ((e & St & Ev) & L & B).
    split.
    + exists e. split; [|exact Ev]. apply (stands_agree _ s1 _ no_stop Cl Ag _ e St).
      intros w [<-|[]]. exact N.
    + split; [exact L|]. intros w Hw. split; [apply (B w Hw)|].
      intros d0 l0. rewrite Ag; [apply (B w Hw)|]. intros ->. exact (F y o N O Hw).
Qed.

(** The target of a proxy held by any live object is alive, in every memory a program
    reaches: with the rule of PDestroy this is what sharing the target gives. *)
Inductive holds_proxy (d : nat) (l : lty) : node -> Prop :=
| hp_here : holds_proxy d l (NProxy d l)
| hp_un o n : holds_proxy d l n -> holds_proxy d l (NUn o n)
| hp_left o n1 n2 : holds_proxy d l n1 -> holds_proxy d l (NBin o n1 n2)
| hp_right o n1 n2 : holds_proxy d l n2 -> holds_proxy d l (NBin o n1 n2).

Theorem c30_target_outlives_proxies : forall p s z s' z' a o n d l, sound s z -> runs p (s, z) (s', z') ->
  objs s' a = Some o -> (o = OExpr n \/ (exists l', o = ODyn n l') \/ (n = NProxy d l /\ o = OProxy d l)) ->
  holds_proxy d l n -> exists m e, objs s' d = Some (ODyn m l) /\ stands s' no_stop m e.
Proof.
  intros p s z s' z' a o n d l Sn R O Ho Hp. pose proof (c26_programs _ _ _ _ _ Sn R) as Sn'.
  destruct (Sn' a o O) as ((e & St & _) & _).
  assert (exists e', stands s' no_stop n e') as (e' & St').
  { exists e. destruct Ho as [->|[(l' & ->)|(-> & ->)]];
      inversion St as [|? ? P|? ? ? P|? ? ? ? P|? ? ? ? P| | | |]; subst; rewrite O in P; try discriminate.
    - injection P as <-. assumption.
    - injection P as <- <-. assumption.
    - injection P as <- <-. assumption. }
  clear St O Ho. revert e' St'. induction Hp as [|o' n Hp IH|o' n1 n2 Hp IH|o' n1 n2 Hp IH]; intros e' St'.
  - inversion St' as [| | | | |? ? ? F|? m ? ? _ O S0| |]; subst; [discriminate|]. eauto.
  - inversion St'; subst. eauto.
  - inversion St'; subst. eauto.
  - inversion St'; subst. eauto.
Qed.

(** Such a declaration never gets stuck on a dead object. *)
Theorem c26_always_builds : forall s z x, sound s z -> safe x -> well_typed s x -> compiles x ->
  declare x z s <> None.
Proof.
  intros s z x Sn Sf Wt Co. unfold declare. set (Q := reach s (kept s x)).
  pose proof (reach_ok s z Sn _ (kept_ok s z Sn x Sf Wt)) as KQ. fold Q in KQ.
  assert (Bd : forall a p y, objs s a = Some p -> In y (obj_addrs p) -> y < S z).
  { intros a0 p y O H0. pose proof (s_bounded s z Sn a0 p y O H0). lia. }
  assert (Lv : forall a e b, stands s no_stop (NRef a) e -> In b (leaf_addrs e) -> b < S z).
  { intros a0 e b H0 H1. pose proof (s_leaves s z Sn a0 e b H0 H1). lia. }
  assert (Qp : forall y d l, Q y -> objs s y <> Some (OProxy d l)) by (intros; now apply KQ).
  assert (Ql : forall y, Q y -> y < S z) by (intros y Hy; pose proof (proj1 (KQ y Hy)); lia).
  destruct (build_some s (S z) Q Bd Lv Qp Ql (all_stand s z Sn) x Sf Wt Co ltac:(intros; now apply re_in)
              _ (inv_start s z Sn Q)) as (a & c & b1 & E & _). rewrite E.
  destruct (build_ok s (S z) Q Bd Lv Qp Ql (all_stand s z Sn) x Sf Wt ltac:(intros; now apply re_in)
              _ (inv_start s z Sn Q) a c b1 E) as (_ & _ & _ & _ & e & St & _).
  destruct (objs (st b1) a) as [[t|n|n l|d l]|] eqn:O; try (destruct (copy_node n b1)); try discriminate.
  inversion St; subst; congruence.
Qed.

Lemma sound_empty m : sound (empty_state m) 0.
Proof. intros a o O. discriminate. Qed.

(** *** A memory and some declarations *)

(** MatrixRotation R (0); Translation v (2); d = makeDynamic(R * QuaternionRotation(...))
    (4, with the quaternion at 5); p = ref(d) (9); d2 = makeDynamic(inverse(R)) (10);
    q = ref(d2) (11). *)
Definition sx : state := State
  (fun a => match a with
            | 2 => VTrans (mkV 1 2 3)
            | 5 => VQuat (mkQ 0 0 1 0)
            | _ => VMat (mkM 0 (-1) 0 1 0 0 0 0 1)
            end)
  (fun a => match a with
            | 0 => Some (OLeaf (Plain LMat))
            | 2 => Some (OLeaf (Plain LTrans))
            | 4 => Some (ODyn (NBin OCompose (NRef 0) (NOwn 5 (Plain LQuat))) LMat)
            | 9 => Some (OProxy 4 LMat)
            | 10 => Some (ODyn (NUn OInverse (NRef 0)) LMat)
            | 11 => Some (OProxy 10 LMat)
            | _ => None
            end)
  (fun _ => None).

Lemma sx_sound : sound sx 20.
Proof.
  assert (S4 : stands sx no_stop (NBin OCompose (NRef 0) (NOwn 5 (Plain LQuat)))
                 (XBin OCompose (XLeaf 0 (Plain LMat)) (XLeaf 5 (Plain LQuat))))
    by (constructor; [now apply st_leaf|now apply st_own]).
  assert (S10 : stands sx no_stop (NUn OInverse (NRef 0)) (XUn OInverse (XLeaf 0 (Plain LMat))))
    by (constructor; now apply st_leaf).
  intros a o O.
  do 12 (try lazymatch goal with b : nat |- _ => destruct b as [|b]; [try discriminate|] end);
    [..|discriminate]; injection O as <-;
    (split; [|split; [lia|]]).
  - eexists. split; [now apply st_leaf|discriminate].
  - intros b [].
  - eexists. split; [now apply st_leaf|discriminate].
  - intros b [].
  - eexists. split; [eapply st_dyn; [reflexivity|exact S4]|]. intros n l [= <- <-]. eexists. reflexivity.
  - intros b [<-|[<-|[]]]; (split; [lia|discriminate]).
  - eexists. split; [|discriminate]. eapply st_var; [reflexivity|].
    eapply st_proxy; [reflexivity|reflexivity|exact S4|]. eexists. reflexivity.
  - intros b [<-|[]]; (split; [lia|discriminate]).
  - eexists. split; [eapply st_dyn; [reflexivity|exact S10]|]. intros n l [= <- <-]. eexists. reflexivity.
  - intros b [<-|[]]; (split; [lia|discriminate]).
  - eexists. split; [|discriminate]. eapply st_var; [reflexivity|].
    eapply st_proxy; [reflexivity|reflexivity|exact S10|]. eexists. reflexivity.
  - intros b [<-|[]]; (split; [lia|discriminate]).
Qed.

(** auto e = p * v + Translation(...);   auto r = makeProxy(p * inverse(R)); *)
Definition sx_e : src := SBin OSum (SBin ORotate (SName 9) (SName 2)) (STemp (VTrans v0) (Plain LTrans)).
Definition sx_r : src := SProxy LMat (SBin OCompose (SName 9) (SUn OInverse (SName 0))).

Example c26_example : sound sx 20 /\ safe sx_e /\ well_typed sx sx_e /\ compiles sx_e /\
  kept sx (initializer sx_e) = [4; 2] /\ safe sx_r /\ well_typed sx sx_r /\ compiles sx_r.
Proof.
  split; [exact sx_sound|]. split; [cbn; auto|]. split; [cbn; repeat split; discriminate|].
  split; [cbn; auto|]. split; [reflexivity|]. split; [cbn; auto|]. split.
  - cbn. split; [repeat split; discriminate|]. intros m e R.
    inversion R as [| | | | |? ? ? e1 e2 R1 R2| | |]; subst.
    inversion R1 as [? ? S1| | | | | | | |]; subst. inversion R2 as [| | | |? ? e3 R3| | | |]; subst.
    inversion R3 as [? ? S3| | | | | | | |]; subst.
    assert (E1 : e1 = XBin OCompose (XLeaf 0 (Plain LMat)) (XLeaf 5 (Plain LQuat))).
    { refine (stands_det sx (NRef 9) _ _ _ S1).
      eapply st_var; [reflexivity|]. eapply st_proxy; [reflexivity|reflexivity| |eexists; reflexivity].
      constructor; [now apply st_leaf|now apply st_own]. }
    assert (E3 : e3 = XLeaf 0 (Plain LMat)).
    { refine (stands_det sx (NRef 0) _ _ _ S3). now apply st_leaf. }
    subst. eexists. reflexivity.
  - cbn. split; [discriminate|auto].
Qed.

(** A program: e, then r, then p = q, then an assignment to R. *)
Example c26_program_example : exists s z, runs [PDeclare sx_e; PDeclare sx_r; PRebind 9 11;
   PSet 0 (VMat i3)] (sx, 20) (s, z) /\ objs s 20 <> None.
Proof.
  destruct c26_example as (Sn & Sf & Wt & Co & _ & Sfr & Wtr & Cor).
  destruct (declare sx_e 20 sx) as [[s1 z1]|] eqn:D1; [|now destruct (c26_always_builds _ _ _ Sn Sf Wt Co)].
  destruct (declare_spec _ _ _ _ _ Sn Sf Wt D1) as (L1 & (e1 & St1 & _) & _ & O1 & Sn1).
  assert (Ag : forall n e, stands s1 no_stop n e -> (forall y, In y (addrs n) -> y < 20) ->
                stands sx no_stop n e).
  { intros n e St L. apply (stands_agree (fun y => y < 20) s1); auto.
    - intros a o b La O Hb. destruct (O1 a La) as (Oa & _). rewrite Oa in O. exact (s_bounded sx 20 Sn a o b O Hb).
    - intros a La. symmetry. apply O1. exact La. }
  assert (Wt1 : well_typed s1 sx_r).
  { cbn in Wtr |- *. rewrite (proj1 (O1 9 ltac:(lia))), (proj1 (O1 0 ltac:(lia))). split; [apply Wtr|]. intros m e R.
    apply (proj2 Wtr m e).
    inversion R as [| | | | |? ? ? e1' e2 R1 R2| | |]; subst.
    inversion R1 as [? ? S1| | | | | | | |]; subst. inversion R2 as [| | | |? ? e3 R3| | | |]; subst.
    inversion R3 as [? ? S3| | | | | | | |]; subst.
    repeat constructor; apply Ag; auto; intros y [<-|[]]; lia. }
  destruct (declare sx_r z1 s1) as [[s2 z2]|] eqn:D2; [|now destruct (c26_always_builds _ _ _ Sn1 Sfr Wt1 Cor)].
  destruct (declare_spec _ _ _ _ _ Sn1 Sfr Wt1 D2) as (L2 & _ & _ & O2 & Sn2).
  assert (O9 : objs s2 9 = Some (OProxy 4 LMat)).
  { rewrite (proj1 (O2 9 ltac:(lia))), (proj1 (O1 9 ltac:(lia))). reflexivity. }
  assert (O11 : objs s2 11 = Some (OProxy 10 LMat)).
  { rewrite (proj1 (O2 11 ltac:(lia))), (proj1 (O1 11 ltac:(lia))). reflexivity. }
  do 2 eexists. split.
  - eapply rn_declare; [exact Sf|exact Wt|exact D1|]. eapply rn_declare; [exact Sfr|exact Wt1|exact D2|].
    eapply rn_rebind; [unfold rebind; rewrite O9, O11; reflexivity|]. apply rn_set. apply rn_nil.
  - cbn [objs put setf]. change (objs s2 20 <> None). rewrite (proj1 (O2 20 L1)).
    inversion St1; subst; congruence.
Qed.

(** *** What the side conditions exclude really dangles *)

(** A const temporary binds to the overloads for named operands, so a reference to it is
    stored:  auto e = inverse(f());  with  const MatrixRotation f(); *)
Theorem c26_const_temporary_refuted : exists x s' z' e, compiles x /\ well_typed (empty_state (fun _ => VMat i3)) x /\
  declare x 0 (empty_state (fun _ => VMat i3)) = Some (s', z') /\
  reflects (empty_state (fun _ => VMat i3)) (vals s') (initializer x) e /\ eval (1/4) (vals s') e <> None /\
  forall f, node_eval (1/4) 100 f s' (NRef 0) = None.
Proof.
  exists (SUn OInverse (SConstTemp (VMat i3) (Plain LMat))). do 2 eexists.
  exists (XUn OInverse (XLeaf 1 (Plain LMat))).
  split; [exact I|]. split; [exact I|]. split; [reflexivity|]. split.
  - constructor. constructor. reflexivity.
  - split; [discriminate|]. intros [|[|[|f]]]; reflexivity.
Qed.

(** ref() accepts a temporary Dynamic:  auto p = ref(makeDynamic(inverse(R))); *)
Theorem c26_ref_of_temporary_refuted : exists x s' z' e, compiles x /\ well_typed sx x /\
  declare x 20 sx = Some (s', z') /\
  reflects sx (vals s') (initializer x) e /\ eval (1/4) (vals s') e <> None /\
  forall f, node_eval (1/4) 100 f s' (NRef 20) = None.
Proof.
  exists (SRef (SDynamic LMat (SUn OInverse (SName 0)))). do 2 eexists.
  exists (XUn OInverse (XLeaf 0 (Plain LMat))).
  split; [exact I|]. split.
  - cbn. split; [split; [discriminate|]|discriminate]. intros m e R.
    inversion R as [| | | |? ? e1 R1| | | |]; subst. inversion R1 as [? ? S1| | | | | | | |]; subst.
    assert (e1 = XLeaf 0 (Plain LMat)) as ->.
    { refine (stands_det sx (NRef 0) _ _ _ S1). now apply st_leaf. }
    eexists. reflexivity.
  - split; [reflexivity|]. split.
    + constructor. constructor. constructor. constructor. now apply st_leaf.
    + split; [discriminate|]. intros [|[|f]]; reflexivity.
Qed.

Print Assumptions c26_no_dangling.
Print Assumptions c26_stays_evaluable.
Print Assumptions c26_always_builds.
Print Assumptions c26_programs.
Print Assumptions c26_const_temporary_refuted.
Print Assumptions c26_ref_of_temporary_refuted.
Print Assumptions c30_rebinds_only_that_proxy.
Print Assumptions c30_target_outlives_proxies.
