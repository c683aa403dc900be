(** C57: isSame(a, b) tells whether two expression objects are of one type and stand for
    the same operations on the same leaf objects. *)

From Coq Require Import Reals List Arith Bool Lia Lra.
From Verif Require Import Mat ModelMeta ModelJac V3 ModelLeaf ModelExpr ModelDyn SpecDyn DynProofs PropsDyn
  SpecJac JacProofs PropsJac ModelStore SpecStore StoreProofs PropsStore ModelSame SpecSame.
Import ListNotations.

Lemma type_of_S f : forall s n c, type_of f s n = Some c -> type_of (S f) s n = Some c.
Proof.
  induction f as [|f IH]; intros s n c H; [discriminate|].
  change (type_of (S (S f)) s n) with
    (match n with
      | NOwn _ t => Some (TyLeaf t)
      | NRef a =>
          match objs s a with
          | Some (OLeaf t) => Some (TyLeaf t)
          | Some (OExpr n') => type_of (S f) s n'
          | Some (ODyn n' _) => option_map (TyDyn (by_ref n')) (type_of (S f) s n')
          | Some (OProxy _ l) => Some (TyProxy l)
          | None => None
          end
      | NProxy _ l => Some (TyProxy l)
      | NUn o n => option_map (TyUn o (by_ref n)) (type_of (S f) s n)
      | NBin o n1 n2 =>
          match type_of (S f) s n1, type_of (S f) s n2 with
          | Some c1, Some c2 => Some (TyBin o (by_ref n1) c1 (by_ref n2) c2)
          | _, _ => None
          end
      end).
  destruct n as [i t|a|d l|o n|o n1 n2]; cbn in H.
  - exact H.
  - destruct (objs s a) as [[t|n'|n' l|d l]|]; auto.
    destruct (type_of f s n') as [c'|] eqn:E; [|discriminate]. rewrite (IH _ _ _ E). exact H.
  - exact H.
  - destruct (type_of f s n) as [c'|] eqn:E; [|discriminate]. rewrite (IH _ _ _ E). exact H.
  - destruct (type_of f s n1) as [c1|] eqn:E1; [|discriminate].
    destruct (type_of f s n2) as [c2|] eqn:E2; [|discriminate].
    rewrite (IH _ _ _ E1), (IH _ _ _ E2). exact H.
Qed.

Lemma type_of_le f f' s n c : (f <= f')%nat -> type_of f s n = Some c -> type_of f' s n = Some c.
Proof. intros L H. induction L; auto. now apply type_of_S. Qed.

Lemma has_type_fn s n c : has_type s n c -> exists F, forall f, (F <= f)%nat -> type_of f s n = Some c.
Proof.
  induction 1 as [i t|a t O|a n c O H [F IH]|a n l c O H [F IH]|a d l O|d l|o n c H [F IH]
    |o n1 n2 c1 c2 H1 [F1 I1] H2 [F2 I2]].
  1,2,5,6: exists 1%nat; intros [|f] L; [lia|]; cbn; try rewrite O; reflexivity.
  - exists (S F). intros [|f] L; [lia|]. cbn. rewrite O. apply IH. lia.
  - exists (S F). intros [|f] L; [lia|]. cbn. rewrite O, IH by lia. reflexivity.
  - exists (S F). intros [|f] L; [lia|]. cbn. rewrite IH by lia. reflexivity.
  - exists (S (F1 + F2)). intros [|f] L; [lia|]. cbn. rewrite I1, I2 by lia. reflexivity.
Qed.

Lemma has_type_det s n c c' : has_type s n c -> has_type s n c' -> c = c'.
Proof.
  intros H H'. destruct (has_type_fn _ _ _ H) as [F K]. destruct (has_type_fn _ _ _ H') as [F' K'].
  specialize (K (F + F')%nat ltac:(lia)). specialize (K' (F + F')%nat ltac:(lia)). congruence.
Qed.

Lemma stands_type s stop n e : stands s stop n e -> exists c, has_type s n c.
Proof.
  induction 1 as [i t|a t O|a n e O S [c IH]|a n l e O S [c IH]|a d l e O S IH|d n l D O|d n l e D O S IH Ev
    |o n e S [c IH]|o n1 n2 e1 e2 S1 [c1 I1] S2 [c2 I2]];
    eauto using ht_own, ht_leaf, ht_expr, ht_dyn, ht_var, ht_proxy, ht_un, ht_bin.
Qed.

(** What the overloads see of an object. *)
Inductive sees (s : state) (n : node) : ctype -> expr -> Prop :=
| se_leaf x t : parts_of s n = Some (PLeaf x) -> sees s n (TyLeaf t) (XLeaf x t)
| se_proxy d l : parts_of s n = Some (PProxy d) -> sees s n (TyProxy l) (XLeaf d (Plain l))
| se_un o n' c e : parts_of s n = Some (PUn n') -> has_type s n' c -> stands s every n' e ->
    sees s n (TyUn o (by_ref n') c) (XUn o e)
| se_dyn n' c e : parts_of s n = Some (PUn n') -> has_type s n' c -> stands s every n' e ->
    sees s n (TyDyn (by_ref n') c) e
| se_bin o n1 n2 c1 c2 e1 e2 : parts_of s n = Some (PBin n1 n2) -> has_type s n1 c1 -> has_type s n2 c2 ->
    stands s every n1 e1 -> stands s every n2 e2 ->
    sees s n (TyBin o (by_ref n1) c1 (by_ref n2) c2) (XBin o e1 e2).

Lemma look s n c e : proper s -> stands s every n e -> has_type s n c -> sees s n c e.
Proof.
  intros P S T.
  assert (K : forall n, by_ref n = false -> forall c e, stands s every n e -> has_type s n c ->
    (forall m, parts_of s m = parts_node n -> sees s m c e)).
  { clear n c e S T. intros n B c e S T m Hm.
    inversion S; subst; cbn in B; try discriminate; cbn in Hm; inversion T; subst;
      try (econstructor; eassumption); cbv [every] in *; discriminate. }
  destruct (by_ref n) eqn:B.
  2:{ apply (K n B c e S T). destruct n; try discriminate; reflexivity. }
  destruct n as [i t|a|d l|o n|o n1 n2]; cbn in B; try discriminate.
  inversion S as [|? ? O|? n' ? O S'|? n' l ? O S'|? d l ? O S'|? ? ? ? O|? ? ? ? ? O|? ? ? ?|? ? ? ? ? ?]; subst;
    inversion T as [|? ? O'|? ? ? O' T'|? ? ? ? O' T'|? ? ? O'| | |]; subst; rewrite O in O'; try discriminate;
    injection O' as <-.
  - apply se_leaf. cbn. now rewrite O.
  - apply (K n' (P _ _ O) c e S' T'). cbn. now rewrite O.
  - subst. apply se_dyn; auto. cbn. now rewrite O.
  - subst. inversion S'; subst; [|cbv [every] in *; discriminate]. apply se_proxy. cbn. now rewrite O.
Qed.

Lemma decides s ta : proper s -> forall a b tb e1 e2, has_type s a ta -> has_type s b tb ->
  stands s every a e1 -> stands s every b e2 ->
  exists F, forall f, (F <= f)%nat -> exists r, isSame f s a b = Some r /\ (r = true <-> ta = tb /\ e1 = e2).
Proof.
  intros P. induction ta as [t|l|o r c IH|o r1 c1 I1 r2 c2 I2|r c IH]; intros a b tb e1 e2 Ta Tb Sa Sb;
    destruct (has_type_fn _ _ _ Ta) as [Fa Ka]; destruct (has_type_fn _ _ _ Tb) as [Fb Kb];
    match type of Ta with has_type _ _ ?T => destruct (ctype_eq_dec T tb) as [E|E] end.
  all: try (exists (S (Fa + Fb)); intros [|f] L; [lia|]; cbn [isSame]; rewrite Ka, Kb by lia;
    destruct ctype_eq_dec as [E'|_]; [contradiction|]; exists false; split; [reflexivity|];
    split; [discriminate|]; tauto).
  all: subst tb; pose proof (look s a _ e1 P Sa Ta) as Va; pose proof (look s b _ e2 P Sb Tb) as Vb;
    inversion Va as [? ? Pa|? ? Pa|? na ? ea Pa Ha Na|na ? ea Pa Ha Na|? na1 na2 ? ? ea1 ea2 Pa Ha1 Ha2 Na1 Na2]; subst;
    inversion Vb as [? ? Pb|? ? Pb|? nb ? eb Pb Hb Nb|nb ? eb Pb Hb Nb|? nb1 nb2 ? ? eb1 eb2 Pb Hb1 Hb2 Nb1 Nb2]; subst.
  - exists (S (Fa + Fb)). intros [|f] L; [lia|]. cbn [isSame]. rewrite Ka, Kb by lia.
    destruct ctype_eq_dec as [_|E']; [|congruence]. rewrite Pa, Pb. eexists. split; [reflexivity|].
    rewrite Nat.eqb_eq. split; [intros ->; auto|intros [_ [= ->]]; auto].
  - exists (S (Fa + Fb)). intros [|f] L; [lia|]. cbn [isSame]. rewrite Ka, Kb by lia.
    destruct ctype_eq_dec as [_|E']; [|congruence]. rewrite Pa, Pb. eexists. split; [reflexivity|].
    rewrite Nat.eqb_eq. split; [intros ->; auto|intros [_ [= ->]]; auto].
  - destruct (IH na nb c ea eb Ha ltac:(congruence) Na Nb) as [F K].
    exists (S (Fa + Fb + F)). intros [|f] L; [lia|]. cbn [isSame]. rewrite Ka, Kb by lia.
    destruct ctype_eq_dec as [_|E']; [|congruence]. rewrite Pa, Pb.
    destruct (K f ltac:(lia)) as (r & Hr & Hi). exists r. split; [exact Hr|]. rewrite Hi.
    split; [intros [_ ->]; auto|intros [_ [= ->]]; auto].
  - destruct (I1 na1 nb1 c1 ea1 eb1 Ha1 ltac:(congruence) Na1 Nb1) as [F1 K1].
    destruct (I2 na2 nb2 c2 ea2 eb2 Ha2 ltac:(congruence) Na2 Nb2) as [F2 K2].
    exists (S (Fa + Fb + F1 + F2)). intros [|f] L; [lia|]. cbn [isSame]. rewrite Ka, Kb by lia.
    destruct ctype_eq_dec as [_|E']; [|congruence]. rewrite Pa, Pb.
    destruct (K1 f ltac:(lia)) as (x & Hx & Hi). destruct (K2 f ltac:(lia)) as (y & Hy & Hj).
    rewrite Hx, Hy. eexists. split; [reflexivity|]. rewrite andb_true_iff, Hi, Hj.
    split; [intros [[_ ->] [_ ->]]; auto|intros [_ [= -> ->]]; auto].
  - destruct (IH na nb c e1 e2 Ha ltac:(congruence) Na Nb) as [F K].
    exists (S (Fa + Fb + F)). intros [|f] L; [lia|]. cbn [isSame]. rewrite Ka, Kb by lia.
    destruct ctype_eq_dec as [_|E']; [|congruence]. rewrite Pa, Pb.
    destruct (K f ltac:(lia)) as (r & Hr & Hi). exists r. split; [exact Hr|]. rewrite Hi.
    split; [intros [_ ->]; auto|intros [_ ->]; auto].
Qed.

Lemma stands_every s n e : stands s no_stop n e -> exists e', stands s every n e'.
Proof.
  induction 1 as [i t|a t O|a n e O S [c IH]|a n l e O S [c IH]|a d l e O S [c IH]|d n l D O|d n l e D O S IH Ev
    |o n e S [c IH]|o n1 n2 e1 e2 S1 [c1 I1] S2 [c2 I2]];
    eauto using st_own, st_leaf, st_expr, st_dyn, st_var, st_stop, st_un, st_bin.
Qed.

Lemma outline_every s n e : stands s every n e -> exists F, forall f, (F <= f)%nat -> outline f s n = Some e.
Proof.
  induction 1 as [i t D|a t O|a n e O St [F IH]|a n l e O St [F IH]|a d l e O St [F IH]|d n l D O|d n l e D O St IH Ev
    |o n e St [F IH]|o n1 n2 e1 e2 S1 [F1 I1] S2 [F2 I2]]; try (cbv [every] in D; discriminate).
  - exists 1%nat. intros [|f] L; [lia|]. cbn. now rewrite D.
  - exists 1%nat. intros [|f] L; [lia|]. cbn. now rewrite O.
  - exists (S F). intros [|f] L; [lia|]. cbn. rewrite O. apply IH. lia.
  - exists (S F). intros [|f] L; [lia|]. cbn. rewrite O. apply IH. lia.
  - exists (S F). intros [|f] L; [lia|]. cbn. rewrite O. apply IH. lia.
  - exists 1%nat. intros [|f] L; [lia|]. cbn. now rewrite O, lty_eqb_refl.
  - exists (S F). intros [|f] L; [lia|]. cbn. rewrite IH by lia. reflexivity.
  - exists (S (F1 + F2)). intros [|f] L; [lia|]. cbn. rewrite I1, I2 by lia. reflexivity.
Qed.

Lemma every_det s n e e' : stands s every n e -> stands s every n e' -> e = e'.
Proof.
  intros H H'. destruct (outline_every _ _ _ H) as [F K]. destruct (outline_every _ _ _ H') as [F' K'].
  specialize (K (F + F')%nat ltac:(lia)). specialize (K' (F + F')%nat ltac:(lia)). congruence.
Qed.

(** Programs only make proper objects. *)
Lemma copy_by_ref n : forall b, by_ref (fst (copy_node n b)) = by_ref n.
Proof.
  destruct n; intros b; cbn; auto.
  - destruct (copy_node n b); reflexivity.
  - destruct (copy_node n1 b). destruct (copy_node n2 b0). reflexivity.
Qed.
Lemma copy_objs n : forall b, objs (st (snd (copy_node n b))) = objs (st b).
Proof.
  induction n; intros b; cbn; auto.
  - specialize (IHn b). destruct (copy_node n b). exact IHn.
  - specialize (IHn1 b). destruct (copy_node n1 b) as [m b1]. specialize (IHn2 b1).
    destruct (copy_node n2 b1). cbn in *. congruence.
Qed.
Lemma put_proper a o s : proper s -> (forall n, o = Some (OExpr n) -> by_ref n = false) -> proper (put a o s).
Proof.
  intros P H b n O. cbn in O. unfold setf in O. destruct (b =? a)%nat; [apply H; congruence|exact (P b n O)].
Qed.
Lemma member_proper a c b n b' : proper (st b) -> member a c b = Some (n, b') -> proper (st b').
Proof.
  intros P H. unfold member in H. destruct (objs (st b) a) as [o|]; [|discriminate].
  destruct storage_selector; [injection H as <- <-; exact P|].
  destruct o as [t|m|m l|d l]; try (injection H as <- <-; exact P).
  all: injection H as E; intros y k O; apply (P y k); pose proof (copy_objs m b) as K;
    rewrite E in K; cbn in K; congruence.
Qed.
Lemma build_proper x : forall b a c b', proper (st b) -> build x b = Some (a, c, b') -> proper (st b').
Proof.
  induction x as [a|a|v t|v t|o x IH|o x IHx y IHy|l x IH|x IH|l x IH]; intros b a' c b' P H; cbn in H.
  - destruct (objs (st b) a); [injection H as <- <- <-; exact P|discriminate].
  - destruct (objs (st b) a); [injection H as <- <- <-; exact P|discriminate].
  - injection H as <- <- <-. apply (put_proper _ _ (st b)); [exact P|discriminate].
  - injection H as <- <- <-. apply (put_proper _ _ (st b)); [exact P|discriminate].
  - destruct (build x b) as [[[a1 c1] b1]|] eqn:E; [|discriminate]. apply (IH b) in E; auto.
    destruct (member a1 c1 b1) as [[n b2]|] eqn:M; [|discriminate]. apply member_proper in M; auto.
    injection H as <- <- <-. apply put_proper; auto. intros m [= <-]. reflexivity.
  - destruct (build x b) as [[[a1 c1] b1]|] eqn:E; [|discriminate]. apply (IHx b) in E; auto.
    destruct (build y b1) as [[[a2 c2] b2]|] eqn:E2; [|discriminate]. apply (IHy b1) in E2; auto.
    destruct (member a1 c1 b2) as [[n1 b3]|] eqn:M; [|discriminate]. apply member_proper in M; auto.
    destruct (member a2 c2 b3) as [[n2 b4]|] eqn:M2; [|discriminate]. apply member_proper in M2; auto.
    injection H as <- <- <-. apply put_proper; auto. intros m [= <-]. reflexivity.
  - destruct (build x b) as [[[a1 c1] b1]|] eqn:E; [|discriminate]. apply (IH b) in E; auto.
    destruct (member a1 c1 b1) as [[n b2]|] eqn:M; [|discriminate]. apply member_proper in M; auto.
    injection H as <- <- <-. apply put_proper; auto. discriminate.
  - destruct (build x b) as [[[a1 c1] b1]|] eqn:E; [|discriminate]. apply (IH b) in E; auto.
    destruct (objs (st b1) a1) as [[t|n|n l|d l]|]; try discriminate.
    injection H as <- <- <-. apply put_proper; auto. discriminate.
  - destruct (build x b) as [[[a1 c1] b1]|] eqn:E; [|discriminate]. apply (IH b) in E; auto.
    destruct c1; try discriminate.
    destruct (member a1 XVal b1) as [[n b2]|] eqn:M; [|discriminate]. apply member_proper in M; auto.
    injection H as <- <- <-. apply put_proper; [apply put_proper|]; auto; discriminate.
Qed.
Lemma destroy_proper l : forall s, proper s -> proper (destroy l s).
Proof. induction l as [|a l IH]; intros s P; cbn; auto. apply IH, put_proper; auto. discriminate. Qed.
Lemma declare_proper x z s s' z' : proper s -> declare x z s = Some (s', z') -> proper s'.
Proof.
  intros P H. unfold declare in H.
  destruct (build x (B s (S z) [])) as [[[a c] b1]|] eqn:E; [|discriminate].
  apply build_proper in E; [|exact P].
  destruct (objs (st b1) a) as [[t|n|n l|d l]|] eqn:O; try discriminate.
  - injection H as <- <-. apply destroy_proper. intros y k. cbn. intros K.
    apply (put_proper z (Some (OLeaf t)) (st b1) E ltac:(discriminate) y k). exact K.
  - destruct (copy_node n b1) as [n' b2] eqn:C. injection H as <- <-. apply destroy_proper, put_proper.
    + intros y k K. apply (E y k). pose proof (copy_objs n b1) as Q. rewrite C in Q. cbn in Q. congruence.
    + intros m [= <-]. pose proof (copy_by_ref n b1) as Q. rewrite C in Q. cbn in Q. rewrite Q. exact (E a n O).
  - destruct (copy_node n b1) as [n' b2] eqn:C. injection H as <- <-. apply destroy_proper, put_proper.
    + intros y k K. apply (E y k). pose proof (copy_objs n b1) as Q. rewrite C in Q. cbn in Q. congruence.
    + discriminate.
  - injection H as <- <-. apply destroy_proper, put_proper; auto. discriminate.
Qed.
Lemma runs_proper p s z s' z' : proper s -> runs p (s, z) (s', z') -> proper s'.
Proof.
  intros P H. remember (s, z) as a eqn:Ea. remember (s', z') as b eqn:Eb. revert s z P Ea.
  induction H as [s1|x s1 z1 s2 z2 l s3 Sf Wt D _ IH|a v s1 z1 l s2 _ IH|p q s1 z1 s2 l s3 R _ IH
    |a s1 z1 l s2 F _ IH]; intros s z P Ea.
  - rewrite Ea in Eb. injection Eb as <- <-. exact P.
  - injection Ea as <- <-. eapply (IH Eb); [|reflexivity]. exact (declare_proper _ _ _ _ _ P D).
  - injection Ea as <- <-. eapply (IH Eb); [|reflexivity]. exact P.
  - injection Ea as <- <-. eapply (IH Eb); [|reflexivity]. unfold rebind in R.
    destruct (objs s1 p) as [[t|n|n l0|d l0]|]; try discriminate.
    destruct (objs s1 q) as [[t|n|n l1|d1 l1]|]; try discriminate.
    destruct (lty_eqb l0 l1); [|discriminate]. injection R as <-. apply put_proper; auto. discriminate.
  - injection Ea as <- <-. eapply (IH Eb); [|reflexivity]. apply put_proper; auto. discriminate.
Qed.

Lemma isSame_S f : forall s a b r, isSame f s a b = Some r -> isSame (S f) s a b = Some r.
Proof.
  induction f as [|f IH]; intros s a b r H; [discriminate|].
  cbn [isSame] in H. destruct (type_of f s a) as [ta|] eqn:Ta; [|discriminate].
  destruct (type_of f s b) as [tb|] eqn:Tb; [|discriminate].
  change (isSame (S (S f)) s a b) with
      (match type_of (S f) s a, type_of (S f) s b with
      | Some ta, Some tb =>
          if ctype_eq_dec ta tb then
            match parts_of s a, parts_of s b with
            | Some (PLeaf x), Some (PLeaf y) => Some (x =? y)%nat
            | Some (PProxy d), Some (PProxy d') => Some (d =? d')%nat
            | Some (PUn n), Some (PUn n') => isSame (S f) s n n'
            | Some (PBin n1 n2), Some (PBin n1' n2') =>
                match isSame (S f) s n1 n1', isSame (S f) s n2 n2' with
                | Some x, Some y => Some (x && y)
                | _, _ => None
                end
            | _, _ => None
            end
          else Some false
      | _, _ => None
      end).
  rewrite (type_of_S _ _ _ _ Ta), (type_of_S _ _ _ _ Tb).
  destruct ctype_eq_dec; [|exact H].
  destruct (parts_of s a) as [[x|d|n|n1 n2]|]; try discriminate;
    destruct (parts_of s b) as [[x'|d'|n'|n1' n2']|]; try discriminate; auto.
  destruct (isSame f s n1 n1') as [u|] eqn:E1; [|discriminate].
  destruct (isSame f s n2 n2') as [v|] eqn:E2; [|discriminate].
  now rewrite (IH _ _ _ _ E1), (IH _ _ _ _ E2).
Qed.
Lemma isSame_le f f' s a b r : (f <= f')%nat -> isSame f s a b = Some r -> isSame f' s a b = Some r.
Proof. intros L H. induction L; auto. now apply isSame_S. Qed.
Lemma outline_objs f : forall s s' n, objs s' = objs s -> outline f s' n = outline f s n.
Proof.
  induction f as [|f IH]; intros s s' n E; [reflexivity|]. destruct n; cbn; unfold is_dyn; rewrite ?E; auto.
  - destruct (objs s a) as [[t|n'|n' l|d l]|]; auto.
  - now rewrite (IH s s' _ E).
  - now rewrite !(IH s s' _ E).
Qed.

(** *** C57 *)

(** After any program, for any two live objects [a] and [b]: isSame(a, b) answers, and the
    answer is yes exactly if the two have the same C++ type and stand for the same
    operations on the same leaf objects and on proxies pointing at the same Dynamics. *)
Theorem c57_isSame_decides : forall p m s z a b, runs p (empty_state m, 0%nat) (s, z) ->
  objs s a <> None -> objs s b <> None ->
  exists ta tb ea eb,
    has_type s (NRef a) ta /\ has_type s (NRef b) tb /\
    stands s every (NRef a) ea /\ stands s every (NRef b) eb /\
    exists F, forall f, (F <= f)%nat ->
      exists r, isSame f s (NRef a) (NRef b) = Some r /\ (r = true <-> ta = tb /\ ea = eb).
Proof.
  intros p m s z a b R La Lb.
  pose proof (c26_programs _ _ _ _ _ (sound_empty m) R) as Sn.
  assert (P : proper s) by (apply (runs_proper p (empty_state m) 0%nat s z); [intros ? ?; discriminate|exact R]).
  destruct (objs s a) as [oa|] eqn:Oa; [|contradiction]. destruct (objs s b) as [ob|] eqn:Ob; [|contradiction].
  destruct (Sn a oa Oa) as ((ea0 & Sa & _) & _). destruct (Sn b ob Ob) as ((eb0 & Sb & _) & _).
  destruct (stands_type _ _ _ _ Sa) as [ta Ta]. destruct (stands_type _ _ _ _ Sb) as [tb Tb].
  destruct (stands_every _ _ _ Sa) as [ea Ea]. destruct (stands_every _ _ _ Sb) as [eb Eb].
  exists ta, tb, ea, eb. do 4 (split; [assumption|]). apply (decides s ta P); auto.
Qed.
Print Assumptions c57_isSame_decides.

(** Two expressions that are the same have the same value, whatever is assigned to leaves
    afterwards, and the same Jacobians with respect to everything, in every mode. *)
Theorem c57_same_everywhere : forall p m s z a b f0, runs p (empty_state m, 0%nat) (s, z) ->
  objs s a <> None -> objs s b <> None -> isSame f0 s (NRef a) (NRef b) = Some true ->
  exists F, forall f eps na s', (F <= f)%nat -> objs s' = objs s ->
    node_eval eps na f s' (NRef a) = node_eval eps na f s' (NRef b) /\
    (forall t, node_jacobian eps na f s' (NRef a) t = node_jacobian eps na f s' (NRef b) t) /\
    (forall t dim, node_withDynamic eps na f s' (NRef a) t dim = node_withDynamic eps na f s' (NRef b) t dim) /\
    (forall g, node_withReverse eps na g f s' (NRef a) = node_withReverse eps na g f s' (NRef b)).
Proof.
  intros p m s z a b f0 R La Lb Hs.
  destruct (c57_isSame_decides _ _ _ _ _ _ R La Lb) as (ta & tb & ea & eb & Ta & Tb & Ea & Eb & F & D).
  destruct (D (F + f0)%nat ltac:(lia)) as (r & Hr & Hi).
  apply (isSame_le f0 (F + f0)) in Hs; [|lia]. rewrite Hr in Hs. injection Hs as ->.
  destruct (proj1 Hi eq_refl) as [_ <-].
  destruct (outline_every _ _ _ Ea) as [Fa Ka]. destruct (outline_every _ _ _ Eb) as [Fb Kb].
  exists (Fa + Fb)%nat. intros f eps na s' L Os.
  assert (E : outline f s' (NRef a) = outline f s' (NRef b)).
  { rewrite !(outline_objs f s s') by exact Os. rewrite Ka, Kb by lia. reflexivity. }
  unfold node_eval, node_jacobian, node_withDynamic, node_withReverse, prepared. rewrite E. auto.
Qed.
Print Assumptions c57_same_everywhere.

(** isSame is an equivalence between live objects. *)
Definition says_same (s : state) (a b : nat) : Prop := exists f, isSame f s (NRef a) (NRef b) = Some true.

Theorem c57_equivalence : forall p m s z a b c, runs p (empty_state m, 0%nat) (s, z) ->
  objs s a <> None -> objs s b <> None -> objs s c <> None ->
  says_same s a a /\ (says_same s a b -> says_same s b a) /\
  (says_same s a b -> says_same s b c -> says_same s a c).
Proof.
  intros p m s z a b c R La Lb Lc.
  assert (K : forall x y, objs s x <> None -> objs s y <> None ->
    (says_same s x y <-> exists t e, has_type s (NRef x) t /\ has_type s (NRef y) t /\
                             stands s every (NRef x) e /\ stands s every (NRef y) e)).
  { intros x y Lx Ly. destruct (c57_isSame_decides _ _ _ _ _ _ R Lx Ly)
      as (tx & ty & ex & ey & Tx & Ty & Ex & Ey & F & D). split.
    - intros [f Hf]. destruct (D (F + f)%nat ltac:(lia)) as (r & Hr & Hi).
      apply (isSame_le f (F + f)) in Hf; [|lia]. rewrite Hr in Hf. injection Hf as ->.
      destruct (proj1 Hi eq_refl) as [<- <-]. exists tx, ex. auto.
    - intros (t & e & Tx' & Ty' & Ex' & Ey'). destruct (D F ltac:(lia)) as (r & Hr & Hi). exists F. rewrite Hr.
      f_equal. apply Hi. split.
      + rewrite (has_type_det _ _ _ _ Tx Tx'), (has_type_det _ _ _ _ Ty Ty'). reflexivity.
      + rewrite (every_det _ _ _ _ Ex Ex'), (every_det _ _ _ _ Ey Ey'). reflexivity. }
  rewrite (K a a), (K a b), (K b a), (K b c), (K a c) by assumption. repeat split.
  - destruct (c57_isSame_decides _ _ _ _ _ _ R La La) as (t & _ & e & _ & T & _ & E & _). exists t, e. auto.
  - intros (t & e & H1 & H2 & H3 & H4). exists t, e. auto.
  - intros (t & e & H1 & H2 & H3 & H4) (t' & e' & H1' & H2' & H3' & H4').
    pose proof (has_type_det _ _ _ _ H2 H1') as <-. pose proof (every_det _ _ _ _ H4 H3') as <-. exists t, e. auto.
Qed.
Print Assumptions c57_equivalence.

Lemma owns_dec n : owns_nothing n \/ ~ owns_nothing n.
Proof. induction n; cbn; tauto. Qed.
Lemma copy_temps n : forall b, temps (snd (copy_node n b)) = temps b /\ (next b <= next (snd (copy_node n b)))%nat.
Proof.
  induction n; intros b; cbn; auto.
  - specialize (IHn b). destruct (copy_node n b). exact IHn.
  - specialize (IHn1 b). destruct (copy_node n1 b) as [m b1]. specialize (IHn2 b1).
    destruct (copy_node n2 b1). cbn in *. split; [intuition congruence|lia].
Qed.
Lemma copy_owning n : forall b, owns_nothing n -> copy_node n b = (n, b).
Proof.
  induction n; intros b H; cbn in *; try contradiction; auto.
  - rewrite IHn by exact H. reflexivity.
  - rewrite IHn1 by apply H. rewrite IHn2 by apply H. reflexivity.
Qed.
Lemma copy_differs s' n : forall b e e', ~ owns_nothing n -> (forall y, In y (addrs n) -> (y < next b)%nat) ->
  stands s' every n e -> stands s' every (fst (copy_node n b)) e' -> e <> e'.
Proof.
  induction n as [i t|a|d l|o n IH|o n1 I1 n2 I2]; intros b e e' N A S1 S2; cbn in N; try tauto.
  - inversion S1; subst. cbn in S2. inversion S2; subst. intros [= E]. specialize (A i (or_introl eq_refl)). lia.
  - inversion S1; subst. cbn in S2. specialize (IH b). destruct (copy_node n b) as [n' b']. cbn in *.
    inversion S2; subst. intros [= E]. eapply IH; eauto.
  - inversion S1 as [| | | | | | | |? ? ? e1 e2 P1 P2]; subst. cbn in S2, A.
    specialize (I1 b). destruct (copy_node n1 b) as [m1 b1] eqn:C1.
    pose proof (proj2 (copy_temps n1 b)) as L. rewrite C1 in L. cbn in L.
    specialize (I2 b1). destruct (copy_node n2 b1) as [m2 b2]. cbn in *.
    inversion S2 as [| | | | | | | |? ? ? e1' e2' Q1 Q2]; subst. intros [= <- <-].
    destruct (owns_dec n1) as [O1|O1].
    + eapply I2; [tauto| |exact P2|exact Q2|reflexivity]. intros y Hy. specialize (A y). rewrite in_app_iff in A.
      specialize (A (or_intror Hy)). lia.
    + eapply I1; [exact O1| |exact P1|exact Q1|reflexivity]. intros y Hy. apply A, in_or_app. auto.
Qed.

(** A copy of an expression object is the same as the original exactly if no leaf is
    stored inside it: copies refer to the same named leaves, but get leaves of their own
    for those held by value. *)
Theorem c57_copy : forall p m s z a n s' z', runs p (empty_state m, 0%nat) (s, z) ->
  objs s a = Some (OExpr n) -> declare (SName a) z s = Some (s', z') ->
  exists F, forall f, (F <= f)%nat ->
    exists r, isSame f s' (NRef a) (NRef z) = Some r /\ (r = true <-> owns_nothing n).
Proof.
  intros p m s z a n s' z' R O D.
  pose proof (c26_programs _ _ _ _ _ (sound_empty m) R) as Sn.
  assert (R' : runs (p ++ [PDeclare (SName a)]) (empty_state m, 0%nat) (s', z')).
  { clear O Sn. revert R. generalize (empty_state m, 0%nat). intros x R. remember (s, z) as y eqn:Ey.
    induction R; cbn; try (econstructor; eauto; fail).
    subst. eapply rn_declare; [exact I| |exact D|apply rn_nil]. cbn. unfold declare in D. cbn in D.
    destruct (objs s a); [discriminate|]. discriminate. }
  assert (Az : a <> z). { intros ->. rewrite (z_empty _ _ Sn) in O. discriminate. }
  assert (Bn : forall y, In y (addrs n) -> (y < S z)%nat).
  { intros y Hy. pose proof (s_bounded s z Sn a _ y O Hy). lia. }
  unfold declare in D. cbn in D. rewrite O in D. cbn in D. rewrite O in D.
  destruct (copy_node n (B s (S z) [])) as [n' b2] eqn:C.
  pose proof (copy_temps n (B s (S z) [])) as [Tm _]. rewrite C in Tm. cbn in Tm. rewrite Tm in D. cbn in D.
  pose proof (copy_objs n (B s (S z) [])) as Co. rewrite C in Co. cbn in Co.
  injection D as <- <-.
  set (s' := put z (Some (OExpr n')) (st b2)) in *.
  assert (Oa : objs s' a = Some (OExpr n)).
  { unfold s'. cbn. unfold setf. destruct (Nat.eqb_spec a z); [contradiction|]. rewrite Co. exact O. }
  assert (Oz : objs s' z = Some (OExpr n')). { unfold s'. cbn. unfold setf. now rewrite Nat.eqb_refl. }
  destruct (c57_isSame_decides _ _ _ _ a z R' ltac:(congruence) ltac:(congruence))
    as (ta & tz & ea & ez & Ta & Tz & Ea & Ez & F & K).
  exists F. intros f L. destruct (K f L) as (r & Hr & Hi). exists r. split; [exact Hr|]. rewrite Hi.
  inversion Ea as [| ? ? Q|? k ? Q Sa|? ? ? ? Q|? ? ? ? Q| | | |]; subst; rewrite Oa in Q; try discriminate.
  injection Q as <-.
  inversion Ez as [| ? ? Q|? k ? Q Sz|? ? ? ? Q|? ? ? ? Q| | | |]; subst; rewrite Oz in Q; try discriminate.
  injection Q as <-.
  inversion Ta as [|? ? Q|? ? ? Q Tn|? ? ? ? Q|? ? ? Q| | |]; subst; rewrite Oa in Q; try discriminate.
  injection Q as <-.
  inversion Tz as [|? ? Q|? ? ? Q Tn'|? ? ? ? Q|? ? ? Q| | |]; subst; rewrite Oz in Q; try discriminate.
  injection Q as <-.
  split.
  - intros [_ E]. destruct (owns_dec n) as [N|N]; [exact N|]. exfalso.
    refine (copy_differs s' n (B s (S z) []) ea ez N Bn Sa _ E). rewrite C. exact Sz.
  - intros N. rewrite (copy_owning n _ N) in C. injection C as <- _.
    split; [exact (has_type_det _ _ _ _ Tn Tn')|exact (every_det _ _ _ _ Sa Sz)].
Qed.
Print Assumptions c57_copy.

(** *** C08 in builds with assertions *)

Lemma containsSame_iff e t : containsSame e t = true <-> In t (leaves e).
Proof.
  induction e as [l|a n J c IH|a n JL JR l I1 r I2]; cbn.
  - destruct l as [x [i d]], t as [y [j k]]. cbn. unfold ltype_eqb. cbn.
    destruct (Nat.eqb_spec i j), (Nat.eqb_spec d k); cbn; rewrite ?Nat.eqb_eq; intuition congruence.
  - exact IH.
  - rewrite orb_true_iff, in_app_iff, I1, I2. reflexivity.
Qed.

(** With assertions, jacobian() either aborts or returns the derivative with respect to
    that very object: zero for every object that does not occur.  It aborts exactly in
    the case in which it would otherwise be wrong. *)
Theorem c08_with_assertions : forall t e, wf_tree e ->
  (forall j, jacobian_asserting t e = Some (Ok j) ->
     (j == true_jacobian t e)%mat /\ (~ In t (leaves e) -> (j == mzero (edim e) (l_dim t))%mat)) /\
  (jacobian_asserting t e = None <->
     unique_types e /\ In (l_type t) (map l_type (leaves e)) /\ ~ In t (leaves e)).
Proof.
  intros t e Wf.
  assert (A : jacobian_asserting t e = None <->
     unique_types e /\ In (l_type t) (map l_type (leaves e)) /\ ~ In t (leaves e)).
  { unfold jacobian_asserting. rewrite <- containsSame_iff, <- contains_in.
    pose proof (unique_iff e) as U. unfold unique_types. destruct (unique_leaves e) as [L|].
    - destruct (contains_same_type (l_type t) e), (containsSame e t); cbn; split; try discriminate; try tauto.
      intros _. repeat split; try discriminate. apply U. eauto.
    - split; [discriminate|]. intros (H & _). apply U in H. destruct H; discriminate. }
  split; [|exact A]. intros j Hj.
  assert (E : (j == true_jacobian t e)%mat).
  { assert (~ (unique_types e /\ In (l_type t) (map l_type (leaves e)) /\ ~ In t (leaves e))) as N
      by (rewrite <- A, Hj; discriminate).
    assert (U : unique_types e \/ ~ unique_types e).
    { rewrite <- unique_iff. destruct (unique_leaves e); [left; eauto|right]. intros [? ?]. discriminate. }
    apply jacobian_sound; [exact Wf| |].
    - destruct (in_dec leaf_eq_dec t (leaves e)); tauto.
    - unfold jacobian. unfold jacobian_asserting in Hj. destruct (unique_leaves e); [|congruence].
      destruct (_ && _); congruence. }
  split; [exact E|]. intros N. rewrite E, true_jacobian_absent by exact N. reflexivity.
Qed.
Print Assumptions c08_with_assertions.

Example c08_assertion_example :
  jacobian_asserting ex_z ex_unique = None /\
  exists j, jacobian_asserting ex_x ex_unique = Some (Ok j) /\ has_shape 3 3 j.
Proof. split; [reflexivity|]. eexists. split; [reflexivity|]. split; reflexivity. Qed.

(** Example: rotations r1 (at 0) and r2 (at 2); a = r1 * r2 (at 4), b = r1 * r2 (at 6),
    c = r2 * r1 (at 8), d = -t for a temporary t (at 10), and e = a copy of d (at 15). *)
Definition same_program (v1 v2 v3 : value) : list stmt :=
  [PDeclare (STemp v1 (Plain LMat)); PDeclare (STemp v2 (Plain LMat));
   PDeclare (SBin OCompose (SName 0) (SName 2)); PDeclare (SBin OCompose (SName 0) (SName 2));
   PDeclare (SBin OCompose (SName 2) (SName 0));
   PDeclare (SUn OMinus (STemp v3 (Plain LTrans))); PDeclare (SName 10)].

Example c57_example : forall m v1 v2 v3,
  exists s z, runs (same_program v1 v2 v3) (empty_state m, 0%nat) (s, z) /\
  isSame 10 s (NRef 4) (NRef 6) = Some true /\ isSame 10 s (NRef 4) (NRef 8) = Some false /\
  isSame 10 s (NRef 0) (NRef 2) = Some false /\ isSame 10 s (NRef 4) (NRef 0) = Some false /\
  isSame 10 s (NRef 10) (NRef 15) = Some false /\ isSame 10 s (NRef 10) (NRef 10) = Some true.
Proof.
  intros m v1 v2 v3. eexists. eexists. split.
  - unfold same_program.
    do 7 (eapply rn_declare;
      [cbn; tauto|cbn [well_typed]; vm_compute; repeat split; discriminate|vm_compute; reflexivity|]).
    apply rn_nil.
  - repeat split; vm_compute; reflexivity.
Qed.
