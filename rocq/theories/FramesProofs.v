(** Proofs about framed expressions: preparation keeps frames, and frames do not
    influence values or derivatives. *)

From Coq Require Import Reals List Bool Arith Cantor Lra Lia.
From Verif Require Import Mat V3 ModelMeta ModelJac SpecJac JacProofs ModelLeaf SpecLeaf
  ModelExpr SpecExpr LeafProofs ExprProofs ModelFrames SpecFrames.
Import ListNotations.
Local Open Scope nat_scope.

Lemma frames_eqb_eq a b : frames_eqb a b = true <-> a = b.
Proof.
  destruct a as [a1 a2|a1 a2 a3], b as [b1 b2|b1 b2 b3]; cbn; split; try discriminate.
  - rewrite andb_true_iff, !Nat.eqb_eq. intros (-> & ->). reflexivity.
  - intros [= -> ->]. now rewrite !Nat.eqb_refl.
  - rewrite !andb_true_iff, !Nat.eqb_eq. intros ((-> & ->) & ->). reflexivity.
  - intros [= -> -> ->]. now rewrite !Nat.eqb_refl.
Qed.

(** No box-plus or box-minus node: they are expanded by preparation. *)
Fixpoint nobox (e : fexpr) : Prop :=
  match e with
  | FLeaf _ _ _ => True
  | FUn _ e | FLog _ e | FCast _ e => nobox e
  | FBin _ l r => nobox l /\ nobox r
  | FBoxPlus _ _ | FBoxMinus _ _ => False
  end.

Definition pspec (x : option (fexpr * ty)) (e : expr) (k : kind) (f : frames)
    (L : list (nat * ty * frames)) : Prop :=
  exists p t, x = Some (p, t) /\ prepare e = Some (erase p, t) /\ nobox p /\
    ekind (erase p) = Some k /\ frames_of p = Some f /\ wf_ty t = true /\ ty_kind t = k /\
    fleaves p = L.

Lemma can_convert_kind t t' : can_convert t t' = true -> wf_ty t = true ->
  exists l, t' = Plain l /\ kind_of l = ty_kind t.
Proof.
  unfold can_convert. destruct t' as [l|l|l]; try discriminate. intros H W. exists l.
  split; [reflexivity|]. revert H W.
  destruct t as [m|m|m]; destruct l, m; vm_compute; intros H W; try discriminate; reflexivity.
Qed.

Lemma fconvert_spec t t' p k f : can_convert t t' = true -> wf_ty t = true -> ty_kind t = k ->
  ekind (erase p) = Some k -> frames_of p = Some f -> nobox p ->
  erase (fconvert t' p) = xconvert t' (erase p) /\ nobox (fconvert t' p) /\
  ekind (erase (fconvert t' p)) = Some k /\ frames_of (fconvert t' p) = Some f /\
  fleaves (fconvert t' p) = fleaves p.
Proof.
  intros C W K Ek F N. destruct (can_convert_kind t t' C W) as (l & -> & Kl).
  assert (E2 : ekind (XUn (OConvert l) (erase p)) = Some k).
  { cbn [ekind]. rewrite Ek. cbn [kind_un]. rewrite Kl, K.
    replace (kind_eqb k k) with true by (symmetry; now apply kind_eqb_eq). reflexivity. }
  cbn [fconvert xconvert erase nobox fleaves]. repeat split; auto.
  cbn [frames_of erase]. rewrite E2, F. reflexivity.
Qed.

Lemma first_true_ok {T} (P : T -> bool) l x : first_true P l = Some x -> P x = true.
Proof.
  induction l as [|a l IH]; cbn; [discriminate|]. destruct (P a) eqn:E; [|exact IH].
  now intros [= <-].
Qed.

Lemma prep_un_spec o mk x e k f L k' f' : pspec x e k f L -> kind_un o k = Some k' ->
  (forall p, erase (mk p) = XUn o (erase p)) -> (forall p, nobox p -> nobox (mk p)) ->
  (forall p, fleaves (mk p) = fleaves p) ->
  (forall p, ekind (erase p) = Some k -> frames_of p = Some f -> frames_of (mk p) = Some f') ->
  pspec (prep_un o mk x) (XUn o e) k' f' L.
Proof.
  intros (p & t & -> & P & N & Ek & F & W & K & HL) Hk Me Mn Ml Mf.
  unfold prep_un, pspec. cbn [prepare]. rewrite P.
  pose proof (pty_un_total o t k' W) as T. rewrite K in T. specialize (T Hk).
  destruct T as (r & Hr & Wr & Kr). unfold pty_un in Hr.
  destruct (choose_unary _ _ _ _) as [[|t']|] eqn:C; [| |discriminate].
  - rewrite Hr. cbn [option_map]. exists (mk p), r. rewrite Me, Ml. repeat split; auto.
    cbn [ekind]. now rewrite Ek.
  - rewrite Hr. cbn [option_map].
    assert (CC : can_convert t t' = true).
    { unfold choose_unary in C. destruct (is_some _); [discriminate|].
      destruct (first_true _ _) as [x|] eqn:E; [|discriminate]. injection C as <-.
      apply first_true_ok in E. now apply andb_prop in E. }
    destruct (fconvert_spec t t' p k f CC W K Ek F N) as (A1 & A2 & A3 & A4 & A5).
    exists (mk (fconvert t' p)), r. rewrite Me, Ml, A1, A5. repeat split; auto.
    cbn [ekind]. rewrite <- A1, A3. exact Hk.
Qed.

Lemma prep_bin_spec o x y e1 e2 k1 k2 f1 f2 L1 L2 k' f' :
  pspec x e1 k1 f1 L1 -> pspec y e2 k2 f2 L2 -> kind_bin o k1 k2 = Some k' ->
  frames_bin o k' f1 f2 = Some f' ->
  pspec (prep_bin o x y) (XBin o e1 e2) k' f' (L1 ++ L2).
Proof.
  intros (p & t & -> & P & N & Ek & F & W & K & HL) (q & u & -> & Q & N' & Ek' & F' & W' & K' & HL')
    Hk Hf.
  unfold prep_bin, pspec. cbn [prepare]. rewrite P, Q.
  pose proof (pty_bin_total o t u k' W W') as T. rewrite K, K' in T. specialize (T Hk).
  destruct T as (r & Hr & Wr & Kr). unfold pty_bin in Hr.
  assert (Fin : forall p' q', ekind (erase p') = Some k1 -> ekind (erase q') = Some k2 ->
    frames_of p' = Some f1 -> frames_of q' = Some f2 ->
    ekind (erase (FBin o p' q')) = Some k' /\ frames_of (FBin o p' q') = Some f').
  { intros p' q' E1 E2 F1 F2. assert (X : ekind (erase (FBin o p' q')) = Some k').
    { cbn [erase ekind]. rewrite E1, E2. exact Hk. }
    split; [exact X|]. cbn [frames_of]. rewrite X, F1, F2. exact Hf. }
  destruct (choose_binary _ _ _ _ _ _) as [c|] eqn:C; [|discriminate].
  unfold choose_binary in C. destruct (is_some _) in C.
  { injection C as <-. rewrite Hr. cbn [option_map]. exists (FBin o p q), r.
    cbn [erase nobox fleaves]. rewrite HL, HL'.
    destruct (Fin p q) as (X1 & X2); auto. repeat split; auto. }
  destruct (first_true _ (convert_to u)) as [u'|] eqn:C1.
  { injection C as <-. rewrite Hr. apply first_true_ok, andb_prop in C1 as (C1 & _).
    destruct (fconvert_spec u u' q k2 f2 C1 W' K' Ek' F' N') as (A1 & A2 & A3 & A4 & A5).
    cbn [option_map]. exists (FBin o p (fconvert u' q)), r.
    destruct (Fin p (fconvert u' q)) as (X1 & X2); auto.
    cbn [erase nobox fleaves]. rewrite A1, A5, HL, HL'.
    repeat split; auto. rewrite <- A1. exact X1. }
  destruct (first_true _ (convert_to t)) as [t'|] eqn:C2.
  { injection C as <-. rewrite Hr. apply first_true_ok, andb_prop in C2 as (C2 & _).
    destruct (fconvert_spec t t' p k1 f1 C2 W K Ek F N) as (A1 & A2 & A3 & A4 & A5).
    cbn [option_map]. exists (FBin o (fconvert t' p) q), r.
    destruct (Fin (fconvert t' p) q) as (X1 & X2); auto.
    cbn [erase nobox fleaves]. rewrite A1, A5, HL, HL'.
    repeat split; auto. rewrite <- A1. exact X1. }
  destruct (first_true _ (cartesian _ _)) as [[t' u']|] eqn:C3; [|discriminate].
  injection C as <-. cbn [fst snd] in *. rewrite Hr.
  apply first_true_ok in C3. apply andb_prop in C3 as (C3 & _). apply andb_prop in C3 as (C3 & C4).
  cbn [fst snd] in C3, C4.
  destruct (fconvert_spec t t' p k1 f1 C3 W K Ek F N) as (A1 & A2 & A3 & A4 & A5).
  destruct (fconvert_spec u u' q k2 f2 C4 W' K' Ek' F' N') as (B1 & B2 & B3 & B4 & B5).
  cbn [option_map]. exists (FBin o (fconvert t' p) (fconvert u' q)), r.
  destruct (Fin (fconvert t' p) (fconvert u' q)) as (X1 & X2); auto.
  cbn [erase nobox fleaves]. rewrite A1, B1, A5, B5, HL, HL'.
  repeat split; auto. rewrite <- A1, <- B1. exact X1.
Qed.

Lemma frames_of_kind e f : frames_of e = Some f -> exists k, ekind (erase e) = Some k.
Proof. destruct e; cbn [frames_of]; destruct (ekind _); try discriminate; eauto. Qed.

Lemma frames_of_fit e : forall f k, frames_of e = Some f -> ekind (erase e) = Some k ->
  frames_fit k f = true.
Proof.
  assert (W2 : forall k l r f, wrap2 k l r = Some f -> frames_fit k f = true).
  { intros k l r f. unfold wrap2. destruct (has_three_decorators k) eqn:E; [discriminate|].
    intros [= <-]. cbn. now rewrite E. }
  assert (W3 : forall k l m r f, wrap3 k l m r = Some f -> frames_fit k f = true).
  { intros k l m r f. unfold wrap3. destruct (has_three_decorators k) eqn:E;
      [|destruct (l =? m); [|discriminate]]; intros [= <-]; cbn; now rewrite E. }
  assert (U : forall k, frames_fit k (unframed k) = true) by (intros []; reflexivity).
  induction e as [a t g|o e IH|o l IHl r IHr|x e IH|g e IH|l IHl r IHr|l IHl r IHr];
    intros f k H Ek; cbn [frames_of] in H; rewrite Ek in H.
  - destruct (frames_fit k g) eqn:E; [now injection H as <-|discriminate].
  - destruct (frames_of e) as [g|] eqn:Fe; [|discriminate].
    destruct (frames_of_kind e g Fe) as (k' & Ek'). pose proof (IH g k' eq_refl Ek') as Fit.
    cbn [erase ekind] in Ek. rewrite Ek' in Ek.
    destruct o; cbn [frames_un] in H; try (eapply W2; exact H); try (eapply W3; exact H);
      try (injection H as <-; apply U).
    injection H as <-. cbn [kind_un] in Ek. destruct (kind_eqb _ _); [|discriminate].
    now injection Ek as <-.
  - destruct (frames_of l) as [a|]; [|discriminate]. destruct (frames_of r) as [b|]; [|discriminate].
    destruct o; cbn [frames_bin] in H;
      repeat match type of H with (if ?c then _ else _) = _ => destruct c end;
      try discriminate; try (eapply W2; exact H); try (eapply W3; exact H);
      injection H as <-; apply U.
  - destruct (frames_of e); [|discriminate]. eapply W3; exact H.
  - destruct (frames_of e); [|discriminate]. destruct (frames_fit k g) eqn:E; [|discriminate].
    now injection H as <-.
  - destruct (frames_of l) as [a|]; [|discriminate]. destruct (frames_of r) as [b|]; [|discriminate].
    destruct (_ && _); [|discriminate]. destruct (frames_un _ _ _); [|discriminate].
    cbn [frames_bin] in H. destruct (_ =? _); [|discriminate]. eapply W2; exact H.
  - destruct (frames_of l) as [a|]; [|discriminate]. destruct (frames_of r) as [b|]; [|discriminate].
    destruct (ekind (erase l)); [|discriminate].
    destruct (_ && _); [|discriminate]. destruct (frames_un _ _ _); [|discriminate].
    destruct (frames_bin _ _ _ _); [|discriminate]. eapply W3; exact H.
Qed.

Theorem fprepare_spec e : forall f k, frames_of e = Some f -> ekind (erase e) = Some k ->
  pspec (fprepare e) (erase e) k f (fleaves e).
Proof.
  induction e as [a t g|o e IH|o l IHl r IHr|x e IH|g e IH|l IHl r IHr|l IHl r IHr];
    intros f k H Ek; pose proof H as H0; cbn [frames_of] in H; rewrite Ek in H.
  - destruct (frames_fit k g) eqn:E; [|discriminate]. injection H as <-.
    exists (FLeaf a t g), t. cbn [erase ekind] in Ek |- *.
    destruct (wf_ty t) eqn:W; [|discriminate]. injection Ek as <-.
    cbn [fprepare prepare nobox fleaves]. repeat split; auto.
  - destruct (frames_of e) as [g|] eqn:Fe; [|discriminate].
    destruct (frames_of_kind e g Fe) as (k' & Ek').
    pose proof (IH g k' eq_refl Ek') as S. cbn [erase ekind] in Ek. rewrite Ek' in Ek.
    cbn [fprepare erase fleaves].
    eapply (prep_un_spec o (FUn o)); [exact S|exact Ek|auto..].
    intros p Ep Fp. cbn [frames_of erase ekind]. now rewrite Ep, Ek, Fp.
  - destruct (frames_of l) as [a|] eqn:Fl; [|discriminate].
    destruct (frames_of r) as [b|] eqn:Fr; [|discriminate].
    destruct (frames_of_kind l a Fl) as (k1 & E1). destruct (frames_of_kind r b Fr) as (k2 & E2).
    cbn [erase ekind] in Ek. rewrite E1, E2 in Ek. cbn [fprepare erase fleaves].
    eapply prep_bin_spec; [exact (IHl _ _ eq_refl E1)|exact (IHr _ _ eq_refl E2)|exact Ek|exact H].
  - destruct (frames_of e) as [g|] eqn:Fe; [|discriminate].
    destruct (frames_of_kind e g Fe) as (k' & Ek').
    pose proof (IH g k' eq_refl Ek') as S. cbn [erase ekind] in Ek. rewrite Ek' in Ek.
    cbn [fprepare erase fleaves].
    eapply (prep_un_spec OLogMap (FLog x)); [exact S|exact Ek|auto..].
    intros p Ep Fp. cbn [frames_of erase ekind]. now rewrite Ep, Ek, Fp.
  - destruct (frames_of e) as [h|] eqn:Fe; [|discriminate].
    destruct (frames_fit k g) eqn:E; [|discriminate]. injection H as <-.
    cbn [erase] in Ek |- *.
    destruct (IH h k eq_refl Ek) as (p & t & P1 & P2 & P3 & P4 & P5 & P6 & P7 & P8).
    exists (FCast g p), t. cbn [fprepare erase nobox fleaves frames_of].
    rewrite P1, P4, P5, E. repeat split; auto.
  - destruct (frames_of l) as [a|] eqn:Fl; [|discriminate].
    destruct (frames_of r) as [b|] eqn:Fr; [|discriminate].
    destruct (frames_of_kind l a Fl) as (k1 & E1). destruct (frames_of_kind r b Fr) as (k2 & E2).
    cbn [erase] in Ek |- *. unfold XBoxPlus in *. cbn [ekind] in Ek. rewrite E1, E2 in Ek.
    destruct (kind_un OExpMap k2) as [k3|] eqn:E3; [|discriminate].
    assert (k3 = k1 /\ k = k1) as (-> & ->).
    { cbn in Ek. destruct k1, k3; try discriminate; injection Ek as <-; auto. }
    destruct (_ && _); [|discriminate].
    destruct (frames_un OExpMap k1 b) as [x|] eqn:Fx; [|discriminate].
    cbn [fprepare fleaves].
    eapply prep_bin_spec; [exact (IHl _ _ eq_refl E1)| |exact Ek|exact H].
    eapply (prep_un_spec OExpMap (FUn OExpMap)); [exact (IHr _ _ eq_refl E2)|exact E3|auto..].
    intros p Ep Fp. cbn [frames_of erase ekind]. now rewrite Ep, E3, Fp.
  - destruct (frames_of l) as [a|] eqn:Fl; [|discriminate].
    destruct (frames_of r) as [b|] eqn:Fr; [|discriminate].
    destruct (frames_of_kind l a Fl) as (k1 & E1). destruct (frames_of_kind r b Fr) as (k2 & E2).
    rewrite E1 in H.
    cbn [erase] in Ek |- *. unfold XBoxMinus in *. cbn [ekind] in Ek. rewrite E1, E2 in Ek.
    destruct (kind_un OInverse k2) as [k3|] eqn:E3; [|discriminate].
    destruct (kind_bin OCompose k1 k3) as [k4|] eqn:E4; [|discriminate].
    assert (k3 = k1 /\ k4 = k1) as (-> & ->).
    { cbn in E4. destruct k1, k3; try discriminate; injection E4 as <-; auto. }
    destruct (_ && _); [|discriminate].
    destruct (frames_un OInverse k1 b) as [i|] eqn:Fi; [|discriminate].
    destruct (frames_bin OCompose k1 a i) as [c|] eqn:Fc; [|discriminate].
    cbn [fprepare fleaves]. rewrite Fr.
    eapply (prep_un_spec OLogMap (FLog (RightFrameOf b))); [|exact Ek|auto..].
    + eapply prep_bin_spec; [exact (IHl _ _ eq_refl E1)| |exact E4|exact Fc].
      eapply (prep_un_spec OInverse (FUn OInverse)); [exact (IHr _ _ eq_refl E2)|exact E3|auto..].
      intros p Ep Fp. cbn [frames_of erase ekind]. now rewrite Ep, E3, Fp.
    + intros p Ep Fp. cbn [frames_of erase ekind]. now rewrite Ep, Ek, Fp.
Qed.

Lemma feval_p_erase eps m p : nobox p -> feval_p eps m p = eval_p eps m (erase p).
Proof.
  induction p; cbn; intros N; try contradiction; auto.
  - now rewrite IHp.
  - destruct N as (A & B). now rewrite IHp1, IHp2.
  - now rewrite IHp.
Qed.

Theorem fprepare_to_spec e f k l : frames_of e = Some f -> ekind (erase e) = Some k ->
  kind_of l = k ->
  exists p, fprepare_to (Plain l) e = Some (p, Plain l) /\
    prepare_to (Plain l) (erase e) = Some (erase p, Plain l) /\ nobox p /\
    frames_of p = Some f /\ fleaves p = fleaves e.
Proof.
  intros F Ek Kl. destruct (fprepare_spec e f k F Ek) as (p & t & P1 & P2 & P3 & P4 & P5 & P6 & P7 & P8).
  unfold fprepare_to, prepare_to. rewrite P1, P2. destruct (ty_eqb (Plain l) t) eqn:D.
  - apply ty_eqb_eq in D. subst t. exists p. auto.
  - assert (E' : ekind (erase (FUn (OConvert l) e)) = Some k).
    { cbn [erase ekind]. rewrite Ek. cbn [kind_un]. rewrite Kl.
      replace (kind_eqb k k) with true by (symmetry; now apply kind_eqb_eq). reflexivity. }
    assert (F' : frames_of (FUn (OConvert l) e) = Some f)
      by (cbn [frames_of]; rewrite E', F; reflexivity).
    destruct (fprepare_spec _ f k F' E') as (q & u & Q1 & Q2 & Q3 & Q4 & Q5 & Q6 & Q7 & Q8).
    rewrite Q1. cbn [erase] in Q2. rewrite Q2.
    assert (u = Plain l).
    { pose proof (prepare_un (OConvert l) (erase e) _ _ P2) as P. rewrite Q2 in P. cbn in P.
      symmetry in P. apply pty_convert_kind in P; [tauto|exact P6]. }
    subst u. exists q. auto.
Qed.

Theorem feval_erase eps m e v f : feval eps m e = Some (v, f) <->
  frames_of e = Some f /\ eval eps m (erase e) = Some v.
Proof.
  unfold feval, eval, evaluateTo. destruct (frames_of e) as [f0|] eqn:F.
  2:{ split; [discriminate|intros (H & _); discriminate]. }
  destruct (frames_of_kind e f0 F) as (k & Ek).
  destruct (fprepare_spec e f0 k F Ek) as (p & t & P1 & P2 & P3 & P4 & P5 & P6 & P7 & P8).
  rewrite P1, P2. unfold plain_output.
  destruct (fprepare_to_spec e f0 k (ty_leaf t) F Ek P7) as (q & Q1 & Q2 & Q3 & Q4 & Q5).
  rewrite Q1, Q2, Q4. rewrite feval_p_erase by exact Q3.
  destruct (eval_p eps m (erase q)) as [w|].
  - rewrite (proj2 (frames_eqb_eq f0 f0) eq_refl). split.
    + intros [= <- <-]. auto.
    + intros ([= ->] & [= ->]). reflexivity.
  - split; [discriminate|intros (_ & H); discriminate].
Qed.

(** ** Derivatives *)
Local Open Scope mat_scope.

Definition fobj (x : nat * ty * frames) : leaf := fleaf_obj (fst (fst x)) (snd (fst x)) (snd x).
Definition uobj (x : nat * ty * frames) : leaf := leaf_obj (fst (fst x)) (snd (fst x)).

(** The framed tree: the unframed one with relabelled leaves and identity nodes. *)
Inductive frel : etree -> etree -> list (nat * ty * frames) -> Prop :=
| frel_leaf x : frel (ELeaf (fobj x)) (ELeaf (uobj x)) [x]
| frel_un na n J c' c L : frel c' c L -> frel (EUn na n J c') (EUn na n J c) L
| frel_bin na n JL JR l' l r' r L1 L2 : frel l' l L1 -> frel r' r L2 ->
    frel (EBin na n JL JR l' r') (EBin na n JL JR l r) (L1 ++ L2)
| frel_id na n c' c L : frel c' c L -> edim c = n -> (0 < n)%nat ->
    frel (EUn na n (mid n) c') c L.

Lemma frel_edim a b L : frel a b L -> edim a = edim b.
Proof. induction 1; cbn; auto. Qed.

Lemma frel_wf a b L : frel a b L -> wf_tree b -> wf_tree a.
Proof.
  induction 1 as [x|na n J c' c L H IH|na n JL JR l' l r' r L1 L2 H1 IH1 H2 IH2|na n c' c L H IH E P];
    cbn [wf_tree]; intros W.
  - exact W.
  - rewrite (frel_edim _ _ _ H). intuition.
  - rewrite (frel_edim _ _ _ H1), (frel_edim _ _ _ H2). intuition.
  - rewrite (frel_edim _ _ _ H), E. repeat split; auto.
Qed.

Definition occ_rel (n : nat) (p' : leaf * mat) (p : leaf * mat) (x : nat * ty * frames) : Prop :=
  fst p' = fobj x /\ fst p = uobj x /\ snd p' == snd p /\ has_shape n (l_dim (fst p)) (snd p).

Inductive F3l {A B C} (R : A -> B -> C -> Prop) : list A -> list B -> list C -> Prop :=
| F3nil : F3l R [] [] []
| F3cons a b c la lb lc : R a b c -> F3l R la lb lc -> F3l R (a :: la) (b :: lb) (c :: lc).

Lemma F3_map {A B C} (R S : A -> B -> C -> Prop) f g la lb lc :
  (forall a b c, R a b c -> S (f a) (g b) c) -> F3l R la lb lc -> F3l S (map f la) (map g lb) lc.
Proof. intros H. induction 1; cbn; constructor; auto. Qed.
Lemma F3_map1 {A B C} (R S : A -> B -> C -> Prop) f la lb lc :
  (forall a b c, R a b c -> S (f a) b c) -> F3l R la lb lc -> F3l S (map f la) lb lc.
Proof. intros H. induction 1; cbn; constructor; auto. Qed.
Lemma F3_app {A B C} (R : A -> B -> C -> Prop) la lb lc la' lb' lc' :
  F3l R la lb lc -> F3l R la' lb' lc' -> F3l R (la ++ la') (lb ++ lb') (lc ++ lc').
Proof. induction 1; cbn; auto. intros. constructor; auto. Qed.

Lemma frel_occ a b L : frel a b L -> wf_tree b ->
  F3l (occ_rel (edim b)) (occurrences a) (occurrences b) L.
Proof.
  induction 1 as [x|na n J c' c L H IH|na n JL JR l' l r' r L1 L2 H1 IH1 H2 IH2|na n c' c L H IH E P];
    cbn [wf_tree occurrences edim]; intros W.
  - constructor; [|constructor]. do 3 (split; [reflexivity|]). split; reflexivity.
  - destruct W as (W1 & W2 & W3). apply (F3_map (occ_rel (edim c))); [|apply IH, W3].
    intros p' p x (R1 & R2 & R3 & R4). split; [exact R1|]. split; [exact R2|]. cbn [fst snd].
    split; [now rewrite R3|]. split; [apply W2|apply R4].
  - destruct W as (W1 & W2 & W3 & W4 & W5). apply F3_app.
    + apply (F3_map (occ_rel (edim l))); [|apply IH1, W4].
      intros p' p x (R1 & R2 & R3 & R4). split; [exact R1|]. split; [exact R2|]. cbn [fst snd].
      split; [now rewrite R3|]. split; [apply W2|apply R4].
    + apply (F3_map (occ_rel (edim r))); [|apply IH2, W5].
      intros p' p x (R1 & R2 & R3 & R4). split; [exact R1|]. split; [exact R2|]. cbn [fst snd].
      split; [now rewrite R3|]. split; [apply W3|apply R4].
  - apply (F3_map1 (occ_rel (edim c))); [|apply IH, W].
    intros p' p x (R1 & R2 & R3 & R4). split; [exact R1|]. split; [exact R2|]. cbn [fst snd].
    split; [|exact R4]. rewrite R3. apply mmul_mid_l. symmetry. rewrite <- E. apply R4.
Qed.

Lemma ty_code_inj t u : ty_code t = ty_code u -> t = u.
Proof.
  destruct t as [l|l|l], u as [m|m|m]; destruct l, m; cbn; intros H; try discriminate;
    reflexivity.
Qed.

Lemma frames_code_inj f g : frames_code f = frames_code g -> f = g.
Proof.
  assert (I : forall x y, to_nat x = to_nat y -> x = y).
  { intros x y H. rewrite <- (cancel_of_to x), <- (cancel_of_to y). now f_equal. }
  unfold frames_code. destruct f as [a b|a b c], g as [a' b'|a' b' c']; intros H.
  - assert (H' : to_nat (a, b) = to_nat (a', b')) by lia. apply I in H'. congruence.
  - lia.
  - lia.
  - assert (H' : to_nat (a, to_nat (b, c)) = to_nat (a', to_nat (b', c'))) by lia.
    apply I in H'. pose proof (f_equal fst H') as Q1. pose proof (f_equal snd H') as Q2.
    change (a = a') in Q1. change (to_nat (b, c) = to_nat (b', c')) in Q2.
    apply I in Q2. congruence.
Qed.

Lemma fobj_inj x y : fobj x = fobj y -> x = y.
Proof.
  assert (I : forall x y, to_nat x = to_nat y -> x = y).
  { intros u v H. rewrite <- (cancel_of_to u), <- (cancel_of_to v). now f_equal. }
  destruct x as [[a t] f], y as [[b u] g]. unfold fobj, fleaf_obj. cbn [fst snd].
  intros H.
  pose proof (f_equal l_addr H) as H1. cbn [l_addr] in H1.
  pose proof (f_equal (fun l => ty_id (l_type l)) H) as H2. cbn [l_type ty_id] in H2.
  apply I in H2. pose proof (f_equal snd H2) as H3. apply (f_equal fst) in H2.
  change (ty_code t = ty_code u) in H2. change (frames_code f = frames_code g) in H3.
  apply ty_code_inj in H2. apply frames_code_inj in H3.
  congruence.
Qed.

Lemma uobj_inj x y : uobj x = uobj y -> fst x = fst y.
Proof.
  destruct x as [[a t] f], y as [[b u] g]. unfold uobj, leaf_obj. cbn [fst snd].
  intros H.
  pose proof (f_equal l_addr H) as H1. cbn [l_addr] in H1.
  pose proof (f_equal (fun l => ty_id (l_type l)) H) as H2. cbn [l_type ty_id] in H2.
  apply ty_code_inj in H2. congruence.
Qed.

Lemma frel_true_jacobian a b L x : frel a b L -> wf_tree b -> In x L ->
  (forall y, In y L -> fst y = fst x -> y = x) ->
  true_jacobian (fobj x) a == true_jacobian (uobj x) b.
Proof.
  intros H W Hx U. unfold true_jacobian. rewrite (frel_edim _ _ _ H).
  pose proof (frel_occ a b L H W) as O. clear Hx H W.
  change (l_dim (fobj x)) with (l_dim (uobj x)).
  set (n := edim b) in *. clearbody n. revert U.
  induction O as [|p' p y la lb lc (R1 & R2 & R3 & R4) O IH]; intros U; [reflexivity|].
  assert (U' : forall z, In z lc -> fst z = fst x -> z = x) by (intros z Hz; apply U; now right).
  specialize (IH U'). cbn [filter]. rewrite R1, R2.
  destruct (leaf_eq_dec (fobj y) (fobj x)) as [E1|E1];
    destruct (leaf_eq_dec (uobj y) (uobj x)) as [E2|E2].
  - cbn [map]. unfold msum in *. cbn [fold_right]. now rewrite R3, IH.
  - apply fobj_inj in E1. subst y. contradiction.
  - exfalso. apply E1. f_equal. apply U; [now left|]. now apply uobj_inj.
  - exact IH.
Qed.

Lemma frel_leaves a b L : frel a b L -> leaves a = map fobj L /\ leaves b = map uobj L.
Proof.
  induction 1; cbn; auto.
  destruct IHfrel1 as (-> & ->), IHfrel2 as (-> & ->). now rewrite !map_app.
Qed.

(** The tree the Jacobian evaluators build for a framed expression. *)
Lemma ftree_erase eps na m p : nobox p -> (forall y, In y (fleaves p) -> vty (m (fst (fst y))) = snd (fst y)) ->
  (forall v, (0 < vdim v)%nat) ->
  match tree eps na m (erase p) with
  | Some (v, T) => edim T = vdim v /\ exists T', ftree eps na m p = Some (v, T') /\ frel T' T (fleaves p)
  | None => ftree eps na m p = None
  end.
Proof.
  intros N E Pos. induction p as [a t f|o p IH|o l IHl r IHr|x p IH|f p IH| | ];
    cbn [nobox fleaves erase tree ftree] in *; try contradiction.
  - split; [pose proof (E (a, t, f) (or_introl eq_refl)) as Q; cbn [fst snd] in Q;
            unfold vdim, vkind; rewrite Q; reflexivity|].
    eexists. split; [reflexivity|]. apply (frel_leaf (a, t, f)).
  - specialize (IH N E). destruct (tree eps na m (erase p)) as [[v T]|]; [|now rewrite IH].
    destruct IH as (D & T' & -> & R). destruct (sem_un eps o v); [|reflexivity].
    split; [reflexivity|]. eexists. split; [reflexivity|]. now constructor.
  - destruct N as (N1 & N2).
    assert (E1 : forall y, In y (fleaves l) -> vty (m (fst (fst y))) = snd (fst y))
      by (intros y Hy; apply E, in_app_iff; auto).
    assert (E2 : forall y, In y (fleaves r) -> vty (m (fst (fst y))) = snd (fst y))
      by (intros y Hy; apply E, in_app_iff; auto).
    specialize (IHl N1 E1). specialize (IHr N2 E2).
    destruct (tree eps na m (erase l)) as [[v T]|]; [|now rewrite IHl].
    destruct IHl as (D & T' & -> & R).
    destruct (tree eps na m (erase r)) as [[w S]|]; [|now rewrite IHr].
    destruct IHr as (D2 & S' & -> & R2). destruct (sem_bin o v w); [|reflexivity].
    split; [reflexivity|]. eexists. split; [reflexivity|]. now constructor.
  - specialize (IH N E). destruct (tree eps na m (erase p)) as [[v T]|]; [|now rewrite IH].
    destruct IH as (D & T' & -> & R). destruct (sem_un eps OLogMap v); [|reflexivity].
    split; [reflexivity|]. eexists. split; [reflexivity|]. now constructor.
  - specialize (IH N E). destruct (tree eps na m (erase p)) as [[v T]|]; [|now rewrite IH].
    destruct IH as (D & T' & -> & R). split; [exact D|].
    eexists. split; [reflexivity|]. constructor; auto.
Qed.
