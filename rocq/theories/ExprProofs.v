(** Proofs about preparation and evaluation of expressions. *)

From Coq Require Import Reals Lra List Bool Arith Ratan.
From Verif Require Import Mat V3 ModelMeta ModelLeaf SpecLeaf LeafProofs ModelExpr SpecExpr.
Import ListNotations.
Local Open Scope R_scope.

Lemma valid_dkind v : valid v -> dkind (den v) = vkind v.
Proof.
  destruct v as [| | | | | | | | | |l|l]; cbn; try reflexivity; destruct l; cbn; intuition.
Qed.

Lemma kind_eqb_eq a b : kind_eqb a b = true <-> a = b.
Proof. destruct a, b; cbn; intuition congruence. Qed.
Lemma lty_eqb_eq a b : lty_eqb a b = true <-> a = b.
Proof. destruct a, b; cbn; intuition congruence. Qed.
Lemma ty_eqb_eq a b : ty_eqb a b = true <-> a = b.
Proof.
  destruct a as [a|a|a], b as [b|b|b]; cbn; try (split; discriminate);
    rewrite lty_eqb_eq; intuition congruence.
Qed.

Lemma convert_sound to v t : ty_un (OConvert to) (vty v) = Some t -> valid v ->
  exists r, sem_convert to v = Some r /\ den r = den v /\ vty r = t /\ valid r.
Proof.
  intros Ht Hv.
  destruct to; destruct v as [| | | | |q|m|a ax|m t0 r c|q t0|l|l]; cbn in Ht;
    try discriminate Ht; try (destruct l; cbn in Ht; try discriminate Ht);
    try (injection Ht as <-); cbn in *;
    try (eexists; split; [reflexivity|]; split; [reflexivity|]; split; [reflexivity|];
         solve [exact Hv|exact I|contradiction]);
    try contradiction.
  - destruct (q_of_mat_correct m Hv) as (U & E). eexists; split; [reflexivity|]. cbn.
    rewrite E. auto.
  - destruct (q_of_mat_correct (aa_rot a ax) (aa_rot_is_rot _ _ Hv)) as (U & E).
    eexists; split; [reflexivity|]. cbn. rewrite E. auto.
  - eexists; split; [reflexivity|]. cbn. rewrite qrot_one. auto using unitq_one.
  - eexists; split; [reflexivity|]. cbn. auto using qrot_is_rot.
  - eexists; split; [reflexivity|]. cbn. auto using aa_rot_is_rot.
  - eexists; split; [reflexivity|]. cbn. auto using is_rot_i.
  - destruct (aa_of_q_correct q Hv) as (U & E). destruct (aa_of_q q) as [a ax]. cbn in *.
    eexists; split; [reflexivity|]. cbn. rewrite E. auto.
  - destruct (q_of_mat_correct m Hv) as (Uq & Eq).
    destruct (aa_of_q_correct (q_of_mat m) Uq) as (U & E).
    destruct (aa_of_q (q_of_mat m)) as [a ax]. cbn in *.
    eexists; split; [reflexivity|]. cbn. rewrite E, Eq. auto.
  - eexists; split; [reflexivity|]. cbn. rewrite aa_rot_0. repeat split.
    unfold unitv. v3unf. ring.
  - eexists; split; [reflexivity|]. cbn. auto using qrot_is_rot.
  - eexists; split; [reflexivity|]. cbn. rewrite qrot_one. auto using is_rot_i.
  - destruct Hv as (Hm & _ & _). destruct (q_of_mat_correct m Hm) as (U & E).
    eexists; split; [reflexivity|]. cbn. rewrite E. auto.
  - eexists; split; [reflexivity|]. cbn. rewrite qrot_one. auto using unitq_one.
Qed.

Lemma coord_den v i : valid v -> coord v i = dcoord (den v) i.
Proof.
  destruct v as [| | | | | | | | | |l|l]; cbn; try reflexivity; destruct l; cbn; intuition;
    destruct i as [|[|[|i]]]; cbn; try reflexivity.
  destruct i as [|[|[|i]]]; reflexivity.
Qed.

Lemma rsum_ext' n f g : (forall i, f i = g i) -> rsum n f = rsum n g.
Proof. intros H. apply rsum_ext. auto. Qed.

Lemma norm2_den v : valid v -> norm2_of v = dnorm2 (den v).
Proof.
  intros H. unfold norm2_of, dnorm2. rewrite valid_dkind by exact H. unfold vdim.
  apply rsum_ext'. intros i. now rewrite coord_den.
Qed.

Lemma mkvec_den l f : affine_kind (kind_of l) = true ->
  exists r, mkvec l f = Some r /\ mkd (kind_of l) f = Some (den r) /\ vty r = Plain l /\ valid r.
Proof.
  destruct l; cbn; intros H; try discriminate; eexists; (split; [reflexivity|]); cbn; auto.
Qed.

Lemma mkvec_ext l f g : (forall i, f i = g i) -> mkvec l f = mkvec l g.
Proof. intros H. unfold mkvec. now rewrite !H. Qed.
Lemma mkd_ext l f g : (forall i, f i = g i) -> mkd l f = mkd l g.
Proof. intros H. unfold mkd. now rewrite !H. Qed.

Lemma mkvec_sound l f k : affine_kind (kind_of l) = true -> k = kind_of l ->
  option_map den (mkvec l f) = mkd k f /\
  forall r, mkvec l f = Some r -> vty r = Plain l /\ valid r.
Proof.
  intros H ->. destruct (mkvec_den l f H) as (r & -> & E & T & V). cbn. rewrite E. split; auto.
  intros r' [= <-]. auto.
Qed.

Lemma mkd_self d : affine_kind (dkind d) = true -> mkd (dkind d) (dcoord d) = Some d.
Proof. destruct d as [| [] | [] | [] | [] [] | |]; cbn; intros; try discriminate; reflexivity. Qed.

Definition sound (x : option value) (y : option dval) (t : ty) : Prop :=
  option_map den x = y /\ forall r, x = Some r -> vty r = t /\ valid r.

Lemma sound_some r d t : den r = d -> vty r = t -> valid r -> sound (Some r) (Some d) t.
Proof. intros <- <- Hv. split; [reflexivity|]. intros r' [= <-]. auto. Qed.
Lemma sound_none t : sound None None t.
Proof. split; [reflexivity|discriminate]. Qed.

Section S.
  Variable eps : R.
  Hypothesis eps_pos : 0 <= eps.

  Lemma vec_affine k : vec_kind k = true -> affine_kind k = true.
  Proof. destruct k; cbn; auto. Qed.
  Lemma col_affine k : col_kind k = true -> affine_kind k = true.
  Proof. destruct k; cbn; auto. Qed.

  Lemma un_sound o v t : ty_un o (vty v) = Some t -> valid v ->
    (o = OExpMap -> exp_exact eps (den v)) ->
    sound (sem_un eps o v) (dsem_un eps o (den v)) t.
  Proof.
    intros Ht Hv Hexp. destruct o.
    - (* Inverse *)
      destruct v as [| | | | |q|m|a ax|m t0 r c|q t0|l|l]; cbn in Ht; try discriminate Ht;
        injection Ht as <-; cbn in Hv |- *.
      + apply sound_some; cbn; [now rewrite qrot_conj|reflexivity|now apply unitq_conj].
      + apply sound_some; cbn; [reflexivity|reflexivity|now apply is_rot_tr].
      + apply sound_some; cbn; [now rewrite aa_rot_opp|reflexivity|exact Hv].
      + destruct Hv as (Hm & -> & ->).
        apply sound_some; cbn; auto using is_rot_tr.
      + apply sound_some; cbn; [now rewrite qact_rot, qrot_conj|reflexivity|now apply unitq_conj].
      + destruct (kind_of l) eqn:K; try contradiction; cbn; apply sound_some; cbn;
          rewrite ?K; try reflexivity; try exact I.
        rewrite app3_0. f_equal. v3ring.
    - (* LogMap *)
      destruct v as [| | | | |q|m|a ax|m t0 r c|q t0|l|l]; cbn in Ht; try discriminate Ht;
        injection Ht as <-; cbn in Hv |- *.
      + destruct (log_mat eps m); [apply sound_some; cbn; auto|apply sound_none].
      + destruct (rt_log eps m t0); [apply sound_some; cbn; auto|apply sound_none].
      + destruct (rt_log eps (qrot q) t0); [apply sound_some; cbn; auto|apply sound_none].
      + destruct l; cbn in *; try contradiction; try (rewrite log_i by exact eps_pos);
          try (apply sound_some; cbn; auto).
        * pose proof (rt_log_exp_0 eps v0 eps_pos) as R. rewrite so3_exp_0, so3_V_0, app3_i in R.
          rewrite R. apply sound_some; cbn; auto.
        * pose proof (rt_log_exp_0 eps v0 eps_pos) as R. rewrite so3_exp_0, so3_V_0, app3_i in R.
          rewrite R. apply sound_some; cbn; auto.
    - (* ExpMap *)
      specialize (Hexp eq_refl).
      destruct v as [| |w| |w u|q|m|a ax|m t0 r c|q t0|l|l]; cbn in Ht; try discriminate Ht.
      + injection Ht as <-. cbn in *. destruct (exp_quat_correct eps w eps_pos Hexp) as (U & E).
        apply sound_some; cbn; [now rewrite E|reflexivity|exact U].
      + injection Ht as <-. cbn in *. rewrite (twist_exp_correct eps w u eps_pos Hexp). cbn.
        apply sound_some; cbn; auto using so3_exp_is_rot.
      + destruct l; try discriminate Ht; injection Ht as <-; cbn in *.
        * apply sound_some; cbn; [now rewrite so3_exp_0|reflexivity|exact I].
        * apply sound_some; cbn; [now rewrite so3_exp_0, so3_V_0, app3_0|reflexivity|exact I].
    - (* Minus *)
      destruct v as [s|w|w|w|w u|q|m|a ax|m t0 r c|q t0|l|l]; cbn in Ht; try discriminate Ht;
        injection Ht as <-; cbn in Hv |- *; try (apply sound_some; cbn; auto; fail).
      destruct l; cbn in *; try contradiction; apply sound_some; cbn; auto;
        unfold v0; repeat f_equal; ring.
    - (* SquaredNorm *)
      assert (Hk : col_kind (vkind v) = true /\ t = Plain LScalar).
      { revert Ht. unfold vkind, ty_kind. cbn. destruct (vty v) as [l|l|l]; cbn; try discriminate;
          destruct (col_kind (kind_of l)); try discriminate; intros [= <-]; auto. }
      destruct Hk as (Hk & ->).
      assert (E : sem_un eps OSquaredNorm v = Some (VScalar (norm2_of v))).
      { destruct v; cbn [sem_un]; now rewrite Hk. }
      rewrite E. cbn [dsem_un]. rewrite valid_dkind by exact Hv. rewrite Hk.
      rewrite norm2_den by exact Hv. apply sound_some; cbn; auto.
    - (* Norm *)
      assert (Hk : col_kind (vkind v) = true /\ t = Plain LScalar).
      { revert Ht. unfold vkind, ty_kind. cbn. destruct (vty v) as [l|l|l]; cbn; try discriminate;
          destruct (col_kind (kind_of l)); try discriminate; intros [= <-]; auto. }
      destruct Hk as (Hk & ->).
      assert (E : sem_un eps ONorm v = Some (VScalar (sqrt (norm2_of v)))).
      { destruct v; cbn [sem_un]; now rewrite Hk. }
      rewrite E. cbn [dsem_un]. rewrite valid_dkind by exact Hv. rewrite Hk.
      rewrite norm2_den by exact Hv. apply sound_some; cbn; auto.
    - (* Normalize *)
      assert (Hk : col_kind (vkind v) = true /\ t = Plain (ty_leaf (vty v))).
      { revert Ht. unfold vkind, ty_kind. cbn. destruct (vty v) as [l|l|l]; cbn; try discriminate;
          destruct (col_kind (kind_of l)); try discriminate; intros [= <-]; auto. }
      destruct Hk as (Hk & ->).
      assert (E : sem_un eps ONormalize v =
        if Rlt_dec 0 (norm2_of v)
          then mkvec (ty_leaf (vty v)) (fun i => coord v i / sqrt (norm2_of v))
          else mkvec (ty_leaf (vty v)) (coord v)).
      { destruct v; cbn [sem_un]; now rewrite Hk. }
      rewrite E. cbn [dsem_un]. rewrite valid_dkind by exact Hv. rewrite Hk.
      rewrite norm2_den by exact Hv. apply col_affine in Hk.
      destruct (Rlt_dec 0 (dnorm2 (den v))).
      + rewrite (mkd_ext _ _ (fun i => coord v i / sqrt (dnorm2 (den v))))
          by (intros; now rewrite coord_den).
        now apply mkvec_sound.
      + rewrite <- (mkd_self (den v)) by (rewrite valid_dkind by exact Hv; exact Hk).
        rewrite valid_dkind by exact Hv.
        rewrite (mkd_ext _ _ (coord v)) by (intros; now rewrite coord_den).
        now apply mkvec_sound.
    - (* ACos *)
      destruct v as [s|w|w|w|w u|q|m|a ax|m t0 r c|q t0|l|l]; cbn in Ht; try discriminate Ht;
        injection Ht as <-; cbn in Hv |- *.
      destruct (Rle_dec (-1) s); [|apply sound_none].
      destruct (Rle_dec s 1); [|apply sound_none]. apply sound_some; cbn; auto.
    - destruct v as [s|w|w|w|w u|q|m|a ax|m t0 r c|q t0|l|l]; cbn in Ht; try discriminate Ht;
        injection Ht as <-; cbn in Hv |- *; apply sound_some; cbn; auto. apply Hv.
    - destruct v as [s|w|w|w|w u|q|m|a ax|m t0 r c|q t0|l|l]; cbn in Ht; try discriminate Ht;
        injection Ht as <-; cbn in Hv |- *; apply sound_some; cbn; auto.
    - (* Convert *)
      destruct (convert_sound to v t Ht Hv) as (r & E & D & T & V).
      cbn [sem_un dsem_un]. rewrite E, valid_dkind by exact Hv.
      replace (kind_eqb (kind_of to) (vkind v)) with true; [apply sound_some; auto|].
      symmetry. revert Ht. unfold vkind, ty_kind. cbn. destruct (vty v) as [l|l|l]; cbn.
      + destruct (kind_eqb (kind_of to) (kind_of l)) eqn:K; [auto|discriminate].
      + destruct (lty_eqb to l) eqn:K; [|discriminate]. apply lty_eqb_eq in K as ->. intros _.
        apply kind_eqb_eq. reflexivity.
      + destruct (lty_eqb to l) eqn:K; [|discriminate]. apply lty_eqb_eq in K as ->. intros _.
        apply kind_eqb_eq. reflexivity.
  Qed.

  Lemma compose_sound a b t : ty_compose (vty a) (vty b) = Some t -> valid a -> valid b ->
    sound (sem_compose a b) (dcompose (den a) (den b)) t.
  Proof.
    intros Ht Ha Hb.
    destruct a as [s|w|w|w|w u|q|m|an ax|m t0 r c|q t0|l|l]; try discriminate Ht;
    destruct b as [s'|w'|w'|w'|w' u'|q'|m'|an' ax'|m' t0' r' c'|q' t0'|l'|l'];
      try discriminate Ht; try (cbn in Ht; destruct l; discriminate Ht);
      try (cbn in Ht; destruct l'; discriminate Ht).
    all: try (destruct l; cbn in Ha; try contradiction);
         try (destruct l'; cbn in Hb; try contradiction); cbn in Ht; try discriminate Ht;
         injection Ht as <-; cbn in Ha, Hb |- *.
    all: try (apply sound_some; cbn; rewrite ?mul3_i_l, ?mul3_i_r, ?app3_i, ?vadd_0_r; auto; fail).
    - apply sound_some; cbn; auto using unitq_mul. now rewrite qrot_mul.
    - apply sound_some; cbn; auto using is_rot_mul.
    - destruct Ha as (Ha & _ & _), Hb as (Hb & _ & _).
      apply sound_some; cbn; auto using is_rot_mul.
    - destruct Ha as (Ha & _ & _).
      destruct (q_of_mat_correct (mul3 m (qrot q'))) as (U & E);
        [apply is_rot_mul; auto using qrot_is_rot|].
      apply sound_some; cbn; auto. now rewrite E.
    - destruct Hb as (Hb & _ & _).
      apply sound_some; cbn; auto using is_rot_mul, qrot_is_rot. now rewrite qact_rot.
    - apply sound_some; cbn; auto using unitq_mul. now rewrite qrot_mul, qact_rot.
  Qed.

  Lemma bin_sound o a b t : ty_bin o (vty a) (vty b) = Some t -> valid a -> valid b ->
    sound (sem_bin o a b) (dsem_bin o (den a) (den b)) t.
  Proof.
    intros Ht Ha Hb. unfold sem_bin, dsem_bin. rewrite Ht.
    rewrite (valid_dkind a Ha), (valid_dkind b Hb).
    destruct o.
    - (* Compose *)
      assert (K : kind_bin OCompose (vkind a) (vkind b) <> None).
      { revert Ht. unfold vkind, ty_kind.
        destruct a as [s|w|w|w|w u|q|m|an ax|m t0 r c|q t0|l|l];
        destruct b as [s'|w'|w'|w'|w' u'|q'|m'|an' ax'|m' t0' r' c'|q' t0'|l'|l'];
          try discriminate; try (destruct l; cbn in Ha; try contradiction);
          try (destruct l'; cbn in Hb; try contradiction); cbn; congruence. }
      destruct (kind_bin OCompose (vkind a) (vkind b)); [|contradiction].
      now apply compose_sound.
    - (* ComposeFlipped *)
      assert (K : kind_bin OComposeFlipped (vkind a) (vkind b) <> None).
      { revert Ht. unfold vkind, ty_kind.
        destruct a as [s|w|w|w|w u|q|m|an ax|m t0 r c|q t0|l|l];
        destruct b as [s'|w'|w'|w'|w' u'|q'|m'|an' ax'|m' t0' r' c'|q' t0'|l'|l'];
          try discriminate; try (destruct l; cbn in Ha; try contradiction);
          try (destruct l'; cbn in Hb; try contradiction); cbn; congruence. }
      destruct (kind_bin OComposeFlipped (vkind a) (vkind b)); [|contradiction].
      now apply compose_sound.
    - (* Rotate *)
      destruct a as [s|w|w|w|w u|q|m|an ax|m t0 r c|q t0|l|l]; try discriminate Ht;
        destruct b as [s'|w'|w'|w'|w' u'|q'|m'|an' ax'|m' t0' r' c'|q' t0'|l'|l'];
        try discriminate Ht; try (destruct l'; discriminate Ht);
        try (destruct l; cbn in Ha; try contradiction; try discriminate Ht;
             try (destruct l'; try discriminate Ht)); injection Ht as <-; cbn;
        apply sound_some; cbn; rewrite ?qact_rot, ?app3_i; auto.
    - (* Transform *)
      destruct a as [s|w|w|w|w u|q|m|an ax|m t0 r c|q t0|l|l]; try discriminate Ht;
        destruct b as [s'|w'|w'|w'|w' u'|q'|m'|an' ax'|m' t0' r' c'|q' t0'|l'|l'];
        try discriminate Ht; try (destruct l'; try discriminate Ht);
        try (destruct l; cbn in Ha; try contradiction; try discriminate Ht);
        injection Ht as <-; cbn;
        apply sound_some; cbn; rewrite ?qact_rot, ?app3_i, ?vadd_0_r; auto.
    - (* Sum *)
      assert (D : (exists l, vty a = ZeroOf l /\ vty b = ZeroOf l /\ t = ZeroOf l) \/
        (exists l, t = Plain l /\ affine_kind (kind_of l) = true /\
           kind_bin OSum (vkind a) (vkind b) = Some (kind_of l) /\
           ((forall l', a <> VZero l') \/ (forall l', b <> VZero l')))).
      { revert Ht. unfold vkind, ty_kind.
        destruct a as [s|w|w|w|w u|q|m|an ax|m t0 r c|q t0|l|l];
        destruct b as [s'|w'|w'|w'|w' u'|q'|m'|an' ax'|m' t0' r' c'|q' t0'|l'|l']; cbn;
          try discriminate; try (destruct l; discriminate); try (destruct l'; discriminate);
          try (destruct l; cbn in Ha; try contradiction); try (destruct l'; cbn in Hb; try contradiction);
          cbn; intros [= <-]; try (left; eexists; repeat split; fail);
          right; eexists; repeat split; solve [left; discriminate | right; discriminate]. }
      destruct D as [(l & Ea & Eb & ->)|(l & -> & Hk & K & NZ)].
      + destruct a; try discriminate Ea. destruct b; try discriminate Eb.
        injection Ea as ->. injection Eb as ->.
        destruct l; cbn in Ha; try contradiction; cbn; apply sound_some; cbn; auto;
          unfold v0; repeat f_equal; ring.
      + rewrite K.
        replace (match a with VZero _ => match b with VZero _ => Some a
                  | _ => mkvec (ty_leaf (Plain l)) (fun i => coord a i + coord b i) end
                | _ => mkvec (ty_leaf (Plain l)) (fun i => coord a i + coord b i) end)
          with (mkvec l (fun i => coord a i + coord b i)).
        2:{ destruct a, b; try reflexivity. exfalso. destruct NZ as [N|N]; now apply (N _ eq_refl). }
        rewrite (mkd_ext _ _ (fun i => coord a i + coord b i))
          by (intros; now rewrite !coord_den).
        now apply mkvec_sound.
    - (* Subtract *)
      assert (D : exists l, t = Plain l /\ affine_kind (kind_of l) = true /\
           kind_bin OSubtract (vkind a) (vkind b) = Some (kind_of l)).
      { revert Ht. unfold vkind, ty_kind.
        destruct a as [s|w|w|w|w u|q|m|an ax|m t0 r c|q t0|l|l];
        destruct b as [s'|w'|w'|w'|w' u'|q'|m'|an' ax'|m' t0' r' c'|q' t0'|l'|l']; cbn;
          try discriminate; try (destruct l; discriminate); try (destruct l'; discriminate);
          try (destruct l; cbn in Ha; try contradiction); try (destruct l'; cbn in Hb; try contradiction);
          cbn; try discriminate; intros [= <-]; eexists; repeat split. }
      destruct D as (l & -> & Hk & K). rewrite K.
      rewrite (mkd_ext _ _ (fun i => coord a i - coord b i)) by (intros; now rewrite !coord_den).
      now apply mkvec_sound.
    - (* Scale *)
      destruct a as [s|w|w|w|w u|q|m|an ax|m t0 r c|q t0|l|l]; try discriminate Ht.
      assert (D : col_kind (vkind b) = true /\ t = Plain (ty_leaf (vty b))).
      { revert Ht. unfold vkind, ty_kind. cbn. destruct (vty b) as [l|l|l]; cbn; try discriminate;
          destruct (col_kind (kind_of l)); try discriminate; intros [= <-]; auto. }
      destruct D as (Hk & ->). cbn [vkind vty ty_kind ty_leaf kind_of]. cbn [kind_bin].
      rewrite Hk. cbn [den]. apply col_affine in Hk.
      rewrite (mkd_ext _ _ (fun i => s * coord b i)) by (intros; now rewrite !coord_den).
      now apply mkvec_sound.
    - (* ScaleR *)
      destruct a as [s|w|w|w|w u|q|m|an ax|m t0 r c|q t0|l|l]; try discriminate Ht;
        destruct b as [s'|w'|w'|w'|w' u'|q'|m'|an' ax'|m' t0' r' c'|q' t0'|l'|l'];
        try discriminate Ht; try (destruct l; cbn in Ha; try contradiction; try discriminate Ht);
        injection Ht as <-; apply sound_some; cbn; auto.
    - (* ScaleDiv *)
      destruct a as [s|w|w|w|w u|q|m|an ax|m t0 r c|q t0|l|l]; try discriminate Ht;
        destruct b as [s'|w'|w'|w'|w' u'|q'|m'|an' ax'|m' t0' r' c'|q' t0'|l'|l'];
        try discriminate Ht; try (destruct l; cbn in Ha; try contradiction; try discriminate Ht);
        injection Ht as <-; cbn; destruct (Req_EM_T s' 0);
        solve [apply sound_none | apply sound_some; cbn; auto].
    - (* Product *)
      destruct a as [s|w|w|w|w u|q|m|an ax|m t0 r c|q t0|l|l]; try discriminate Ht;
        destruct b as [s'|w'|w'|w'|w' u'|q'|m'|an' ax'|m' t0' r' c'|q' t0'|l'|l'];
        try discriminate Ht; injection Ht as <-; apply sound_some; cbn; auto.
    - (* Divide *)
      destruct a as [s|w|w|w|w u|q|m|an ax|m t0 r c|q t0|l|l]; try discriminate Ht;
        destruct b as [s'|w'|w'|w'|w' u'|q'|m'|an' ax'|m' t0' r' c'|q' t0'|l'|l'];
        try discriminate Ht; injection Ht as <-; cbn; unfold odiv; destruct (Req_EM_T s' 0);
        solve [apply sound_none | apply sound_some; cbn; auto].
    - (* Dot *)
      destruct a as [s|w|w|w|w u|q|m|an ax|m t0 r c|q t0|l|l]; try discriminate Ht;
        destruct b as [s'|w'|w'|w'|w' u'|q'|m'|an' ax'|m' t0' r' c'|q' t0'|l'|l'];
        try discriminate Ht; try (destruct l; cbn in Ha; try contradiction; try discriminate Ht);
        try (destruct l'; cbn in Hb; try contradiction; try discriminate Ht);
        injection Ht as <-; apply sound_some; cbn; auto.
  Qed.

  (** *** Preparation *)

  Lemma first_true_some {T} (f : T -> bool) l x : first_true f l = Some x -> f x = true /\ In x l.
  Proof.
    induction l as [|a l IH]; cbn; [discriminate|]. destruct (f a) eqn:E.
    - intros [= <-]. auto.
    - intros H. destruct (IH H). auto.
  Qed.

  Lemma can_convert_inv t t' : can_convert t t' = true ->
    exists l, t' = Plain l /\ ty_un (OConvert l) t = Some (Plain l).
  Proof.
    unfold can_convert. destruct t' as [l| |]; try discriminate. intros H. exists l. split; auto.
    revert H. cbn. destruct t as [k|k|k]; cbn;
      [destruct (kind_eqb _ _)|destruct (lty_eqb _ _)|destruct (lty_eqb _ _)]; auto; discriminate.
  Qed.

  (** A prepared operand, converted: same meaning. *)
  Lemma xconvert_sound m p t t' d :
    can_convert t t' = true -> sound (eval_p eps m p) d t ->
    sound (eval_p eps m (xconvert t' p)) d t'.
  Proof.
    intros Hc (Hd & Hs). destruct (can_convert_inv _ _ Hc) as (l & -> & Ht). cbn.
    destruct (eval_p eps m p) as [v|]; [|rewrite <- Hd; apply sound_none].
    destruct (Hs v eq_refl) as (T & V). rewrite <- T in Ht.
    destruct (convert_sound l v _ Ht V) as (r & E & D & T' & V').
    rewrite E, <- Hd. cbn. rewrite <- D. apply sound_some; auto.
  Qed.

  Lemma un_step m o p t r d : sound (eval_p eps m p) d t -> ty_un o t = Some r ->
    (o = OExpMap -> forall d', d = Some d' -> exp_exact eps d') ->
    sound (eval_p eps m (XUn o p)) (match d with Some d => dsem_un eps o d | None => None end) r.
  Proof.
    intros (Hd & Hs) Ht He. cbn. destruct (eval_p eps m p) as [v|].
    - destruct (Hs v eq_refl) as (T & V). rewrite <- Hd. cbn. apply un_sound; auto.
      now rewrite T.
    - rewrite <- Hd. apply sound_none.
  Qed.

  Lemma bin_step m o p1 p2 t1 t2 r d1 d2 :
    sound (eval_p eps m p1) d1 t1 -> sound (eval_p eps m p2) d2 t2 -> ty_bin o t1 t2 = Some r ->
    sound (eval_p eps m (XBin o p1 p2))
      (match d1, d2 with Some a, Some b => dsem_bin o a b | _, _ => None end) r.
  Proof.
    intros (Hd1 & Hs1) (Hd2 & Hs2) Ht. cbn. destruct (eval_p eps m p1) as [v1|].
    - destruct (Hs1 v1 eq_refl) as (T1 & V1). rewrite <- Hd1. cbn.
      destruct (eval_p eps m p2) as [v2|].
      + destruct (Hs2 v2 eq_refl) as (T2 & V2). rewrite <- Hd2. cbn. apply bin_sound; auto.
        now rewrite T1, T2.
      + rewrite <- Hd2. apply sound_none.
    - rewrite <- Hd1. apply sound_none.
  Qed.

  (** Evaluating the prepared expression computes the denoted function, a valid value,
      of the announced type. *)
  Theorem prepare_sound m e : forall p t, prepare e = Some (p, t) ->
    env_ok m e -> exps_exact eps (fun a => den (m a)) e ->
    sound (eval_p eps m p) (deval eps (fun a => den (m a)) e) t.
  Proof.
    induction e as [a t0|o e IH|o l IHl r IHr]; intros p t Hp Henv Hexp.
    - cbn in Hp. injection Hp as <- <-. cbn in *. destruct Henv as (T & V).
      apply sound_some; auto.
    - cbn in Hp. destruct (prepare e) as [[p' t']|]; [|discriminate].
      cbn in Henv, Hexp. destruct Hexp as (Hexp & Hx). specialize (IH _ _ eq_refl Henv Hexp).
      assert (He : o = OExpMap -> forall d', deval eps (fun a => den (m a)) e = Some d' ->
                   exp_exact eps d').
      { intros ->. exact Hx. }
      destruct (choose_unary _ _ _ _) as [[|t'']|] eqn:C; [| |discriminate].
      + destruct (ty_un o t') eqn:T; [|discriminate]. injection Hp as <- <-.
        cbn [deval]. eapply un_step; eauto.
      + unfold choose_unary in C. destruct (is_some (ty_un o t')); [discriminate|].
        destruct (first_true _ _) as [x|] eqn:F; [|discriminate]. injection C as ->.
        apply first_true_some in F. destruct F as (F & _). apply andb_prop in F as (F1 & F2).
        destruct (ty_un o t'') eqn:T; [|discriminate]. injection Hp as <- <-.
        cbn [deval]. eapply un_step; eauto. eapply xconvert_sound; eauto.
    - cbn in Hp. destruct (prepare l) as [[pl tl]|]; [|discriminate].
      destruct (prepare r) as [[pr tr]|]; [|discriminate].
      cbn in Henv, Hexp. destruct Henv as (Hl & Hr). destruct Hexp as (Xl & Xr).
      specialize (IHl _ _ eq_refl Hl Xl). specialize (IHr _ _ eq_refl Hr Xr).
      cbn [deval].
      destruct (choose_binary _ _ _ _ _ _) as [[|tr'|tl'|tl' tr']|] eqn:C; [| | | |discriminate].
      + destruct (ty_bin o tl tr) eqn:T; [|discriminate]. injection Hp as <- <-.
        eapply bin_step; eauto.
      + destruct (ty_bin o tl tr') eqn:T; [|discriminate]. injection Hp as <- <-.
        eapply bin_step; eauto. eapply xconvert_sound; eauto.
        unfold choose_binary in C. destruct (is_some _); [discriminate|].
        destruct (first_true _ (convert_to tr)) as [x|] eqn:F.
        * injection C as ->. apply first_true_some in F. destruct F as (F & _).
          apply andb_prop in F. tauto.
        * destruct (first_true _ (convert_to tl)); [discriminate|].
          destruct (first_true _ (cartesian _ _)); discriminate.
      + destruct (ty_bin o tl' tr) eqn:T; [|discriminate]. injection Hp as <- <-.
        eapply bin_step; eauto. eapply xconvert_sound; eauto.
        unfold choose_binary in C. destruct (is_some _); [discriminate|].
        destruct (first_true _ (convert_to tr)) as [x|]; [discriminate|].
        destruct (first_true _ (convert_to tl)) as [x|] eqn:F.
        * injection C as ->. apply first_true_some in F. destruct F as (F & _).
          apply andb_prop in F. tauto.
        * destruct (first_true _ (cartesian _ _)); discriminate.
      + destruct (ty_bin o tl' tr') eqn:T; [|discriminate]. injection Hp as <- <-.
        unfold choose_binary in C. destruct (is_some _); [discriminate|].
        destruct (first_true _ (convert_to tr)) as [x|]; [discriminate|].
        destruct (first_true _ (convert_to tl)) as [x|]; [discriminate|].
        destruct (first_true _ (cartesian _ _)) as [[x y]|] eqn:F; [|discriminate].
        injection C as -> ->. apply first_true_some in F. destruct F as (F & _). cbn in F.
        apply andb_prop in F as (F & _). apply andb_prop in F as (F1 & F2).
        eapply bin_step; eauto; eapply xconvert_sound; eauto.
  Qed.
End S.

(** *** Preparation never gets stuck on an expression the API lets one build *)

Definition all_lty := [LScalar; LTrans; LRel; LPoint; LTwist; LQuat; LMat; LAA; LMatRT; LCompRT].
Definition all_ty := map Plain all_lty ++ map Ident all_lty ++ map ZeroOf all_lty.
Definition all_un := [OInverse; OLogMap; OExpMap; OMinus; OSquaredNorm; ONorm; ONormalize;
  OACos; ORotation; OTranslation] ++ map OConvert all_lty.
Definition all_bin := [OCompose; OComposeFlipped; ORotate; OTransform; OSum; OSubtract;
  OScale; OScaleR; OScaleDiv; OProduct; ODivide; ODot].

Lemma all_lty_in l : In l all_lty.
Proof. destruct l; cbn; tauto. Qed.
Lemma all_ty_in t : In t all_ty.
Proof.
  unfold all_ty. rewrite !in_app_iff, !in_map_iff.
  destruct t as [l|l|l]; [left|right; left|right; right]; exists l; split; auto using all_lty_in.
Qed.
Lemma all_un_in o : In o all_un.
Proof.
  unfold all_un. rewrite in_app_iff, in_map_iff. destruct o; try (left; cbn; tauto).
  right. exists to. auto using all_lty_in.
Qed.
Lemma all_bin_in o : In o all_bin.
Proof. destruct o; cbn; tauto. Qed.

(** Result type of a prepared unary/binary node, from the types of its operands. *)
Definition pty_un (o : unop) (t : ty) : option ty :=
  match choose_unary can_convert (fun t => is_some (ty_un o t)) t (convert_to t) with
  | Some UDirect => ty_un o t
  | Some (UConvert t') => ty_un o t'
  | None => None
  end.
Definition pty_bin (o : binop) (tl tr : ty) : option ty :=
  match choose_binary can_convert (fun a b => is_some (ty_bin o a b)) tl tr
          (convert_to tl) (convert_to tr) with
  | Some BDirect => ty_bin o tl tr
  | Some (BConvertRight tr') => ty_bin o tl tr'
  | Some (BConvertLeft tl') => ty_bin o tl' tr
  | Some (BConvertBoth tl' tr') => ty_bin o tl' tr'
  | None => None
  end.

Definition ok_result (k : option kind) (r : option ty) : bool :=
  match k with
  | None => true
  | Some k => match r with Some t => wf_ty t && kind_eqb (ty_kind t) k | None => false end
  end.

Definition check_un (o : unop) (t : ty) : bool :=
  if wf_ty t then ok_result (kind_un o (ty_kind t)) (pty_un o t) else true.
Definition check_bin (o : binop) (t1 t2 : ty) : bool :=
  if wf_ty t1 && wf_ty t2 then ok_result (kind_bin o (ty_kind t1) (ty_kind t2)) (pty_bin o t1 t2)
  else true.

Lemma check_un_all : forallb (fun o => forallb (check_un o) all_ty) all_un = true.
Proof. vm_compute. reflexivity. Qed.
Lemma check_bin_all :
  forallb (fun o => forallb (fun t1 => forallb (check_bin o t1) all_ty) all_ty) all_bin = true.
Proof. vm_compute. reflexivity. Qed.

Lemma pty_un_total o t k : wf_ty t = true -> kind_un o (ty_kind t) = Some k ->
  exists r, pty_un o t = Some r /\ wf_ty r = true /\ ty_kind r = k.
Proof.
  intros Hw Hk. pose proof check_un_all as H. rewrite forallb_forall in H.
  specialize (H o (all_un_in o)). rewrite forallb_forall in H. specialize (H t (all_ty_in t)).
  unfold check_un in H. rewrite Hw, Hk in H. cbn in H.
  destruct (pty_un o t) as [r|]; [|discriminate]. apply andb_prop in H as (H1 & H2).
  exists r. apply kind_eqb_eq in H2. auto.
Qed.
Lemma pty_bin_total o t1 t2 k : wf_ty t1 = true -> wf_ty t2 = true ->
  kind_bin o (ty_kind t1) (ty_kind t2) = Some k ->
  exists r, pty_bin o t1 t2 = Some r /\ wf_ty r = true /\ ty_kind r = k.
Proof.
  intros Hw1 Hw2 Hk. pose proof check_bin_all as H. rewrite forallb_forall in H.
  specialize (H o (all_bin_in o)). rewrite forallb_forall in H. specialize (H t1 (all_ty_in t1)).
  rewrite forallb_forall in H. specialize (H t2 (all_ty_in t2)).
  unfold check_bin in H. rewrite Hw1, Hw2, Hk in H. cbn in H.
  destruct (pty_bin o t1 t2) as [r|]; [|discriminate]. apply andb_prop in H as (H1 & H2).
  exists r. apply kind_eqb_eq in H2. auto.
Qed.

Lemma prepare_un o e p t : prepare e = Some (p, t) ->
  option_map snd (prepare (XUn o e)) = pty_un o t.
Proof.
  intros H. cbn. rewrite H. unfold pty_un.
  destruct (choose_unary _ _ _ _) as [[|t']|]; [destruct (ty_un o t)|destruct (ty_un o t')|];
    reflexivity.
Qed.
Lemma prepare_bin o l r pl tl pr tr : prepare l = Some (pl, tl) -> prepare r = Some (pr, tr) ->
  option_map snd (prepare (XBin o l r)) = pty_bin o tl tr.
Proof.
  intros Hl Hr. cbn. rewrite Hl, Hr. unfold pty_bin.
  destruct (choose_binary _ _ _ _ _ _) as [[|a|a|a b]|];
    [destruct (ty_bin o tl tr)|destruct (ty_bin o tl a)|destruct (ty_bin o a tr)
    |destruct (ty_bin o a b)|]; reflexivity.
Qed.

Theorem prepare_total e : forall k, ekind e = Some k ->
  exists p t, prepare e = Some (p, t) /\ wf_ty t = true /\ ty_kind t = k.
Proof.
  induction e as [a t|o e IH|o l IHl r IHr]; cbn [ekind]; intros k Hk.
  - destruct (wf_ty t) eqn:W; [|discriminate]. injection Hk as <-. cbn. eauto.
  - destruct (ekind e) as [k'|]; [|discriminate]. destruct (IH _ eq_refl) as (p & t & Hp & W & <-).
    destruct (pty_un_total o t k W Hk) as (r & Hr & Wr & Kr).
    rewrite <- (prepare_un o e p t Hp) in Hr.
    destruct (prepare (XUn o e)) as [[p' t']|]; [|discriminate]. injection Hr as ->. eauto.
  - destruct (ekind l) as [k1|]; [|discriminate]. destruct (ekind r) as [k2|]; [|discriminate].
    destruct (IHl _ eq_refl) as (p1 & t1 & Hp1 & W1 & <-).
    destruct (IHr _ eq_refl) as (p2 & t2 & Hp2 & W2 & <-).
    destruct (pty_bin_total o t1 t2 k W1 W2 Hk) as (t & Ht & Wt & Kt).
    rewrite <- (prepare_bin o l r _ _ _ _ Hp1 Hp2) in Ht.
    destruct (prepare (XBin o l r)) as [[p' t']|]; [|discriminate]. injection Ht as ->. eauto.
Qed.

Lemma pty_convert_kind l t r : pty_un (OConvert l) t = Some r -> wf_ty t = true ->
  r = Plain l /\ kind_of l = ty_kind t.
Proof.
  destruct t as [k|k|k]; destruct l, k; vm_compute; intros H W; try discriminate H;
    try discriminate W; injection H as <-; auto.
Qed.

Lemma valid_wf v : valid v -> wf_ty (vty v) = true.
Proof.
  destruct v as [| | | | | | | | | |l|l]; cbn; auto; destruct (kind_of l); cbn; intuition.
Qed.

(** *** Evaluation with a chosen result type *)
Section Ev.
  Variable eps : R.
  Hypothesis eps_pos : 0 <= eps.

  Lemma prepare_kind e p t k : prepare e = Some (p, t) -> ekind e = Some k ->
    wf_ty t = true /\ ty_kind t = k.
  Proof.
    intros Hp Hk. destruct (prepare_total e k Hk) as (p' & t' & E & W & K).
    rewrite Hp in E. injection E as <- <-. auto.
  Qed.

  Lemma prepare_to_sound m e dest p t k : prepare_to dest e = Some (p, t) ->
    ekind e = Some k -> env_ok m e -> exps_exact eps (fun a => den (m a)) e ->
    t = dest /\ sound (eval_p eps m p) (deval eps (fun a => den (m a)) e) t.
  Proof.
    intros Hp Hk Henv Hexp. unfold prepare_to in Hp.
    destruct (prepare e) as [[p0 t0]|] eqn:E; [|discriminate].
    destruct (ty_eqb dest t0) eqn:D.
    - injection Hp as -> ->. apply ty_eqb_eq in D. split; [auto|]. eapply prepare_sound; eauto.
    - destruct dest as [l|l|l]; try discriminate.
      pose proof (prepare_un (OConvert l) e p0 t0 E) as P. rewrite Hp in P. cbn in P.
      destruct (prepare_kind _ _ _ _ E Hk) as (W & K).
      symmetry in P. apply pty_convert_kind in P as (-> & KL); [|exact W]. split; [reflexivity|].
      pose proof (prepare_sound eps eps_pos m e p0 t0 E Henv Hexp) as (S1 & S2).
      pose proof (prepare_sound eps eps_pos m (XUn (OConvert l) e) p (Plain l) Hp) as S.
      cbn [env_ok exps_exact] in S. specialize (S Henv (conj Hexp I)). cbn [deval] in S.
      destruct (deval eps (fun a => den (m a)) e) as [d|] eqn:Ed; [|exact S].
      cbn [dsem_un] in S.
      destruct (eval_p eps m p0) as [v|] eqn:Ev; [|discriminate S1].
      injection S1 as <-. destruct (S2 v eq_refl) as (T & V).
      rewrite (valid_dkind v V) in S. unfold vkind in S. rewrite T, <- KL in S.
      replace (kind_eqb (kind_of l) (kind_of l)) with true in S; [exact S|].
      symmetry. now apply kind_eqb_eq.
  Qed.

  Lemma prepare_to_total e l k : ekind e = Some k -> kind_of l = k ->
    exists p, prepare_to (Plain l) e = Some (p, Plain l).
  Proof.
    intros Hk Hl. destruct (prepare_total e k Hk) as (p & t & E & W & K).
    unfold prepare_to. rewrite E. destruct (ty_eqb (Plain l) t) eqn:D.
    - apply ty_eqb_eq in D. subst t. eauto.
    - destruct (prepare_total (XUn (OConvert l) e) k) as (p' & t' & E' & W' & K').
      + cbn [ekind]. rewrite Hk. cbn [kind_un]. rewrite Hl.
        replace (kind_eqb k k) with true; [reflexivity|]. symmetry. now apply kind_eqb_eq.
      + rewrite E'. exists p'. f_equal. f_equal.
        pose proof (prepare_un (OConvert l) e p t E) as P. rewrite E' in P. cbn in P.
        symmetry in P. apply pty_convert_kind in P; [tauto|exact W].
  Qed.

  Theorem evaluateTo_sound m e l k : ekind e = Some k -> kind_of l = k -> env_ok m e ->
    exps_exact eps (fun a => den (m a)) e ->
    sound (evaluateTo eps (Plain l) m e) (deval eps (fun a => den (m a)) e) (Plain l).
  Proof.
    intros Hk Hl Henv Hexp. destruct (prepare_to_total e l k Hk Hl) as (p & E).
    unfold evaluateTo. rewrite E. eapply prepare_to_sound; eauto.
  Qed.

  Theorem eval_sound m e k : ekind e = Some k -> env_ok m e ->
    exps_exact eps (fun a => den (m a)) e ->
    exists l, kind_of l = k /\
      sound (eval eps m e) (deval eps (fun a => den (m a)) e) (Plain l).
  Proof.
    intros Hk Henv Hexp. unfold eval. destruct (prepare_total e k Hk) as (p & t & E & W & K).
    rewrite E. exists (ty_leaf t). split; [exact K|]. now apply (evaluateTo_sound m e _ k).
  Qed.

  (** The value part of the tree built by the Jacobian evaluators. *)
  Lemma tree_value na m p : option_map fst (tree eps na m p) = eval_p eps m p.
  Proof.
    induction p as [a t|o p IH|o l IHl r IHr]; cbn; [reflexivity| |].
    - destruct (tree eps na m p) as [[v c]|]; cbn in IH; rewrite <- IH; [|reflexivity].
      destruct (sem_un eps o v); reflexivity.
    - destruct (tree eps na m l) as [[v1 c1]|]; cbn in IHl; rewrite <- IHl; [|reflexivity].
      destruct (tree eps na m r) as [[v2 c2]|]; cbn in IHr; rewrite <- IHr; [|reflexivity].
      destruct (sem_bin o v1 v2); reflexivity.
  Qed.
End Ev.

(** The denotation depends on the leaf objects only through their meaning, and not on
    leaf types. *)
Lemma deval_ext eps m m' e e' : same_shape e e' ->
  (forall a, In a (leaf_addrs e) -> m a = m' a) -> deval eps m e = deval eps m' e'.
Proof.
  revert e'. induction e as [a t|o e IH|o l IHl r IHr]; intros [a' t'|o' e'|o' l' r'] S H;
    cbn in S; try contradiction; cbn in *.
  - destruct S as (<- & _). f_equal. auto.
  - destruct S as (<- & S). now rewrite (IH e' S H).
  - destruct S as (<- & S1 & S2). rewrite (IHl l' S1), (IHr r' S2); auto;
      intros; apply H; rewrite in_app_iff; auto.
Qed.

Lemma exps_exact_ext eps m m' e e' : same_shape e e' ->
  (forall a, In a (leaf_addrs e) -> m a = m' a) -> exps_exact eps m e -> exps_exact eps m' e'.
Proof.
  revert e'. induction e as [a t|o e IH|o l IHl r IHr]; intros [a' t'|o' e'|o' l' r'] S H;
    cbn in S; try contradiction; cbn in *; auto.
  - destruct S as (<- & S). intros (X & Y). split; [now apply IH|].
    destruct o; auto. rewrite <- (deval_ext eps m m' e e' S H). exact Y.
  - destruct S as (<- & S1 & S2). intros (X & Y).
    split; [apply IHl|apply IHr]; auto; intros; apply H; rewrite in_app_iff; auto.
Qed.

Lemma ekind_shape e e' : same_shape e e' -> forall k k', ekind e = Some k ->
  ekind e' = Some k' -> k = k'.
Proof.
  revert e'. induction e as [a t|o e IH|o l IHl r IHr]; intros [a' t'|o' e'|o' l' r'] S k k';
    cbn in S; try contradiction; cbn.
  - destruct S as (_ & E). destruct (wf_ty t), (wf_ty t'); try discriminate. congruence.
  - destruct S as (<- & S). destruct (ekind e) as [k1|] eqn:E1; [|discriminate].
    destruct (ekind e') as [k2|] eqn:E2; [|discriminate].
    rewrite (IH e' S k1 k2 eq_refl E2). congruence.
  - destruct S as (<- & S1 & S2). destruct (ekind l) as [k1|]; [|discriminate].
    destruct (ekind l') as [k2|] eqn:E2; [|discriminate]. rewrite (IHl l' S1 k1 k2 eq_refl E2).
    destruct (ekind r) as [k3|]; [|discriminate].
    destruct (ekind r') as [k4|] eqn:E4; [|discriminate].
    rewrite (IHr r' S2 k3 k4 eq_refl E4). congruence.
Qed.
