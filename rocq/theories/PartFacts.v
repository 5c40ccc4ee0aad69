(** Objects of a response are accepted by the types of the fragments executed for them. *)
From Verif Require Export SpecPart RespFacts RequestFacts IntroCheck ShareWorlds PropC14 PropC16 PropC18 PropC04.

Section More.
  Variable s : schema.
  Variables frags frags1 : amap string fragdef.
  Variable active : list directive -> Prop.
  Hypothesis more : forall n fd, aget n frags1 = Some fd -> aget n frags = Some fd.
  Lemma collects_more T M1 k n ss : collects s frags1 active T M1 k n ss -> forall M : selset, (forall x, M1 x -> M x) -> collects s frags active T M k n ss.
  Proof.
    induction 1 as [M1 p al n a d sub J A|M1 p c d sub k n ss J A Po _ IH|M1 p name d fd k n ss J A E Po _ IH]; intros M H.
    - eapply col_field; eauto.
    - eapply col_inline; eauto.
    - eapply col_spread; eauto.
  Qed.
  Lemma applied_collects name T M fd k n ss : applied s frags active name T M fd -> collects s frags1 active T (fun x => In x (fr_sels fd)) k n ss ->
    collects s frags active T M k n ss.
  Proof.
    induction 1 as [M p d fd J A E Po|M p c d sub fd J A Po _ IH|M p other d od fd J A E Po _ IH]; intros C.
    - eapply col_spread; eauto. eapply collects_more; eauto.
    - eapply col_inline; eauto.
    - eapply col_spread; eauto.
  Qed.
  Lemma applied_found name T M fd : applied s frags active name T M fd -> aget name frags = Some fd /\ possible s (fr_cond fd) T.
  Proof. induction 1; auto. Qed.
End More.

Section Shown.
  Variable c : cconfig.
  Variable js : jschema.
  Variable s : schema.
  (** the fragments of the whole document, and those of the fragment's own file *)
  Variables frags frags1 : amap string fragdef.
  Variable active : list directive -> Prop.
  Variable custom : string -> value -> Prop.
  Variable base : string -> value -> Prop.
  Variable D : list decl.
  Hypothesis I : introspection js s.
  Hypothesis W : plain_wrappers js.
  Hypothesis more : forall n fd, aget n frags1 = Some fd -> aget n frags = Some fd.
  Hypothesis frags_unc : forall n fd, aget n frags1 = Some fd -> Forall (unconditional active) (fr_sels fd).
  Hypothesis B : base_ok c js custom base.
  Hypothesis Nd : NoDup (List.map decl_name D).
  Hypothesis Und : forall x d, leaf_name c js x -> In d D -> decl_name d <> x.

  Theorem object_shown : forall n T P M1 M main v, des c s frags1 D P M1 main -> regular s frags1 P M1 -> possible s P T ->
    (forall x, M1 x -> valid_sel s frags1 P x) -> (forall x, M1 x -> unconditional active x) ->
    (forall k fld ss, collects s frags1 active T M1 k fld ss -> collects s frags active T M k fld ss) ->
    unmixed js s frags active T M ->
    object_response js s frags active custom n T M v -> accepts D base (S (n + n)) main v.
  Proof.
    induction n as [|n IH]; intros T P M1 M main v Ds R Po V U Inc Ux H; [destruct H|]. cbn [object_response] in H. destruct H as (kvs & -> & K & F).
    destruct Ux as [T M Ux Ub].
    inversion Ds as [P0 M0 main0 groups Hm Nn Hp Np Hd Ht Hn Hg]; subst P0 M0 main0.
    pose proof (proj2 (Hp T) Po) as J. apply in_flat_map in J. destruct J as ([[nm ts] ms] & J & Jt). cbn [fst snd] in Jt.
    assert (X : accepts D base (S (n + S n)) nm (VObj kvs)).
    { apply (accepts_decl base D Nd (n + S n) (DObj nm ms)); [eapply Hd; eauto|]. cbn [decl_values]. exists kvs. split; auto. apply Forall_forall. intros m Im.
      pose proof (Hg _ _ _ _ J Jt) as Mm. inversion Mm as [ts0 O0 ms0 Nm Mf Mk Mt]; subst ts0 O0 ms0.
      destruct (Mf m Im) as (f & ss0 & Fc). pose proof Fc as (P' & fld & Oc & Ff). destruct (occ_collects s frags1 active frags_unc _ _ _ _ _ _ _ Oc U) as [Cl _].
      pose proof (Inc _ _ _ Cl) as Cm.
      assert (Ik : In (m_name m) (List.map fst kvs)) by (apply K; eauto).
      destruct (aget (m_name m) kvs) as [x|] eqn:Ea.
      2:{ exfalso. clear - Ik Ea. induction kvs as [|[k y] kvs IH]; [destruct Ik|]. cbn in Ea. destruct (eqb (m_name m) k) eqn:E; [discriminate|].
          destruct Ik as [E1|Ik]; auto. cbn in E1. subst k. rewrite eqb_rfl in E. discriminate. }
      apply aget_In in Ea. destruct (F _ _ Ea) as (fld' & ss & Cf & Vx).
      pose proof (Ux _ _ _ _ _ Cm Cf) as Ef'. subst fld'.
      assert (Po' : possible s P' T).
      { clear - Oc Po. induction Oc; auto. }
      pose proof (Mt m f ss0 Im Fc) as Mty. inversion Mty as [ts0 ft0 M0 e0 Hb]; subst ts0 ft0 M0.
      destruct Vx as [[-> ->]|(kind' & g' & Dc' & Gv)].
      - (* __typename *)
        destruct (field_declared js s I _ _ _ Ff) as [[-> _]|(kind & g & Dc & _)]; [|exfalso; eapply typename_undeclared; eauto].
        inversion Hb; subst; try discriminate.
        cbn. apply denote_lits; [intros ->; destruct Jt|]. eauto.
      - destruct (field_declared js s I _ _ _ Ff) as [[-> ->]|(kind & g & Dc & Ej & Ko & Vg)]; [exfalso; eapply typename_undeclared; eauto|].
        pose proof (in_implements _ _ I _ _ _ _ _ _ _ Dc Po' Dc') as Cv.
        destruct (json_named kind g Ko Vg _ Ej) as [En Dk].
        pose (inner := fun b y => leaf_value js custom b y \/ exists T', possible s b T' /\ possible s (gbase g') T' /\
           object_response js s frags active custom n T' (picked_below s frags active T M (m_name m)) y).
        assert (Gv' : gvalues inner g x).
        { eapply (gvalues_cov s _ inner g' g Cv); [|exact Gv]. intros y [Lv|(T' & Pt & Rs)].
          - left. destruct (cov_base _ _ _ Cv) as [<-|(C1 & C2 & Cp)]; auto. destruct Lv as (j & L & Lv). exfalso. eapply leaf_not_composite; eauto. tauto.
          - right. exists T'. split; [|auto]. destruct (cov_base _ _ _ Cv) as [<-|(C1 & C2 & Cp)]; auto. }
        apply (value_accepted _ kind g (sf_type f) e0 inner); auto; [eapply W; eauto|].
        intros y [Lf|(T' & Pt & Pt' & Rs)] _.
        { eapply denote_mono; [|eapply (leaf_accepted c js s frags1 custom base D I B Und (n + n)); eauto]. intros a b. apply accepts_mono. lia. }
        (* a composite field *)
        assert (Cp : composite s (gbase g)).
        { destruct Pt as (t & Gt & Pt). exists t. split; auto. destruct (st_def t); auto. }
        inversion Hb as [ts1 ft1 M2 Ed Ea1 Ea2 Ea3 Ea4|ts1 ft1 M2 sc Ed Ea1 Ea2 Ea3 Ea4|ts1 ft1 M2 Ed Ea1 Ea2 Ea3 Ea4|ts1 ft1 M2 sub Ed Cc Dsub Ea1 Ea2 Ea3 Ea4]; subst ts1 ft1 M2 e0.
        + exfalso. rewrite Ed in Dk. inversion Dk.
        + exfalso. rewrite Ed in Dk. inversion Dk as [|sc' Si Ek E2| | | |]. destruct (in_kinds _ _ I _ _ _ _ Dc) as (j & L & Ej'). eapply leaf_not_composite; eauto. right. congruence.
        + exfalso. rewrite Ed in Dk. inversion Dk as [|sc' Si Ek E2| |Ek E2| |]. destruct (in_kinds _ _ I _ _ _ _ Dc) as (j & L & Ej'). eapply leaf_not_composite; eauto. left. congruence.
        + cbn [denote]. rewrite <- En in *. pose proof R as R0. inversion R0 as [P1 M2 R1 R2 R3]; subst P1 M2.
          eapply accepts_mono; [|eapply (IH T' (ft_name (sf_type f)) _ _ sub y Dsub)]; [lia|eapply R3; eauto|auto| | | | |exact Rs].
          * intros z (f' & ss' & (P2 & n2 & O2 & F2) & Ef & Iz).
            destruct (occ_collects s frags1 active frags_unc _ _ _ _ _ _ _ O2 U) as [C2 _].
            destruct (collects_occ s frags1 active _ _ _ _ _ C2 P V Po) as (P3 & f3 & O3 & F3 & _ & V3).
            rewrite (R1 T (m_name m) f ss0 f3 ss' Po Fc ltac:(exists P3, n2; auto)). auto.
          * intros z (f' & ss' & (P2 & n2 & O2 & F2) & Ef & Iz).
            destruct (occ_collects s frags1 active frags_unc _ _ _ _ _ _ _ O2 U) as [_ U2]. rewrite Forall_forall in U2. auto.
          * intros k2 fld2 ss2 C2. eapply (collects_more s frags frags1 active more); [exact C2|].
            intros z (f' & ss' & (P2 & n2 & O2 & F2) & Ef & Iz).
            destruct (occ_collects s frags1 active frags_unc _ _ _ _ _ _ _ O2 U) as [C3 _]. exists n2, ss'. split; auto.
          * eapply Ub; eauto. }
    destruct Hm as [(gr & Eg & Em)|Hm].
    - rewrite Eg in J. destruct J as [->|[]]. cbn [fst] in Em. subst nm. eapply accepts_mono; [|exact X]. lia.
    - apply (accepts_decl base D Nd (S n + S n) (DAlias main (List.map (fun g : group => fst (fst g)) groups))); auto.
      cbn [decl_values]. exists nm. split; [apply in_map_iff; exists (nm, ts, ms); auto|]. eapply accepts_mono; [|exact X]. lia.
  Qed.
End Shown.

(** Every place where the fragment is spread has a response of its own *)
Lemma spread_place js s frags active custom name T M v w : spread_at js s frags active custom name T M v w ->
  forall n, unmixed js s frags active T M -> object_response js s frags active custom n T M v ->
  exists T' M' fd k, applied s frags active name T' M' fd /\ unmixed js s frags active T' M' /\ object_response js s frags active custom k T' M' w.
Proof.
  induction 1 as [T M v fd A|T M kvs k fld ss kind g x y T' m w Ik C Dc It Po Rs Sp IH]; intros n U R.
  - exists T, M, fd, n. auto.
  - apply (IH m); auto. destruct U as [T M _ Ub]. eauto.
Qed.

(** *** Checking [unmixed] by evaluation *)
Lemma unmixed_ext js s frags active T M : unmixed js s frags active T M -> forall M' : selset, (forall x, M x <-> M' x) -> unmixed js s frags active T M'.
Proof.
  induction 1 as [T M Ux _ IH]; intros M' E.
  assert (X : forall k fld ss, collects s frags active T M' k fld ss -> collects s frags active T M k fld ss) by (intros; eapply collects_ext; [|eauto]; intros; apply E; auto).
  assert (X' : forall k fld ss, collects s frags active T M k fld ss -> collects s frags active T M' k fld ss) by (intros; eapply collects_ext; [|eauto]; intros; apply E; auto).
  constructor.
  - intros. eapply Ux; eauto.
  - intros k fld ss kind g T' C D Po. eapply IH; eauto. intros z. split; intros (f1 & s1 & C1 & I1); exists f1, s1; auto.
Qed.
Section Unmixedb.
  Variables (js : jschema) (s : schema) (frags : amap string fragdef) (act : list directive -> bool).
  Fixpoint unmixedb (fuel : nat) (T : string) (l : list selection) : bool :=
    match fuel with
    | O => false
    | S n =>
        match cols s frags act fuel T l with
        | None => false
        | Some r =>
            forallb (fun a : col => forallb (fun b : col => negb (String.eqb (fst (fst a)) (fst (fst b))) || String.eqb (snd (fst a)) (snd (fst b))) r) r &&
            forallb (fun a : col => match find_decl js T (snd (fst a)) with
               | Some (_, g) => forallb (fun T' => unmixedb n T' (merged_subs r (fst (fst a)))) (possibles s (gbase g))
               | None => String.eqb (snd (fst a)) "__typename"
               end) r
        end
    end.
  Hypothesis I : introspection js s.
  Lemma unmixedb_ok fuel : forall T l, unmixedb fuel T l = true -> unmixed js s frags (active_of act) T (fun x => In x l).
  Proof.
    induction fuel as [|n IH]; intros T l H; [discriminate|]. cbn [unmixedb] in H. destruct (cols s frags act (S n) T l) as [r|] eqn:E; [|discriminate].
    pose proof (cols_ok _ _ _ no_custom _ _ _ _ E) as C. apply andb_true_iff in H. destruct H as [H1 H2]. rewrite forallb_forall in H1, H2. constructor.
    - intros k fld ss fld' ss' C1 C2. apply C in C1. apply C in C2. specialize (H1 _ C1). rewrite forallb_forall in H1. specialize (H1 _ C2). cbn [fst snd] in H1.
      rewrite String.eqb_refl in H1. apply String.eqb_eq. exact H1.
    - intros k fld ss kind g T' C1 D Po. apply C in C1. specialize (H2 _ C1). cbn [fst snd] in H2.
      destruct (find_decl js T fld) as [[kind' g']|] eqn:Ef.
      + apply find_declared in Ef. assert (g' = g).
        { destruct Ef as (j & fs & f & L & _ & Fs & Lf & Et), D as (j' & fs' & f' & L' & _ & Fs' & Lf' & Et').
          rewrite <- (last_fun _ _ _ _ _ L L') in Fs'. rewrite Fs in Fs'. injection Fs' as <-. rewrite <- (last_fun _ _ _ _ _ Lf Lf') in Et'. rewrite Et in Et'.
          apply json_of_inj in Et'. tauto. }
        subst g'. rewrite forallb_forall in H2. apply possibles_ok in Po. specialize (IH _ _ (H2 _ Po)). eapply unmixed_ext; [exact IH|].
        intros z. cbv beta. unfold merged_subs, picked_below. rewrite in_flat_map. split.
        * intros ([[k' fld'] ss'] & J & Iz). cbn [fst snd] in Iz. destruct (String.eqb k' k) eqn:Ek; [|destruct Iz]. apply String.eqb_eq in Ek. subst k'.
          exists fld', ss'. split; auto. apply C. auto.
        * intros (fld' & ss' & J & Iz). exists (k, fld', ss'). split; [apply C; auto|]. cbn [fst snd]. rewrite String.eqb_refl. auto.
      + apply String.eqb_eq in H2. subst fld. exfalso. eapply typename_undeclared; eauto.
  Qed.
End Unmixedb.
