(** Lemmas: the type of a selection is assignable to the type of a selection of less. *)
From Verif Require Export AssignFacts SpecMore.
From Verif Require Import RespFacts RequestFacts SpecExact ExactFacts DeclFacts WrapFacts PropC04 PropC16.

Lemma all_kept_in l l' : all_kept l l' -> forall x, In x l -> exists x', In x' l' /\ kept x x'.
Proof. induction 1 as [l'|x x' l l' J K A IH]; intros y; [intros []|]. intros [<-|I]; eauto. Qed.

Section Kept.
  Variable s : schema.
  Variables fr0 fr : amap string fragdef.
  Hypothesis Fk : frags_kept fr0 fr.

  (** What is collected for an object is still collected *)
  Lemma occ_kept T P M0 k P' n ss : occ s fr0 T P M0 k P' n ss -> forall M : selset, (forall x, M0 x -> exists x', M x' /\ kept x x') ->
    exists ss', occ s fr T P M k P' n ss' /\ all_kept ss ss'.
  Proof.
    induction 1 as [P M0 p al n a d sub J|P M0 p cnd d sub k P' n ss J Po O IH|P M0 p name d fd k P' n ss J Ea Po O IH]; intros M H.
    - destruct (H _ J) as (x' & J' & K). inversion K as [? p' ? al' ? ? a' ? d' ? l' Er A| |]; subst. rewrite Er. exists l'. split; auto. econstructor; eauto.
    - destruct (H _ J) as (x' & J' & K). inversion K as [|? p' ? ? d' ? l' A|]; subst. destruct (IH _ (all_kept_in _ _ A)) as (ss' & O' & A').
      exists ss'. split; auto. eapply occ_inline; eauto.
    - destruct (H _ J) as (x' & J' & K). inversion K as [| |? p' ? ? d']; subst. destruct (Fk _ _ Ea) as (fd' & Ea' & Ec & A).
      destruct (IH _ (all_kept_in _ _ A)) as (ss' & O' & A'). exists ss'. split; auto. rewrite <- Ec in Po, O'. eapply occ_spread; eauto.
  Qed.

  Lemma kept_selects P M : tagged_once s fr P M -> forall M0 : selset, (forall x, M0 x -> exists x', M x' /\ kept x x') -> selects_more s fr0 fr P M0 P M.
  Proof.
    induction 1 as [P M T1 T2 IH]. intros M0 H.
    assert (X : forall T k f ss, focc s fr0 T P M0 k f ss -> exists ss', focc s fr T P M k f ss' /\ all_kept ss ss').
    { intros T k f ss (P' & n & O & F). destruct (occ_kept _ _ _ _ _ _ _ O M H) as (ss' & O' & A). exists ss'. split; auto. exists P', n. auto. }
    constructor; auto.
    - intros T k f ss Po Fo. destruct (X _ _ _ _ Fo) as (ss' & Fo' & _). eauto.
    - intros T k f ss Po Fo Cp. destruct (X _ _ _ _ Fo) as (ss' & Fo' & _). eapply IH; eauto.
      intros x (f2 & ss2 & F2 & Ef & Ix). destruct (X _ _ _ _ F2) as (ss2' & F2' & A). destruct (all_kept_in _ _ A _ Ix) as (x' & Ix' & K).
      exists x'. split; auto. exists f2, ss2'. auto.
  Qed.
End Kept.

(** Only what is under the names of fragments matters *)
Lemma selects_more_frags s fr0 fr1 fr fr' : (forall n, aget n fr0 = aget n fr1 :> option fragdef) -> (forall n, aget n fr = aget n fr' :> option fragdef) ->
  forall P0 M0 P M, selects_more s fr0 fr P0 M0 P M -> forall M0' M' : selset, (forall x, M0 x <-> M0' x) -> (forall x, M x <-> M' x) ->
    selects_more s fr1 fr' P0 M0' P M'.
Proof.
  intros H0 H.
  assert (A1 : forall n fd, aget n fr1 = Some fd -> aget n fr0 = Some fd) by (intros n fd E; rewrite H0; exact E).
  assert (A2 : forall n fd, aget n fr = Some fd -> aget n fr' = Some fd) by (intros n fd E; rewrite <- H; exact E).
  assert (A3 : forall n fd, aget n fr0 = Some fd -> aget n fr1 = Some fd) by (intros n fd E; rewrite <- H0; exact E).
  assert (A4 : forall n fd, aget n fr' = Some fd -> aget n fr = Some fd) by (intros n fd E; rewrite H; exact E).
  induction 1 as [P0 M0 P M Pp Ex Sub IH]. intros M0' M' E0 E. constructor; auto.
  - intros T k f ss Po Fo. eapply (focc_within s fr0 fr1) in Fo; [|exact A1|apply E0]. destruct (Ex _ _ _ _ Po Fo) as (f' & ss' & Fo' & Ef).
    exists f', ss'. split; auto. eapply focc_within; [exact A2|apply E|exact Fo'].
  - intros T k f ss Po Fo Cp. eapply (focc_within s fr0 fr1) in Fo; [|exact A1|apply E0]. eapply IH; eauto.
    + intros x. split; intros (f2 & ss2 & F2 & Ef & Ix); exists f2, ss2; (split; [|auto]).
      * eapply focc_within; [exact A3|apply E0|exact F2].
      * eapply focc_within; [exact A1|apply E0|exact F2].
    + intros x. split; intros (f2 & ss2 & F2 & Ef & Ix); exists f2, ss2; (split; [|auto]).
      * eapply focc_within; [exact A2|apply E|exact F2].
      * eapply focc_within; [exact A4|apply E|exact F2].
Qed.

Section Narrow.
  Variable c : cconfig.
  Variable js : jschema.
  Variable s : schema.
  Variables fr fr0 : amap string fragdef.
  Variables base base0 : string -> value -> Prop.
  Variables D D' D0 : list decl.
  Hypothesis I : introspection js s.
  Hypothesis D'_in : incl D' D.
  Hypothesis Rq : Forall required D'.
  Hypothesis Und : forall x d, leaf_name c js x -> In d D -> decl_name d <> x.
  Hypothesis Nd0 : NoDup (List.map decl_name D0).
  Hypothesis Und0 : forall x d, leaf_name c js x -> In d D0 -> decl_name d <> x.
  Hypothesis B : forall x v, leaf_name c js x -> base x v -> base0 x v.

  (** What the type of a selection accepts, the type of a selection of less accepts *)
  Theorem object_narrow : forall n P M main P0 M0 main0 v, des c s fr D' P M main -> des c s fr0 D0 P0 M0 main0 -> tagged_once s fr P M ->
    selects_more s fr0 fr P0 M0 P M -> accepts D base n main v -> accepts D0 base0 (S (n + n)) main0 v.
  Proof.
    induction n as [n IHn] using (well_founded_induction lt_wf). intros P M main P1 M1 main1 v Ds Ds1 Tg Sm A.
    destruct (one_type c js s fr base D D' I D'_in Rq _ _ _ _ _ Ds Tg A) as (kvs & k & T & ts & ms & -> & Lk & Po & Mm & Mx & Tag).
    inversion Sm as [P0 M0 P2 M2 Pp Ex Sub]; subst P0 M0 P2 M2.
    inversion Mm as [ts0 O0 ms0 Nm Mf Mk Mt]; subst ts0 O0 ms0. inversion Tg as [P0 M0 T1 T2]; subst P0 M0.
    inversion Ds1 as [P0 M0 main0 groups Hm Nn Hp Np Hd Ht Hn Hg]; subst P0 M0 main0.
    pose proof (proj2 (Hp T) (Pp T Po)) as J. apply in_flat_map in J. destruct J as ([[nm1 ts1] ms1] & J & Jt). cbn [fst snd] in Jt.
    pose proof (Hg _ _ _ _ J Jt) as Mm1. inversion Mm1 as [ts0 O0 ms0 Nm1 Mf1 Mk1 Mt1]; subst ts0 O0 ms0.
    assert (X : accepts D0 base0 (S (S (k + k))) nm1 (VObj kvs)).
    { apply (accepts_decl base0 D0 Nd0 (S (k + k)) (DObj nm1 ms1)); [eapply Hd; eauto|]. cbn [decl_values]. exists kvs. split; auto. apply Forall_forall. intros m1 Jm1.
      destruct (Mf1 m1 Jm1) as (f1 & ss1 & Fo1). destruct (Ex _ _ _ _ Po Fo1) as (f & ss & Fo & Ef).
      pose proof (Mk _ _ _ Fo) as Jk. apply in_map_iff in Jk. destruct Jk as (m & Ek & Jm). rewrite <- Ek in Fo |- *.
      destruct (Mx m Jm) as (x & Ea & Dx). rewrite Ea.
      pose proof (Mt m f ss Jm Fo) as My. inversion My as [ts0 ft0 M0 e0 Hb E1 E2 E3 Em]; subst ts0 ft0 M0.
      pose proof (Mt1 m1 f1 ss1 Jm1 Fo1) as My1. rewrite <- Ef in My1. inversion My1 as [ts0 ft0 M0 e1 Hb1 E1' E2' E3' Em1]; subst ts0 ft0 M0.
      destruct (fdef_is_complex (ft_def (sf_type f))) eqn:Fx.
      - inversion Hb as [ts2 ft2 M2 Ey Ea1 Ea2 Ea3 Ea4|ts2 ft2 M2 sc Ey Ea1 Ea2 Ea3 Ea4|ts2 ft2 M2 Ey Ea1 Ea2 Ea3 Ea4|ts2 ft2 M2 sub Ey Cc Dsub Ea1 Ea2 Ea3 Ea4]; subst ts2 ft2 M2 e0;
          try (rewrite Ey in Fx; discriminate Fx).
        inversion Hb1 as [ts2 ft2 M2 Ex1 Ea1 Ea2 Ea3 Ea4|ts2 ft2 M2 sc Ex1 Ea1 Ea2 Ea3 Ea4|ts2 ft2 M2 Ex1 Ea1 Ea2 Ea3 Ea4|ts2 ft2 M2 sub1 Ex1 Cc1 Dsub1 Ea1 Ea2 Ea3 Ea4]; subst ts2 ft2 M2 e1;
          try (rewrite Ex1 in Fx; discriminate Fx).
        rewrite <- Em in Dx. apply denote_ptd in Dx. apply denote_ptd. eapply sems_mono; [|exact Dx]. apply sem_mono. cbn [denote]. intros y Ay.
        pose proof (Sub _ _ _ _ Po Fo1 ltac:(rewrite <- Ef; exact Cc)) as Sm'. rewrite <- Ef, <- Ek in Sm'. rewrite <- Ek in Dsub1.
        eapply (IHn k ltac:(lia) _ _ sub _ _ sub1); [exact Dsub|exact Dsub1| |exact Sm'|exact Ay]. eapply T2; eauto.
      - inversion Hb as [ts2 ft2 M2 Ey Ea1 Ea2 Ea3 Ea4|ts2 ft2 M2 sc Ey Ea1 Ea2 Ea3 Ea4|ts2 ft2 M2 Ey Ea1 Ea2 Ea3 Ea4|ts2 ft2 M2 sub Ey Cc Dsub Ea1 Ea2 Ea3 Ea4]; subst ts2 ft2 M2 e0;
          [| | |rewrite Ey in Fx; discriminate Fx].
        all: inversion Hb1 as [ts2 ft2 M2 Ex1 Ea1 Ea2 Ea3 Ea4|ts2 ft2 M2 sc1 Ex1 Ea1 Ea2 Ea3 Ea4|ts2 ft2 M2 Ex1 Ea1 Ea2 Ea3 Ea4|ts2 ft2 M2 sub1 Ex1 Cc1 Dsub1 Ea1 Ea2 Ea3 Ea4]; subst ts2 ft2 M2 e1;
          try (rewrite Ex1 in Ey; discriminate Ey); try (rewrite Ex1 in Fx; discriminate Fx).
        + destruct (typename_key js s fr I _ _ _ _ _ _ Fo Ey) as [-> _]. rewrite (Tag m _ _ Jm Fo Ey) in Ea. injection Ea as <-.
          cbn. apply denote_lits; [intros ->; destruct Jt|]. eauto.
        + rewrite Ex1 in Ey. injection Ey as ->. rewrite <- Em in Dx. apply denote_ptd in Dx. apply denote_ptd. eapply sems_mono; [|exact Dx]. apply sem_mono.
          cbn [denote]. intros y Ay. eapply accepts_mono; [|apply (leaf_moves c js base base0 D D0 Und Und0 B k)]; [lia| |exact Ay].
          destruct Fo as (P2 & n2 & O2 & F2). destruct (field_declared js s I _ _ _ F2) as [[-> ->]|(kind & g & Dc & Ej & Ko' & Vg)]; [discriminate Ex1|].
          destruct (json_named kind g Ko' Vg _ Ej) as [En Dk]. destruct (in_kinds _ _ I _ _ _ _ Dc) as (j & L & Ek2).
          rewrite Ex1 in Dk. inversion Dk as [|sc' Si E1 E2| | | |]. subst sc'. apply (scalar_leaf c js g); auto. exists j. split; auto. congruence.
        + rewrite <- Em in Dx. apply denote_ptd in Dx. apply denote_ptd. eapply sems_mono; [|exact Dx]. apply sem_mono.
          cbn [denote]. intros y Ay. eapply accepts_mono; [|apply (leaf_moves c js base base0 D D0 Und Und0 B k)]; [lia| |exact Ay].
          destruct Fo as (P2 & n2 & O2 & F2). destruct (field_declared js s I _ _ _ F2) as [[-> ->]|(kind & g & Dc & Ej & Ko' & Vg)]; [discriminate Ex1|].
          destruct (json_named kind g Ko' Vg _ Ej) as [En Dk]. destruct (in_kinds _ _ I _ _ _ _ Dc) as (j & L & Ek2).
          rewrite Ex1 in Dk. inversion Dk as [| | |E1 E2| |]. right. right. exists j. rewrite En. split; auto. congruence. }
    destruct Hm as [(gr & Eg & Em)|Hm].
    - rewrite Eg in J. destruct J as [->|[]]. cbn [fst] in Em. subst nm1. eapply accepts_mono; [|exact X]. lia.
    - apply (accepts_decl base0 D0 Nd0 (n + n) (DAlias main1 (List.map (fun g : group => fst (fst g)) groups))); auto.
      cbn [decl_values]. exists nm1. split; [apply in_map_iff; exists (nm1, ts1, ms1); auto|]. eapply accepts_mono; [|exact X]. lia.
  Qed.
End Narrow.
