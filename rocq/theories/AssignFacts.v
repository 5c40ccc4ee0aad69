(** Lemmas: the type of a selection is assignable to the type of a fragment spread in it. *)
From Verif Require Export PartFacts SpecAssign.
From Verif Require Import RespFacts RequestFacts SpecExact ExactFacts DeclFacts WrapFacts PropC04 PropC16.

Lemma occ_frags s frags frags1 : (forall n fd, aget n frags1 = Some fd -> aget n frags = Some fd) ->
  forall T P M k P' n ss, occ s frags1 T P M k P' n ss -> occ s frags T P M k P' n ss.
Proof.
  intros H T P M k P' n ss O. induction O as [P M p al n a d sub J|P M p cnd d sub k P' n ss J Po O IH|P M p name d fd k P' n ss J Ea Po O IH].
  - econstructor; eauto.
  - eapply occ_inline; eauto.
  - eapply occ_spread; eauto.
Qed.
Lemma occ_within s frags T P M k P' n ss : occ s frags T P M k P' n ss -> forall M' : selset, (forall x, M x -> M' x) ->
  exists P'', occ s frags T P M' k P'' n ss /\ (P'' = P').
Proof.
  intros O M' H. exists P'. split; auto. destruct O as [P M p al n a d sub J|P M p cnd d sub k P' n ss J Po O|P M p name d fd k P' n ss J Ea Po O].
  - econstructor; eauto.
  - eapply occ_inline; eauto.
  - eapply occ_spread; eauto.
Qed.
Lemma focc_within s frags frags1 T P (M M' : selset) k f ss : (forall n fd, aget n frags1 = Some fd -> aget n frags = Some fd) ->
  (forall x, M x -> M' x) -> focc s frags1 T P M k f ss -> focc s frags T P M' k f ss.
Proof.
  intros H I (P' & n & O & F). apply (occ_frags _ _ _ H) in O. destruct (occ_within _ _ _ _ _ _ _ _ _ O M' I) as (P'' & O' & ->). exists P', n. auto.
Qed.
(** What is selected in the fragment is selected where it is spread *)
Lemma spread_occ s frags name T M fd : spread_for s frags name T M fd -> forall P k P' n ss,
  occ s frags T (fr_cond fd) (fun x => In x (fr_sels fd)) k P' n ss -> occ s frags T P M k P' n ss.
Proof.
  induction 1 as [M p d fd J Ea Po|M p c d sub fd J Po _ IH|M p other d od fd J Ea Po _ IH]; intros P k P' n ss O.
  - eapply occ_spread; eauto.
  - eapply occ_inline; eauto.
  - eapply occ_spread; eauto.
Qed.
Lemma spread_found s frags name T M fd : spread_for s frags name T M fd -> aget name frags = Some fd /\ possible s (fr_cond fd) T.
Proof. induction 1; auto. Qed.

(** Only what is under the names of fragments matters *)
Lemma for_frags s fr fr' name T : (forall n, aget n fr = aget n fr' :> option fragdef) -> forall M fd, spread_for s fr name T M fd ->
  forall M' : selset, (forall x, M x -> M' x) -> spread_for s fr' name T M' fd.
Proof.
  intros H. induction 1 as [M p d fd J Ea Po|M p c d sub fd J Po _ IH|M p other d od fd J Ea Po _ IH]; intros M' S.
  - rewrite H in Ea. eapply for_here; eauto.
  - eapply for_inline; eauto.
  - rewrite H in Ea. eapply for_spread; eauto.
Qed.
Lemma along_frags s fr fr' name : (forall n, aget n fr = aget n fr' :> option fragdef) -> forall path P M, spread_along s fr name P M path ->
  forall M' : selset, (forall x, M x <-> M' x) -> spread_along s fr' name P M' path.
Proof.
  intros H. assert (X : forall n fd, aget n fr = Some fd -> aget n fr' = Some fd) by (intros n fd E; rewrite <- H; exact E).
  assert (Y : forall n fd, aget n fr' = Some fd -> aget n fr = Some fd) by (intros n fd E; rewrite H; exact E).
  induction path as [|k path IH]; intros P M Sp M' E.
  - inversion Sp as [P0 M0 A|]; subst. constructor. intros T Po. destruct (A T Po) as (fd & F). exists fd. eapply for_frags; [exact H|exact F|apply E].
  - inversion Sp as [|P0 M0 k0 path0 A]; subst. constructor. intros T Po. destruct (A T Po) as (f & ss & Fo & Cp & Al). exists f, ss.
    split; [eapply focc_within; [exact X|apply E|exact Fo]|]. split; auto. apply (IH _ _ Al).
    intros x. unfold merged. split; intros (f' & ss' & F' & Ef & Ix); exists f', ss'; (split; [|auto]).
    + eapply focc_within; [exact X|apply E|exact F'].
    + eapply focc_within; [exact Y|apply E|exact F'].
Qed.

Section Sub.
  Variable c : cconfig.
  Variable js : jschema.
  Variable s : schema.
  Variables frags frags1 : amap string fragdef.
  Variables base base1 : string -> value -> Prop.
  Variables D D0 D1 : list decl.
  Hypothesis I : introspection js s.
  Hypothesis More : forall n fd, aget n frags1 = Some fd -> aget n frags = Some fd.
  Hypothesis D0_in : incl D0 D.
  Hypothesis Rq : Forall required D0.
  Hypothesis Und : forall x d, leaf_name c js x -> In d D -> decl_name d <> x.
  Hypothesis Nd : NoDup (List.map decl_name D).
  Hypothesis Nd1 : NoDup (List.map decl_name D1).
  Hypothesis Und1 : forall x d, leaf_name c js x -> In d D1 -> decl_name d <> x.
  Hypothesis B : forall x v, leaf_name c js x -> base x v -> base1 x v.

  Lemma accepts_here n d v : In d D -> accepts D base (S n) (decl_name d) v -> decl_values (accepts D base n) d v.
  Proof. intros J [A _]. auto. Qed.

  Lemma leaf_moves n x v : leaf_name c js x -> accepts D base n x v -> accepts D1 base1 (S n) x v.
  Proof.
    intros L A. destruct n as [|n]; [destruct A|]. destruct A as [_ A]. split.
    - intros d J E. exfalso. eapply Und1; eauto.
    - right. apply B; auto. destruct A as [(d & J & E)|A]; auto. exfalso. eapply Und; eauto.
  Qed.

  (** The fields of one key of an object type are of the same kind *)
  Lemma no_lit ts f (M : selset) e ts' : bas c s frags D0 ts f M e -> core_of e = lit_union ts' -> ft_def f = FDTypeName.
  Proof. intros [ts0 ft0 M0 Ed|ts0 ft0 M0 sc Ed|ts0 ft0 M0 Ed|ts0 ft0 M0 sub Ed _ _]; auto; cbn [core_of]; intros E; symmetry in E; exfalso; eapply lit_union_name; eauto. Qed.

  Lemma typename_key T P M q f q' : focc s frags T P M q f q' -> ft_def (sf_type f) = FDTypeName -> f = typename_field /\ exists P2, occ s frags T P M q P2 "__typename" q'.
  Proof.
    intros (P2 & n2 & O2 & F2) E2. destruct (field_declared js s I _ _ _ F2) as [[-> ->]|(kind & g & Dc & Ej & Ko' & Vg)]; eauto.
    exfalso. destruct (json_named kind g Ko' Vg _ Ej) as [_ Dk]. rewrite E2 in Dk. inversion Dk.
  Qed.

  (** An object accepted by the type of [M] has the members of one of the types [M] stands for *)
  Lemma one_type n P M main v : des c s frags D0 P M main -> tagged_once s frags P M -> accepts D base n main v ->
    exists kvs k T ts ms, v = VObj kvs /\ S k <= n /\ possible s P T /\ mem c s frags D0 ts (focc s frags T P M) ms /\
      (forall m, In m ms -> exists x, aget (m_name m) kvs = Some x /\ denote (accepts D base k) (m_type m) x) /\
      (forall m f ss, In m ms -> focc s frags T P M (m_name m) f ss -> ft_def (sf_type f) = FDTypeName -> aget (m_name m) kvs = Some (VStr T)).
  Proof.
    intros Ds Tg A. inversion Ds as [P0 M0 main0 groups Hm Nn Hp Np Hd Ht Hn Hg]; subst P0 M0 main0.
    assert (X : exists nm ts ms k, In (nm, ts, ms) groups /\ S k <= n /\ accepts D base (S k) nm v).
    { destruct n as [|n]; [destruct A|]. destruct Hm as [(gr & Eg & Em)|Hm].
      - destruct gr as [[nm ts] ms]. cbn [fst] in Em. subst nm. exists main, ts, ms, n. rewrite Eg. split; [left; auto|auto].
      - apply (accepts_here n (DAlias main (List.map (fun g : group => fst (fst g)) groups))) in A; [|apply D0_in; auto]. cbn [decl_values] in A.
        destruct A as (nm & J & A). apply in_map_iff in J. destruct J as ([[nm' ts] ms] & <- & J). cbn [fst] in A. destruct n as [|n]; [destruct A|].
        exists nm', ts, ms, n. auto. }
    clear A. destruct X as (nm & ts & ms & k & J & Lk & A). pose proof (Hd _ _ _ J) as Jd. apply (accepts_here k (DObj nm ms)) in A; [|apply D0_in; auto]. destruct A as (kvs & -> & Fm).
    rewrite Forall_forall in Fm.
    assert (Op : forall m, In m ms -> m_optional m = false).
    { rewrite Forall_forall in Rq. specialize (Rq _ Jd). cbn [required] in Rq. rewrite Forall_forall in Rq. exact Rq. }
    assert (Mx : forall m, In m ms -> exists x, aget (m_name m) kvs = Some x /\ denote (accepts D base k) (m_type m) x).
    { intros m Jm. specialize (Fm m Jm). destruct (aget (m_name m) kvs); eauto. rewrite (Op m Jm) in Fm. discriminate. }
    inversion Tg as [P1 M1 T1 T2]; subst P1 M1.
    assert (Ch : exists T, In T ts /\ forall m f ss, In m ms -> focc s frags T P M (m_name m) f ss -> ft_def (sf_type f) = FDTypeName -> aget (m_name m) kvs = Some (VStr T)).
    { destruct ts as [|T0 ts'] eqn:Ets; [exfalso; exact (Ht _ _ _ J eq_refl)|]. rewrite <- Ets in *.
      assert (I0 : In T0 ts) by (rewrite Ets; left; auto). pose proof (Hg _ _ _ _ J I0) as Mm. inversion Mm as [ts0 O0 ms0 Nm Mf Mk Mt]; subst ts0 O0 ms0.
      assert (Ca : (exists m f ss, In m ms /\ focc s frags T0 P M (m_name m) f ss /\ ft_def (sf_type f) = FDTypeName) \/
                   forall m, In m ms -> exists f ss, focc s frags T0 P M (m_name m) f ss /\ ft_def (sf_type f) <> FDTypeName).
      { clear - Mf. induction ms as [|m ms IH]; [right; intros m []|].
        destruct IH as [(m' & f & ss & Jm & H)|H]; [intros m' Jm; apply Mf; right; auto|left; exists m', f, ss; split; auto; right; auto|].
        destruct (Mf m (or_introl eq_refl)) as (f & ss & Fo). destruct (ft_def (sf_type f)) eqn:Ed.
        all: try (right; intros m' [<-|Jm]; [exists f, ss; split; auto; congruence|auto]; fail).
        left. exists m, f, ss. split; [left; auto|auto]. }
      assert (Lit : forall T m f ss, In T ts -> In m ms -> focc s frags T P M (m_name m) f ss -> ft_def (sf_type f) = FDTypeName -> core_of (m_type m) = lit_union ts).
      { intros T m f ss JT Jm Fo Ed. pose proof (Hg _ _ _ _ J JT) as Mm'. inversion Mm' as [ts0 O0 ms0 Nm' Mf' Mk' Mt']; subst ts0 O0 ms0.
        pose proof (Mt' m f ss Jm Fo) as My. inversion My as [ts0 ft0 M0 e0 Hb E1 E2 E3 Em]; subst ts0 ft0 M0. rewrite core_ptd.
        inversion Hb as [ts1 ft1 M1 Ex Ea1 Ea2 Ea3 Ea4|ts1 ft1 M1 sc Ex Ea1 Ea2 Ea3 Ea4|ts1 ft1 M1 Ex Ea1 Ea2 Ea3 Ea4|ts1 ft1 M1 sub Ex Cc Dsub Ea1 Ea2 Ea3 Ea4]; try (rewrite Ed in Ex; discriminate Ex).
        apply core_lits. }
      assert (Tn : forall T m f ss, In T ts -> In m ms -> focc s frags T P M (m_name m) f ss -> core_of (m_type m) = lit_union ts -> ft_def (sf_type f) = FDTypeName).
      { intros T m f ss JT Jm Fo Ec. pose proof (Hg _ _ _ _ J JT) as Mm'. inversion Mm' as [ts0 O0 ms0 Nm' Mf' Mk' Mt']; subst ts0 O0 ms0.
        pose proof (Mt' m f ss Jm Fo) as My. inversion My as [ts0 ft0 M0 e0 Hb E1 E2 E3 Em]; subst ts0 ft0 M0.
        rewrite <- Em, core_ptd in Ec. exact (no_lit _ _ _ _ _ Hb Ec). }
      destruct Ca as [(m & f & ss & Jm & Fo & Ed)|Ca].
      - destruct (Mx m Jm) as (x & Ea & Dx). pose proof (Mt m f ss Jm Fo) as My. inversion My as [ts0 ft0 M0 e0 Hb E1 E2 E3 Em]; subst ts0 ft0 M0.
        assert (Ee : e0 = lit_union ts).
        { inversion Hb as [ts1 ft1 M1 Ex Ea1 Ea2 Ea3 Ea4|ts1 ft1 M1 sc Ex Ea1 Ea2 Ea3 Ea4|ts1 ft1 M1 Ex Ea1 Ea2 Ea3 Ea4|ts1 ft1 M1 sub Ex Cc Dsub Ea1 Ea2 Ea3 Ea4]; auto; rewrite Ed in Ex; try discriminate Ex. }
        subst e0. destruct (typename_key _ _ _ _ _ _ Fo Ed) as [-> _].
        rewrite <- Em in Dx. cbn [typename_field sf_type ft_rest ft_mod ptd_expr] in Dx. cbn in Dx.
        apply denote_lits in Dx; [|rewrite Ets; discriminate]. destruct Dx as (T & JT & ->). exists T. split; auto.
        intros m' f' ss' Jm' Fo' Ed'. pose proof (Hg _ _ _ _ J JT) as Mm'. inversion Mm' as [ts0 O0 ms0 Nm' Mf' Mk' Mt']; subst ts0 O0 ms0.
        assert (Po : possible s P T) by (apply Hp; apply in_flat_map; exists (nm, ts, ms); auto).
        destruct (Mf' m Jm) as (f1 & ss1 & Fo1).
        assert (Ed1 : ft_def (sf_type f1) = FDTypeName) by (eapply (Tn T m); eauto).
        destruct (typename_key _ _ _ _ _ _ Fo1 Ed1) as (_ & Pa & Oa). destruct (typename_key _ _ _ _ _ _ Fo' Ed') as (_ & Pb & Ob).
        rewrite (T1 T _ _ _ _ _ _ Po Ob Oa). auto.
      - exists T0. split; auto. intros m f ss Jm Fo Ed. exfalso. destruct (Ca m Jm) as (f1 & ss1 & Fo1 & Ne). apply Ne.
        eapply (Tn T0 m); eauto. }
    destruct Ch as (T & JT & Tag). exists kvs, k, T, ts, ms. split; auto. split; auto.
    split; [apply Hp; apply in_flat_map; exists (nm, ts, ms); auto|]. split; [eapply Hg; eauto|]. auto.
  Qed.

  Theorem object_sub : forall n P M main P1 M1 main1 v, des c s frags D0 P M main -> des c s frags1 D1 P1 M1 main1 -> tagged_once s frags P M ->
    (forall T, possible s P T -> possible s P1 T) ->
    (forall T k f ss, possible s P T -> focc s frags1 T P1 M1 k f ss -> focc s frags T P M k f ss) ->
    accepts D base n main v -> accepts D1 base1 (S (n + n)) main1 v.
  Proof.
    induction n as [n IHn] using (well_founded_induction lt_wf). intros P M main P1 M1 main1 v Ds Ds1 Tg Pp Sub A.
    destruct (one_type _ _ _ _ _ Ds Tg A) as (kvs & k & T & ts & ms & -> & Lk & Po & Mm & Mx & Tag).
    inversion Mm as [ts0 O0 ms0 Nm Mf Mk Mt]; subst ts0 O0 ms0. inversion Tg as [P0 M0 T1 T2]; subst P0 M0.
    inversion Ds1 as [P0 M0 main0 groups Hm Nn Hp Np Hd Ht Hn Hg]; subst P0 M0 main0.
    pose proof (proj2 (Hp T) (Pp T Po)) as J. apply in_flat_map in J. destruct J as ([[nm1 ts1] ms1] & J & Jt). cbn [fst snd] in Jt.
    pose proof (Hg _ _ _ _ J Jt) as Mm1. inversion Mm1 as [ts0 O0 ms0 Nm1 Mf1 Mk1 Mt1]; subst ts0 O0 ms0.
    assert (X : accepts D1 base1 (S (S (k + k))) nm1 (VObj kvs)).
    { apply (accepts_decl base1 D1 Nd1 (S (k + k)) (DObj nm1 ms1)); [eapply Hd; eauto|]. cbn [decl_values]. exists kvs. split; auto. apply Forall_forall. intros m1 Jm1.
      destruct (Mf1 m1 Jm1) as (f & ss & Fo1). pose proof (Sub _ _ _ _ Po Fo1) as Fo.
      pose proof (Mk _ _ _ Fo) as Jk. apply in_map_iff in Jk. destruct Jk as (m & Ek & Jm). rewrite <- Ek in Fo |- *.
      destruct (Mx m Jm) as (x & Ea & Dx). rewrite Ea.
      pose proof (Mt m f ss Jm Fo) as My. inversion My as [ts0 ft0 M0 e0 Hb E1 E2 E3 Em]; subst ts0 ft0 M0.
      pose proof (Mt1 m1 f ss Jm1 Fo1) as My1. inversion My1 as [ts0 ft0 M0 e1 Hb1 E1' E2' E3' Em1]; subst ts0 ft0 M0.
      destruct (fdef_is_complex (ft_def (sf_type f))) eqn:Fx.
      - inversion Hb as [ts2 ft2 M2 Ex Ea1 Ea2 Ea3 Ea4|ts2 ft2 M2 sc Ex Ea1 Ea2 Ea3 Ea4|ts2 ft2 M2 Ex Ea1 Ea2 Ea3 Ea4|ts2 ft2 M2 sub Ex Cc Dsub Ea1 Ea2 Ea3 Ea4]; subst ts2 ft2 M2 e0;
          try (rewrite Ex in Fx; discriminate Fx).
        inversion Hb1 as [ts2 ft2 M2 Ex1 Ea1 Ea2 Ea3 Ea4|ts2 ft2 M2 sc Ex1 Ea1 Ea2 Ea3 Ea4|ts2 ft2 M2 Ex1 Ea1 Ea2 Ea3 Ea4|ts2 ft2 M2 sub1 Ex1 Cc1 Dsub1 Ea1 Ea2 Ea3 Ea4]; subst ts2 ft2 M2 e1;
          try (rewrite Ex1 in Fx; discriminate Fx).
        rewrite <- Em in Dx. apply denote_ptd in Dx. apply denote_ptd. eapply sems_mono; [|exact Dx]. apply sem_mono. cbn [denote]. intros y Ay.
        eapply (IHn k ltac:(lia) _ _ sub _ _ sub1); [exact Dsub|exact Dsub1| |auto| |exact Ay].
        + eapply T2; eauto.
        + intros T' k' f' ss' _ Fo'. rewrite <- Ek in Fo'. eapply focc_within; [exact More| |exact Fo'].
          intros z (f2 & ss2 & F2 & Ef & Iz). exists f2, ss2. split; [apply Sub; auto|auto].
      - inversion Hb as [ts2 ft2 M2 Ex Ea1 Ea2 Ea3 Ea4|ts2 ft2 M2 sc Ex Ea1 Ea2 Ea3 Ea4|ts2 ft2 M2 Ex Ea1 Ea2 Ea3 Ea4|ts2 ft2 M2 sub Ex Cc Dsub Ea1 Ea2 Ea3 Ea4]; subst ts2 ft2 M2 e0;
          [| | |rewrite Ex in Fx; discriminate Fx].
        all: inversion Hb1 as [ts2 ft2 M2 Ex1 Ea1 Ea2 Ea3 Ea4|ts2 ft2 M2 sc1 Ex1 Ea1 Ea2 Ea3 Ea4|ts2 ft2 M2 Ex1 Ea1 Ea2 Ea3 Ea4|ts2 ft2 M2 sub1 Ex1 Cc1 Dsub1 Ea1 Ea2 Ea3 Ea4]; subst ts2 ft2 M2 e1;
          try (rewrite Ex1 in Ex; discriminate Ex); try (rewrite Ex1 in Fx; discriminate Fx).
        + destruct (typename_key _ _ _ _ _ _ Fo Ex) as [-> _]. rewrite (Tag m _ _ Jm Fo Ex) in Ea. injection Ea as <-.
          cbn. apply denote_lits; [intros ->; destruct Jt|]. eauto.
        + rewrite Ex1 in Ex. injection Ex as ->. rewrite <- Em in Dx. apply denote_ptd in Dx. apply denote_ptd. eapply sems_mono; [|exact Dx]. apply sem_mono.
          cbn [denote]. intros y Ay. eapply accepts_mono; [|apply (leaf_moves k)]; [lia| |exact Ay].
          destruct Fo as (P2 & n2 & O2 & F2). destruct (field_declared js s I _ _ _ F2) as [[-> ->]|(kind & g & Dc & Ej & Ko' & Vg)]; [discriminate Ex1|].
          destruct (json_named kind g Ko' Vg _ Ej) as [En Dk]. destruct (in_kinds _ _ I _ _ _ _ Dc) as (j & L & Ek2).
          rewrite Ex1 in Dk. inversion Dk as [|sc' Si E1 E2| | | |]. subst sc'. apply (scalar_leaf c js g); auto. exists j. split; auto. congruence.
        + rewrite <- Em in Dx. apply denote_ptd in Dx. apply denote_ptd. eapply sems_mono; [|exact Dx]. apply sem_mono.
          cbn [denote]. intros y Ay. eapply accepts_mono; [|apply (leaf_moves k)]; [lia| |exact Ay].
          destruct Fo as (P2 & n2 & O2 & F2). destruct (field_declared js s I _ _ _ F2) as [[-> ->]|(kind & g & Dc & Ej & Ko' & Vg)]; [discriminate Ex1|].
          destruct (json_named kind g Ko' Vg _ Ej) as [En Dk]. destruct (in_kinds _ _ I _ _ _ _ Dc) as (j & L & Ek2).
          rewrite Ex1 in Dk. inversion Dk as [| | |E1 E2| |]. right. right. exists j. rewrite En. split; auto. congruence. }
    destruct Hm as [(gr & Eg & Em)|Hm].
    - rewrite Eg in J. destruct J as [->|[]]. cbn [fst] in Em. subst nm1. eapply accepts_mono; [|exact X]. lia.
    - apply (accepts_decl base1 D1 Nd1 (n + n) (DAlias main1 (List.map (fun g : group => fst (fst g)) groups))); auto.
      cbn [decl_values]. exists nm1. split; [apply in_map_iff; exists (nm1, ts1, ms1); auto|]. eapply accepts_mono; [|exact X]. lia.
  Qed.

  (** Objects in what a field's type accepts *)
  Definition no_list (Q : value -> Prop) : Prop := forall l, ~ Q (VList l).
  Lemma item_obj kvs y : item_of (VObj kvs) y -> y = VObj kvs.
  Proof. inversion 1; auto. Qed.
  Lemma item_null kvs : ~ item_of VNull (VObj kvs).
  Proof. inversion 1. Qed.

  (** [Q] holds of the object items of what [R] accepts *)
  Definition gives (R Q : value -> Prop) : Prop := forall v kvs, R v -> item_of v (VObj kvs) -> Q (VObj kvs).
  Lemma gives_listof (R Q : value -> Prop) : gives R Q -> gives (listof R) Q.
  Proof.
    intros G v kvs (l & -> & F) H. inversion H as [|l0 x y J K]; subst. rewrite Forall_forall in F. eapply G; eauto.
  Qed.
  Lemma gives_null (R Q : value -> Prop) : gives R Q -> gives (fun v => R v \/ v = VNull) Q.
  Proof. intros G v kvs [H| ->] K; [eapply G; eauto|]. exfalso. eapply item_null; eauto. Qed.
  Lemma gives_sem m (R Q : value -> Prop) : gives R Q -> gives (sem m R) Q.
  Proof.
    intros G. destruct m; cbn [sem].
    - exact G.
    - apply gives_null. exact G.
    - apply gives_listof. exact G.
    - apply gives_null, gives_listof. exact G.
    - apply gives_listof, gives_null. exact G.
    - apply gives_null, gives_listof, gives_null. exact G.
  Qed.
  Lemma gives_sems l (R Q : value -> Prop) : gives R Q -> gives (sems l R) Q.
  Proof. intros G. induction l as [|m l IH]; cbn; auto. apply gives_sem. exact IH. Qed.

  (** What the type of [M] accepts has, along the path, objects the type of the fragment accepts *)
  Theorem path_sub name fd main1 : aget name frags = Some fd -> des c s frags1 D1 (fr_cond fd) (fun x => In x (fr_sels fd)) main1 ->
    forall path P M main v w n, spread_along s frags name P M path -> des c s frags D0 P M main -> tagged_once s frags P M ->
    accepts D base n main v -> at_path path v w -> exists k, accepts D1 base1 k main1 w.
  Proof.
    intros Fd Ds1. induction path as [|key path IH]; intros P M main v w n Sp Ds Tg A At.
    - inversion Sp as [P0 M0 Al|]; subst P0 M0. inversion At as [kvs|]; subst. exists (S (n + n)).
      assert (Al' : forall T, possible s P T -> spread_for s frags name T M fd).
      { intros T Po. destruct (Al T Po) as (fd' & Sf). destruct (spread_found _ _ _ _ _ _ Sf) as [E _]. rewrite Fd in E. injection E as <-. exact Sf. }
      eapply (object_sub n P M main); [exact Ds|exact Ds1|exact Tg| | |exact A].
      + intros T Po. apply (spread_found _ _ _ _ _ _ (Al' T Po)).
      + intros T k f ss Po (P' & n' & O & F). exists P', n'. split; auto. apply (spread_occ _ _ _ _ _ _ (Al' T Po)). eapply occ_frags; eauto.
    - inversion Sp as [|P0 M0 k0 path0 Al]; subst P0 M0 k0 path0. inversion At as [|k0 path0 kvs x y w0 Ea Iy At']; subst.
      destruct (one_type _ _ _ _ _ Ds Tg A) as (kvs' & k & T & ts & ms & Ev & Lk & Po & Mm & Mx & Tag). injection Ev as <-.
      inversion Mm as [ts0 O0 ms0 Nm Mf Mk Mt]; subst ts0 O0 ms0. inversion Tg as [P0 M0 T1 T2]; subst P0 M0.
      destruct (Al T Po) as (f & ss & Fo & Cp & Al').
      pose proof (Mk _ _ _ Fo) as Jk. apply in_map_iff in Jk. destruct Jk as (m & <- & Jm).
      destruct (Mx m Jm) as (x' & Ea' & Dx). rewrite Ea in Ea'. injection Ea' as <-.
      pose proof (Mt m f ss Jm Fo) as My. inversion My as [ts0 ft0 M0 e0 Hb E1 E2 E3 Em]; subst ts0 ft0 M0.
      destruct Fo as (P2 & n2 & O2 & F2).
      destruct (field_declared js s I _ _ _ F2) as [[-> ->]|(kind & g & Dc & Ej & Ko' & Vg)].
      { exfalso. rewrite (Tag m typename_field ss Jm ltac:(exists P2, "__typename"; auto) eq_refl) in Ea. injection Ea as <-.
        inversion Iy; subst. inversion At'. }
      destruct (json_named kind g Ko' Vg _ Ej) as [En Dk]. destruct (in_kinds _ _ I _ _ _ _ Dc) as (j & L & Ek).
      inversion Hb as [ts1 ft1 M1 Ex Ea1 Ea2 Ea3 Ea4|ts1 ft1 M1 sc Ex Ea1 Ea2 Ea3 Ea4|ts1 ft1 M1 Ex Ea1 Ea2 Ea3 Ea4|ts1 ft1 M1 sub Ex Cc Dsub Ea1 Ea2 Ea3 Ea4]; subst ts1 ft1 M1 e0.
      + exfalso. rewrite Ex in Dk. inversion Dk.
      + exfalso. rewrite Ex in Dk. inversion Dk as [|sc' Si Ek' E2| | | |]. rewrite En in Cp. eapply (leaf_not_composite js s I); eauto. right. congruence.
      + exfalso. rewrite Ex in Dk. inversion Dk as [| | |Ek' E2| |]. rewrite En in Cp. eapply (leaf_not_composite js s I); eauto. left. congruence.
      + assert (Fo : focc s frags T P M (m_name m) f ss) by (exists P2, n2; auto).
        assert (Ay : accepts D base k sub y).
        { assert (Oy : exists kv, y = VObj kv) by (inversion At'; eauto). destruct Oy as (kv & ->).
          rewrite <- Em in Dx. apply denote_ptd in Dx. revert Iy. refine (gives_sems _ _ _ (gives_sem _ _ _ _) _ _ Dx). cbn [denote].
          intros z kz Az Iz. destruct (one_type _ _ _ _ _ Dsub (T2 _ _ _ _ Po Fo Cp) Az) as (kvs' & _ & _ & _ & _ & -> & _).
          apply item_obj in Iz. rewrite Iz. exact Az. }
        eapply IH; eauto.
  Qed.
End Sub.
