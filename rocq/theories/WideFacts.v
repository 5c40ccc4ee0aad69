(** Lemmas: result types allow exactly the responses, with scalars as the surroundings have them. *)
From Verif Require Import RespFacts RequestFacts SpecWide DeclFacts PropC04 PropC16 ExactFacts PromiseFacts.

Lemma wide_object_mono js s frags active si n : forall m T M v, n <= m ->
  wide_object js s frags active si n T M v -> wide_object js s frags active si m T M v.
Proof.
  induction n as [|n IH]; intros m T M v L; [intros []|]. destruct m as [|m]; [lia|]. cbn [wide_object]. intros (kvs & -> & K & F). exists kvs.
  split; auto. split; auto. intros k x J. destruct (F k x J) as (fld & ss & C & H). exists fld, ss. split; auto. destruct H as [H|(kind & g & D & G)]; auto.
  right. exists kind, g. split; auto. eapply wide_values_mono; [|exact G]. intros y [Lf|(T' & Po & R)]; auto. right. exists T'. split; auto. eapply IH; [|exact R]. lia.
Qed.
Lemma wide_object_ext js s frags active si n : forall T (M M' : selset) v, (forall x, M x <-> M' x) ->
  wide_object js s frags active si n T M v -> wide_object js s frags active si n T M' v.
Proof.
  induction n as [|n IH]; intros T M M' v H; cbn [wide_object]; auto. intros (kvs & -> & K & F). exists kvs. split; auto.
  assert (X : forall k fld ss, collects s frags active T M k fld ss <-> collects s frags active T M' k fld ss).
  { intros k fld ss. split; apply collects_ext; intros x; apply H. }
  split.
  - intros k. rewrite K. split; intros (fld & ss & C); exists fld, ss; apply X; auto.
  - intros k x J. destruct (F k x J) as (fld & ss & C & [E|(kind & g & D & G)]); exists fld, ss; (split; [apply X; exact C|]); auto.
    right. exists kind, g. split; auto. eapply wide_values_mono; [|exact G]. intros y [L|(T' & Po & R)]; auto. right. exists T'. split; auto.
    eapply IH; [|exact R]. intros z. split; intros (f' & ss' & C' & Iz); exists f', ss'; (split; [apply X; exact C'|auto]).
Qed.
Lemma loose_wide inner g : (forall v, strict_values inner g v <-> snug_values inner g v) /\ forall v, loose_values inner g v <-> wide_values inner g v.
Proof.
  induction g as [n|g [IH1 IH2]|g [IH1 IH2]].
  - split; intros v; cbn; tauto.
  - assert (X : forall v, strict_values inner (GList g) v <-> snug_values inner (GList g) v).
    { intros v. rewrite strict_list, snug_list. split; intros (l & -> & F); exists l; (split; [reflexivity|]);
        (eapply Forall_impl; [|exact F]); apply IH2. }
    split; [exact X|]. intros v. unfold loose_values, wide_values. rewrite X. tauto.
  - split; intros v; cbn; apply IH1.
Qed.
Lemma written_values env kind g ft e v : In kind output_kinds -> valid_gtype g = true -> nullable_list_of_nonnull_lists false g = false ->
  ftype_of_json (json_of kind g) = Ok ft -> denote env (ptd_expr (ft_rest ft) (ft_mod ft) e) v <-> wide_values (denote env e) g v.
Proof.
  intros K V L E. rewrite WrapFacts.denote_ptd. rewrite (proj2 (wrappers_any kind g ft K V L E)). apply loose_wide.
Qed.

Section Wide.
  Variable c : cconfig.
  Variable js : jschema.
  Variable s : schema.
  Variable frags : amap string fragdef.
  Variable active : list directive -> Prop.
  Variable si : scalar -> value -> Prop.
  Variable base : string -> value -> Prop.
  Variable D : list decl.
  Hypothesis I : introspection js s.
  Hypothesis W : plain_wrappers js.
  Hypothesis frags_unc : forall n fd, aget n frags = Some fd -> Forall (unconditional active) (fr_sels fd).
  Hypothesis Nd : NoDup (List.map decl_name D).
  Hypothesis Und : forall x d, leaf_name c js x -> In d D -> decl_name d <> x.
  Hypothesis B : base_means c js si base.
  Hypothesis Ie : implements_exactly js s.

  Lemma leaf_means n ft kind g M ts e v P fld D' : declared js P fld kind g -> ftype_of_json (json_of kind g) = Ok ft -> In kind output_kinds -> valid_gtype g = true ->
    bas c s frags D' ts ft M e -> fdef_is_complex (ft_def ft) = false -> denote (allows D base (S n)) e v <-> wide_leaf js si (gbase g) v.
  Proof.
    intros Dc E K V H Nc.
    destruct (json_named kind g K V ft E) as [En Dk]. destruct (in_kinds _ _ I _ _ _ _ Dc) as (j & L & Ek).
    destruct H as [ts ft M Ed|ts ft M sc Ed|ts ft M Ed|ts ft M sub Ed Cp _]; [| | |congruence].
    - rewrite Ed in Dk. inversion Dk.
    - rewrite Ed in Dk. inversion Dk as [|sc' Si E1 E2| | | |]. subst sc'. cbn [denote]. assert (Kj : jt_kind j = "SCALAR") by congruence.
      rewrite (allows_outside c js base D Und n); [|apply (scalar_leaf c js g); eauto].
      assert (Sw : scalar_written c sc (scalar_ts c sc)).
      { destruct sc; cbn; auto. unfold custom_scalar_name. destruct (cc_bottom c); reflexivity. }
      rewrite (bm_scalar _ _ _ _ B (gbase g) j sc _ v L Kj Si Sw). split.
      + intros X. exists j. split; auto. right. split; auto. exists sc. auto.
      + intros (j' & L' & [(K' & _)|(K' & sc' & Si' & X)]); rewrite <- (last_fun _ _ _ _ _ L L') in K'; [congruence|].
        rewrite (scalar_fun _ _ _ Si Si'). exact X.
    - rewrite Ed in Dk. inversion Dk as [|sc' Si E1 E2| |E1 E2| |]. cbn [denote]. assert (Kj : jt_kind j = "ENUM") by congruence.
      rewrite En. rewrite (allows_outside c js base D Und n); [|right; right; exists j; auto].
      rewrite (bm_enum _ _ _ _ B (gbase g) j v L Kj). split.
      + intros X. exists j. split; auto.
      + intros (j' & L' & [(K' & X)|(K' & _)]); rewrite <- (last_fun _ _ _ _ _ L L') in *; [exact X|congruence].
  Qed.

  Theorem wide_allowed : forall n T P M main v, des c s frags D P M main -> regular s frags P M -> possible s P T ->
    (forall x, M x -> valid_sel s frags P x) -> (forall x, M x -> unconditional active x) ->
    wide_object js s frags active si n T M v -> allows D base (S (n + n)) main v.
  Proof.
    induction n as [|n IH]; intros T P M main v Ds R Po V U H; [destruct H|]. cbn [wide_object] in H. destruct H as (kvs & -> & K & F).
    inversion Ds as [P0 M0 main0 groups Hm Nn Hp Np Hd Ht Hn Hg]; subst P0 M0 main0.
    pose proof (proj2 (Hp T) Po) as J. apply in_flat_map in J. destruct J as ([[nm ts] ms] & J & Jt). cbn [fst snd] in Jt.
    pose proof (Hg _ _ _ _ J Jt) as Mm. inversion Mm as [ts0 O0 ms0 Nm Mf Mk Mt]; subst ts0 O0 ms0.
    assert (X : allows D base (S (n + S n)) nm (VObj kvs)).
    { apply (allows_here base D Nd (n + S n) (DObj nm ms)); [eapply Hd; eauto|]. split.
      2:{ intros kvs' k x Ev Ea. injection Ev as <-. apply aget_In in Ea. destruct (F _ _ Ea) as (fld & ss & Cf & _).
          destruct (collects_occ s frags active _ _ _ _ _ Cf P V Po) as (P' & f & Of & Ff & _). apply (Mk k f ss). exists P', fld. auto. }
      cbn [decl_values]. exists kvs. split; auto. apply Forall_forall. intros m Im.
      destruct (Mf m Im) as (f0 & ss0 & Fo). pose proof Fo as (P0 & n0 & Oc & _). destruct (occ_collects s frags active frags_unc _ _ _ _ _ _ _ Oc U) as [Cl _].
      assert (Ik : In (m_name m) (List.map fst kvs)) by (apply K; eauto). 
      destruct (aget (m_name m) kvs) as [x|] eqn:Ea.
      2:{ exfalso. clear - Ik Ea. induction kvs as [|[k y] kvs IH]; [destruct Ik|]. cbn in Ea. destruct (eqb (m_name m) k) eqn:E; [discriminate|].
          destruct Ik as [E1|Ik]; auto. cbn in E1. subst k. rewrite eqb_rfl in E. discriminate. }
      apply aget_In in Ea. destruct (F _ _ Ea) as (fld & ss & Cf & Vx).
      destruct (collects_occ s frags active _ _ _ _ _ Cf P V Po) as (P' & f & Of & Ff & Po' & Vs).
      assert (Fc : focc s frags T P M (m_name m) f ss) by (exists P', fld; auto).
      pose proof (Mt m f ss Im Fc) as Mty. inversion Mty as [ts0 ft0 M0 e0 Hb]; subst ts0 ft0 M0.
      destruct Vx as [[-> ->]|(kind' & g' & Dc' & Gv)].
      - (* __typename *)
        destruct (field_declared js s I _ _ _ Ff) as [[-> _]|(kind & g & Dc & _)]; [|exfalso; eapply typename_undeclared; eauto].
        inversion Hb; subst; try discriminate.
        cbn. apply denote_lits; [intros ->; destruct Jt|]. eauto.
      - destruct (field_declared js s I _ _ _ Ff) as [[-> ->]|(kind & g & Dc & Ej & Ko & Vg)]; [exfalso; eapply typename_undeclared; eauto|].
        destruct (declared_fun _ _ _ _ _ _ _ Dc' (Ie _ _ _ _ _ Dc Po')) as [-> ->].
        destruct (json_named kind g Ko Vg _ Ej) as [En Dk].
        set (Sub := fun z => exists fld' ss', collects s frags active T M (m_name m) fld' ss' /\ In z ss') in *.
        apply (written_values _ kind g (sf_type f) e0); auto; [eapply W; eauto|].
        eapply wide_values_mono; [|exact Gv].
        intros y [Lf|(T' & Pt & Rs)].
        { assert (Fx : fdef_is_complex (ft_def (sf_type f)) = false).
          { destruct (fdef_is_complex (ft_def (sf_type f))) eqn:Fx; auto. exfalso. destruct Lf as (j & L & Lv).
            inversion Hb as [ts1 ft1 M1 Ed Ea1 Ea2 Ea3 Ea4|ts1 ft1 M1 sc Ed Ea1 Ea2 Ea3 Ea4|ts1 ft1 M1 Ed Ea1 Ea2 Ea3 Ea4|ts1 ft1 M1 sub Ed Cc Dsub Ea1 Ea2 Ea3 Ea4]; subst ts1 ft1 M1 e0;
              try (rewrite Ed in Fx; discriminate Fx). rewrite En in Cc. apply (leaf_not_composite js s I _ _ L); auto. tauto. }
          eapply denote_mono; [|apply (leaf_means (n + n) _ _ _ _ _ _ _ _ _ _ Dc Ej Ko Vg Hb Fx); exact Lf]. intros a b. apply allows_mono. lia. }
        (* a composite field *)
        assert (Cp : composite s (gbase g)).
        { destruct Pt as (t & Gt & Pt). exists t. split; auto. destruct (st_def t); auto. }
        inversion Hb as [ts1 ft1 M1 Ed Ea1 Ea2 Ea3 Ea4|ts1 ft1 M1 sc Ed Ea1 Ea2 Ea3 Ea4|ts1 ft1 M1 Ed Ea1 Ea2 Ea3 Ea4|ts1 ft1 M1 sub Ed Cc Dsub Ea1 Ea2 Ea3 Ea4]; subst ts1 ft1 M1 e0.
        + exfalso. rewrite Ed in Dk. inversion Dk.
        + exfalso. rewrite Ed in Dk. inversion Dk as [|sc' Si Ek E2| | | |]. destruct (in_kinds _ _ I _ _ _ _ Dc) as (j & L & Ej'). eapply leaf_not_composite; eauto. right. congruence.
        + exfalso. rewrite Ed in Dk. inversion Dk as [|sc' Si Ek E2| |Ek E2| |]. destruct (in_kinds _ _ I _ _ _ _ Dc) as (j & L & Ej'). eapply leaf_not_composite; eauto. left. congruence.
        + cbn [denote]. rewrite <- En in *. pose proof R as R0. inversion R0 as [P1 M1 R1 R2 R3]; subst P1 M1.
          eapply allows_mono; [|eapply (IH T' (ft_name (sf_type f)) _ sub y Dsub)]; [lia|eapply R3; eauto|auto| | |].
          * intros z (f' & ss' & (P2 & n2 & O2 & F2) & Ef & Iz).
            destruct (occ_collects s frags active frags_unc _ _ _ _ _ _ _ O2 U) as [C2 _].
            destruct (collects_occ s frags active _ _ _ _ _ C2 P V Po) as (P3 & f3 & O3 & F3 & _ & V3).
            rewrite (R1 T (m_name m) f ss f3 ss' Po Fc ltac:(exists P3, n2; auto)). auto.
          * intros z (f' & ss' & (P2 & n2 & O2 & F2) & Ef & Iz).
            destruct (occ_collects s frags active frags_unc _ _ _ _ _ _ _ O2 U) as [_ U2]. rewrite Forall_forall in U2. auto.
          * eapply wide_object_ext; [|exact Rs]. intros z. unfold Sub, merged. split.
            -- intros (fld' & ss' & C2 & Iz). destruct (collects_occ s frags active _ _ _ _ _ C2 P V Po) as (P3 & f3 & O3 & F3 & _ & V3).
               assert (Fc3 : focc s frags T P M (m_name m) f3 ss') by (exists P3, fld'; auto). exists f3, ss'. split; auto. split; auto.
               rewrite (R1 T (m_name m) f3 ss' f ss Po Fc3 Fc). reflexivity.
            -- intros (f' & ss' & (P2 & n2 & O2 & F2) & Ef & Iz).
               destruct (occ_collects s frags active frags_unc _ _ _ _ _ _ _ O2 U) as [C2 _]. eauto. }
    destruct Hm as [(gr & Eg & Em)|Hm].
    - rewrite Eg in J. destruct J as [->|[]]. cbn [fst] in Em. subst nm. eapply allows_mono; [|exact X]. lia.
    - apply (allows_here base D Nd (S n + S n) (DAlias main (List.map (fun g : group => fst (fst g)) groups))); auto.
      split; [|exact Logic.I]. cbn [decl_values]. exists nm. split; [apply in_map_iff; exists (nm, ts, ms); auto|]. eapply allows_mono; [|exact X]. lia.
  Qed.
  Section Tight.
  Variable D0 : list decl.
  Hypothesis D0_in : incl D0 D.
  Hypothesis Rq : Forall required D0.

  Theorem allowed_wide_object : forall n P M main v, des c s frags D0 P M main -> regular s frags P M -> tagged_once s frags P M ->
    (forall x, M x -> valid_sel s frags P x) -> (forall x, M x -> unconditional active x) -> tidy v ->
    allows D base n main v -> exists T, possible s P T /\ wide_object js s frags active si n T M v.
  Proof.
    induction n as [n IHn] using (well_founded_induction lt_wf). intros P M main v Ds R Tg V U Td A.
    inversion Ds as [P0 M0 main0 groups Hm Nn Hp Np Hd Ht Hn Hg]; subst P0 M0 main0.
    assert (X : forall nm ts ms k, In (nm, ts, ms) groups -> S k <= n -> allows D base (S k) nm v ->
      exists T, possible s P T /\ wide_object js s frags active si (S k) T M v).
    2:{ destruct n as [|n]; [destruct A|]. destruct Hm as [(gr & Eg & Em)|Hm].
        - destruct gr as [[nm ts] ms]. cbn [fst] in Em. subst nm. apply (X main ts ms n); auto. rewrite Eg. left; auto.
        - apply (allows_here base D Nd n (DAlias main (List.map (fun g : group => fst (fst g)) groups))) in A; [|apply D0_in; auto]. destruct A as [A _]. cbn [decl_values] in A.
          destruct A as (nm & J & A). apply in_map_iff in J. destruct J as ([[nm' ts] ms] & <- & J). cbn [fst] in A. destruct n as [|n]; [destruct A|].
          destruct (X nm' ts ms n J ltac:(lia) A) as (T & Po & Rs). exists T. split; auto. eapply wide_object_mono; [|exact Rs]. lia. }
    clear A. intros nm ts ms k J Lk A. pose proof (Hd _ _ _ J) as Jd. apply (allows_here base D Nd k (DObj nm ms)) in A; [|apply D0_in; auto]. destruct A as [(kvs & -> & Fm) Ko].
    inversion Td as [| | | | |kvs0 Nk Tk]; subst kvs0. rewrite Forall_forall in Fm, Tk.
    assert (Op : forall m, In m ms -> m_optional m = false).
    { rewrite Forall_forall in Rq. specialize (Rq _ Jd). cbn [required] in Rq. rewrite Forall_forall in Rq. exact Rq. }
    assert (Mx : forall m, In m ms -> exists x, aget (m_name m) kvs = Some x /\ denote (allows D base k) (m_type m) x).
    { intros m Jm. specialize (Fm m Jm). destruct (aget (m_name m) kvs); eauto. rewrite (Op m Jm) in Fm. discriminate. }
    inversion R as [P1 M1 R1 R2 R3]; subst P1 M1. inversion Tg as [P1 M1 T1 T2]; subst P1 M1.
    (* which object type it is *)
    assert (Ch : exists T, In T ts /\ forall m f ss, In m ms -> focc s frags T P M (m_name m) f ss -> ft_def (sf_type f) = FDTypeName -> aget (m_name m) kvs = Some (VStr T)).
    { destruct ts as [|T0 ts'] eqn:Ets; [exfalso; exact (Ht _ _ _ J eq_refl)|]. rewrite <- Ets in *.
      assert (I0 : In T0 ts) by (rewrite Ets; left; auto). pose proof (Hg _ _ _ _ J I0) as Mm. inversion Mm as [ts0 O0 ms0 Nm Mf Mk Mt]; subst ts0 O0 ms0.
      assert (Po0 : possible s P T0) by (apply Hp; apply in_flat_map; exists (nm, ts, ms); auto).
      assert (Ca : (exists m f ss, In m ms /\ focc s frags T0 P M (m_name m) f ss /\ ft_def (sf_type f) = FDTypeName) \/
                   forall m, In m ms -> exists f ss, focc s frags T0 P M (m_name m) f ss /\ ft_def (sf_type f) <> FDTypeName).
      { clear - Mf. induction ms as [|m ms IH]; [right; intros m []|].
        destruct IH as [(m' & f & ss & Jm & H)|H]; [intros m' Jm; apply Mf; right; auto|left; exists m', f, ss; split; auto; right; auto|].
        destruct (Mf m (or_introl eq_refl)) as (f & ss & Fo). destruct (ft_def (sf_type f)) eqn:Ed.
        all: try (right; intros m' [<-|Jm]; [exists f, ss; split; auto; congruence|auto]; fail).
        left. exists m, f, ss. split; [left; auto|auto]. }
      destruct Ca as [(m & f & ss & Jm & Fo & Ed)|Ca].
      - destruct (Mx m Jm) as (x & Ea & Dx). pose proof (Mt m f ss Jm Fo) as My. inversion My as [ts0 ft0 M0 e0 Hb E1 E2 E3 Em]; subst ts0 ft0 M0.
        assert (Ee : e0 = lit_union ts).
        { inversion Hb as [ts1 ft1 M1 Ex Ea1 Ea2 Ea3 Ea4|ts1 ft1 M1 sc Ex Ea1 Ea2 Ea3 Ea4|ts1 ft1 M1 Ex Ea1 Ea2 Ea3 Ea4|ts1 ft1 M1 sub Ex Cc Dsub Ea1 Ea2 Ea3 Ea4]; auto; rewrite Ed in Ex; try discriminate Ex. }
        subst e0. destruct Fo as (P' & n0 & Oc & Ff). destruct (field_declared js s I _ _ _ Ff) as [[-> ->]|(kind & g & Dc & Ej & Ko' & Vg)].
        2:{ exfalso. destruct (json_named kind g Ko' Vg _ Ej) as [_ Dk]. rewrite Ed in Dk. inversion Dk. }
        rewrite <- Em in Dx. cbn [typename_field sf_type ft_rest ft_mod ptd_expr] in Dx. cbn in Dx.
        apply denote_lits in Dx; [|rewrite Ets; discriminate]. destruct Dx as (T & JT & ->). exists T. split; auto.
        intros m' f' ss' Jm' Fo' Ed'. pose proof (Hg _ _ _ _ J JT) as Mm'. inversion Mm' as [ts0 O0 ms0 Nm' Mf' Mk' Mt']; subst ts0 O0 ms0.
        assert (Po : possible s P T) by (apply Hp; apply in_flat_map; exists (nm, ts, ms); auto).
        (* [m] is such a key of [T] as well *)
        destruct (Mf' m Jm) as (f1 & ss1 & Fo1). pose proof (Mt' m f1 ss1 Jm Fo1) as My1. inversion My1 as [ts0 ft0 M0 e1 Hb1 E1' E2' E3' Em']; subst ts0 ft0 M0.
        assert (Ed1 : ft_def (sf_type f1) = FDTypeName).
        { apply (bas_lit _ _ _ _ _ _ _ _ Hb1). rewrite <- (core_ptd (ft_rest (sf_type f1)) (ft_mod (sf_type f1))). rewrite Em', <- Em. rewrite core_ptd. apply core_lits. }
        assert (Key : forall q f q', focc s frags T P M q f q' -> ft_def (sf_type f) = FDTypeName -> exists P2, occ s frags T P M q P2 "__typename" q').
        { intros q f2 q' (P2 & n2 & O2 & F2) E2'. destruct (field_declared js s I _ _ _ F2) as [[_ ->]|(kind & g & Dc & Ej & Ko' & Vg)]; eauto.
          exfalso. destruct (json_named kind g Ko' Vg _ Ej) as [_ Dk]. rewrite E2' in Dk. inversion Dk. }
        destruct (Key _ _ _ Fo1 Ed1) as (Pa & Oa). destruct (Key _ _ _ Fo' Ed') as (Pb & Ob).
        rewrite (T1 T _ _ _ _ _ _ Po Ob Oa). auto.
      - exists T0. split; auto. intros m f ss Jm Fo Ed. exfalso. destruct (Ca m Jm) as (f1 & ss1 & Fo1 & Ne). apply Ne.
        rewrite (R1 T0 _ _ _ _ _ Po0 Fo1 Fo). auto. }
    destruct Ch as (T & JT & Tag). exists T.
    assert (Po : possible s P T) by (apply Hp; apply in_flat_map; exists (nm, ts, ms); auto). split; auto.
    pose proof (Hg _ _ _ _ J JT) as Mm. inversion Mm as [ts0 O0 ms0 Nm Mf Mk Mt]; subst ts0 O0 ms0.
    cbn [wide_object]. exists kvs. split; auto. split.
    { intros q. split.
      - intros Iq. destruct (aget_key _ _ Iq) as (x & Ea). pose proof (Ko kvs q x eq_refl Ea) as Im'. apply in_map_iff in Im'. destruct Im' as (m & <- & Jm).
        destruct (Mf m Jm) as (f & ss & (P0 & n0 & Oc & _)). destruct (occ_collects s frags active frags_unc _ _ _ _ _ _ _ Oc U) as [Cl _]. eauto.
      - intros (fld & ss & Cf). destruct (collects_occ s frags active _ _ _ _ _ Cf P V Po) as (P' & f & Of & Ff & _).
        assert (Im' : In q (List.map m_name ms)) by (apply (Mk q f ss); exists P', fld; auto). apply in_map_iff in Im'. destruct Im' as (m & <- & Jm).
        destruct (Mx m Jm) as (x & Ea & _). apply aget_In in Ea. apply in_map_iff. exists (m_name m, x). auto. }
    intros q x Jx. pose proof (aget_nodup _ _ _ Nk Jx) as Ea. pose proof (Ko kvs q x eq_refl Ea) as Im'. apply in_map_iff in Im'. destruct Im' as (m & <- & Jm).
    pose proof (Tk _ Jx) as Tx. cbn [snd] in Tx.
    destruct (Mf m Jm) as (f0 & ss & (P0 & n0 & Oc & _)). destruct (occ_collects s frags active frags_unc _ _ _ _ _ _ _ Oc U) as [Cl _].
    exists n0, ss. split; auto.
    destruct (collects_occ s frags active _ _ _ _ _ Cl P V Po) as (P' & f & Of & Ff & Po' & Vs).
    assert (Fc : focc s frags T P M (m_name m) f ss) by (exists P', n0; auto).
    destruct (Mx m Jm) as (x' & Ea' & Dx). rewrite Ea in Ea'. injection Ea' as <-.
    destruct (field_declared js s I _ _ _ Ff) as [[-> ->]|(kind & g & Dc & Ej & Ko' & Vg)].
    { left. split; auto. rewrite (Tag m _ _ Jm Fc eq_refl) in Ea. congruence. }
    right. exists kind, g. split; [eapply Ie; eauto|].
    pose proof (Mt m f ss Jm Fc) as My. inversion My as [ts0 ft0 M0 e0 Hb E1 E2 E3 Em]; subst ts0 ft0 M0.
    destruct (json_named kind g Ko' Vg _ Ej) as [En Dk]. rewrite <- Em in Dx. apply (tidy_denote _ _ _ Tx) in Dx.
    apply (written_values _ kind g (sf_type f) e0) in Dx; auto; [|eapply W; eauto]. eapply wide_values_mono; [|exact Dx]. clear Dx.
    - intros y Dy. destruct (fdef_is_complex (ft_def (sf_type f))) eqn:Fx.
      + right. inversion Hb as [ts1 ft1 M1 Ex Ea1 Ea2 Ea3 Ea4|ts1 ft1 M1 sc Ex Ea1 Ea2 Ea3 Ea4|ts1 ft1 M1 Ex Ea1 Ea2 Ea3 Ea4|ts1 ft1 M1 sub Ex Cc Dsub Ea1 Ea2 Ea3 Ea4]; subst ts1 ft1 M1 e0;
          try (rewrite Ex in Fx; discriminate Fx).
        cbn [denote] in Dy. destruct Dy as [An Tn]. rewrite <- En. destruct (IHn k ltac:(lia) _ _ sub y Dsub) as (T' & Pt & Rs); auto.
        * eapply R3; eauto.
        * eapply T2; eauto.
        * intros z (f' & ss' & (P2 & n2 & O2 & F2) & Ef & Iz).
          destruct (occ_collects s frags active frags_unc _ _ _ _ _ _ _ O2 U) as [C2 _].
          destruct (collects_occ s frags active _ _ _ _ _ C2 P V Po) as (P3 & f3 & O3 & F3 & _ & V3).
          rewrite (R1 T (m_name m) f ss f3 ss' Po Fc ltac:(exists P3, n2; auto)). auto.
        * intros z (f' & ss' & (P2 & n2 & O2 & F2) & Ef & Iz).
          destruct (occ_collects s frags active frags_unc _ _ _ _ _ _ _ O2 U) as [_ U2]. rewrite Forall_forall in U2. auto.
        * exists T'. split; auto. eapply wide_object_ext; [|exact Rs]. intros z. unfold merged. split.
          -- intros (f' & ss' & (P2 & n2 & O2 & F2) & Ef & Iz).
             destruct (occ_collects s frags active frags_unc _ _ _ _ _ _ _ O2 U) as [C2 _]. eauto.
          -- intros (fld' & ss' & C2 & Iz). destruct (collects_occ s frags active _ _ _ _ _ C2 P V Po) as (P3 & f3 & O3 & F3 & _ & V3).
             assert (Fc3 : focc s frags T P M (m_name m) f3 ss') by (exists P3, fld'; auto). exists f3, ss'. split; auto. split; auto.
             rewrite (R1 T (m_name m) f3 ss' f ss Po Fc3 Fc). reflexivity.
      + left. assert (Dn' : denote (allows D base k) e0 y) by (eapply denote_mono; [|exact Dy]; intros ? ? [? _]; auto).
        destruct k as [|k']; [exfalso; clear - Dn' Hb Fx Dk; inversion Hb as [? ? ? Ed| | |]; subst; try exact Dn'; rewrite Ed in Dk; inversion Dk|].
        apply (leaf_means k' _ _ _ _ _ _ _ _ _ _ Dc Ej Ko' Vg Hb Fx); exact Dn'.
  Qed.
  End Tight.
End Wide.
