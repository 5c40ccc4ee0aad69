(** Lemmas: result types allow exactly the responses. *)
From Verif Require Import RespFacts RequestFacts SpecExact DeclFacts PropC04 PropC16.

Lemma decl_only_mono (env env' : string -> value -> Prop) d v : (forall n y, env n y -> env' n y) -> decl_only env d v -> decl_only env' d v.
Proof. intros H [A B]. split; auto. eapply decl_values_mono; eauto. Qed.
Lemma allows_mono D base n : forall m, n <= m -> forall name v, allows D base n name v -> allows D base m name v.
Proof.
  induction n as [|n IH]; intros m L name v; [intros []|]. destruct m as [|m]; [lia|]. cbn [allows]. intros [H1 H2]. split; auto.
  intros d J E. eapply decl_only_mono; [|apply H1; auto]. intros x y. apply IH. lia.
Qed.
Lemma response_mono js s frags active custom n : forall m T M v, n <= m ->
  object_response js s frags active custom n T M v -> object_response js s frags active custom m T M v.
Proof.
  induction n as [|n IH]; intros m T M v L; [intros []|]. destruct m as [|m]; [lia|]. cbn [object_response]. intros (kvs & -> & K & F). exists kvs.
  split; auto. split; auto. intros k x J. destruct (F k x J) as (fld & ss & C & H). exists fld, ss. split; auto. destruct H as [H|(kind & g & D & G)]; auto.
  right. exists kind, g. split; auto. eapply gvalues_mono; [|exact G]. intros y [Lf|(T' & Po & R)]; auto. right. exists T'. split; auto. eapply IH; [|exact R]. lia.
Qed.
Lemma tidy_denote (env : string -> value -> Prop) e : forall v, tidy v -> denote env e v -> denote (fun n y => env n y /\ tidy y) e v.
Proof.
  induction e as [n|x| |e IH|a IHa b IHb|e IH]; intros v Tv; cbn [denote]; auto.
  - intros (l & -> & F). exists l. split; auto. inversion Tv as [| | | |l0 Fl|]; subst. rewrite Forall_forall in *. auto.
  - intros [X|X]; auto.
Qed.
(** The converse of [value_accepted] *)
Lemma accepted_value env kind g ft e (inner : string -> value -> Prop) v : In kind output_kinds -> valid_gtype g = true ->
  nullable_list_of_nonnull_lists false g = false -> ftype_of_json (json_of kind g) = Ok ft ->
  ~ denote env e VNull -> (forall y, denote env e y -> inner (gbase g) y) ->
  denote env (ptd_expr (ft_rest ft) (ft_mod ft) e) v -> gvalues inner g v.
Proof.
  intros K V L E N H G.
  assert (Kn : In kind named_kinds) by (cbn in *; intuition).
  destruct (known_kind kind (gbase g) Kn) as [d Hd].
  destruct (builder_ok (denote env e) N kind g d Hd V mb_new) as (ft' & E' & _ & _ & Hv);
    [reflexivity|exact L|]. unfold ftype_of_json in E. rewrite E in E'. injection E' as <-.
  apply denote_ptd in G. apply Hv in G. cbn [mb_new mb_concrete mb_higher hole sems] in G.
  eapply gvalues_mono; [|exact G]. cbn. auto.
Qed.

(** Members of result types are always there *)
Definition required (d : decl) : Prop := match d with DObj _ ms => Forall (fun m => m_optional m = false) ms | DAlias _ _ => True end.
Lemma rnd_required c :
  (forall names path t ds e us, rnd_type c names path t ds e us -> Forall required ds) /\
  (forall names path fs ds ms us, rnd_fields c names path fs ds ms us -> Forall required ds /\ Forall (fun m => m_optional m = false) ms) /\
  (forall pl ds us, rnd_plan c pl ds us -> Forall required ds) /\
  (forall xs main ds us, rnd_coll c xs main ds us -> Forall required ds).
Proof.
  destruct (rnd_mutind c
    (fun names path t ds e us _ => Forall required ds)
    (fun names path fs ds ms us _ => Forall required ds /\ Forall (fun m => m_optional m = false) ms)
    (fun pl ds us _ => Forall required ds)
    (fun xs main ds us _ => Forall required ds)) as (A & B & C & D); auto.
  - intros names path k d dp l r t fs ds e us ds' ms us' _ A _ [B C]. split; [apply Forall_app; auto|]. constructor; auto.
  - intros T fs names path pl ds ms us ds' us' _ [A B] _ C. repeat (apply Forall_app; split); auto.
  - intros xs main ds us _ _ A. apply Forall_app. split; auto. repeat constructor.
Qed.

Section Exact.
  Variable c : cconfig.
  Variable js : jschema.
  Variable s : schema.
  Variable frags : amap string fragdef.
  Variable active : list directive -> Prop.
  Variable custom : string -> value -> Prop.
  Variable base : string -> value -> Prop.
  Variable D : list decl.
  Hypothesis I : introspection js s.
  Hypothesis W : plain_wrappers js.
  Hypothesis frags_unc : forall n fd, aget n frags = Some fd -> Forall (unconditional active) (fr_sels fd).
  Hypothesis Nd : NoDup (List.map decl_name D).
  Hypothesis Und : forall x d, leaf_name c js x -> In d D -> decl_name d <> x.

  Lemma allows_here n d v : In d D -> allows D base (S n) (decl_name d) v <-> decl_only (allows D base n) d v.
  Proof.
    intros J. cbn [allows]. split; [intros [H _]; auto|]. intros H. split; [|eauto]. intros d' J' E.
    rewrite (map_inj_nodup decl_name D d' d Nd J' J E). auto.
  Qed.
  Lemma allows_outside n x v : leaf_name c js x -> allows D base (S n) x v <-> base x v.
  Proof. intros L. apply allows_free. intros d J. apply Und; auto. Qed.

  (** Names of the types of scalars and enums *)
  Lemma scalar_leaf g sc : scalar_is (gbase g) sc -> (exists j, last_named jt_name (gbase g) js j /\ jt_kind j = "SCALAR") -> leaf_name c js (scalar_ts c sc).
  Proof.
    intros Si J. destruct sc; try (left; cbn; tauto). right. left. inversion Si as [| | | | |y Ny]; subst.
    exists (gbase g). split; auto. split; auto. unfold scalar_written, scalar_ts, custom_scalar_name. destruct (cc_bottom c); reflexivity.
  Qed.

  Section Loose.
  Hypothesis B : base_ok c js custom base.
  Lemma leaf_allowed n ft kind g M ts e v P fld : declared js P fld kind g -> ftype_of_json (json_of kind g) = Ok ft -> In kind output_kinds -> valid_gtype g = true ->
    bas c s frags D ts ft M e -> leaf_value js custom (gbase g) v -> denote (allows D base (S n)) e v.
  Proof.
    intros Dc E K V H Lv. pose proof (leaf_accepted c js s frags custom base D I B Und n ft kind g M ts e v P fld Dc E K V H Lv) as A.
    destruct (json_named kind g K V ft E) as [En Dk]. destruct (in_kinds _ _ I _ _ _ _ Dc) as (j' & L' & Ek).
    destruct H as [ts ft M Ed|ts ft M sc Ed|ts ft M Ed|ts ft M sub Ed Cp _].
    - rewrite Ed in Dk. inversion Dk.
    - rewrite Ed in Dk. inversion Dk as [|sc' Si E1 E2| | | |]. subst sc'. cbn [denote] in *.
      assert (Lf : leaf_name c js (scalar_ts c sc)) by (apply (scalar_leaf g); eauto; exists j'; split; auto; congruence).
      apply allows_outside; auto. destruct A as [_ [(d & Jd & Ed')|A]]; auto. exfalso. eapply Und; eauto.
    - rewrite Ed in Dk. inversion Dk as [|sc' Si E1 E2| |E1 E2| |]. cbn [denote] in *.
      assert (Lf : leaf_name c js (ft_name ft)) by (right; right; exists j'; rewrite En; split; auto; congruence).
      apply allows_outside; auto. destruct A as [_ [(d & Jd & Ed')|A]]; auto. exfalso. eapply Und; eauto.
    - exfalso. destruct Lv as (j & L & Lv). rewrite En in Cp. apply (leaf_not_composite js s I _ _ L); auto. tauto.
  Qed.
  End Loose.

  Section Both.
  Hypothesis B : base_ok c js custom base.
  Theorem object_allowed : forall n T P M main v, des c s frags D P M main -> regular s frags P M -> possible s P T ->
    (forall x, M x -> valid_sel s frags P x) -> (forall x, M x -> unconditional active x) ->
    object_response js s frags active custom n T M v -> allows D base (S (n + n)) main v.
  Proof.
    induction n as [|n IH]; intros T P M main v Ds R Po V U H; [destruct H|]. cbn [object_response] in H. destruct H as (kvs & -> & K & F).
    inversion Ds as [P0 M0 main0 groups Hm Nn Hp Np Hd Ht Hn Hg]; subst P0 M0 main0.
    pose proof (proj2 (Hp T) Po) as J. apply in_flat_map in J. destruct J as ([[nm ts] ms] & J & Jt). cbn [fst snd] in Jt.
    pose proof (Hg _ _ _ _ J Jt) as Mm. inversion Mm as [ts0 O0 ms0 Nm Mf Mk Mt]; subst ts0 O0 ms0.
    assert (X : allows D base (S (n + S n)) nm (VObj kvs)).
    { apply (allows_here (n + S n) (DObj nm ms)); [eapply Hd; eauto|]. split.
      2:{ intros kvs' k x Ev Ea. injection Ev as <-. apply aget_In in Ea. destruct (F _ _ Ea) as (fld & ss & Cf & _).
          destruct (collects_occ s frags active _ _ _ _ _ Cf P V Po) as (P' & f & Of & Ff & _). apply (Mk k f ss). exists P', fld. auto. }
      cbn [decl_values]. exists kvs. split; auto. apply Forall_forall. intros m Im.
      destruct (Mf m Im) as (f0 & ss0 & Fo). pose proof Fo as (P0 & n0 & Oc & _). destruct (occ_collects s frags active frags_unc _ _ _ _ _ _ _ Oc U) as [Cl _].
      assert (Ik : In (m_name m) (List.map fst kvs)) by (apply K; eauto). 
      destruct (aget (m_name m) kvs) as [x|] eqn:Ea.
      2:{ exfalso. clear - Ik Ea. induction kvs as [|[k y] kvs IH]; [destruct Ik|]. cbn in Ea. destruct (eqb (m_name m) k) eqn:E; [discriminate|].
          destruct Ik as [E1|Ik]; auto. cbn in E1. subst k. rewrite eqb_rfl in E. discriminate. }
      apply aget_In in Ea. destruct (F _ _ Ea) as (fld & ss & Cf & Vx).
      destruct (collects_occ s frags active _ _ _ _ _ Cf P V Po) as (P' & f & Of & Ff & Po' & Vs).
      assert (Fc : focc s frags T P M (m_name m) f ss) by (exists P', fld; auto).
      pose proof (Mt m f ss Im Fc) as Mty. inversion Mty as [ts0 ft0 M0 e0 Hb]; subst ts0 ft0 M0.
      destruct Vx as [[-> ->]|(kind' & g' & Dc' & Gv)].
      - (* __typename *)
        destruct (field_declared js s I _ _ _ Ff) as [[-> _]|(kind & g & Dc & _)]; [|exfalso; eapply typename_undeclared; eauto].
        inversion Hb; subst; try discriminate.
        cbn. apply denote_lits; [intros ->; destruct Jt|]. eauto.
      - destruct (field_declared js s I _ _ _ Ff) as [[-> ->]|(kind & g & Dc & Ej & Ko & Vg)]; [exfalso; eapply typename_undeclared; eauto|].
        pose proof (in_implements _ _ I _ _ _ _ _ _ _ Dc Po' Dc') as Cv.
        destruct (json_named kind g Ko Vg _ Ej) as [En Dk].
        set (Sub := fun z => exists fld' ss', collects s frags active T M (m_name m) fld' ss' /\ In z ss') in *.
        set (inner := fun b y => leaf_value js custom b y \/ exists T', possible s b T' /\ object_response js s frags active custom n T' Sub y) in *.
        assert (Gv' : gvalues inner g x).
        { apply (gvalues_cov s inner inner g' g Cv); auto. intros y. destruct (cov_base _ _ _ Cv) as [->|(C1 & C2 & Cp)]; auto.
          intros [(j & L & Lv)|(T' & Pt & Rs)]; [|right; eauto]. exfalso. eapply leaf_not_composite; eauto. tauto. }
        apply (value_accepted _ kind g (sf_type f) e0 inner); auto; [eapply W; eauto|].
        intros y [Lf|(T' & Pt & Rs)] _.
        { eapply denote_mono; [|eapply (leaf_allowed B (n + n)); eauto]. intros a b. apply allows_mono. lia. }
        (* a composite field *)
        assert (Cp : composite s (gbase g)).
        { destruct Pt as (t & Gt & Pt). exists t. split; auto. destruct (st_def t); auto. }
        inversion Hb as [ts1 ft1 M1 Ed Ea1 Ea2 Ea3 Ea4|ts1 ft1 M1 sc Ed Ea1 Ea2 Ea3 Ea4|ts1 ft1 M1 Ed Ea1 Ea2 Ea3 Ea4|ts1 ft1 M1 sub Ed Cc Dsub Ea1 Ea2 Ea3 Ea4]; subst ts1 ft1 M1 e0.
        + exfalso. rewrite Ed in Dk. inversion Dk.
        + exfalso. rewrite Ed in Dk. inversion Dk as [|sc' Si Ek E2| | | |]. destruct (in_kinds _ _ I _ _ _ _ Dc) as (j & L & Ej'). eapply leaf_not_composite; eauto. right. congruence.
        + exfalso. rewrite Ed in Dk. inversion Dk as [|sc' Si Ek E2| |Ek E2| |]. destruct (in_kinds _ _ I _ _ _ _ Dc) as (j & L & Ej'). eapply leaf_not_composite; eauto. left. congruence.
        + cbn [denote]. rewrite <- En in *. pose proof R as R0. inversion R0 as [P1 M1 R1 R2 R3]; subst P1 M1.
          eapply allows_mono; [|eapply (IH T' (ft_name (sf_type f)) _ sub y Dsub)]; [lia|eapply R3; eauto|auto| | |].
          * intros z (f' & ss' & (P2 & n2 & O2 & F2) & Ef & Iz).
            destruct (occ_collects s frags active frags_unc _ _ _ _ _ _ _ O2 U) as [C2 _].
            destruct (collects_occ s frags active _ _ _ _ _ C2 P V Po) as (P3 & f3 & O3 & F3 & _ & V3).
            rewrite (R1 T (m_name m) f ss f3 ss' Po Fc ltac:(exists P3, n2; auto)). auto.
          * intros z (f' & ss' & (P2 & n2 & O2 & F2) & Ef & Iz).
            destruct (occ_collects s frags active frags_unc _ _ _ _ _ _ _ O2 U) as [_ U2]. rewrite Forall_forall in U2. auto.
          * eapply response_ext; [|exact Rs]. intros z. unfold Sub, merged. split.
            -- intros (fld' & ss' & C2 & Iz). destruct (collects_occ s frags active _ _ _ _ _ C2 P V Po) as (P3 & f3 & O3 & F3 & _ & V3).
               assert (Fc3 : focc s frags T P M (m_name m) f3 ss') by (exists P3, fld'; auto). exists f3, ss'. split; auto. split; auto.
               rewrite (R1 T (m_name m) f3 ss' f ss Po Fc3 Fc). reflexivity.
            -- intros (f' & ss' & (P2 & n2 & O2 & F2) & Ef & Iz).
               destruct (occ_collects s frags active frags_unc _ _ _ _ _ _ _ O2 U) as [C2 _]. eauto. }
    destruct Hm as [(gr & Eg & Em)|Hm].
    - rewrite Eg in J. destruct J as [->|[]]. cbn [fst] in Em. subst nm. eapply allows_mono; [|exact X]. lia.
    - apply (allows_here (S n + S n) (DAlias main (List.map (fun g : group => fst (fst g)) groups))); auto.
      split; [|exact Logic.I]. cbn [decl_values]. exists nm. split; [apply in_map_iff; exists (nm, ts, ms); auto|]. eapply allows_mono; [|exact X]. lia.
  Qed.
  End Both.

  Section Tight.
  Hypothesis B : base_tight c js custom base.
  Hypothesis Im : implements_exactly js s.
  (** the declarations of the result type *)
  Variable D0 : list decl.
  Hypothesis D0_in : incl D0 D.
  Hypothesis Rq : Forall required D0.

  (** What is under a name of a scalar or enum *)
  Lemma leaf_back n ft kind g M ts e v P fld : declared js P fld kind g -> ftype_of_json (json_of kind g) = Ok ft -> In kind output_kinds -> valid_gtype g = true ->
    bas c s frags D0 ts ft M e -> fdef_is_complex (ft_def ft) = false -> denote (allows D base n) e v -> leaf_value js custom (gbase g) v /\ v <> VNull.
  Proof.
    intros Dc E K V H Nc A.
    destruct (json_named kind g K V ft E) as [En Dk]. destruct (in_kinds _ _ I _ _ _ _ Dc) as (j & L & Ek).
    destruct H as [ts ft M Ed|ts ft M sc Ed|ts ft M Ed|ts ft M sub Ed Cp _]; [| | |congruence].
    - rewrite Ed in Dk. inversion Dk.
    - rewrite Ed in Dk. inversion Dk as [|sc' Si E1 E2| | | |]. subst sc'. cbn [denote] in A. destruct n as [|n]; [destruct A|].
      apply allows_outside in A; [|apply (scalar_leaf g); auto; exists j; split; auto; congruence].
      assert (Sv : scalar_value custom sc v /\ v <> VNull).
      { destruct sc; cbn [scalar_value scalar_ts] in *.
        all: try (destruct (bt_boolean _ _ _ _ B _ A) as (w & ->); split; [eauto|discriminate]).
        all: try (destruct (bt_number _ _ _ _ B _ A) as (w & ->); split; [eauto|discriminate]).
        all: try (destruct (bt_string _ _ _ _ B _ A) as (w & ->); split; [eauto|discriminate]).
        inversion Si; subst. eapply (bt_custom _ _ _ _ B); eauto; try congruence.
        unfold scalar_written, custom_scalar_name. destruct (cc_bottom c); reflexivity. }
      split; [|tauto]. exists j. split; auto. right. split; [congruence|]. exists sc. tauto.
    - rewrite Ed in Dk. inversion Dk as [|sc' Si E1 E2| |E1 E2| |]. cbn [denote] in A. destruct n as [|n]; [destruct A|].
      rewrite En in A. apply allows_outside in A; [|right; right; exists j; split; auto; congruence].
      destruct (bt_enum _ _ _ _ B _ j _ L ltac:(congruence) A) as (vs & x & Ev & Ix & ->). split; [|discriminate].
      exists j. split; auto. left. split; [congruence|]. eauto.
  Qed.

  Lemma aget_nodup {A} (k : string) (x : A) kvs : NoDup (List.map fst kvs) -> In (k, x) kvs -> aget k kvs = Some x.
  Proof.
    induction kvs as [|[k' y] kvs IH]; cbn [List.map fst]; intros N J; [destruct J|]. inversion N as [|? ? N1 N2]; subst. cbn [aget].
    destruct J as [E|J].
    - injection E as -> ->. rewrite eqb_rfl. reflexivity.
    - destruct (eqb k k') eqn:E; auto. apply eqb_ok in E. subst k'. exfalso. apply N1. apply in_map_iff. exists (k, x). auto.
  Qed.
  Lemma aget_key {A} k (kvs : list (string * A)) : In k (List.map fst kvs) -> exists x, aget k kvs = Some x.
  Proof.
    induction kvs as [|[k' y] kvs IH]; cbn [List.map fst]; intros J; [destruct J|]. cbn [aget]. destruct (eqb k k') eqn:E; eauto.
    destruct J as [->|J]; auto. rewrite eqb_rfl in E. discriminate.
  Qed.

  Lemma lit_union_name ts x : lit_union ts <> XName x.
  Proof.
    destruct ts as [|n ts]; [discriminate|]. cbn [lit_union].
    assert (H : forall l e, (forall x, e <> XName x) -> forall x, fold_left (fun e x => XUnion e (XLit x)) l e <> XName x).
    { induction l as [|y l IH]; intros e He; cbn [fold_left]; auto. apply IH. discriminate. }
    apply H. discriminate.
  Qed.
  Lemma bas_lit ts ft (M : selset) e : bas c s frags D0 ts ft M e -> core_of e = lit_union ts -> ft_def ft = FDTypeName.
  Proof. intros [ts0 ft0 M0 Ed|ts0 ft0 M0 sc Ed|ts0 ft0 M0 Ed|ts0 ft0 M0 sub Ed _ _]; auto; cbn [core_of]; intros E; symmetry in E; exfalso; eapply lit_union_name; eauto. Qed.

  Theorem allowed_object : forall n P M main v, des c s frags D0 P M main -> regular s frags P M -> tagged_once s frags P M ->
    (forall x, M x -> valid_sel s frags P x) -> (forall x, M x -> unconditional active x) -> tidy v ->
    allows D base n main v -> exists T, possible s P T /\ object_response js s frags active custom n T M v.
  Proof.
    induction n as [n IHn] using (well_founded_induction lt_wf). intros P M main v Ds R Tg V U Td A.
    inversion Ds as [P0 M0 main0 groups Hm Nn Hp Np Hd Ht Hn Hg]; subst P0 M0 main0.
    assert (X : forall nm ts ms k, In (nm, ts, ms) groups -> S k <= n -> allows D base (S k) nm v ->
      exists T, possible s P T /\ object_response js s frags active custom (S k) T M v).
    2:{ destruct n as [|n]; [destruct A|]. destruct Hm as [(gr & Eg & Em)|Hm].
        - destruct gr as [[nm ts] ms]. cbn [fst] in Em. subst nm. apply (X main ts ms n); auto. rewrite Eg. left; auto.
        - apply (allows_here n (DAlias main (List.map (fun g : group => fst (fst g)) groups))) in A; [|apply D0_in; auto]. destruct A as [A _]. cbn [decl_values] in A.
          destruct A as (nm & J & A). apply in_map_iff in J. destruct J as ([[nm' ts] ms] & <- & J). cbn [fst] in A. destruct n as [|n]; [destruct A|].
          destruct (X nm' ts ms n J ltac:(lia) A) as (T & Po & Rs). exists T. split; auto. eapply response_mono; [|exact Rs]. lia. }
    clear A. intros nm ts ms k J Lk A. pose proof (Hd _ _ _ J) as Jd. apply (allows_here k (DObj nm ms)) in A; [|apply D0_in; auto]. destruct A as [(kvs & -> & Fm) Ko].
    inversion Td as [| | | | |kvs0 Nk Tk]; subst kvs0. rewrite Forall_forall in Fm, Tk.
    assert (Op : forall m, In m ms -> m_optional m = false).
    { rewrite Forall_forall in Rq. specialize (Rq _ Jd). cbn [required] in Rq. rewrite Forall_forall in Rq. exact Rq. }
    assert (Mx : forall m, In m ms -> exists x, aget (m_name m) kvs = Some x /\ denote (allows D base k) (m_type m) x).
    { intros m Jm. specialize (Fm m Jm). destruct (aget (m_name m) kvs); eauto. rewrite (Op m Jm) in Fm. discriminate. }
    inversion R as [P1 M1 R1 R2 R3]; subst P1 M1. inversion Tg as [P1 M1 T1 T2]; subst P1 M1.
    (* which object type it is *)
    assert (Ch : exists T, In T ts /\ forall m f ss, In m ms -> focc s frags T P M (m_name m) f ss -> ft_def (sf_type f) = FDTypeName -> aget (m_name m) kvs = Some (VStr T)).
    { destruct ts as [|T0 ts'] eqn:Ets; [exfalso; exact (Ht _ _ _ J eq_refl)|]. rewrite <- Ets in *.
      assert (I0 : In T0 ts) by (rewrite Ets; left; auto). pose proof (Hg _ _ _ _ J I0) as Mm. inversion Mm as [ts0 O0 ms0 Nm Mf Mk Mt]; subst ts0 O0 ms0.
      assert (Po0 : possible s P T0) by (apply Hp; apply in_flat_map; exists (nm, ts, ms); auto).
      assert (Ca : (exists m f ss, In m ms /\ focc s frags T0 P M (m_name m) f ss /\ ft_def (sf_type f) = FDTypeName) \/
                   forall m, In m ms -> exists f ss, focc s frags T0 P M (m_name m) f ss /\ ft_def (sf_type f) <> FDTypeName).
      { clear - Mf. induction ms as [|m ms IH]; [right; intros m []|].
        destruct IH as [(m' & f & ss & Jm & H)|H]; [intros m' Jm; apply Mf; right; auto|left; exists m', f, ss; split; auto; right; auto|].
        destruct (Mf m (or_introl eq_refl)) as (f & ss & Fo). destruct (ft_def (sf_type f)) eqn:Ed.
        all: try (right; intros m' [<-|Jm]; [exists f, ss; split; auto; congruence|auto]; fail).
        left. exists m, f, ss. split; [left; auto|auto]. }
      destruct Ca as [(m & f & ss & Jm & Fo & Ed)|Ca].
      - destruct (Mx m Jm) as (x & Ea & Dx). pose proof (Mt m f ss Jm Fo) as My. inversion My as [ts0 ft0 M0 e0 Hb E1 E2 E3 Em]; subst ts0 ft0 M0.
        assert (Ee : e0 = lit_union ts).
        { inversion Hb as [ts1 ft1 M1 Ex Ea1 Ea2 Ea3 Ea4|ts1 ft1 M1 sc Ex Ea1 Ea2 Ea3 Ea4|ts1 ft1 M1 Ex Ea1 Ea2 Ea3 Ea4|ts1 ft1 M1 sub Ex Cc Dsub Ea1 Ea2 Ea3 Ea4]; auto; rewrite Ed in Ex; try discriminate Ex. }
        subst e0. destruct Fo as (P' & n0 & Oc & Ff). destruct (field_declared js s I _ _ _ Ff) as [[-> ->]|(kind & g & Dc & Ej & Ko' & Vg)].
        2:{ exfalso. destruct (json_named kind g Ko' Vg _ Ej) as [_ Dk]. rewrite Ed in Dk. inversion Dk. }
        rewrite <- Em in Dx. cbn [typename_field sf_type ft_rest ft_mod ptd_expr] in Dx. cbn in Dx.
        apply denote_lits in Dx; [|rewrite Ets; discriminate]. destruct Dx as (T & JT & ->). exists T. split; auto.
        intros m' f' ss' Jm' Fo' Ed'. pose proof (Hg _ _ _ _ J JT) as Mm'. inversion Mm' as [ts0 O0 ms0 Nm' Mf' Mk' Mt']; subst ts0 O0 ms0.
        assert (Po : possible s P T) by (apply Hp; apply in_flat_map; exists (nm, ts, ms); auto).
        (* [m] is such a key of [T] as well *)
        destruct (Mf' m Jm) as (f1 & ss1 & Fo1). pose proof (Mt' m f1 ss1 Jm Fo1) as My1. inversion My1 as [ts0 ft0 M0 e1 Hb1 E1' E2' E3' Em']; subst ts0 ft0 M0.
        assert (Ed1 : ft_def (sf_type f1) = FDTypeName).
        { apply (bas_lit _ _ _ _ Hb1). rewrite <- (core_ptd (ft_rest (sf_type f1)) (ft_mod (sf_type f1))). rewrite Em', <- Em. rewrite core_ptd. apply core_lits. }
        assert (Key : forall q f q', focc s frags T P M q f q' -> ft_def (sf_type f) = FDTypeName -> exists P2, occ s frags T P M q P2 "__typename" q').
        { intros q f2 q' (P2 & n2 & O2 & F2) E2'. destruct (field_declared js s I _ _ _ F2) as [[_ ->]|(kind & g & Dc & Ej & Ko' & Vg)]; eauto.
          exfalso. destruct (json_named kind g Ko' Vg _ Ej) as [_ Dk]. rewrite E2' in Dk. inversion Dk. }
        destruct (Key _ _ _ Fo1 Ed1) as (Pa & Oa). destruct (Key _ _ _ Fo' Ed') as (Pb & Ob).
        rewrite (T1 T _ _ _ _ _ _ Po Ob Oa). auto.
      - exists T0. split; auto. intros m f ss Jm Fo Ed. exfalso. destruct (Ca m Jm) as (f1 & ss1 & Fo1 & Ne). apply Ne.
        rewrite (R1 T0 _ _ _ _ _ Po0 Fo1 Fo). auto. }
    destruct Ch as (T & JT & Tag). exists T.
    assert (Po : possible s P T) by (apply Hp; apply in_flat_map; exists (nm, ts, ms); auto). split; auto.
    pose proof (Hg _ _ _ _ J JT) as Mm. inversion Mm as [ts0 O0 ms0 Nm Mf Mk Mt]; subst ts0 O0 ms0.
    cbn [object_response]. exists kvs. split; auto. split.
    { intros q. split.
      - intros Iq. destruct (aget_key _ _ Iq) as (x & Ea). pose proof (Ko kvs q x eq_refl Ea) as Im'. apply in_map_iff in Im'. destruct Im' as (m & <- & Jm).
        destruct (Mf m Jm) as (f & ss & (P0 & n0 & Oc & _)). destruct (occ_collects s frags active frags_unc _ _ _ _ _ _ _ Oc U) as [Cl _]. eauto.
      - intros (fld & ss & Cf). destruct (collects_occ s frags active _ _ _ _ _ Cf P V Po) as (P' & f & Of & Ff & _).
        assert (Im' : In q (List.map m_name ms)) by (apply (Mk q f ss); exists P', fld; auto). apply in_map_iff in Im'. destruct Im' as (m & <- & Jm).
        destruct (Mx m Jm) as (x & Ea & _). apply aget_In in Ea. apply in_map_iff. exists (m_name m, x). auto. }
    intros q x Jx. pose proof (aget_nodup _ _ _ Nk Jx) as Ea. pose proof (Ko kvs q x eq_refl Ea) as Im'. apply in_map_iff in Im'. destruct Im' as (m & <- & Jm).
    pose proof (Tk _ Jx) as Tx. cbn [snd] in Tx.
    destruct (Mf m Jm) as (f0 & ss & (P0 & n0 & Oc & _)). destruct (occ_collects s frags active frags_unc _ _ _ _ _ _ _ Oc U) as [Cl _].
    exists n0, ss. split; auto.
    destruct (collects_occ s frags active _ _ _ _ _ Cl P V Po) as (P' & f & Of & Ff & Po' & Vs).
    assert (Fc : focc s frags T P M (m_name m) f ss) by (exists P', n0; auto).
    destruct (Mx m Jm) as (x' & Ea' & Dx). rewrite Ea in Ea'. injection Ea' as <-.
    destruct (field_declared js s I _ _ _ Ff) as [[-> ->]|(kind & g & Dc & Ej & Ko' & Vg)].
    { left. split; auto. rewrite (Tag m _ _ Jm Fc eq_refl) in Ea. congruence. }
    right. exists kind, g. split; [eapply Im; eauto|].
    pose proof (Mt m f ss Jm Fc) as My. inversion My as [ts0 ft0 M0 e0 Hb E1 E2 E3 Em]; subst ts0 ft0 M0.
    destruct (json_named kind g Ko' Vg _ Ej) as [En Dk]. rewrite <- Em in Dx. apply (tidy_denote _ _ _ Tx) in Dx.
    eapply (accepted_value _ kind g (sf_type f) e0); [auto|auto|eapply W; eauto|auto| | |exact Dx].
    - (* not null *)
      destruct (fdef_is_complex (ft_def (sf_type f))) eqn:Fx.
      + inversion Hb as [ts1 ft1 M1 Ex Ea1 Ea2 Ea3 Ea4|ts1 ft1 M1 sc Ex Ea1 Ea2 Ea3 Ea4|ts1 ft1 M1 Ex Ea1 Ea2 Ea3 Ea4|ts1 ft1 M1 sub Ex Cc Dsub Ea1 Ea2 Ea3 Ea4]; subst ts1 ft1 M1 e0;
          try (rewrite Ex in Fx; discriminate Fx).
        cbn [denote]. intros [An Tn]. destruct (IHn k ltac:(lia) _ _ sub VNull Dsub) as (T' & _ & Rs); auto.
        * eapply R3; eauto.
        * eapply T2; eauto.
        * rewrite En. intros z (f' & ss' & (P2 & n2 & O2 & F2) & Ef & Iz). rewrite <- En.
          destruct (occ_collects s frags active frags_unc _ _ _ _ _ _ _ O2 U) as [C2 _].
          destruct (collects_occ s frags active _ _ _ _ _ C2 P V Po) as (P3 & f3 & O3 & F3 & _ & V3).
          rewrite (R1 T (m_name m) f ss f3 ss' Po Fc ltac:(exists P3, n2; auto)). auto.
        * intros z (f' & ss' & (P2 & n2 & O2 & F2) & Ef & Iz).
          destruct (occ_collects s frags active frags_unc _ _ _ _ _ _ _ O2 U) as [_ U2]. rewrite Forall_forall in U2. auto.
        * destruct k; [destruct Rs|]. destruct Rs as (kvs' & Ev & _). discriminate.
      + intros Dn. assert (Dn' : denote (allows D base k) e0 VNull) by (eapply denote_mono; [|exact Dn]; intros ? ? [? _]; auto).
        destruct (leaf_back _ _ _ _ _ _ _ _ _ _ Dc Ej Ko' Vg Hb Fx Dn') as [_ Ne]. congruence.
    - intros y Dy. destruct (fdef_is_complex (ft_def (sf_type f))) eqn:Fx.
      + right. inversion Hb as [ts1 ft1 M1 Ex Ea1 Ea2 Ea3 Ea4|ts1 ft1 M1 sc Ex Ea1 Ea2 Ea3 Ea4|ts1 ft1 M1 Ex Ea1 Ea2 Ea3 Ea4|ts1 ft1 M1 sub Ex Cc Dsub Ea1 Ea2 Ea3 Ea4]; subst ts1 ft1 M1 e0;
          try (rewrite Ex in Fx; discriminate Fx).
        cbn [denote] in Dy. destruct Dy as [An Tn]. rewrite <- En. destruct (IHn k ltac:(lia) _ _ sub y Dsub) as (T' & Pt & Rs); auto.
        * eapply R3; eauto.
        * eapply T2; eauto.
        * intros z (f' & ss' & (P2 & n2 & O2 & F2) & Ef & Iz).
          destruct (occ_collects s frags active frags_unc _ _ _ _ _ _ _ O2 U) as [C2 _].
          destruct (collects_occ s frags active _ _ _ _ _ C2 P V Po) as (P3 & f3 & O3 & F3 & _ & V3).
          rewrite (R1 T (m_name m) f ss f3 ss' Po Fc ltac:(exists P3, n2; auto)). auto.
        * intros z (f' & ss' & (P2 & n2 & O2 & F2) & Ef & Iz).
          destruct (occ_collects s frags active frags_unc _ _ _ _ _ _ _ O2 U) as [_ U2]. rewrite Forall_forall in U2. auto.
        * exists T'. split; auto. eapply response_ext; [|exact Rs]. intros z. unfold merged. split.
          -- intros (f' & ss' & (P2 & n2 & O2 & F2) & Ef & Iz).
             destruct (occ_collects s frags active frags_unc _ _ _ _ _ _ _ O2 U) as [C2 _]. eauto.
          -- intros (fld' & ss' & C2 & Iz). destruct (collects_occ s frags active _ _ _ _ _ C2 P V Po) as (P3 & f3 & O3 & F3 & _ & V3).
             assert (Fc3 : focc s frags T P M (m_name m) f3 ss') by (exists P3, fld'; auto). exists f3, ss'. split; auto. split; auto.
             rewrite (R1 T (m_name m) f3 ss' f ss Po Fc3 Fc). reflexivity.
      + left. assert (Dn' : denote (allows D base k) e0 y) by (eapply denote_mono; [|exact Dy]; intros ? ? [? _]; auto).
        apply (leaf_back _ _ _ _ _ _ _ _ _ _ Dc Ej Ko' Vg Hb Fx Dn').
  Qed.
  End Tight.
End Exact.

(** ** Checks for concrete cases *)
From Verif Require Import IntroCheck.
Definition exactb (js : jschema) (s : schema) : bool :=
  forallb (fun j => forallb (fun f => forallb (fun T => match find_decl js T (jf_name f) with
      | Some (k, g) => ref_ok (jf_type f) k g && mems k output_kinds | None => false end) (possibles s (jt_name j))) (fields_of j)) js.
Lemma exactb_ok js s wrap : introb js s wrap = true -> exactb js s = true -> implements_exactly js s.
Proof.
  intros H X P T n kind g D Po. destruct (declared_ref js s wrap H _ _ _ _ D) as (j & f & J & <- & F & <- & Er & _).
  unfold exactb in X. rewrite forallb_forall in X. specialize (X j J). rewrite forallb_forall in X. specialize (X f F).
  rewrite forallb_forall in X. specialize (X T (proj2 (possibles_ok _ _ _) Po)).
  destruct (find_decl js T (jf_name f)) as [[k g']|] eqn:E; [|discriminate]. apply andb_true_iff in X. destruct X as [X1 X2].
  apply ref_ok_eq in X1. apply mems_ok in X2. rewrite X1, (json_ref k g' X2) in Er. injection Er as -> ->. apply find_declared. exact E.
Qed.

(** [__typename] has no other name *)
Inductive plain_tags : selection -> Prop :=
| pt_field p al n a d sub : (n = "__typename" -> al = None) -> Forall plain_tags sub -> plain_tags (SField p al n a d sub)
| pt_inline p c d sub : Forall plain_tags sub -> plain_tags (SInline p c d sub)
| pt_spread p n d : plain_tags (SSpread p n d).
Fixpoint plain_tagsb (x : selection) : bool :=
  match x with
  | SField _ al n _ _ sub => (if String.eqb n "__typename" then match al with None => true | Some _ => false end else true) && forallb plain_tagsb sub
  | SInline _ _ _ sub => forallb plain_tagsb sub
  | SSpread _ _ _ => true
  end.
Fixpoint plain_tagsb_ok (x : selection) : plain_tagsb x = true -> plain_tags x.
Proof.
  assert (go : forall l, forallb plain_tagsb l = true -> Forall plain_tags l).
  { fix go 1. intros [|y l] H; [constructor|]. cbn [forallb] in H. apply andb_true_iff in H. destruct H as [H1 H2]. constructor; [exact (plain_tagsb_ok y H1)|exact (go l H2)]. }
  destruct x; cbn [plain_tagsb]; intros H; [|constructor; auto; fail..]. apply andb_true_iff in H. destruct H as [H1 H2]. constructor; [|auto].
  intros ->. cbn in H1. destruct alias; [discriminate|reflexivity].
Defined.
Lemma plain_tagged s frags : (forall n fd, aget n frags = Some fd -> Forall plain_tags (fr_sels fd)) ->
  forall P M, regular s frags P M -> (forall x, M x -> plain_tags x) -> tagged_once s frags P M.
Proof.
  intros Hf.
  assert (Oc : forall T P M k P' n ss, occ s frags T P M k P' n ss -> (forall x, M x -> plain_tags x) -> (n = "__typename" -> k = "__typename") /\ Forall plain_tags ss).
  { intros T P M k P' n ss O. induction O as [P M p al n a d sub J|P M p c d sub k P' n ss J Po _ IH|P M p name d fd k P' n ss J G Po _ IH]; intros H.
    - specialize (H _ J). inversion H as [? ? ? ? ? ? Ha Hs| |]; subst. split; auto. intros ->. rewrite (Ha eq_refl). reflexivity.
    - apply IH. specialize (H _ J). inversion H as [|? ? ? ? Hs|]; subst. rewrite Forall_forall in Hs. auto.
    - apply IH. specialize (Hf _ _ G). rewrite Forall_forall in Hf. auto. }
  intros P M R. induction R as [P M _ _ R IH]. intros H. constructor.
  - intros T k k' P1 P2 ss ss' Po O O'. destruct (Oc _ _ _ _ _ _ _ O H) as [E _]. destruct (Oc _ _ _ _ _ _ _ O' H) as [E' _]. rewrite E, E'; auto.
  - intros T k f ss Po Fo Cp. apply (IH T k f ss Po Fo Cp). intros x (f' & ss' & (P' & n & O & _) & _ & Ix).
    destruct (Oc _ _ _ _ _ _ _ O H) as [_ Fs]. rewrite Forall_forall in Fs. auto.
Qed.

(** What a response says, with the collected fields computed *)
Lemma declared_fun js P n kind g kind' g' : declared js P n kind g -> declared js P n kind' g' -> kind = kind' /\ g = g'.
Proof.
  intros (j & fs & f & L & _ & E & Lf & Et) (j' & fs' & f' & L' & _ & E' & Lf' & Et'). rewrite <- (last_fun _ _ _ _ _ L L') in E'.
  rewrite E in E'. injection E' as <-. rewrite <- (last_fun _ _ _ _ _ Lf Lf') in Et'. rewrite Et in Et'. apply json_of_inj in Et'. tauto.
Qed.
Lemma response_says js s frags act custom fuel n T l r kvs k x :
  cols s frags act fuel T l = Some r -> object_response js s frags (active_of act) custom n T (fun z => In z l) (VObj kvs) -> In (k, x) kvs ->
  exists n' fld ss, n = S n' /\ In (k, fld, ss) r /\
    (fld = "__typename" /\ x = VStr T \/
     exists kind g, declared js T fld kind g /\
       gvalues (fun b y => leaf_value js custom b y \/
          exists T', possible s b T' /\ object_response js s frags (active_of act) custom n' T' (fun z => In z (merged_subs r k)) y) g x).
Proof.
  intros C R J. destruct n as [|n]; [destruct R|]. destruct R as (kvs' & E & _ & F). injection E as <-. destruct (F k x J) as (fld & ss & Cl & H).
  exists n, fld, ss. split; auto. pose proof (cols_ok s frags act custom fuel T l r C) as Ck. split; [apply Ck; exact Cl|]. destruct H as [H|(kind & g & D & G)]; auto.
  right. exists kind, g. split; auto. eapply gvalues_mono; [|exact G]. intros y [Lf|(T' & Po & Rs)]; auto. right. exists T'. split; auto.
  eapply response_ext; [|exact Rs]. intros z. unfold merged_subs. rewrite in_flat_map. split.
  - intros (fld' & ss' & C' & Iz). apply Ck in C'. exists (k, fld', ss'). split; auto. cbn [fst snd]. rewrite String.eqb_refl. exact Iz.
  - intros ([[k' fld'] ss'] & I' & Iz). cbn [fst snd] in Iz. destruct (String.eqb k' k) eqn:Ek; [|destruct Iz]. apply String.eqb_eq in Ek. subst k'. exists fld', ss'. split; auto. apply Ck. exact I'.
Qed.
