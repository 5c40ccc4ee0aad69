(** Lemmas: types from a schema that promises more. *)
From Verif Require Export MoreFacts SpecPromise.
From Verif Require Import RespFacts RequestFacts SpecExact ExactFacts DeclFacts WrapFacts PropC04 PropC16.

(** *** Wrappers around any set of values, with null in it or not *)
Section Any.
  Variable inner : value -> Prop.
  Fixpoint strict_values (g : gtype) (v : value) : Prop :=
    match g with
    | GNamed _ => inner v
    | GList h => listof (fun w => match h with GNonNull _ => strict_values h w | _ => strict_values h w \/ w = VNull end) v
    | GNonNull h => strict_values h v
    end.
  Definition loose_values (g : gtype) (v : value) : Prop :=
    match g with GNonNull _ => strict_values g v | _ => strict_values g v \/ v = VNull end.
  Lemma strict_list g v : strict_values (GList g) v <-> listof (loose_values g) v.
  Proof. cbn [strict_values]. unfold loose_values. destruct g; reflexivity. Qed.

  Definition around (c : fmod) (g : gtype) : value -> Prop :=
    match c with
    | MNone => strict_values g
    | MNullable => loose_values g
    | MList => listof (strict_values g)
    | MNullableList => fun v => listof (strict_values g) v \/ v = VNull
    | MListOfNullable => listof (loose_values g)
    | MNullableListOfNullable => fun v => listof (loose_values g) v \/ v = VNull
    end.
  Lemma around_named c n v : around c (GNamed n) v <-> sem c inner v.
  Proof. destruct c; cbn [around sem loose_values strict_values]; tauto. Qed.

  Lemma builder_any kind g d : fdef_of_kind kind (gbase g) = Ok d -> valid_gtype g = true ->
    forall b, (at_nonnull (mb_concrete b) && is_gnonnull g = false) -> bad_at (mb_concrete b) g = false ->
    exists ft, ftype_of_json_from b (json_of kind g) = Ok ft /\ ft_def ft = d /\
      forall v, sems (rev (ft_rest ft)) (sem (ft_mod ft) inner) v <-> sems (mb_higher b) (around (mb_concrete b) g) v.
  Proof.
    intros Hk. induction g as [n|g IH|g IH]; intros V b A B.
    - destruct (fdef_named _ _ _ Hk) as [K1 K2]. cbn [json_of ftype_of_json_from]. rewrite K1, K2.
      cbn [gbase] in *. rewrite Hk. eexists. split; [reflexivity|]. cbn [ft_mod ft_rest ft_name ft_def]. split; [reflexivity|]. intros v.
      rewrite rev_involutive. apply sems_ext. intros w. symmetry. apply around_named.
    - cbn [json_of ftype_of_json_from]. change (String.eqb "LIST" "NON_NULL") with false.
      change (String.eqb "LIST" "LIST") with true. cbn [valid_gtype gbase] in *.
      destruct b as [c hs]; cbn [mb_concrete mb_higher] in *.
      destruct c; cbn [mb_listize mb_concrete mb_higher bad_at] in *; unfold mb_listize; cbn [mb_concrete mb_higher].
      + destruct (IH Hk V {| mb_concrete := MListOfNullable; mb_higher := hs |}) as (ft & E & Hd & Hv).
        { reflexivity. } { cbn. cbn in B. auto. }
        exists ft. split; [auto|]. split; [auto|]. intros v. rewrite Hv. cbn [mb_higher mb_concrete around]. apply sems_ext. intros w. symmetry. apply strict_list.
      + cbn in B. apply orb_false_iff in B. destruct B as [B1 B2].
        destruct (IH Hk V {| mb_concrete := MNullableListOfNullable; mb_higher := hs |}) as (ft & E & Hd & Hv).
        { reflexivity. } { cbn. cbn in B1. rewrite B1, B2. auto. }
        exists ft. split; [auto|]. split; [auto|]. intros v. rewrite Hv. cbn [mb_higher mb_concrete around]. apply sems_ext. intros w. unfold loose_values at 2. rewrite strict_list. tauto.
      + destruct (IH Hk V {| mb_concrete := MListOfNullable; mb_higher := hs ++ [MList] |}) as (ft & E & Hd & Hv).
        { reflexivity. } { cbn. cbn in B. auto. }
        exists ft. split; [auto|]. split; [auto|]. intros v. rewrite Hv. cbn [mb_higher mb_concrete around]. rewrite sems_app. apply sems_ext. intros w. cbn [sem].
        apply listof_ext. intros u. symmetry. apply strict_list.
      + cbn in B. discriminate.
      + cbn in B. apply orb_false_iff in B. destruct B as [B1 B2].
        destruct (IH Hk V {| mb_concrete := MNullableListOfNullable; mb_higher := hs ++ [MListOfNullable] |}) as (ft & E & Hd & Hv).
        { reflexivity. } { cbn. cbn in B1. rewrite B1, B2. auto. }
        exists ft. split; [auto|]. split; [auto|]. intros v. rewrite Hv. cbn [mb_higher mb_concrete around]. rewrite sems_app. apply sems_ext. intros w. cbn [sem].
        apply listof_ext. intros u. unfold loose_values at 2. rewrite strict_list. tauto.
      + cbn in B. apply orb_false_iff in B. destruct B as [B1 B2].
        destruct (IH Hk V {| mb_concrete := MNullableListOfNullable; mb_higher := hs ++ [MNullableListOfNullable] |}) as (ft & E & Hd & Hv).
        { reflexivity. } { cbn. cbn in B1. rewrite B1, B2. auto. }
        exists ft. split; [auto|]. split; [auto|]. intros v. rewrite Hv. cbn [mb_higher mb_concrete around]. rewrite sems_app. apply sems_ext. intros w. cbn [sem].
        rewrite (listof_ext _ (loose_values (GList g))); [tauto|]. intros u. unfold loose_values at 2. rewrite strict_list. tauto.
    - cbn [json_of ftype_of_json_from]. change (String.eqb "NON_NULL" "NON_NULL") with true.
      cbn [gbase] in *. apply valid_cons in V. destruct V as [G V].
      destruct b as [c hs]; cbn [mb_concrete mb_higher] in *. cbn [is_gnonnull] in A. rewrite andb_true_r in A.
      destruct (IH Hk V (mb_actualize {| mb_concrete := c; mb_higher := hs |})) as (ft & E & Hd & Hv).
      { rewrite G. apply andb_false_r. }
      { destruct c; cbn in *; try discriminate; auto. }
      exists ft. split; [auto|]. split; [auto|]. intros v. rewrite Hv.
      destruct c; cbn in A; try discriminate; cbn [mb_actualize mb_concrete mb_higher around]; apply sems_ext; intros w; reflexivity.
  Qed.
End Any.
Lemma wrappers_any kind g ft : In kind output_kinds -> valid_gtype g = true -> nullable_list_of_nonnull_lists false g = false ->
  ftype_of_json (json_of kind g) = Ok ft -> fdef_of_kind kind (gbase g) = Ok (ft_def ft) /\
  forall inner v, sems (rev (ft_rest ft)) (sem (ft_mod ft) inner) v <-> loose_values inner g v.
Proof.
  intros K V L E. destruct (known_kind kind (gbase g)) as [d Hd]; [cbn in K |- *; tauto|].
  assert (X : forall inner, ft_def ft = d /\ forall v, sems (rev (ft_rest ft)) (sem (ft_mod ft) inner) v <-> loose_values inner g v).
  { intros inner. destruct (builder_any inner kind g d Hd V mb_new) as (ft' & E' & Ed & Hv); [reflexivity|exact L|].
    unfold ftype_of_json in E. rewrite E in E'. injection E' as <-. split; [exact Ed|]. exact Hv. }
  split; [|intros inner; apply X]. rewrite (proj1 (X (fun _ => True))). exact Hd.
Qed.
Lemma listof_mono (P Q : value -> Prop) v : (forall w, P w -> Q w) -> listof P v -> listof Q v.
Proof. intros H (l & -> & F). exists l. split; auto. eapply Forall_impl; [|exact F]. auto. Qed.
Lemma stricter_values (R R0 : value -> Prop) : (forall v, R v -> R0 v) -> forall g g0, stricter g g0 ->
  (forall v, strict_values R g v -> strict_values R0 g0 v) /\ (forall v, loose_values R g v -> loose_values R0 g0 v).
Proof.
  intros H. induction 1 as [n n0|a b _ [IH1 IH2]|a b _ [IH1 IH2]|a b _ [IH1 IH2]].
  - split; intros v; cbn; [apply H|]. intros [A|A]; auto.
  - assert (X : forall v, strict_values R (GList a) v -> strict_values R0 (GList b) v).
    { intros v A. apply strict_list. apply strict_list in A. eapply listof_mono; eauto. }
    split; auto. intros v. unfold loose_values. intros [A|A]; auto.
  - split; auto.
  - split; auto. intros v A. cbn in A. specialize (IH1 v A). unfold loose_values. destruct b; auto.
Qed.

(** *** Declared fields are fields *)
Lemma declared_field js s P n kind g : introspection js s -> declared js P n kind g ->
  exists f, field_of s P n f /\ ftype_of_json (json_of kind g) = Ok (sf_type f) /\ In kind output_kinds /\ valid_gtype g = true.
Proof.
  intros I D. pose proof D as (j & fs & fj & L & K & Ef & Lf & Et).
  assert (X : exists f, field_of s P n f).
  { destruct (kind_def js s I _ _ L) as (t & G & M). remember (st_def t) as d eqn:Ed.
    destruct M as [fs' m Ek E Lm|vs Ek _|Ek|fs' ps m Ek E _ Lm|fs' m Ek _ _|ps m Ek _ _]; try (exfalso; rewrite Ek in K; destruct K as [K|K]; discriminate K);
      rewrite Ef in E; injection E as <-; destruct (proj1 Lm _ _ Lf) as (f & A & _); exists f, t; (split; [exact G|]); rewrite <- Ed; exact A. }
  destruct X as (f & F). exists f. split; auto. destruct (field_declared js s I _ _ _ F) as [[-> ->]|(kind' & g' & D' & E & K' & V)].
  - exfalso. eapply typename_undeclared; eauto.
  - destruct (declared_fun _ _ _ _ _ _ _ D D') as [-> ->]. auto.
Qed.

Lemma composite_typename js s Q : introspection js s -> composite s Q -> field_of s Q "__typename" typename_field.
Proof.
  intros I (t & G & C). destruct (load_ok _ _ (in_loaded _ _ I)) as (_ & La & No).
  destruct (named_dec jt_name Q js) as [N|(j & L)]; [rewrite (No _ N) in G; discriminate|].
  destruct (kind_def js s I _ _ L) as (t' & G' & M). rewrite G in G'. injection G' as <-. exists t. split; [exact G|].
  assert (X : forall fs m, In j js -> jt_fields j = Some fs -> lookup_matches true fs m -> aget "__typename" m = Some typename_field).
  { intros fs m J Ef [_ Lm]. rewrite Lm; [reflexivity|]. intros f K. destruct (in_reserved _ _ I) as [R _]. eapply R; eauto. }
  assert (J : In j js) by (apply last_in in L; tauto).
  remember (st_def t) as d eqn:Ed. destruct M as [fs' m Ek E Lm|vs Ek _|Ek|fs' ps m Ek E _ Lm|fs' m Ek _ _|ps m Ek _ Lm]; try contradiction.
  - eapply X; eauto.
  - eapply X; eauto.
  - destruct Lm as [_ Lm]. rewrite Lm; [reflexivity|]. intros f [].
Qed.

Lemma composite_complex s f : kind_agrees s f -> composite s (ft_name (sf_type f)) -> fdef_is_complex (ft_def (sf_type f)) = true.
Proof.
  unfold kind_agrees. intros K (t & G & C). rewrite G in K. cbn [option_map] in K. destruct (ft_def (sf_type f)); try reflexivity; exfalso; revert C.
  all: repeat match goal with H : exists _, _ |- _ => destruct H as (? & H) end; try (injection K as K; rewrite K; tauto); try (intros C; apply K; exists t; auto).
Qed.

Section Promise.
  Variable c : cconfig.
  Variables js js0 : jschema.
  Variables s s0 : schema.
  Variables fr fr0 : amap string fragdef.
  Variables base base0 : string -> value -> Prop.
  Variables D D' D0 : list decl.
  Hypothesis I : introspection js s.
  Hypothesis I0 : introspection js0 s0.
  Hypothesis Pw : plain_wrappers js.
  Hypothesis Pw0 : plain_wrappers js0.
  Hypothesis D'_in : incl D' D.
  Hypothesis Rq : Forall required D'.
  Hypothesis Und : forall x d, leaf_name c js x -> In d D -> decl_name d <> x.
  Hypothesis Nd0 : NoDup (List.map decl_name D0).
  Hypothesis Und0 : forall x d, leaf_name c js0 x -> In d D0 -> decl_name d <> x.
  Hypothesis B : forall x v, leaf_name c js x -> leaf_name c js0 x -> base x v -> base0 x v.

  Lemma leaf_answers n x v : leaf_name c js x -> leaf_name c js0 x -> accepts D base n x v -> accepts D0 base0 (S n) x v.
  Proof.
    intros L L0 A. destruct n as [|n]; [destruct A|]. destruct A as [_ A]. split.
    - intros d J E. exfalso. eapply Und0; eauto.
    - right. apply B; auto. destruct A as [(d & J & E)|A]; auto. exfalso. eapply Und; eauto.
  Qed.

  (** What the type from the schema that promises more accepts, the other accepts *)
  Theorem object_answers : forall n P M main P0 M0 main0 v, des c s fr D' P M main -> des c s0 fr0 D0 P0 M0 main0 -> tagged_once s fr P M ->
    answers_more js0 s0 fr0 js s fr P0 M0 P M -> accepts D base n main v -> accepts D0 base0 (S (n + n)) main0 v.
  Proof.
    induction n as [n IHn] using (well_founded_induction lt_wf). intros P M main P1 M1 main1 v Ds Ds1 Tg Sm A.
    destruct (one_type c js s fr base D D' I D'_in Rq _ _ _ _ _ Ds Tg A) as (kvs & k & T & ts & ms & -> & Lk & Po & Mm & Mx & Tag).
    inversion Sm as [P0 M0 P2 M2 Pp Tn Ex]; subst P0 M0 P2 M2.
    inversion Mm as [ts0 O0 ms0 Nm Mf Mk Mt]; subst ts0 O0 ms0. inversion Tg as [P0 M0 T1 T2]; subst P0 M0.
    inversion Ds1 as [P0 M0 main0 groups Hm Nn Hp Np Hd Ht Hn Hg]; subst P0 M0 main0.
    pose proof (proj2 (Hp T) (Pp T Po)) as J. apply in_flat_map in J. destruct J as ([[nm1 ts1] ms1] & J & Jt). cbn [fst snd] in Jt.
    pose proof (Hg _ _ _ _ J Jt) as Mm1. inversion Mm1 as [ts0 O0 ms0 Nm1 Mf1 Mk1 Mt1]; subst ts0 O0 ms0.
    assert (X : accepts D0 base0 (S (S (k + k))) nm1 (VObj kvs)).
    { apply (accepts_decl base0 D0 Nd0 (S (k + k)) (DObj nm1 ms1)); [eapply Hd; eauto|]. cbn [decl_values]. exists kvs. split; auto. apply Forall_forall. intros m1 Jm1.
      destruct (Mf1 m1 Jm1) as (f1 & ss1 & Fo1). pose proof Fo1 as (Q1 & n1 & Oc1 & Ff1).
      destruct (field_declared js0 s0 I0 _ _ _ Ff1) as [[-> ->]|(kind1 & g1 & Dc1 & Ej1 & Ko1 & Vg1)].
      - destruct (Tn _ _ _ _ Po Oc1) as (Q & ss & Oc & Cq). pose proof (composite_typename js s Q I Cq) as Ff.
        assert (Fo : focc s fr T P M (m_name m1) typename_field ss) by (exists Q, "__typename"; auto).
        pose proof (Mk _ _ _ Fo) as Jk. apply in_map_iff in Jk. destruct Jk as (m & Ek & Jm). rewrite <- Ek in Fo |- *.
        rewrite (Tag m _ _ Jm Fo eq_refl).
        pose proof (Mt1 m1 _ ss1 Jm1 Fo1) as My1. inversion My1 as [ts0 ft0 M0 e1 Hb1 E1' E2' E3' Em1]; subst ts0 ft0 M0.
        inversion Hb1 as [ts2 ft2 M2 Ex1 Ea1 Ea2 Ea3 Ea4|ts2 ft2 M2 sc Ex1 Ea1 Ea2 Ea3 Ea4|ts2 ft2 M2 Ex1 Ea1 Ea2 Ea3 Ea4|ts2 ft2 M2 sub1 Ex1 Cc1 Dsub1 Ea1 Ea2 Ea3 Ea4]; subst ts2 ft2 M2 e1;
          try discriminate Ex1.
        rewrite <- Em1. apply denote_ptd. change (denote (accepts D0 base0 (S (k + k))) (lit_union ts1) (VStr T)). apply denote_lits; [intros ->; destruct Jt|]. eauto.
      - destruct (Ex _ _ _ _ _ _ _ Po Oc1 Dc1) as (Q & nq & ss & kind & g & Oc & Dc & St & Cs).
        destruct (declared_field js s Q nq kind g I Dc) as (f & Ff & Ej & Ko & Vg).
        assert (Fo : focc s fr T P M (m_name m1) f ss) by (exists Q, nq; auto).
        pose proof (Mk _ _ _ Fo) as Jk. apply in_map_iff in Jk. destruct Jk as (m & Ek & Jm). rewrite <- Ek in Fo |- *.
        destruct (Mx m Jm) as (x & Ea & Dx). rewrite Ea.
        pose proof (Mt m f ss Jm Fo) as My. inversion My as [ts0 ft0 M0 e0 Hb E1 E2 E3 Em]; subst ts0 ft0 M0.
        pose proof (Mt1 m1 f1 ss1 Jm1 Fo1) as My1. inversion My1 as [ts0 ft0 M0 e1 Hb1 E1' E2' E3' Em1]; subst ts0 ft0 M0.
        destruct (wrappers_any kind g (sf_type f) Ko Vg (Pw _ _ _ _ Dc) Ej) as [Kd Wv].
        destruct (wrappers_any kind1 g1 (sf_type f1) Ko1 Vg1 (Pw0 _ _ _ _ Dc1) Ej1) as [Kd1 Wv1].
        destruct (json_named kind g Ko Vg _ Ej) as [En Dk]. destruct (json_named kind1 g1 Ko1 Vg1 _ Ej1) as [En1 Dk1].
        destruct (in_kinds _ _ I _ _ _ _ Dc) as (j & L & Ekj). destruct (in_kinds _ _ I0 _ _ _ _ Dc1) as (j1 & L1 & Ekj1).
        assert (W : forall e e', m_type m = ptd_expr (ft_rest (sf_type f)) (ft_mod (sf_type f)) e -> m_type m1 = ptd_expr (ft_rest (sf_type f1)) (ft_mod (sf_type f1)) e' ->
          (forall y, denote (accepts D base k) e y -> denote (accepts D0 base0 (S (k + k))) e' y) ->
          denote (accepts D0 base0 (S (k + k))) (m_type m1) x).
        { intros e e' Ee Ee' H. rewrite Ee'. apply denote_ptd. apply Wv1. rewrite Ee in Dx. apply denote_ptd in Dx. apply Wv in Dx.
          eapply (proj2 (stricter_values _ _ H _ _ St)). exact Dx. }
        destruct Cs as [(Kl & -> & Eb)|(Cc0 & Cc & Sm')].
        + rewrite Eb in Kd. assert (Ed : ft_def (sf_type f) = ft_def (sf_type f1)) by congruence.
          destruct Kl as [-> | ->].
          * inversion Hb as [ts2 ft2 M2 Ey Ea1 Ea2 Ea3 Ea4|ts2 ft2 M2 sc Ey Ea1 Ea2 Ea3 Ea4|ts2 ft2 M2 Ey Ea1 Ea2 Ea3 Ea4|ts2 ft2 M2 sub Ey Cx Dsub Ea1 Ea2 Ea3 Ea4]; subst ts2 ft2 M2 e0;
              try (exfalso; rewrite Ey in Dk; inversion Dk; fail); [|exfalso; destruct (ft_def (sf_type f)); try discriminate Ey; inversion Dk].
            inversion Hb1 as [ts2 ft2 M2 Ex1 Ea1 Ea2 Ea3 Ea4|ts2 ft2 M2 sc1 Ex1 Ea1 Ea2 Ea3 Ea4|ts2 ft2 M2 Ex1 Ea1 Ea2 Ea3 Ea4|ts2 ft2 M2 sub1 Ex1 Cc1 Dsub1 Ea1 Ea2 Ea3 Ea4]; subst ts2 ft2 M2 e1;
              try (exfalso; rewrite <- Ed, Ey in Ex1; discriminate Ex1).
            rewrite <- Ed, Ey in Ex1. injection Ex1 as <-.
            try rewrite Em1; eapply W; [symmetry; exact Em|symmetry; exact Em1|]. intros y Ay. cbn [denote] in *. eapply accepts_mono; [|apply (leaf_answers k); [| |exact Ay]]; [lia| |].
            { rewrite Ey in Dk. inversion Dk as [|sc' Si E1 E2| | | |]. subst sc'. apply (scalar_leaf c js g); auto. exists j. split; auto. }
            { rewrite <- Ed, Ey in Dk1. inversion Dk1 as [|sc' Si E1 E2| | | |]. subst sc'. apply (scalar_leaf c js0 g1); auto. exists j1. split; auto. }
          * inversion Hb as [ts2 ft2 M2 Ey Ea1 Ea2 Ea3 Ea4|ts2 ft2 M2 sc Ey Ea1 Ea2 Ea3 Ea4|ts2 ft2 M2 Ey Ea1 Ea2 Ea3 Ea4|ts2 ft2 M2 sub Ey Cx Dsub Ea1 Ea2 Ea3 Ea4]; subst ts2 ft2 M2 e0;
              try (exfalso; rewrite Ey in Dk; inversion Dk; fail); [|exfalso; destruct (ft_def (sf_type f)); try discriminate Ey; inversion Dk].
            inversion Hb1 as [ts2 ft2 M2 Ex1 Ea1 Ea2 Ea3 Ea4|ts2 ft2 M2 sc1 Ex1 Ea1 Ea2 Ea3 Ea4|ts2 ft2 M2 Ex1 Ea1 Ea2 Ea3 Ea4|ts2 ft2 M2 sub1 Ex1 Cc1 Dsub1 Ea1 Ea2 Ea3 Ea4]; subst ts2 ft2 M2 e1;
              try (exfalso; rewrite <- Ed, Ey in Ex1; discriminate Ex1).
            try rewrite Em1; eapply W; [symmetry; exact Em|symmetry; exact Em1|]. intros y Ay. cbn [denote] in *. rewrite En1, <- Eb, <- En.
            eapply accepts_mono; [|apply (leaf_answers k); [| |exact Ay]]; [lia| |].
            { right. right. exists j. rewrite En. auto. }
            { right. right. exists j1. rewrite En, Eb. auto. }
        + pose proof (intro_consistent _ _ I) as Co. pose proof (intro_consistent _ _ I0) as Co0.
          pose proof (composite_complex _ _ (Co _ _ _ Ff) ltac:(rewrite En; exact Cc)) as Fx. pose proof (composite_complex _ _ (Co0 _ _ _ Ff1) ltac:(rewrite En1; exact Cc0)) as Fx1.
          inversion Hb as [ts2 ft2 M2 Ey Ea1 Ea2 Ea3 Ea4|ts2 ft2 M2 sc Ey Ea1 Ea2 Ea3 Ea4|ts2 ft2 M2 Ey Ea1 Ea2 Ea3 Ea4|ts2 ft2 M2 sub Ey Cx Dsub Ea1 Ea2 Ea3 Ea4]; subst ts2 ft2 M2 e0;
            try (rewrite Ey in Fx; discriminate Fx).
          inversion Hb1 as [ts2 ft2 M2 Ex1 Ea1 Ea2 Ea3 Ea4|ts2 ft2 M2 sc Ex1 Ea1 Ea2 Ea3 Ea4|ts2 ft2 M2 Ex1 Ea1 Ea2 Ea3 Ea4|ts2 ft2 M2 sub1 Ex1 Cc1 Dsub1 Ea1 Ea2 Ea3 Ea4]; subst ts2 ft2 M2 e1;
            try (rewrite Ex1 in Fx1; discriminate Fx1).
          try rewrite Em1; eapply W; [symmetry; exact Em|symmetry; exact Em1|]. intros y Ay. cbn [denote] in *.
          rewrite <- Ek in Sm', Dsub1. rewrite <- En, <- En1 in Sm'.
          eapply (IHn k ltac:(lia) _ _ sub _ _ sub1); [exact Dsub|exact Dsub1| |exact Sm'|exact Ay]. eapply T2; [exact Po|exact Fo|]. rewrite En. exact Cc. }
    destruct Hm as [(gr & Eg & Em)|Hm].
    - rewrite Eg in J. destruct J as [->|[]]. cbn [fst] in Em. subst nm1. eapply accepts_mono; [|exact X]. lia.
    - apply (accepts_decl base0 D0 Nd0 (n + n) (DAlias main1 (List.map (fun g : group => fst (fst g)) groups))); auto.
      cbn [decl_values]. exists nm1. split; [apply in_map_iff; exists (nm1, ts1, ms1); auto|]. eapply accepts_mono; [|exact X]. lia.
  Qed.
End Promise.

(** *** From changes of the schema *)
Lemma possible_named js s Q T : load_schema js = Ok s -> possible s Q T -> exists j, last_named jt_name Q js j.
Proof.
  intros L (t & G & _). destruct (load_ok _ _ L) as (_ & _ & No). destruct (named_dec jt_name Q js) as [N|X]; [rewrite (No _ N) in G; discriminate|exact X].
Qed.
Lemma possible_composite s Q T : possible s Q T -> composite s Q.
Proof. intros (t & G & H). exists t. split; auto. destruct (st_def t); auto. Qed.
Lemma composite_kind js s b j : introspection js s -> last_named jt_name b js j ->
  (composite s b <-> jt_kind j = "OBJECT" \/ jt_kind j = "INTERFACE" \/ jt_kind j = "UNION").
Proof.
  intros I L. destruct (kind_def js s I _ _ L) as (t & G & M). split.
  - intros (t' & G' & C). rewrite G in G'. injection G' as <-. destruct M; auto; contradiction.
  - intros K. exists t. split; auto. destruct M as [fs m E|vs E|E|fs ps m E|fs m E|ps m E]; auto; rewrite E in K; destruct K as [K|[K|K]]; discriminate K.
Qed.

Section Changed.
  Variables js0 js : jschema.
  Variables s0 s : schema.
  Variables fr0 fr : amap string fragdef.
  Hypothesis I0 : introspection js0 s0.
  Hypothesis I : introspection js s.
  Hypothesis Pm : promises_more js0 s0 js s.
  Hypothesis Fk : frags_kept fr0 fr.

  Lemma occ_changed T Q P M0 k P' n ss : possible s Q T -> occ s0 fr0 T P M0 k P' n ss -> forall M : selset, (forall x, M0 x -> exists x', M x' /\ kept x x') ->
    possible s P T -> exists ss', occ s fr T P M k P' n ss' /\ all_kept ss ss' /\ possible s P' T.
  Proof.
    intros Pq. induction 1 as [P M0 p al n a d sub J|P M0 p cnd d sub k P' n ss J Po O IH|P M0 p name d fd k P' n ss J Ea Po O IH]; intros M H Pp.
    - destruct (H _ J) as (x' & J' & K). inversion K as [? p' ? al' ? ? a' ? d' ? l' Er A| |]; subst. rewrite Er. exists l'. split; auto. econstructor; eauto.
    - destruct (H _ J) as (x' & J' & K). inversion K as [|? p' ? ? d' ? l' A|]; subst.
      pose proof (pm_vanish _ _ _ _ Pm _ _ _ Po Pq) as Pc. destruct (IH _ (all_kept_in _ _ A) Pc) as (ss' & O' & A' & Pn).
      exists ss'. split; auto. eapply occ_inline; eauto.
    - destruct (H _ J) as (x' & J' & K). inversion K as [| |? p' ? ? d']; subst. destruct (Fk _ _ Ea) as (fd' & Ea' & Ec & A).
      pose proof (pm_vanish _ _ _ _ Pm _ _ _ Po Pq) as Pc.
      destruct (IH _ (all_kept_in _ _ A) Pc) as (ss' & O' & A' & Pn). exists ss'. split; auto. rewrite <- Ec in Pc, O'. eapply occ_spread; eauto.
  Qed.

  Lemma changed_answers P M : tagged_once s fr P M -> forall (M0 : selset) j0, last_named jt_name P js0 j0 -> (forall x, M0 x -> exists x', M x' /\ kept x x') ->
    answers_more js0 s0 fr0 js s fr P M0 P M.
  Proof.
    induction 1 as [P M T1 T2 IH]. intros M0 j0 Lp H.
    assert (X : forall T k Q n ss kind g, possible s P T -> occ s0 fr0 T P M0 k Q n ss -> declared js0 Q n kind g ->
      exists ss' g', occ s fr T P M k Q n ss' /\ all_kept ss ss' /\ declared js Q n kind g' /\ stricter g' g /\ gbase g' = gbase g).
    { intros T k Q n ss kind g Po O Dc. destruct (occ_changed T P P M0 k Q n ss Po O M H Po) as (ss' & O' & A & Pq).
      destruct (possible_named _ _ _ _ (in_loaded _ _ I) Pq) as (j & Lj). destruct (pm_fields _ _ _ _ Pm _ _ _ _ _ Dc Lj) as (g' & Dc' & St & Eb).
      exists ss', g'. auto. }
    constructor.
    - intros T Po. eapply (pm_fewer _ _ _ _ Pm); eauto.
    - intros T k Q ss Po O. destruct (occ_changed T P P M0 k Q _ ss Po O M H Po) as (ss' & O' & _ & Pq). exists Q, ss'. split; auto. eapply possible_composite; eauto.
    - intros T k Q n ss kind g Po O Dc. destruct (X _ _ _ _ _ _ _ Po O Dc) as (ss' & g' & O' & A & Dc' & St & Eb). exists Q, n, ss', kind, g'. repeat (split; [assumption|]).
      destruct (in_kinds _ _ I0 _ _ _ _ Dc) as (j1 & L1 & K1). destruct (in_kinds _ _ I _ _ _ _ Dc') as (j2 & L2 & K2).
      destruct (declared_field js0 s0 Q n kind g I0 Dc) as (_ & _ & _ & Ko & _).
      pose proof (composite_kind js0 s0 _ _ I0 L1) as C1. pose proof (composite_kind js s _ _ I L2) as C2. rewrite K1 in C1. rewrite K2 in C2.
      assert (Cs : kind = "SCALAR" \/ kind = "ENUM" \/ (kind = "OBJECT" \/ kind = "INTERFACE" \/ kind = "UNION")).
      { cbn in Ko. intuition. }
      destruct Cs as [Cs|[Cs|Cs]]; [left; auto|left; auto|]. right. split; [apply C1; exact Cs|]. split; [apply C2; exact Cs|].
      destruct (declared_field js s Q n kind g' I Dc') as (f & Ff & Ej & Ko' & Vg). destruct (json_named kind g' Ko' Vg _ Ej) as [En _].
      rewrite <- Eb in L1 |- *. rewrite <- En in L1 |- *.
      eapply (IH T k f ss'); [exact Po|exists Q, n; auto|rewrite En; apply C2; exact Cs|exact L1|].
      intros x (f2 & ss2 & (Q2 & n2 & O2 & F2) & Ef & Ix). rewrite En, Eb in Ef. destruct (field_declared js0 s0 I0 _ _ _ F2) as [[-> ->]|(kind2 & g2 & Dc2 & Ej2 & Ko2 & Vg2)].
      + exfalso. cbn in Ef. apply (typename_not_composite js0 s0 I0). rewrite Ef. apply C1. exact Cs.
      + destruct (X _ _ _ _ _ _ _ Po O2 Dc2) as (ss2' & g2' & O2' & A2 & Dc2' & St2 & Eb2). destruct (all_kept_in _ _ A2 _ Ix) as (x' & Ix' & K).
        destruct (declared_field js s Q2 n2 kind2 g2' I Dc2') as (f2' & Ff2 & Ej2' & Ko2' & Vg2'). destruct (json_named kind2 g2' Ko2' Vg2' _ Ej2') as [En2' _].
        destruct (json_named kind2 g2 Ko2 Vg2 _ Ej2) as [En2 _].
        exists x'. split; auto. exists f2', ss2'. split; [exists Q2, n2; auto|]. split; auto. congruence.
  Qed.
End Changed.

(** Only what is under the names of fragments matters *)
Lemma answers_more_frags js0 s0 js s fr0 fr1 fr fr' : (forall n, aget n fr0 = aget n fr1 :> option fragdef) -> (forall n, aget n fr = aget n fr' :> option fragdef) ->
  forall P0 M0 P M, answers_more js0 s0 fr0 js s fr P0 M0 P M -> forall M0' M' : selset, (forall x, M0 x <-> M0' x) -> (forall x, M x <-> M' x) ->
    answers_more js0 s0 fr1 js s fr' P0 M0' P M'.
Proof.
  intros H0 H.
  assert (A1 : forall n fd, aget n fr1 = Some fd -> aget n fr0 = Some fd) by (intros n fd E; rewrite H0; exact E).
  assert (A2 : forall n fd, aget n fr = Some fd -> aget n fr' = Some fd) by (intros n fd E; rewrite <- H; exact E).
  assert (A3 : forall n fd, aget n fr0 = Some fd -> aget n fr1 = Some fd) by (intros n fd E; rewrite <- H0; exact E).
  assert (A4 : forall n fd, aget n fr' = Some fd -> aget n fr = Some fd) by (intros n fd E; rewrite H; exact E).
  assert (Ow : forall s2 fra frb T P (Ma Mb : selset) k Q n ss, (forall m fd, aget m fra = Some fd -> aget m frb = Some fd) -> (forall x, Ma x -> Mb x) ->
    occ s2 fra T P Ma k Q n ss -> occ s2 frb T P Mb k Q n ss).
  { intros s2 fra frb T P Ma Mb k Q n ss Hf Hm O. apply (occ_frags _ _ _ Hf) in O. destruct (occ_within _ _ _ _ _ _ _ _ _ O Mb Hm) as (Q' & O' & ->). exact O'. }
  fix self 5. intros P0 M0 P M [P0' M0x P' Mx Pp Tn Ex] M0' M' E0 E. constructor; auto.
  - intros T k Q ss Po O. eapply (Ow s0 fr1 fr0) in O; [|exact A1|apply E0]. destruct (Tn _ _ _ _ Po O) as (Q' & ss' & O' & C).
    exists Q', ss'. split; auto. eapply Ow; [exact A2|apply E|exact O'].
  - intros T k Q n ss kind g Po O Dc. eapply (Ow s0 fr1 fr0) in O; [|exact A1|apply E0]. destruct (Ex _ _ _ _ _ _ _ Po O Dc) as (Q' & n' & ss' & kind' & g' & O' & Dc' & St & Cs).
    exists Q', n', ss', kind', g'. split; [eapply Ow; [exact A2|apply E|exact O']|]. repeat (split; [assumption|]).
    destruct Cs as [Cs|(C0 & C & Sm)]; [left; exact Cs|right]. repeat (split; [assumption|]). eapply self; [exact Sm| |].
    + intros x. split; intros (f2 & ss2 & F2 & Ef & Ix); exists f2, ss2; (split; [|auto]).
      * eapply focc_within; [exact A3|apply E0|exact F2].
      * eapply focc_within; [exact A1|apply E0|exact F2].
    + intros x. split; intros (f2 & ss2 & F2 & Ef & Ix); exists f2, ss2; (split; [|auto]).
      * eapply focc_within; [exact A2|apply E|exact F2].
      * eapply focc_within; [exact A4|apply E|exact F2].
Qed.
