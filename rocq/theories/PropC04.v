(** C04: the generated result type is sound for GraphQL execution. *)
From Verif Require Import RespFacts IntroCheck ShareWorlds PropC14 PropC16 PropC18.

(** Names that are used for leaves, from outside the module *)
Definition leaf_name (c : cconfig) (js : jschema) (x : string) : Prop :=
  In x ["boolean"; "string"; "number"] \/
  (exists n, scalar_is n (ScCustom n) /\ scalar_written c (ScCustom n) x /\ exists j, last_named jt_name n js j /\ jt_kind j = "SCALAR") \/
  exists j, last_named jt_name x js j /\ jt_kind j = "ENUM".

Section Sound.
  Variable c : cconfig.
  Variable js : jschema.
  Variable s : schema.
  Variable frags : amap string fragdef.
  Variable active : list directive -> Prop.
  Variable custom : string -> value -> Prop.
  Variable base : string -> value -> Prop.
  Variable D : list decl.
  Hypothesis I : introspection js s.
  Hypothesis W : plain_wrappers js.
  Hypothesis frags_unc : forall n fd, aget n frags = Some fd -> Forall (unconditional active) (fr_sels fd).
  Hypothesis B : base_ok c js custom base.
  Hypothesis Nd : NoDup (List.map decl_name D).
  Hypothesis Und : forall x d, leaf_name c js x -> In d D -> decl_name d <> x.

  Lemma accepts_leaf n x v : leaf_name c js x -> base x v -> accepts D base (S n) x v.
  Proof. intros L H. cbn [accepts]. split; auto. intros d J E. exfalso. eapply Und; eauto. Qed.
  Lemma accepts_decl n d v : In d D -> decl_values (accepts D base n) d v -> accepts D base (S n) (decl_name d) v.
  Proof.
    intros J H. cbn [accepts]. split; [|eauto]. intros d' J' E. rewrite (map_inj_nodup decl_name D d' d Nd J' J E). auto.
  Qed.

  Lemma leaf_accepted n ft kind g M ts e v P fld : declared js P fld kind g -> ftype_of_json (json_of kind g) = Ok ft -> In kind output_kinds -> valid_gtype g = true ->
    bas c s frags D ts ft M e -> leaf_value js custom (gbase g) v -> denote (accepts D base (S n)) e v.
  Proof.
    intros Dc E K V H (j & L & Lv). destruct (json_named kind g K V ft E) as [En Dk].
    destruct (in_kinds _ _ I _ _ _ _ Dc) as (j' & L' & Ek). rewrite (last_fun _ _ _ _ _ L' L) in Ek. clear j' L'.
    assert (Nc : fdef_is_complex (ft_def ft) = true -> False).
    { intros X. destruct Lv as [[E1 _]|[E1 _]]; rewrite E1 in Ek; rewrite <- Ek in Dk; inversion Dk; subst;
        match goal with Z : _ = ft_def ft |- _ => rewrite <- Z in X end; discriminate. }
    destruct H as [ts ft M Ed|ts ft M sc Ed|ts ft M Ed|ts ft M sub Ed _ _].
    - rewrite Ed in Dk. inversion Dk.
    - rewrite Ed in Dk. inversion Dk as [|sc' Si E1 E2| | | |]. subst sc'. cbn [denote].
      destruct Lv as [[E3 _]|[_ (sc2 & Si2 & Sv)]]; [rewrite E3 in Ek; rewrite <- Ek in E1; discriminate|].
      assert (sc2 = sc) by (apply scalar_is_unique in Si; apply scalar_is_unique in Si2; congruence). subst sc2.
      destruct sc as [| | | | |x]; cbn [scalar_value scalar_ts] in *.
      all: try (destruct Sv as (w & ->); apply accepts_leaf; [left; cbn; tauto|]; apply B).
      inversion Si as [| | | | |y Ny]; subst.
      assert (Sw : scalar_written c (ScCustom (gbase g)) (custom_scalar_name c (gbase g))).
      { unfold scalar_written, custom_scalar_name. destruct (cc_bottom c); reflexivity. }
      apply accepts_leaf; [right; left|eapply (bo_custom _ _ _ _ B); eauto].
      exists (gbase g). split; [constructor; auto|]. split; auto. exists j. auto.
    - rewrite Ed in Dk. inversion Dk as [|sc' Si E1 E2| |E1 E2| |]. cbn [denote].
      destruct Lv as [[E3 (vs & x & Ev & Ix & ->)]|[E3 _]]; [|rewrite E3 in Ek; rewrite <- Ek in E1; discriminate].
      rewrite En. apply accepts_leaf; [right; right; eauto|]. eapply (bo_enum _ _ _ _ B); eauto.
    - exfalso. auto.
  Qed.

  Theorem object_accepted : forall n T P M main v, des c s frags D P M main -> regular s frags P M -> possible s P T ->
    (forall x, M x -> valid_sel s frags P x) -> (forall x, M x -> unconditional active x) ->
    object_response js s frags active custom n T M v -> accepts D base (S (n + n)) main v.
  Proof.
    induction n as [|n IH]; intros T P M main v Ds R Po V U H; [destruct H|]. cbn [object_response] in H. destruct H as (kvs & -> & K & F).
    inversion Ds as [P0 M0 main0 groups Hm Nn Hp Np Hd Ht Hn Hg]; subst P0 M0 main0.
    pose proof (proj2 (Hp T) Po) as J. apply in_flat_map in J. destruct J as ([[nm ts] ms] & J & Jt). cbn [fst snd] in Jt.
    assert (X : accepts D base (S (n + S n)) nm (VObj kvs)).
    { apply (accepts_decl (n + S n) (DObj nm ms)); [eapply Hd; eauto|]. cbn [decl_values]. exists kvs. split; auto. apply Forall_forall. intros m Im.
      pose proof (Hg _ _ _ _ J Jt) as Mm. inversion Mm as [ts0 O0 ms0 Nm Mf Mk Mt]; subst ts0 O0 ms0.
      destruct (Mf m Im) as (f0 & ss0 & Fo). pose proof Fo as (P0 & n0 & Oc & _). destruct (occ_collects s frags active frags_unc _ _ _ _ _ _ _ Oc U) as [Cl _].
      assert (Ik : In (m_name m) (List.map fst kvs)) by (apply K; eauto). 
      destruct (aget (m_name m) kvs) as [x|] eqn:Ea.
      2:{ exfalso. clear - Ik Ea. induction kvs as [|[k y] kvs IH]; [destruct Ik|]. cbn in Ea. destruct (eqb (m_name m) k) eqn:E; [discriminate|].
          destruct Ik as [E1|Ik]; auto. cbn in E1. subst k. rewrite eqb_rfl in E. discriminate. }
      apply aget_In in Ea. destruct (F _ _ Ea) as (fld & ss & Cf & Vx).
      destruct (collects_occ s frags active _ _ _ _ _ Cf P V Po) as (P' & f & Of & Ff & Po' & Vs).
      assert (Fc : focc s frags T P M (m_name m) f ss) by (exists P', fld; auto).
      pose proof (Mt m f ss Im Fc) as Mty. inversion Mty as [ts0 ft0 M0 e0 Hb]; subst ts0 ft0 M0.
      destruct Vx as [[-> ->]|(kind' & g' & Dc' & Gv)].
      - (* __typename *)
        destruct (field_declared js s I _ _ _ Ff) as [[-> _]|(kind & g & Dc & _)]; [|exfalso; eapply typename_undeclared; eauto].
        inversion Hb; subst; try discriminate.
        cbn. apply denote_lits; [intros ->; destruct Jt|]. eauto.
      - destruct (field_declared js s I _ _ _ Ff) as [[-> ->]|(kind & g & Dc & Ej & Ko & Vg)]; [exfalso; eapply typename_undeclared; eauto|].
        pose proof (in_implements _ _ I _ _ _ _ _ _ _ Dc Po' Dc') as Cv.
        destruct (json_named kind g Ko Vg _ Ej) as [En Dk].
        set (Sub := fun z => exists fld' ss', collects s frags active T M (m_name m) fld' ss' /\ In z ss') in *.
        set (inner := fun b y => leaf_value js custom b y \/ exists T', possible s b T' /\ object_response js s frags active custom n T' Sub y) in *.
        assert (Gv' : gvalues inner g x).
        { apply (gvalues_cov s inner inner g' g Cv); auto. intros y. destruct (cov_base _ _ _ Cv) as [->|(C1 & C2 & Cp)]; auto.
          intros [(j & L & Lv)|(T' & Pt & Rs)]; [|right; eauto]. exfalso. eapply leaf_not_composite; eauto. tauto. }
        apply (value_accepted _ kind g (sf_type f) e0 inner); auto; [eapply W; eauto|].
        intros y [Lf|(T' & Pt & Rs)] _.
        { eapply denote_mono; [|eapply (leaf_accepted (n + n)); eauto]. intros a b. apply accepts_mono. lia. }
        (* a composite field *)
        assert (Cp : composite s (gbase g)).
        { destruct Pt as (t & Gt & Pt). exists t. split; auto. destruct (st_def t); auto. }
        inversion Hb as [ts1 ft1 M1 Ed Ea1 Ea2 Ea3 Ea4|ts1 ft1 M1 sc Ed Ea1 Ea2 Ea3 Ea4|ts1 ft1 M1 Ed Ea1 Ea2 Ea3 Ea4|ts1 ft1 M1 sub Ed Cc Dsub Ea1 Ea2 Ea3 Ea4]; subst ts1 ft1 M1 e0.
        + exfalso. rewrite Ed in Dk. inversion Dk.
        + exfalso. rewrite Ed in Dk. inversion Dk as [|sc' Si Ek E2| | | |]. destruct (in_kinds _ _ I _ _ _ _ Dc) as (j & L & Ej'). eapply leaf_not_composite; eauto. right. congruence.
        + exfalso. rewrite Ed in Dk. inversion Dk as [|sc' Si Ek E2| |Ek E2| |]. destruct (in_kinds _ _ I _ _ _ _ Dc) as (j & L & Ej'). eapply leaf_not_composite; eauto. left. congruence.
        + cbn [denote]. rewrite <- En in *. pose proof R as R0. inversion R0 as [P1 M1 R1 R2 R3]; subst P1 M1.
          eapply accepts_mono; [|eapply (IH T' (ft_name (sf_type f)) _ sub y Dsub)]; [lia|eapply R3; eauto|auto| | |].
          * intros z (f' & ss' & (P2 & n2 & O2 & F2) & Ef & Iz).
            destruct (occ_collects s frags active frags_unc _ _ _ _ _ _ _ O2 U) as [C2 _].
            destruct (collects_occ s frags active _ _ _ _ _ C2 P V Po) as (P3 & f3 & O3 & F3 & _ & V3).
            rewrite (R1 T (m_name m) f ss f3 ss' Po Fc ltac:(exists P3, n2; auto)). auto.
          * intros z (f' & ss' & (P2 & n2 & O2 & F2) & Ef & Iz).
            destruct (occ_collects s frags active frags_unc _ _ _ _ _ _ _ O2 U) as [_ U2]. rewrite Forall_forall in U2. auto.
          * eapply response_ext; [|exact Rs]. intros z. unfold Sub, merged. split.
            -- intros (fld' & ss' & C2 & Iz). destruct (collects_occ s frags active _ _ _ _ _ C2 P V Po) as (P3 & f3 & O3 & F3 & _ & V3).
               assert (Fc3 : focc s frags T P M (m_name m) f3 ss') by (exists P3, fld'; auto). exists f3, ss'. split; auto. split; auto.
               rewrite (R1 T (m_name m) f3 ss' f ss Po Fc3 Fc). reflexivity.
            -- intros (f' & ss' & (P2 & n2 & O2 & F2) & Ef & Iz).
               destruct (occ_collects s frags active frags_unc _ _ _ _ _ _ _ O2 U) as [C2 _]. eauto. }
    destruct Hm as [(gr & Eg & Em)|Hm].
    - rewrite Eg in J. destruct J as [->|[]]. cbn [fst] in Em. subst nm. eapply accepts_mono; [|exact X]. lia.
    - apply (accepts_decl (S n + S n) (DAlias main (List.map (fun g : group => fst (fst g)) groups))); auto.
      cbn [decl_values]. exists nm. split; [apply in_map_iff; exists (nm, ts, ms); auto|]. eapply accepts_mono; [|exact X]. lia.
  Qed.
End Sound.

(** The names an operation or fragment called [n] declares *)
Definition declares_name (n x : string) : Prop := x = n \/ x = n +++ "Variables" \/ exists r, x = n +++ "_" +++ r.

(** Full statement (false of the code, see the refutations below): without the conditions
    [plain_wrappers], [regular], [labels_apart], [unconditional], [is_subscription d = false] and the
    last one, which keeps the names of leaf types apart from the declared ones. *)
Theorem C04_partial : forall js fuel cx c o d ws co P l active custom base,
  order_ok (cx_order cx) -> order_ok o -> introspection js (cx_schema cx) -> plain_wrappers js -> proper_types (cx_schema cx) ->
  document_file fuel cx c o d ws co -> doc_root d = Some (P, l) -> is_subscription d = false ->
  frags_valid (cx_schema cx) (cx_frags cx) l -> Forall (fun v => valid_gtype (vgtype v) = true) (doc_vars d) ->
  NoDup (List.map vd_name (doc_vars d)) ->
  regular (cx_schema cx) (cx_frags cx) P (fun x => In x l) ->
  labels_apart (cx_schema cx) (cx_frags cx) P (fun x => In x l) ->
  (forall x, In x l -> unconditional active x) ->
  (forall n fd, aget n (cx_frags cx) = Some fd -> Forall (unconditional active) (fr_sels fd)) ->
  base_ok c js custom base -> (forall x, leaf_name c js x -> ~ declares_name (def_name d) x) ->
  exists m rest, written_as cx c d co m /\ tf_args m = def_name d :: rest /\
    forall v, response js (cx_schema cx) (cx_frags cx) active custom P l v ->
      exists n, accepts (tf_decls m) base n (def_name d) v.
Proof.
  intros js fuel cx c o d ws co P l active custom base O O' In W Pt H Dr Su Fv Vv Nv R L U Uf B Und.
  pose proof (intro_consistent _ _ In) as Co.
  destruct (document_described _ _ _ _ _ _ _ _ _ O O' Co Pt H Dr Su Fv) as (op & ds & us & vds & vus & _ & V & _ & K & En & _ & Ev & Rn & Rv & Eg & Et & X).
  pose proof (var_decls c _ d op vds vus Vv Ev Rv Nv) as Vd.
  assert (Nd : NoDup (List.map decl_name (ds ++ vds))).
  { destruct (rnd_once c (cx_schema cx) (cx_frags cx) Co Pt) as (_ & _ & _ & Y). specialize (Y _ _ _ _ Rn _ _ K (regular_unambiguous _ _ _ _ R) L).
    apply names_app; auto.
    - destruct Vd as [->|(ms' & -> & N)]; repeat constructor. intros [].
    - intros x y I J E. destruct Vd as [->|(ms' & -> & N)]; [destruct J|]. destruct J as [<-|[]]. cbn [decl_name] in E. rewrite En in E.
      destruct (rnd_coll_names c _ _ _ _ Rn x I) as [Ex|(r & Ex)]; rewrite Ex in E.
      + rewrite <- (sapp_nil_r (def_name d)) in E at 1. apply sapp_inj_l in E. discriminate.
      + apply sapp_inj_l in E. discriminate. }
  assert (Ud : forall x y, leaf_name c js x -> List.In y (ds ++ vds) -> decl_name y <> x).
  { intros x y Lx J E. apply (Und x Lx). unfold declares_name. rewrite <- E. apply in_app_or in J. destruct J as [J|J].
    - destruct (rnd_coll_names c _ _ _ _ Rn y J) as [Ex|(r & Ex)]; eauto.
    - destruct Vd as [->|(ms' & -> & N)]; [destruct J|]. destruct J as [<-|[]]. cbn [decl_name]. rewrite En. auto. }
  exists (file_of c op (ds ++ vds) (co_globals co)), (match op_kind op with OKFragment => [] | _ => [vars_arg op] end).
  split; auto. split.
  { cbn [file_of tf_args]. unfold node_args. rewrite En. destruct (op_kind op); reflexivity. }
  intros v (n & T & Po & Rs). exists (S (n + n)). cbn [file_of tf_decls].
  apply (object_accepted c js (cx_schema cx) (cx_frags cx) active custom base (ds ++ vds) In W Uf B Nd Ud n T P (fun x => List.In x l)); auto.
  - apply X; auto. intros y J. apply in_or_app. auto.
  - apply valid_in. exact V.
Qed.
Print Assumptions C04_partial.

(** ** Non-vacuity: a document with a spread, aliases, repeated keys and __typename, and a response *)
Definition always (d : list directive) : bool := true.
Lemma farm_intro : introspection farm_json farm.
Proof. apply (introb_ok farm_json farm true farm_loaded). vm_compute. reflexivity. Qed.
Lemma farm_wrappers : plain_wrappers farm_json.
Proof. apply (wrapsb_ok farm_json farm true); [vm_compute; reflexivity|reflexivity]. Qed.
Definition farm_base (n : string) (v : value) : Prop :=
  match n with
  | "boolean" => exists b, v = VBool b
  | "string" => exists x, v = VStr x
  | "number" => exists r, v = VNum r
  | "Mood" => v = VStr "GLAD" \/ v = VStr "SAD"
  | "Size" => v = VStr "BIG" \/ v = VStr "SMALL"
  | _ => False
  end.
Lemma farm_base_ok : base_ok plain_config farm_json no_custom farm_base.
Proof.
  constructor; try (cbn; eauto; fail); [|intros n x v _ []].
  intros b j vs e L K E I. apply lastb_ok in L. apply last_in in L || idtac.
  assert (J : In j farm_json /\ jt_name j = b) by (apply lastb_ok in L; apply last_in in L; exact L). clear L. destruct J as [J <-].
  cbn in J. repeat (destruct J as [<-|J]; [try discriminate K|]); try destruct J; injection E as <-; cbn in I |- *; intuition (subst; auto).
Qed.
Lemma farm_leaves x : leaf_name plain_config farm_json x -> ~ declares_name "Q" x.
Proof.
  intros L D.
  assert (Q : exists r, x = String "Q" r).
  { destruct D as [->|[->|(r & ->)]]; cbn; eauto. }
  destruct Q as (r & ->). destruct L as [L|[(n & Si & _ & j & L & K)|(j & L & K)]].
  - cbn in L. intuition discriminate.
  - apply last_in in L. destruct L as [J En]. cbn in J. repeat (destruct J as [<-|J]; [try discriminate K|]); try destruct J.
    cbn in En. subst n. inversion Si as [| | | | |? Ns]. apply Ns. cbn. auto.
  - apply last_in in L. destruct L as [J En]. cbn in J. repeat (destruct J as [<-|J]; [try discriminate K; try discriminate En|]); try destruct J.
Qed.
Definition good_response : value :=
  VObj [("pet", VObj [("name", VStr "Rex");
                      ("owner", VObj [("mood", VStr "SAD"); ("name", VStr "Kim"); ("pet", VObj [("__typename", VStr "Eel"); ("name", VStr "Al")])])]);
        ("all", VList [VObj [("name", VStr "Rex"); ("__typename", VStr "Dog")]; VObj [("name", VStr "Tom"); ("__typename", VStr "Cat")]])].
Example good_responds : response farm_json farm [("PetName", pet_name)] (active_of always) no_custom "Query" good_sels good_response.
Proof.
  exists 8, "Query". split; [apply possibles_ok; left; reflexivity|]. apply respb_ok. vm_compute. reflexivity.
Qed.
Fixpoint all_unconditional (x : selection) : unconditional (active_of always) x :=
  let go := fix go (l : list selection) : Forall (unconditional (active_of always)) l :=
    match l with [] => Forall_nil _ | y :: l => Forall_cons y (all_unconditional y) (go l) end in
  match x with
  | SField p al n a d sub => unc_field _ p al n a d sub eq_refl (go sub)
  | SInline p c d sub => unc_inline _ p c d sub eq_refl (go sub)
  | SSpread p n d => unc_spread _ p n d eq_refl
  end.
Example C04_nonvacuous : exists ws co m, document_file 20 (farm_cx [pet_name]) plain_config plain_order (query good_sels) ws co /\
  reads_as co m /\ exists n, accepts (tf_decls m) farm_base n "Q" good_response.
Proof.
  destruct good_compiles as (ws & co & H & _). exists ws, co.
  destruct (C04_partial farm_json 20 (farm_cx [pet_name]) plain_config plain_order (query good_sels) ws co "Query" good_sels
    (active_of always) no_custom farm_base plain_ok plain_ok farm_intro farm_wrappers farm_proper H eq_refl eq_refl good_frags ltac:(constructor) ltac:(constructor)
    good_regular good_labels) as (m & rest & E & _ & A).
  - intros x _. apply all_unconditional.
  - intros n fd _. apply Forall_forall. intros x _. apply all_unconditional.
  - exact farm_base_ok.
  - exact farm_leaves.
  - exists m. split; auto. split; [exact (good_reads _ _ E)|]. apply A. exact good_responds.
Qed.

(** ** Refutations.  [rejected m v]: whatever the names from elsewhere mean *)
Definition rejected (m : tsfile) (name : string) (v : value) : Prop := forall base n, ~ accepts (tf_decls m) base n name v.
Ltac into_decl A d :=
  match type of A with accepts _ _ ?n _ _ => destruct n as [|n]; [destruct A|]; cbn [accepts] in A; destruct A as [A _];
    specialize (A d ltac:(cbn; tauto) eq_refl) end.

(** What a server returns for a dog is not accepted when dogs share their declaration with cats *)
Definition split_response : value := VObj [("pet", VObj [("owner", VObj [("mood", VStr "GLAD")])])].
Theorem C04_refuted_sharing : exists ws co,
  document_file 20 (farm_cx []) plain_config plain_order (query split_sels) ws co /\
  reads_as co split_module /\ valid_sels farm [] "Query" split_sels /\
  response farm_json farm [] (active_of always) no_custom "Query" split_sels split_response /\
  rejected split_module "Q" split_response.
Proof.
  destruct split_compiles as (ws & co & H & E & _). exists ws, co. split; auto. split; auto. split; [exact split_valid|]. split.
  - exists 5, "Query". split; [apply possibles_ok; left; reflexivity|]. apply respb_ok. vm_compute. reflexivity.
  - intros base n A. into_decl A (DObj "Q" [prop "pet" (XName "Q_pet")]).
    destruct A as (kvs & Ev & F). injection Ev as <-. inversion F as [|? ? A _]; subst. cbn in A.
    into_decl A (DObj "Q_pet" [prop "owner" (XName "Q_pet_owner")]).
    destruct A as (kvs & Ev & F'). injection Ev as <-. inversion F' as [|? ? A _]; subst. cbn in A.
    into_decl A (DObj "Q_pet_owner" [prop "name" (XName "string")]).
    destruct A as (kvs & Ev & F2). injection Ev as <-. inversion F2 as [|? ? A _]; subst. cbn in A. discriminate.
Qed.
Print Assumptions C04_refuted_sharing.

(** A field under [@skip] is declared as always present *)
Definition skipped : list directive := [{| dir_name := "skip"; dir_args := [] |}].
Definition skip_sels : list selection := [node 2 "pet" [leaf 2 "name"; SField (at_pos 2 9) (Some "again") "name" [] skipped []]].
Definition skip_module : tsfile :=
  {| tf_node := "QueryDocumentNode"; tf_node_from := cc_docnode_module plain_config; tf_globals := [];
     tf_globals_from := cc_globals_module plain_config;
     tf_decls := [DObj "Q_pet" [prop "again" (XName "string"); prop "name" (XName "string")]; DObj "Q" [prop "pet" (XName "Q_pet")]];
     tf_args := ["Q"; "never"] |}.
Definition skipping (d : list directive) : bool := match d with [] => true | _ => false end.
Definition skip_response : value := VObj [("pet", VObj [("name", VStr "Rex")])].
Theorem C04_refuted_skip : exists ws co,
  document_file 20 (farm_cx []) plain_config plain_order (query skip_sels) ws co /\
  reads_as co skip_module /\ valid_sels farm [] "Query" skip_sels /\ regular farm [] "Query" (fun x => In x skip_sels) /\
  response farm_json farm [] (active_of skipping) no_custom "Query" skip_sels skip_response /\
  rejected skip_module "Q" skip_response.
Proof.
  do 2 eexists. split; [eexists; split; vm_compute; reflexivity|]. split; [apply (reads_by 2000); vm_compute; reflexivity|].
  split; [apply (validb_ok farm [] 9); vm_compute; reflexivity|].
  split; [apply (regularb_ok farm [] 12 "Query" skip_sels); [vm_compute; reflexivity|tauto]|]. split.
  - exists 5, "Query". split; [apply possibles_ok; left; reflexivity|]. apply respb_ok. vm_compute. reflexivity.
  - intros base n A. into_decl A (DObj "Q" [prop "pet" (XName "Q_pet")]).
    destruct A as (kvs & Ev & F). injection Ev as <-. inversion F as [|? ? A _]; subst. cbn in A.
    into_decl A (DObj "Q_pet" [prop "again" (XName "string"); prop "name" (XName "string")]).
    destruct A as (kvs & Ev & F'). injection Ev as <-. inversion F' as [|? ? A _]; subst. cbn in A. discriminate.
Qed.
Print Assumptions C04_refuted_skip.
