(** C88: the type exported for a document is assignable to the type exported for any document that selects less. *)
From Verif Require Import LinkData LinkExt IntroCheck ShareWorlds GlobalRead JsonCheck WrittenEq Package RespFacts RunFacts RequestFacts SpecExact ExactFacts PropC56 PropC04 PropC43 PropC49 PropC18 PropC35.
From Verif Require Import Gql Json Args SpecGtext SpecJson SpecJtext GlayoutFacts PropC69 PropC72 PropC74 PropC82 PropC83 MoreFacts.
From Verif Require SpecArgs PropC13 PropC17 PropC65 PropC67.

(** What is written remains selected, with anything added anywhere: to the document and to its fragments *)
Theorem C88_kept : forall s fr0 fr P l0 l, frags_kept fr0 fr -> all_kept l0 l -> tagged_once s fr P (fun x => In x l) ->
  selects_more s fr0 fr P (fun x => In x l0) P (fun x => In x l).
Proof. intros s fr0 fr P l0 l Fk A Tg. apply (kept_selects s fr0 fr Fk); auto. apply all_kept_in. exact A. Qed.
Print Assumptions C88_kept.

(** The modules of two documents, compiled each by itself.  No condition on directives, arguments, variables or on the
    wrappers of types, and none on the labels of the document that selects more.  (Full statement, false of the code:
    without [regular], [tagged_once], [labels_apart] and the conditions on the names of leaf types.) *)
Theorem C88_module_partial : forall js fuel0 fuel cx0 cx c o0 o d0 d ws0 ws co0 co P0 l0 P l (base base0 : string -> value -> Prop),
  order_ok (cx_order cx0) -> order_ok o0 -> order_ok (cx_order cx) -> order_ok o ->
  introspection js (cx_schema cx) -> proper_types (cx_schema cx) -> cx_schema cx0 = cx_schema cx ->
  document_file fuel0 cx0 c o0 d0 ws0 co0 -> doc_root d0 = Some (P0, l0) -> is_subscription d0 = false ->
  document_file fuel cx c o d ws co -> doc_root d = Some (P, l) -> is_subscription d = false ->
  frags_valid (cx_schema cx) (cx_frags cx0) l0 -> frags_valid (cx_schema cx) (cx_frags cx) l ->
  Forall (fun v => valid_gtype (vgtype v) = true) (doc_vars d0) -> NoDup (List.map vd_name (doc_vars d0)) ->
  Forall (fun v => valid_gtype (vgtype v) = true) (doc_vars d) -> NoDup (List.map vd_name (doc_vars d)) ->
  regular (cx_schema cx) (cx_frags cx0) P0 (fun x => In x l0) -> labels_apart (cx_schema cx) (cx_frags cx0) P0 (fun x => In x l0) ->
  regular (cx_schema cx) (cx_frags cx) P (fun x => In x l) -> tagged_once (cx_schema cx) (cx_frags cx) P (fun x => In x l) ->
  (forall x, leaf_name c js x -> ~ declares_name (def_name d0) x) -> (forall x, leaf_name c js x -> ~ declares_name (def_name d) x) ->
  (forall x v, leaf_name c js x -> base x v -> base0 x v) ->
  selects_more (cx_schema cx) (cx_frags cx0) (cx_frags cx) P0 (fun x => In x l0) P (fun x => In x l) ->
  exists m0 m, written_as cx0 c d0 co0 m0 /\ written_as cx c d co m /\
    (exists rest, tf_args m0 = def_name d0 :: rest) /\ (exists rest, tf_args m = def_name d :: rest) /\
    forall n v, accepts (tf_decls m) base n (def_name d) v -> exists k, accepts (tf_decls m0) base0 k (def_name d0) v.
Proof.
  intros js fuel0 fuel cx0 cx c o0 o d0 d ws0 ws co0 co P0 l0 P l base base0 O0 O0' O O' In Pt Es H0 Dr0 Su0 H Dr Su Fv0 Fv Vv0 Nv0 Vv Nv R0 L0 R Tg Und0 Und B Sm.
  pose proof (intro_consistent _ _ In) as Co.
  destruct (document_described _ _ _ _ _ _ _ _ _ O O' Co Pt H Dr Su Fv) as (op & ds & us & vds & vus & _ & _ & _ & K & En & Ek & Ev & Rn & Rv & Eg & Et & X).
  rewrite <- Es in Co, Pt, Fv0, R0, L0.
  destruct (document_described _ _ _ _ _ _ _ _ _ O0 O0' Co Pt H0 Dr0 Su0 Fv0) as (op0 & ds0 & us0 & vds0 & vus0 & _ & _ & _ & K0 & En0 & Ek0 & Ev0 & Rn0 & Rv0 & Eg0 & Et0 & X0).
  pose proof (var_decls c _ d op vds vus Vv Ev Rv Nv) as Vd.
  pose proof (var_decls c _ d0 op0 vds0 vus0 Vv0 Ev0 Rv0 Nv0) as Vd0.
  assert (Nd0 : NoDup (List.map decl_name (ds0 ++ vds0))).
  { destruct (rnd_once c (cx_schema cx0) (cx_frags cx0) Co Pt) as (_ & _ & _ & Y). specialize (Y _ _ _ _ Rn0 _ _ K0 (regular_unambiguous _ _ _ _ R0) L0).
    apply names_app; auto.
    - destruct Vd0 as [->|(ms' & -> & N)]; repeat constructor. intros [].
    - intros x y I J E. destruct Vd0 as [->|(ms' & -> & N)]; [destruct J|]. destruct J as [<-|[]]. cbn [decl_name] in E. rewrite En0 in E.
      destruct (rnd_coll_names c _ _ _ _ Rn0 x I) as [Ex|(r & Ex)]; rewrite Ex in E.
      + rewrite <- (sapp_nil_r (def_name d0)) in E at 1. apply sapp_inj_l in E. discriminate.
      + apply sapp_inj_l in E. discriminate. }
  assert (Ud : forall x y, leaf_name c js x -> List.In y (ds ++ vds) -> decl_name y <> x).
  { intros x y Lx J E. apply (Und x Lx). unfold declares_name. rewrite <- E. apply in_app_or in J. destruct J as [J|J].
    - destruct (rnd_coll_names c _ _ _ _ Rn y J) as [Ex|(r & Ex)]; eauto.
    - destruct Vd as [->|(ms' & -> & N)]; [destruct J|]. destruct J as [<-|[]]. cbn [decl_name]. rewrite En. auto. }
  assert (Ud0 : forall x y, leaf_name c js x -> List.In y (ds0 ++ vds0) -> decl_name y <> x).
  { intros x y Lx J E. apply (Und0 x Lx). unfold declares_name. rewrite <- E. apply in_app_or in J. destruct J as [J|J].
    - destruct (rnd_coll_names c _ _ _ _ Rn0 y J) as [Ex|(r & Ex)]; eauto.
    - destruct Vd0 as [->|(ms' & -> & N)]; [destruct J|]. destruct J as [<-|[]]. cbn [decl_name]. rewrite En0. auto. }
  exists (file_of c op0 (ds0 ++ vds0) (co_globals co0)), (file_of c op (ds ++ vds) (co_globals co)).
  split; [exact Et0|]. split; [exact Et|]. split.
  { exists (match op_kind op0 with OKFragment => [] | _ => [vars_arg op0] end). cbn [file_of tf_args]. unfold node_args. rewrite En0. destruct (op_kind op0); reflexivity. }
  split.
  { exists (match op_kind op with OKFragment => [] | _ => [vars_arg op] end). cbn [file_of tf_args]. unfold node_args. rewrite En. destruct (op_kind op); reflexivity. }
  intros n v A. cbn [file_of tf_decls] in *.
  assert (Ds0 : des c (cx_schema cx) (cx_frags cx0) (ds0 ++ vds0) P0 (fun x => List.In x l0) (def_name d0)).
  { rewrite <- Es. apply X0; auto. intros y J. apply in_or_app. auto. }
  exists (S (n + n)). refine (object_narrow c js (cx_schema cx) (cx_frags cx) (cx_frags cx0) base base0 (ds ++ vds) ds (ds0 ++ vds0) In _ _ Ud Nd0 Ud0 B
    n P (fun x => List.In x l) (def_name d) P0 (fun x => List.In x l0) (def_name d0) v _ Ds0 Tg Sm A).
  - intros y J. apply in_or_app. auto.
  - eapply rnd_required. exact Rn.
  - apply X; auto. apply incl_refl.
Qed.
Print Assumptions C88_module_partial.

(** Two runs with exit code 0, with the same schema and options: of a project before and after its documents were
    edited, or of the same project.  Both sources have outputs, and whatever the first type argument of the document that
    selects more accepts, the first type argument of the other accepts *)
Theorem C88_run_partial : forall fuel0 fuel wo0 wo a0 a sched0 sched cf0 cf js s out0 out f0' f',
  let rc0 := merge_config (wo_ncpus wo0) a0 cf0 in
  let rc := merge_config (wo_ncpus wo) a cf in
  let c := cconfig_of rc in
  let e0 := wo_env wo0 in
  let e := wo_env wo in
  let f0 := wo_fs wo0 in
  let f := wo_fs wo in
  settled wo0 a0 cf0 js s -> wo_schema wo0 (rc_schema_path rc0) = SRDecoded js ->
  settled wo a cf js s -> wo_schema wo (rc_schema_path rc) = SRDecoded js ->
  cconfig_of rc0 = c -> aliases_apart c js -> cc_docnode_module c <> cc_globals_module c ->
  (forall text ds d, env_parse e0 text = Ok ds -> In d ds -> parsed_named d) ->
  (forall text ds d, env_parse e text = Ok ds -> In d ds -> parsed_named d) ->
  qlc fuel0 wo0 a0 sched0 = Exited 0 out0 f0' -> qlc fuel wo a sched = Exited 0 out f' ->
  forall path0 contents0 d0 frags0 P0 l0 path contents d frags P l,
    is_source (wo_listing wo0) (rc_root_dir rc0) path0 -> f0 (env_locate e0 path0) = Ok contents0 -> env_parse e0 contents0 = Ok [d0] ->
    PropC07.imported_fragments e0 f0 c path0 contents0 frags0 -> is_subscription d0 = false -> doc_root d0 = Some (P0, l0) ->
    is_source (wo_listing wo) (rc_root_dir rc) path -> f (env_locate e path) = Ok contents -> env_parse e contents = Ok [d] ->
    PropC07.imported_fragments e f c path contents frags -> is_subscription d = false -> doc_root d = Some (P, l) ->
    Forall (fun v => valid_gtype (vgtype v) = true) (doc_vars d0) -> NoDup (List.map vd_name (doc_vars d0)) ->
    Forall (fun v => valid_gtype (vgtype v) = true) (doc_vars d) -> NoDup (List.map vd_name (doc_vars d)) ->
    ~ reserved (def_name d0) -> (forall x, leaf_name c js x -> ~ declares_name (def_name d0) x) ->
    ~ reserved (def_name d) -> (forall x, leaf_name c js x -> ~ declares_name (def_name d) x) ->
    regular s frags0 P0 (fun x => In x l0) -> labels_apart s frags0 P0 (fun x => In x l0) ->
    regular s frags P (fun x => In x l) -> tagged_once s frags P (fun x => In x l) ->
    selects_more s frags0 frags P0 (fun x => In x l0) P (fun x => In x l) ->
    exists text0 M0 G0 node0 rest0 text M G node rest,
      f0' (out_loc e0 path0) = Ok text0 /\ only_reads text0 M0 /\
      (forall x, imports_from M0 (cc_globals_module c) x ->
         module_declares G0 x /\ exists gtext, f0' (env_locate e0 (globals_path c (rc_root_dir rc0))) = Ok gtext /\ only_reads gtext G0) /\
      In (ItConst "graphqlDocument" node0 (def_name d0 :: rest0)) M0 /\ In (ItDefault "graphqlDocument") M0 /\
      f' (out_loc e path) = Ok text /\ only_reads text M /\
      (forall x, imports_from M (cc_globals_module c) x ->
         module_declares G x /\ exists gtext, f' (env_locate e (globals_path c (rc_root_dir rc))) = Ok gtext /\ only_reads gtext G) /\
      In (ItConst "graphqlDocument" node (def_name d :: rest)) M /\ In (ItDefault "graphqlDocument") M /\
      forall amb n v, module_accepts (cc_globals_module c) G M amb n (def_name d) v ->
        exists k, module_accepts (cc_globals_module c) G0 M0 amb k (def_name d0) v.
Proof.
  intros fuel0 fuel wo0 wo a0 a sched0 sched cf0 cf js s out0 out f0' f' rc0 rc c e0 e f0 f Se0 Es0 Se Es Ec Al Dm Pn0 Pn H0 H
    path0 contents0 d0 frags0 P0 l0 path contents d frags P l Sp0 Er0 Ep0 If0 Su0 Dr0 Sp Er Ep If Su Dr Vv0 Nv0 Vv Nv Nr0 Le0 Nr Le R0 Lb0 R Tg Sm.
  pose proof Se as [_ In0 Jn _ _ _ _ _ _ _ _]. pose proof (loaded_nameable _ _ _ (in_loaded _ _ In0) Jn) as Nm.
  pose proof (run_module fuel0 wo0 a0 sched0 cf0 js s out0 f0' Se0 Es0) as Run0. cbv zeta in Run0. fold rc0 in Run0. rewrite Ec in Run0.
  destruct (Run0 Al Dm Pn0 H0 path0 Sp0) as (contents0' & d0' & frags2 & ws0 & co0 & Er0' & Ep0' & Ic0 & D0 & Oc0 & Od0 & Rm0). clear Run0.
  assert (contents0' = contents0) by (assert (X : f0 (env_locate e0 path0) = Ok contents0') by exact Er0'; congruence). subst contents0'.
  assert (d0' = d0) by (assert (X : env_parse e0 contents0 = Ok [d0']) by exact Ep0'; congruence). subst d0'.
  destruct (run_module fuel wo a sched cf js s out f' Se Es Al Dm Pn H path Sp) as (contents' & d' & frags3 & ws & co & Er' & Ep' & Ic & D & Oc & Od & Rm).
  assert (contents' = contents) by (assert (X : f (env_locate e path) = Ok contents') by exact Er'; congruence). subst contents'.
  assert (d' = d) by (assert (X : env_parse e contents = Ok [d']) by exact Ep'; congruence). subst d'.
  pose proof (fragments_agree _ _ _ _ _ _ _ Ic0 If0) as Ag0. pose proof (fragments_agree _ _ _ _ _ _ _ Ic If) as Ag.
  destruct (Rm Su Nr) as (M & G & P' & l' & node & rest & Ew & Or & Im & Ico & Ide & Dr' & V & Fv & _ & _ & Back).
  rewrite Dr in Dr'. injection Dr' as <- <-.
  destruct (Rm0 Su0 Nr0) as (M0 & G0 & P1 & l1 & node0 & rest0 & Ew0 & Or0 & Im0 & Ico0 & Ide0 & Dr1 & V0 & Fv0 & _ & Acc0 & _).
  rewrite Dr0 in Dr1. injection Dr1 as <- <-.
  exists (co_contents co0), M0, G0, node0, rest0, (co_contents co), M, G, node, rest. repeat (split; [assumption|]).
  intros amb n v Av.
  destruct (C88_module_partial js fuel0 fuel (file_ctx e0 c s path0 frags2) (file_ctx e c s path frags3) c (suborder (env_order e0 path0) [2; 0]) (suborder (env_order e path) [2; 0])
    d0 d ws0 ws co0 co P0 l0 P l (outside_or_input js amb) (outside js amb)
    Oc0 Od0 Oc Od In0 (nameable_proper _ _ Nm) eq_refl D0 Dr0 Su0 D Dr Su) as (m0 & m & W0 & W & _ & _ & A); cbn [file_ctx cx_schema cx_frags] in *; auto.
  - eapply regular_ext; [intros x; symmetry; apply Ag0|exact R0|tauto].
  - eapply labels_apart_ext; [intros x; symmetry; apply Ag0|exact Lb0|tauto].
  - eapply regular_ext; [intros x; symmetry; apply Ag|exact R|tauto].
  - eapply tagged_frags; [intros x; symmetry; apply Ag|exact Tg|tauto].
  - intros x u. apply (leaf_outside c); auto.
  - eapply selects_more_frags; [intros x; symmetry; apply Ag0|intros x; symmetry; apply Ag|exact Sm|tauto|tauto].
  - destruct (A n v) as (k & Ak); [apply Back; auto|]. eapply Acc0; eauto.
Qed.
Print Assumptions C88_run_partial.

(** *** From texts to texts *)
Theorem C88_text_partial : forall ck complaint0 complaint jerr0 jerr help0 help version0 version fuel0 fuel wo0 wo its0 its argv0 argv a0 a nc0 nc sched0 sched cf0 cf
    stext0 stext j0 j js s out0 out f0' f',
  let rc0 := merge_config (wo_ncpus wo0) a0 cf0 in
  let rc := merge_config (wo_ncpus wo) a cf in
  let c := cconfig_of rc in
  let e0 := wo_env wo0 in
  let e := wo_env wo in
  let f0 := wo_fs wo0 in
  let f := wo_fs wo in
  on_disk ck complaint0 jerr0 wo0 -> on_disk ck complaint jerr wo ->
  SpecArgs.spelled its0 argv0 -> SpecArgs.consistent its0 -> SpecArgs.complete its0 -> SpecArgs.says its0 a0 nc0 ->
  SpecArgs.spelled its argv -> SpecArgs.consistent its -> SpecArgs.complete its -> SpecArgs.says its a nc ->
  settled wo0 a0 cf0 js s -> settled wo a cf js s ->
  f0 (env_locate e0 (rc_schema_path rc0)) = Ok stext0 -> text_holds stext0 j0 -> says_schema j0 js ->
  f (env_locate e (rc_schema_path rc)) = Ok stext -> text_holds stext j -> says_schema j js -> fits js ->
  cconfig_of rc0 = c -> aliases_apart c js -> cc_docnode_module c <> cc_globals_module c ->
  qlc_command help0 version0 fuel0 wo0 argv0 sched0 = Exited 0 out0 f0' -> qlc_command help version fuel wo argv sched = Exited 0 out f' ->
  forall path0 contents0 d0 frags0 P0 l0 path contents d frags P l,
    is_source (wo_listing wo0) (rc_root_dir rc0) path0 -> f0 (env_locate e0 path0) = Ok contents0 -> text_says ck contents0 [d0] ->
    PropC07.imported_fragments e0 f0 c path0 contents0 frags0 -> is_subscription d0 = false -> doc_root d0 = Some (P0, l0) ->
    is_source (wo_listing wo) (rc_root_dir rc) path -> f (env_locate e path) = Ok contents -> text_says ck contents [d] ->
    PropC07.imported_fragments e f c path contents frags -> is_subscription d = false -> doc_root d = Some (P, l) ->
    NoDup (List.map vd_name (doc_vars d0)) -> NoDup (List.map vd_name (doc_vars d)) ->
    ~ reserved (def_name d0) -> (forall x, leaf_name c js x -> ~ declares_name (def_name d0) x) ->
    ~ reserved (def_name d) -> (forall x, leaf_name c js x -> ~ declares_name (def_name d) x) ->
    regular s frags0 P0 (fun x => In x l0) -> labels_apart s frags0 P0 (fun x => In x l0) ->
    regular s frags P (fun x => In x l) -> tagged_once s frags P (fun x => In x l) ->
    selects_more s frags0 frags P0 (fun x => In x l0) P (fun x => In x l) ->
    exists text0 M0 G0 node0 rest0 text M G node rest,
      f0' (out_loc e0 path0) = Ok text0 /\ only_reads text0 M0 /\
      (forall x, imports_from M0 (cc_globals_module c) x ->
         module_declares G0 x /\ exists gtext, f0' (env_locate e0 (globals_path c (rc_root_dir rc0))) = Ok gtext /\ only_reads gtext G0) /\
      In (ItConst "graphqlDocument" node0 (def_name d0 :: rest0)) M0 /\ In (ItDefault "graphqlDocument") M0 /\
      f' (out_loc e path) = Ok text /\ only_reads text M /\
      (forall x, imports_from M (cc_globals_module c) x ->
         module_declares G x /\ exists gtext, f' (env_locate e (globals_path c (rc_root_dir rc))) = Ok gtext /\ only_reads gtext G) /\
      In (ItConst "graphqlDocument" node (def_name d :: rest)) M /\ In (ItDefault "graphqlDocument") M /\
      forall amb n v, module_accepts (cc_globals_module c) G M amb n (def_name d) v ->
        exists k, module_accepts (cc_globals_module c) G0 M0 amb k (def_name d0) v.
Proof.
  intros ck complaint0 complaint jerr0 jerr help0 help version0 version fuel0 fuel wo0 wo its0 its argv0 argv a0 a nc0 nc sched0 sched cf0 cf
    stext0 stext j0 j js s out0 out f0' f' rc0 rc c e0 e f0 f [Hd0 Hs0] [Hd Hs] Sq0 Cn0 Cm0 Sy0 Sq Cn Cm Sy Se0 Se Es0 Th0 Sj0 Es Th Sj Fi Ec Al Dm H0 H
    path0 contents0 d0 frags0 P0 l0 path contents d frags P l Sp0 Er0 Ts0 If0 Su0 Dr0 Sp Er Ts If Su Dr Nv0 Nv.
  assert (Pa0 : parse_args argv0 = URun a0 nc0) by (apply PropC65.C65_exact; eauto).
  assert (Pa : parse_args argv = URun a nc) by (apply PropC65.C65_exact; eauto).
  assert (Hq0 : qlc fuel0 wo0 a0 sched0 = Exited 0 out0 f0') by (unfold qlc_command in H0; rewrite Pa0 in H0; exact H0).
  assert (Hq : qlc fuel wo a sched = Exited 0 out f') by (unfold qlc_command in H; rewrite Pa in H; exact H).
  assert (Sc0 : wo_schema wo0 (rc_schema_path rc0) = SRDecoded js) by (rewrite (Hs0 _ _ Es0); apply PropC67.C67_schema; eauto).
  assert (Sc : wo_schema wo (rc_schema_path rc) = SRDecoded js) by (rewrite (Hs _ _ Es); apply PropC67.C67_schema; eauto).
  assert (Pn0 : forall text ds d, env_parse e0 text = Ok ds -> In d ds -> parsed_named d).
  { intros text ds d1 E I. rewrite Hd0 in E. destruct (parse_query ck text) as [ds'|] eqn:Ep; [|discriminate]. injection E as ->. eapply C69_named; eauto. }
  assert (Pn : forall text ds d, env_parse e text = Ok ds -> In d ds -> parsed_named d).
  { intros text ds d1 E I. rewrite Hd in E. destruct (parse_query ck text) as [ds'|] eqn:Ep; [|discriminate]. injection E as ->. eapply C69_named; eauto. }
  assert (Ep0 : env_parse e0 contents0 = Ok [d0]).
  { rewrite Hd0. pose proof (proj2 (C69_text _ _ _) Ts0) as T. rewrite T. reflexivity. }
  assert (Ep : env_parse e contents = Ok [d]).
  { rewrite Hd. pose proof (proj2 (C69_text _ _ _) Ts) as T. rewrite T. reflexivity. }
  assert (Vv0 : Forall (fun v => valid_gtype (vgtype v) = true) (doc_vars d0)) by (eapply text_vars_valid; [exact Ts0|left; reflexivity]).
  assert (Vv : Forall (fun v => valid_gtype (vgtype v) = true) (doc_vars d)) by (eapply text_vars_valid; [exact Ts|left; reflexivity]).
  exact (C88_run_partial fuel0 fuel wo0 wo a0 a sched0 sched cf0 cf js s out0 out f0' f' Se0 Sc0 Se Sc Ec Al Dm Pn0 Pn Hq0 Hq
    path0 contents0 d0 frags0 P0 l0 path contents d frags P l Sp0 Er0 Ep0 If0 Su0 Dr0 Sp Er Ep If Su Dr Vv0 Nv0 Vv Nv).
Qed.
Print Assumptions C88_text_partial.

(** ** Non-vacuity: the files of C72 after selections were added to the query and to the fragment, in another order *)
Definition scant_query : string :=
  ImportWorlds.import_line "n.graphql" +++
  "query Was { all: pets { name } pet { ... on Cat { extent: size } ...PetName } }".
Definition scant_fragment_text : string := "fragment PetName on Pet { name }".
Definition scant_files : fs := ImportWorlds.files [("./g.graphql", scant_query); ("./n.graphql", scant_fragment_text); ("./schema.json", farm_text)].
Definition scant_world : world :=
  {| wo_env := text_env; wo_listing := PropC35.pair_listing; wo_ncpus := 4; wo_config := fun _ => CRNotFound "not found";
     wo_schema := fun p => match scant_files p with Ok t => schema_of_text "" t | Err m => SRIoError m end; wo_fs := scant_files |}.
Lemma scant_step file contents n l t : imports_at plain_config file contents n l t ->
  (file = "./g.graphql" /\ contents = scant_query) \/ (file = "./n.graphql" /\ contents = scant_fragment_text) -> t = "./n.graphql".
Proof.
  intros H K. pose proof (PropC35.imports_target _ _ _ _ _ _ H) as (L & E). destruct H as (q & _ & (rest & Eq & _) & _).
  destruct K as [[-> ->]|[-> ->]].
  - destruct n as [|[|[|n]]]; vm_compute in L; try discriminate; injection L as <-; [vm_compute in E; congruence|discriminate].
  - destruct n as [|[|n]]; vm_compute in L; try discriminate; injection L as <-. discriminate.
Qed.
Lemma scant_reach file contents t o : (file = "./g.graphql" /\ contents = scant_query) \/ (file = "./n.graphql" /\ contents = scant_fragment_text) ->
  reach text_env scant_files plain_config file contents t o -> t = "./n.graphql" /\ o = scant_fragment_text.
Proof.
  intros K R. induction R as [n l t o A Eo|mid mc n l t o R [-> ->] A Eo].
  - apply scant_step in A; auto. subst. split; auto. unfold scant_files, ImportWorlds.files in Eo. cbn in Eo. congruence.
  - apply scant_step in A; auto. subst. split; auto. unfold scant_files, ImportWorlds.files in Eo. cbn in Eo. congruence.
Qed.
Lemma scant_read path contents : is_source PropC35.pair_listing "." path -> scant_files (env_locate text_env path) = Ok contents ->
  (path = "./g.graphql" /\ contents = scant_query) \/ (path = "./n.graphql" /\ contents = scant_fragment_text).
Proof. intros [-> | ->]%PropC35.pair_source E; [left|right]; (split; [reflexivity|]); vm_compute in E |- *; congruence. Qed.
Lemma scant_separate : separate text_env PropC35.pair_listing plain_config "." scant_files.
Proof.
  split.
  - intros x y l Hx Hy R. assert (Ey : out_loc text_env y = "./g.graphql.d.ts" \/ out_loc text_env y = "./n.graphql.d.ts").
    { apply PropC35.pair_source in Hy. destruct Hy as [-> | ->]; [left|right]; reflexivity. }
    assert (El : l = "./g.graphql" \/ l = "./n.graphql").
    { destruct R as [|contents file' contents' n l t E I A]; [apply PropC35.pair_source; auto|]. right.
      pose proof (scant_read _ _ Hx E) as K. destruct I as [[-> ->]|R].
      - eapply (scant_step x contents); eauto.
      - destruct (scant_reach _ _ _ _ K R) as [-> ->]. eapply (scant_step _ _ _ _ _ A). auto. }
    destruct El as [-> | ->], Ey as [-> | ->]; discriminate.
  - intros x y Hx Hy. apply PropC35.pair_source in Hx. apply PropC35.pair_source in Hy. destruct Hx as [-> | ->], Hy as [-> | ->]; auto; discriminate.
Qed.
Lemma scant_settled : LinkFacts.settled scant_world (args_threads 1) config_default farm_json farm.
Proof.
  destruct PropC35.C35_nonvacuous as (_ & _ & _ & N & _ & _ & _ & C & _).
  constructor; auto.
  - exact farm_intro.
  - apply json_nameableb_ok. vm_compute. reflexivity.
  - exact scant_separate.
  - intros p Sp. apply PropC35.pair_source in Sp. destruct Sp as [-> | ->]; discriminate.
  - intros p. exact plain_ok.
  - intros a b x y Pe Ea Eb. apply path_eqb_same in Pe. change (scant_files a = Ok x) in Ea. change (scant_files b = Ok y) in Eb. unfold scant_files, ImportWorlds.files in Ea, Eb. cbn [aget] in Ea, Eb.
    unfold eqb, EqB_string in Ea, Eb.
    destruct (String.eqb_spec a "./g.graphql") as [->|]; [|destruct (String.eqb_spec a "./n.graphql") as [->|]; [|destruct (String.eqb_spec a "./schema.json") as [->|]; [|discriminate]]];
    (destruct (String.eqb_spec b "./g.graphql") as [->|]; [|destruct (String.eqb_spec b "./n.graphql") as [->|]; [|destruct (String.eqb_spec b "./schema.json") as [->|]; [|discriminate]]]); congruence || discriminate.
  - intros path contents t o Sp E R. pose proof (scant_read _ _ Sp E) as K. destruct (scant_reach _ _ _ _ K R) as [-> _].
    apply PropC35.pair_is_source. auto.
Qed.
Definition scant_doc : definition := Eval vm_compute in match parse_query lenient scant_query with Some [d] => d | _ => DFrag pet_name end.
Definition scant_fragment : fragdef := Eval vm_compute in match parse_query lenient scant_fragment_text with Some [DFrag d] => d | _ => pet_name end.
Definition scant_sels : list selection := Eval vm_compute in match doc_root scant_doc with Some (_, l) => l | None => [] end.
Lemma scant_fragments : PropC07.imported_fragments text_env scant_files plain_config "./g.graphql" scant_query [("PetName", scant_fragment)].
Proof.
  intros n fd. split.
  - intros E. cbn [aget] in E. destruct (eqb n "PetName") eqn:En; [|discriminate]. injection E as <-. apply String.eqb_eq in En. subst n.
    exists "./n.graphql", scant_fragment_text. split; [|split; [vm_compute; reflexivity|reflexivity]].
    eapply (reach_one _ _ _ _ _ 0 (import_mark +++ "n.graphql" +++ String quote "")); [|vm_compute; reflexivity].
    exists "n.graphql". split; [split; [vm_compute; reflexivity|intros k l' Lt; lia]|]. split.
    + exists "". split; [reflexivity|]. intros X. inversion X.
    + apply (resolves_root plain_config _ "n.graphql").
      * intros r (p & X & _). discriminate.
      * intros r. discriminate.
  - intros (t & o & R & Hf & <-). destruct (scant_reach _ _ _ _ (or_introl (conj eq_refl eq_refl)) R) as [-> ->].
    vm_compute in Hf. injection Hf as <-. reflexivity.
Qed.

Lemma scant_regular : regular farm [("PetName", scant_fragment)] "Query" (fun x => In x scant_sels).
Proof. apply (regularb_ok farm _ 12 "Query" scant_sels); [vm_compute; reflexivity|tauto]. Qed.
Lemma scant_labels : labels_apart farm [("PetName", scant_fragment)] "Query" (fun x => In x scant_sels).
Proof.
  apply plain_apart. apply (clean_labels farm [("PetName", scant_fragment)] farm_types_plain); [|exact farm_typename|apply regular_nested; exact scant_regular|].
  - intros n fd E. cbn [aget] in E. destruct (eqb n "PetName"); [|discriminate]. injection E as <-.
    repeat (constructor; try (right; unfold no_underscore; cbn; intuition discriminate)).
  - apply Forall_forall. unfold scant_sels.
    repeat (constructor; try (left; reflexivity); try (right; unfold no_underscore; cbn; intuition discriminate)).
Qed.
Lemma was_leaves x : leaf_name plain_config farm_json x -> ~ declares_name "Was" x.
Proof.
  intros L D.
  assert (Q : exists r, x = "Was" +++ r).
  { destruct D as [->|[->|(r & ->)]]; [exists ""|exists "Variables"|exists ("_" +++ r)]; reflexivity. }
  destruct Q as (r & ->). destruct L as [L|[(n & Si & _ & j & L & K)|(j & L & K)]].
  - cbn in L. intuition discriminate.
  - apply last_in in L. destruct L as [J En]. cbn in J. repeat (destruct J as [<-|J]; [try discriminate K|]); try destruct J.
    cbn in En. subst n. inversion Si as [| | | | |? Ns]. apply Ns. cbn. auto.
  - apply last_in in L. destruct L as [J En]. cbn in J. repeat (destruct J as [<-|J]; [try discriminate K; discriminate En|]). destruct J.
Qed.
Ltac keeping := repeat first [apply kept_none | eapply kept_more; [cbn; first [left; reflexivity | right; left; reflexivity | right; right; left; reflexivity]| |]
  | apply kept_field; [reflexivity|] | apply kept_inline | apply kept_spread].
Lemma scant_kept : all_kept scant_sels disk_sels /\ frags_kept [("PetName", scant_fragment)] [("PetName", disk_fragment)].
Proof.
  split.
  - unfold scant_sels, disk_sels.
    eapply kept_more; [right; left; reflexivity|apply kept_field; [reflexivity|keeping]|].
    eapply kept_more; [left; reflexivity|apply kept_field; [reflexivity|]|apply kept_none].
    eapply kept_more; [right; right; left; reflexivity|apply kept_inline; keeping|].
    eapply kept_more; [left; reflexivity|apply kept_spread|apply kept_none].
  - intros name fd E. cbn [aget] in *. destruct (eqb name "PetName"); [|discriminate]. injection E as <-. exists disk_fragment.
    split; [reflexivity|]. split; [reflexivity|]. cbn [fr_sels scant_fragment disk_fragment]. keeping.
Qed.
Lemma scant_more : selects_more farm [("PetName", scant_fragment)] [("PetName", disk_fragment)] "Query" (fun x => In x scant_sels) "Query" (fun x => In x disk_sels).
Proof. destruct scant_kept as [A B]. exact (C88_kept _ _ _ _ _ _ B A disk_tagged). Qed.
Example C88_nonvacuous : exists out0 f0' out f' text0 M0 G0 text M G,
  qlc_command "" "" 30 scant_world ["--num-threads"; "1"] (repeat 0 90) = Exited 0 out0 f0' /\
  qlc_command "" "" 30 disk_world ["--num-threads"; "1"] (repeat 0 90) = Exited 0 out f' /\
  f0' "./g.graphql.d.ts" = Ok text0 /\ only_reads text0 M0 /\ f' "./g.graphql.d.ts" = Ok text /\ only_reads text M /\ text0 <> text /\
  (exists n, module_accepts "graphql-globals" G M disk_amb n "Q" good_response) /\
  exists n, module_accepts "graphql-globals" G0 M0 disk_amb n "Was" good_response.
Proof.
  assert (Pa : parse_args ["--num-threads"; "1"] = URun (args_threads 1) false) by reflexivity.
  apply PropC65.C65_exact in Pa. destruct Pa as (its & Sp & Cn & Cm & Sy).
  assert (X : exists j, text_holds farm_text j /\ says_schema j farm_json /\ fits farm_json) by (apply (PropC67.C67_schema ""); exact farm_text_read).
  destruct X as (j & Th & Sj & Fi).
  assert (H : exists out f', qlc_command "" "" 30 disk_world ["--num-threads"; "1"] (repeat 0 90) = Exited 0 out f' /\
    exists text is, f' "./g.graphql.d.ts" = Ok text /\ only_reads text is /\ In (ItImport ["Mood"; "Size"] "graphql-globals") is).
  { do 2 eexists. split; [vm_compute; reflexivity|]. do 2 eexists. split; [vm_compute; reflexivity|].
    split; [unfold only_reads; apply (reads_once 2000); vm_compute; reflexivity|]. right; left; reflexivity. }
  destruct H as (out & f' & H & text0 & is & Et0 & R0 & I0).
  assert (H0 : exists out0 f0', qlc_command "" "" 30 scant_world ["--num-threads"; "1"] (repeat 0 90) = Exited 0 out0 f0').
  { do 2 eexists. vm_compute. reflexivity. }
  destruct H0 as (out0 & f0' & H0).
  assert (Ne : forall t t1, qlc_command "" "" 30 scant_world ["--num-threads"; "1"] (repeat 0 90) = Exited 0 out0 f0' -> f0' "./g.graphql.d.ts" = Ok t ->
    qlc_command "" "" 30 disk_world ["--num-threads"; "1"] (repeat 0 90) = Exited 0 out f' -> f' "./g.graphql.d.ts" = Ok t1 -> t <> t1).
  { clear. intros t t1 H0 E0 H1 E1. vm_compute in H0, H1. injection H0 as <- <-. injection H1 as <- <-. vm_compute in E0, E1. injection E0 as <-. injection E1 as <-. discriminate. }
  assert (Dk : on_disk lenient (fun _ => "syntax error") "" disk_world).
  { split; [reflexivity|]. intros p t E. cbn [disk_world wo_schema]. cbn [disk_world wo_fs wo_env] in E. change (disk_files p = Ok t) in E. rewrite E. reflexivity. }
  assert (Dk0 : on_disk lenient (fun _ => "syntax error") "" scant_world).
  { split; [reflexivity|]. intros p t E. cbn [scant_world wo_schema]. cbn [scant_world wo_fs wo_env] in E. change (scant_files p = Ok t) in E. rewrite E. reflexivity. }
  assert (Al : aliases_apart (cconfig_of (merge_config (wo_ncpus disk_world) (args_threads 1) config_default)) farm_json).
  { intros n x _ W. cbn in W. subst x. split; [cbn; intuition discriminate|]. intros y L. apply last_in in L. destruct L as [J En]. cbn in J.
    repeat (destruct J as [<-|J]; [discriminate En|]). destruct J. }
  assert (Rs : response farm_json farm [("PetName", disk_fragment)] (active_of always) no_custom "Query" disk_sels good_response).
  { exists 8, "Query". split; [apply possibles_ok; left; reflexivity|]. apply respb_ok. vm_compute. reflexivity. }
  destruct (C72_text_partial lenient (fun _ => "syntax error") "" "" "" 30 disk_world its ["--num-threads"; "1"] (args_threads 1) false (repeat 0 90)
    config_default farm_text j farm_json farm out f' Dk Sp Cn Cm Sy disk_settled eq_refl Th Sj Fi farm_wrappers Al)
    with (path := "./g.graphql") (contents := barn_query) (d := disk_doc) (frags := [("PetName", disk_fragment)]) (P := "Query") (l := disk_sels)
         (active := active_of always) (custom := no_custom) (amb := disk_amb) as (text' & M' & G' & _ & _ & Et' & R' & Im' & _ & _ & A').
  - discriminate.
  - exact H.
  - apply PropC35.pair_is_source. auto.
  - reflexivity.
  - apply C69_text. vm_compute. reflexivity.
  - exact disk_fragments.
  - reflexivity.
  - reflexivity.
  - apply reservedb_ok. reflexivity.
  - constructor.
  - exact farm_leaves.
  - exact disk_surroundings.
  - exact disk_regular.
  - exact disk_labels.
  - intros x _. apply all_unconditional.
  - intros n fd _. apply Forall_forall. intros x _. apply all_unconditional.
  - destruct (C88_text_partial lenient (fun _ => "syntax error") (fun _ => "syntax error") "" "" "" "" "" "" 30 30 scant_world disk_world its its ["--num-threads"; "1"] ["--num-threads"; "1"]
      (args_threads 1) (args_threads 1) false false (repeat 0 90) (repeat 0 90) config_default config_default farm_text farm_text j j farm_json farm out0 out f0' f'
      Dk0 Dk Sp Cn Cm Sy Sp Cn Cm Sy scant_settled disk_settled eq_refl Th Sj eq_refl Th Sj Fi eq_refl Al)
      with (path0 := "./g.graphql") (contents0 := scant_query) (d0 := scant_doc) (frags0 := [("PetName", scant_fragment)]) (P0 := "Query") (l0 := scant_sels)
           (path := "./g.graphql") (contents := barn_query) (d := disk_doc) (frags := [("PetName", disk_fragment)]) (P := "Query") (l := disk_sels)
      as (text1 & M1 & G1 & node1 & rest1 & text & M & G & node & rest & Et1 & R1 & _ & _ & _ & Et & R & Im & Ico & _ & A).
    + discriminate.
    + exact H0.
    + exact H.
    + apply PropC35.pair_is_source. auto.
    + reflexivity.
    + apply C69_text. vm_compute. reflexivity.
    + exact scant_fragments.
    + reflexivity.
    + reflexivity.
    + apply PropC35.pair_is_source. auto.
    + reflexivity.
    + apply C69_text. vm_compute. reflexivity.
    + exact disk_fragments.
    + reflexivity.
    + reflexivity.
    + constructor.
    + constructor.
    + apply reservedb_ok. reflexivity.
    + exact was_leaves.
    + apply reservedb_ok. reflexivity.
    + exact farm_leaves.
    + exact scant_regular.
    + exact scant_labels.
    + exact disk_regular.
    + exact disk_tagged.
    + exact scant_more.
    + exists out0, f0', out, f', text1, M1, G1, text, M, G. split; [exact H0|]. split; [exact H|]. split; [exact Et1|]. split; [exact R1|]. split; [exact Et|]. split; [exact R|].
      split; [exact (Ne _ _ H0 Et1 H Et)|].
      assert (E1 : text = text0) by (assert (X : f' "./g.graphql.d.ts" = Ok text) by exact Et; congruence).
      assert (E2 : text' = text0) by (assert (X : f' "./g.graphql.d.ts" = Ok text') by exact Et'; congruence). subst text text'.
      assert (E1 : M = is) by (apply R0; apply R; reflexivity). assert (E2 : M' = is) by (apply R0; apply R'; reflexivity). subst M M'.
      assert (Ii : imports_from is "graphql-globals" "Mood") by (exists ["Mood"; "Size"]; split; [exact I0|left; reflexivity]).
      destruct (Im "Mood" Ii) as (_ & gt & Eg & Rg). destruct (Im' "Mood" Ii) as (_ & gt' & Eg' & Rg').
      assert (E1 : gt' = gt).
      { match type of Eg with f' ?p = _ => assert (Y : f' p = Ok gt') by exact Eg' end. congruence. }
      subst gt'. assert (E1 : G' = G) by (apply Rg; apply Rg'; reflexivity). subst G'.
      pose proof (A' good_response Rs) as Acc. split; [exact Acc|]. destruct Acc as (n & An). exact (A disk_amb n good_response An).
Qed.

(** ** Refutations *)
(** Adding [... on Dog { __typename }] ends the sharing of a declaration (C04): what the type then accepts, and a server
    returns for a dog, was not accepted before *)
Definition shared_module : tsfile :=
  {| tf_node := "QueryDocumentNode"; tf_node_from := cc_docnode_module plain_config; tf_globals := [];
     tf_globals_from := cc_globals_module plain_config;
     tf_decls := [DObj "Q_pet_owner" [prop "name" (XName "string")]; DObj "Q_pet" [prop "owner" (XName "Q_pet_owner")]; DObj "Q" [prop "pet" (XName "Q_pet")]];
     tf_args := ["Q"; "never"] |}.
Theorem C88_refuted : exists ws0 co0 ws co, let v := VObj [("pet", VObj [("__typename", VStr "Dog"); ("owner", VObj [("mood", VStr "GLAD")])])] in
  document_file 20 (farm_cx [split_fragment]) plain_config plain_order (query split_document) ws0 co0 /\ reads_as co0 shared_module /\
  document_file 20 (farm_cx [split_fragment]) plain_config plain_order (query parted_document) ws co /\ reads_as co parted_module /\
  all_kept split_document parted_document /\ valid_sels farm [("F", split_fragment)] "Query" parted_document /\
  response farm_json farm [("F", split_fragment)] (active_of always) no_custom "Query" parted_document v /\
  (exists n, accepts (tf_decls parted_module) farm_base n "Q" v) /\ rejected shared_module "Q" v.
Proof.
  destruct C83_refuted as (ws & co & _ & _ & D & R & _ & _ & V & _ & Rs & A & _).
  do 4 eexists. cbv zeta. split; [eexists; split; vm_compute; reflexivity|]. split; [apply (reads_by 2000); vm_compute; reflexivity|].
  split; [exact D|]. split; [exact R|]. split; [unfold split_document, parted_document; keeping|]. split; [exact V|]. split; [exact Rs|]. split; [exact A|].
  intros base n A'. into_decl A' (DObj "Q" [prop "pet" (XName "Q_pet")]). destruct A' as (kvs & Ev & F). injection Ev as <-. inversion F as [|? ? A' _]; subst. cbn in A'.
  into_decl A' (DObj "Q_pet" [prop "owner" (XName "Q_pet_owner")]). destruct A' as (kvs & Ev & F1). injection Ev as <-. inversion F1 as [|? ? A' _]; subst. cbn in A'.
  into_decl A' (DObj "Q_pet_owner" [prop "name" (XName "string")]). destruct A' as (kvs & Ev & F2). injection Ev as <-. inversion F2 as [|? ? A' _]; subst. cbn in A'. discriminate.
Qed.
Print Assumptions C88_refuted.

(** With two keys for [__typename], adding [name] joins declarations that were apart: two keys that were related are not
    any more.  Both documents are regular *)
Definition tags_before : list selection := [node 2 "pet" [spread 3 "F"]].
Definition tags_before_module : tsfile :=
  {| tf_node := "QueryDocumentNode"; tf_node_from := cc_docnode_module plain_config; tf_globals := [];
     tf_globals_from := cc_globals_module plain_config;
     tf_decls := [DObj "Q_pet_Cat" [prop "name" (XName "string"); prop "t" (XLit "Cat"); prop "u" (XLit "Cat")];
                  DObj "Q_pet_$$other" [prop "t" no_cat; prop "u" no_cat]; DAlias "Q_pet" ["Q_pet_Cat"; "Q_pet_$$other"]; DObj "Q" [prop "pet" (XName "Q_pet")]];
     tf_args := ["Q"; "never"] |}.
Theorem C88_refuted_tags : exists ws0 co0 ws co, let v := VObj [("pet", VObj [("name", VStr "Al"); ("t", VStr "Cat"); ("u", VStr "Dog")])] in
  document_file 20 (farm_cx [tags_fragment]) plain_config plain_order (query tags_before) ws0 co0 /\ reads_as co0 tags_before_module /\
  document_file 20 (farm_cx [tags_fragment]) plain_config plain_order (query tags_document) ws co /\ reads_as co tags_module /\
  all_kept tags_before tags_document /\ valid_sels farm [("F", tags_fragment)] "Query" tags_document /\
  regular farm [("F", tags_fragment)] "Query" (fun x => In x tags_before) /\ regular farm [("F", tags_fragment)] "Query" (fun x => In x tags_document) /\
  (exists n, accepts (tf_decls tags_module) farm_base n "Q" v) /\ rejected tags_before_module "Q" v.
Proof.
  destruct C83_refuted_tags as (ws & co & _ & _ & D & R & _ & _ & V & Rg & _ & _ & A & _).
  do 4 eexists. cbv zeta. split; [eexists; split; vm_compute; reflexivity|]. split; [apply (reads_by 2000); vm_compute; reflexivity|].
  split; [exact D|]. split; [exact R|]. split; [eapply kept_more; [left; reflexivity|apply kept_field; [reflexivity|]|apply kept_none]; eapply kept_more; [right; left; reflexivity|apply kept_spread|apply kept_none]|]. split; [exact V|].
  split; [apply (regularb_ok farm _ 12 "Query" tags_before); [vm_compute; reflexivity|tauto]|]. split; [exact Rg|]. split; [exact A|].
  intros base n A'. into_decl A' (DObj "Q" [prop "pet" (XName "Q_pet")]). destruct A' as (kvs & Ev & F). injection Ev as <-. inversion F as [|? ? A' _]; subst. cbn in A'.
  into_decl A' (DAlias "Q_pet" ["Q_pet_Cat"; "Q_pet_$$other"]). destruct A' as (x & [<-|[<-|[]]] & A').
  + into_decl A' (DObj "Q_pet_Cat" [prop "name" (XName "string"); prop "t" (XLit "Cat"); prop "u" (XLit "Cat")]).
    destruct A' as (kvs & Ev & F1). injection Ev as <-. rewrite Forall_forall in F1. specialize (F1 (prop "u" (XLit "Cat")) ltac:(cbn; tauto)). cbn in F1. discriminate F1.
  + into_decl A' (DObj "Q_pet_$$other" [prop "t" no_cat; prop "u" no_cat]).
    destruct A' as (kvs & Ev & F1). injection Ev as <-. inversion F1 as [|? ? A' _]; subst. cbn in A'. destruct A' as [A'|A']; discriminate A'.
Qed.
Print Assumptions C88_refuted_tags.
