(** C83: what the exported type of a document says of a place where a fragment is spread is assignable to the type
    exported for the fragment. *)
From Verif Require Import LinkData LinkExt IntroCheck ShareWorlds GlobalRead JsonCheck WrittenEq Package RespFacts RunFacts RequestFacts SpecExact ExactFacts PropC56 PropC04 PropC43 PropC49 PropC18 PropC35.
From Verif Require Import Gql Json Args SpecGtext SpecJson SpecJtext GlayoutFacts PropC69 PropC72 PropC74 PropC82 AssignFacts.
From Verif Require SpecArgs PropC13 PropC17 PropC65 PropC67.

(** The modules of a document and of a fragment it spreads, compiled each by itself.  No condition on directives or
    on the wrappers of types, and none on the labels of the document.  (Full statement, false of the code: without
    [regular], [tagged_once], [labels_apart] and the conditions on the names of leaf types.) *)
Theorem C83_module_partial : forall js fuel fuel1 cx cx1 c o o1 d fd ws ws1 co co1 P l (base base1 : string -> value -> Prop),
  order_ok (cx_order cx) -> order_ok o -> order_ok (cx_order cx1) -> order_ok o1 ->
  introspection js (cx_schema cx) -> proper_types (cx_schema cx) -> cx_schema cx1 = cx_schema cx ->
  document_file fuel cx c o d ws co -> doc_root d = Some (P, l) -> is_subscription d = false ->
  document_file fuel1 cx1 c o1 (DFrag fd) ws1 co1 ->
  (forall n fd, aget n (cx_frags cx1) = Some fd -> aget n (cx_frags cx) = Some fd) -> aget (fr_name fd) (cx_frags cx) = Some fd ->
  frags_valid (cx_schema cx) (cx_frags cx) l -> frags_valid (cx_schema cx) (cx_frags cx1) (fr_sels fd) ->
  Forall (fun v => valid_gtype (vgtype v) = true) (doc_vars d) -> NoDup (List.map vd_name (doc_vars d)) ->
  regular (cx_schema cx) (cx_frags cx) P (fun x => In x l) -> tagged_once (cx_schema cx) (cx_frags cx) P (fun x => In x l) ->
  regular (cx_schema cx) (cx_frags cx1) (fr_cond fd) (fun x => In x (fr_sels fd)) ->
  labels_apart (cx_schema cx) (cx_frags cx1) (fr_cond fd) (fun x => In x (fr_sels fd)) ->
  (forall x, leaf_name c js x -> ~ declares_name (def_name d) x) -> (forall x, leaf_name c js x -> ~ declares_name (fr_name fd) x) ->
  (forall x v, leaf_name c js x -> base x v -> base1 x v) ->
  exists m m1, written_as cx c d co m /\ written_as cx1 c (DFrag fd) co1 m1 /\ tf_args m1 = [fr_name fd] /\
    (exists rest, tf_args m = def_name d :: rest) /\
    forall path, spread_along (cx_schema cx) (cx_frags cx) (fr_name fd) P (fun x => In x l) path ->
      forall n v w, accepts (tf_decls m) base n (def_name d) v -> at_path path v w ->
        exists k, accepts (tf_decls m1) base1 k (fr_name fd) w.
Proof.
  intros js fuel fuel1 cx cx1 c o o1 d fd ws ws1 co co1 P l base base1 O O' O1 O1' In Pt Es H Dr Su H1 More Fd Fv Fv1 Vv Nv R Tg R1 L1 Und Und1 B.
  pose proof (intro_consistent _ _ In) as Co.
  destruct (document_described _ _ _ _ _ _ _ _ _ O O' Co Pt H Dr Su Fv) as (op & ds & us & vds & vus & _ & _ & _ & K & En & Ek & Ev & Rn & Rv & Eg & Et & X).
  rewrite <- Es in Co, Pt, Fv1, R1, L1.
  destruct (document_described _ _ _ _ (DFrag fd) _ _ _ _ O1 O1' Co Pt H1 eq_refl eq_refl Fv1) as (op1 & ds1 & us1 & vds1 & vus1 & _ & _ & _ & K1 & En1 & Ek1 & Ev1 & Rn1 & Rv1 & Eg1 & Et1 & X1).
  pose proof (var_decls c _ d op vds vus Vv Ev Rv Nv) as Vd.
  pose proof (var_decls c _ (DFrag fd) op1 vds1 vus1 ltac:(constructor) Ev1 Rv1 ltac:(constructor)) as Vd1.
  assert (Nd1 : NoDup (List.map decl_name (ds1 ++ vds1))).
  { destruct (rnd_once c (cx_schema cx1) (cx_frags cx1) Co Pt) as (_ & _ & _ & Y). specialize (Y _ _ _ _ Rn1 _ _ K1 (regular_unambiguous _ _ _ _ R1) L1).
    apply names_app; auto.
    - destruct Vd1 as [->|(ms' & -> & N)]; repeat constructor. intros [].
    - intros x y I J E. destruct Vd1 as [->|(ms' & -> & N)]; [destruct J|]. destruct J as [<-|[]]. cbn [decl_name] in E. rewrite En1 in E.
      destruct (rnd_coll_names c _ _ _ _ Rn1 x I) as [Ex|(r & Ex)]; rewrite Ex in E.
      + rewrite <- (sapp_nil_r (def_name (DFrag fd))) in E at 1. apply sapp_inj_l in E. discriminate.
      + apply sapp_inj_l in E. discriminate. }
  assert (Ud : forall x y, leaf_name c js x -> List.In y (ds ++ vds) -> decl_name y <> x).
  { intros x y Lx J E. apply (Und x Lx). unfold declares_name. rewrite <- E. apply in_app_or in J. destruct J as [J|J].
    - destruct (rnd_coll_names c _ _ _ _ Rn y J) as [Ex|(r & Ex)]; eauto.
    - destruct Vd as [->|(ms' & -> & N)]; [destruct J|]. destruct J as [<-|[]]. cbn [decl_name]. rewrite En. auto. }
  assert (Ud1 : forall x y, leaf_name c js x -> List.In y (ds1 ++ vds1) -> decl_name y <> x).
  { intros x y Lx J E. apply (Und1 x Lx). unfold declares_name. rewrite <- E. apply in_app_or in J. destruct J as [J|J].
    - destruct (rnd_coll_names c _ _ _ _ Rn1 y J) as [Ex|(r & Ex)]; eauto.
    - destruct Vd1 as [->|(ms' & -> & N)]; [destruct J|]. destruct J as [<-|[]]. cbn [decl_name]. rewrite En1. auto. }
  exists (file_of c op (ds ++ vds) (co_globals co)), (file_of c op1 (ds1 ++ vds1) (co_globals co1)).
  split; [exact Et|]. split; [exact Et1|]. split.
  { cbn [file_of tf_args]. unfold node_args. rewrite En1, Ek1. reflexivity. }
  split.
  { exists (match op_kind op with OKFragment => [] | _ => [vars_arg op] end). cbn [file_of tf_args]. unfold node_args. rewrite En. destruct (op_kind op); reflexivity. }
  intros path Sp n v w A At. cbn [file_of tf_decls] in *.
  assert (Ds1 : des c (cx_schema cx) (cx_frags cx1) (ds1 ++ vds1) (fr_cond fd) (fun x => List.In x (fr_sels fd)) (fr_name fd)).
  { rewrite <- Es. apply X1; auto. intros y J. apply in_or_app. auto. }
  refine (path_sub c js (cx_schema cx) (cx_frags cx) (cx_frags cx1) base base1 (ds ++ vds) ds (ds1 ++ vds1) In More _ _ Ud Nd1 Ud1 B (fr_name fd) fd (fr_name fd)
    Fd Ds1 path P (fun x => List.In x l) (def_name d) v w n Sp _ Tg A At).
  - intros y J. apply in_or_app. auto.
  - eapply rnd_required. exact Rn.
  - apply X; auto. apply incl_refl.
Qed.
Print Assumptions C83_module_partial.

(** A run with exit code 0.  The source at [path] imports, perhaps through other files, the file [t] of a fragment
    that is spread, along some path of keys, for all objects there.  Both have outputs, and whatever the first type
    argument of the one accepts has, along that path, objects only that the type argument of the other accepts *)
Theorem C83_run_partial : forall fuel wo a sched cf js s out f',
  let rc := merge_config (wo_ncpus wo) a cf in
  let c := cconfig_of rc in
  let e := wo_env wo in
  let ls := wo_listing wo in
  let root := rc_root_dir rc in
  let f := wo_fs wo in
  let gl := env_locate e (globals_path c root) in
  settled wo a cf js s -> wo_schema wo (rc_schema_path rc) = SRDecoded js ->
  aliases_apart c js -> cc_docnode_module c <> cc_globals_module c ->
  (forall text ds d, env_parse e text = Ok ds -> In d ds -> parsed_named d) ->
  qlc fuel wo a sched = Exited 0 out f' ->
  forall path contents d frags t o fd frags1 P l, is_source ls root path -> f (env_locate e path) = Ok contents ->
    env_parse e contents = Ok [d] -> PropC07.imported_fragments e f c path contents frags ->
    reach e f c path contents t o -> holds_fragment e o fd -> PropC07.imported_fragments e f c t o frags1 ->
    is_subscription d = false -> doc_root d = Some (P, l) ->
    Forall (fun v => valid_gtype (vgtype v) = true) (doc_vars d) -> NoDup (List.map vd_name (doc_vars d)) ->
    ~ reserved (def_name d) -> (forall x, leaf_name c js x -> ~ declares_name (def_name d) x) ->
    ~ reserved (fr_name fd) -> (forall x, leaf_name c js x -> ~ declares_name (fr_name fd) x) ->
    regular s frags P (fun x => In x l) -> tagged_once s frags P (fun x => In x l) ->
    regular s frags1 (fr_cond fd) (fun x => In x (fr_sels fd)) -> labels_apart s frags1 (fr_cond fd) (fun x => In x (fr_sels fd)) ->
    exists text M G node rest text1 M1 G1 node1,
      f' (out_loc e path) = Ok text /\ only_reads text M /\
      (forall x, imports_from M (cc_globals_module c) x ->
         module_declares G x /\ exists gtext, f' gl = Ok gtext /\ only_reads gtext G) /\
      In (ItConst "graphqlDocument" node (def_name d :: rest)) M /\ In (ItDefault "graphqlDocument") M /\
      f' (out_loc e t) = Ok text1 /\ only_reads text1 M1 /\
      (forall x, imports_from M1 (cc_globals_module c) x ->
         module_declares G1 x /\ exists gtext, f' gl = Ok gtext /\ only_reads gtext G1) /\
      In (ItConst "graphqlDocument" node1 [fr_name fd]) M1 /\ In (ItDefault "graphqlDocument") M1 /\
      forall keys, spread_along s frags (fr_name fd) P (fun x => In x l) keys ->
        forall amb n v w, module_accepts (cc_globals_module c) G M amb n (def_name d) v -> at_path keys v w ->
          exists k, module_accepts (cc_globals_module c) G1 M1 amb k (fr_name fd) w.
Proof.
  intros fuel wo a sched cf js s out f' rc c e ls root f gl Se Es Al Dm Pn H path contents d frags t o fd frags1 P l Sp Er Epd If Re Hf If1 Su Dr Vv Nv Nr Le Nr1 Le1 R Tg R1 Lb1.
  pose proof Se as [_ In0 Jn _ _ _ _ _ _ Sc _]. pose proof (loaded_nameable _ _ _ (in_loaded _ _ In0) Jn) as Nm.
  assert (St : is_source ls root t) by (eapply Sc; eauto).
  assert (Eo : f (env_locate e t) = Ok o) by (destruct Re; auto).
  destruct (run_module fuel wo a sched cf js s out f' Se Es Al Dm Pn H path Sp) as (contents' & d' & frags2 & ws & co & Er' & Ep' & Ic & D & Oc & Od & Rm).
  assert (contents' = contents) by (assert (X : f (env_locate e path) = Ok contents') by exact Er'; congruence). subst contents'.
  assert (d' = d) by (assert (X : env_parse e contents = Ok [d']) by exact Ep'; congruence). subst d'.
  destruct (run_module fuel wo a sched cf js s out f' Se Es Al Dm Pn H t St) as (o' & d1 & frags3 & ws1 & co1 & Eo' & Ep1 & Ic1 & D1 & Oc1 & Od1 & Rm1).
  assert (o' = o) by (assert (X : f (env_locate e t) = Ok o') by exact Eo'; congruence). subst o'.
  assert (d1 = DFrag fd) by (assert (X : env_parse e o = Ok [d1]) by exact Ep1; unfold holds_fragment in Hf; congruence). subst d1.
  pose proof (fragments_agree _ _ _ _ _ _ _ Ic If) as Ag. pose proof (fragments_agree _ _ _ _ _ _ _ Ic1 If1) as Ag1.
  destruct (Rm Su Nr) as (M & G & P' & l' & node & rest & Ew & Or & Im & Ico & Ide & Dr' & V & Fv & _ & _ & Back).
  rewrite Dr in Dr'. injection Dr' as <- <-.
  destruct (Rm1 eq_refl Nr1) as (M1 & G1 & P1 & l1 & node1 & rest1 & Ew1 & Or1 & Im1 & Ico1 & Ide1 & Dr1 & V1 & Fv1 & Rf1 & Acc1 & _).
  injection Dr1 as <- <-. pose proof (Rf1 fd eq_refl) as Rest. subst rest1.
  exists (co_contents co), M, G, node, rest, (co_contents co1), M1, G1, node1. repeat (split; [assumption|]).
  intros keys Al' amb n v w Av At.
  destruct (C83_module_partial js fuel fuel (file_ctx e c s path frags2) (file_ctx e c s t frags3) c (suborder (env_order e path) [2; 0]) (suborder (env_order e t) [2; 0])
    d fd ws ws1 co co1 P l (outside_or_input js amb) (outside js amb)
    Oc Od Oc1 Od1 In0 (nameable_proper _ _ Nm) eq_refl D Dr Su D1) as (m & m1 & W & W1 & _ & _ & A); cbn [file_ctx cx_schema cx_frags] in *; auto.
  - intros x fd' E. rewrite Ag. eapply frags_through; [exact Re|exact If|exact Ic1|exact E].
  - rewrite Ag. apply If. exists t, o. auto.
  - eapply regular_ext; [intros x; symmetry; apply Ag|exact R|tauto].
  - eapply tagged_frags; [intros x; symmetry; apply Ag|exact Tg|tauto].
  - eapply regular_ext; [intros x; symmetry; apply Ag1|exact R1|tauto].
  - eapply labels_apart_ext; [intros x; symmetry; apply Ag1|exact Lb1|tauto].
  - intros x u. apply (leaf_outside c); auto.
  - destruct (A keys) with (n := n) (v := v) (w := w) as (k & Ak); auto.
    + eapply along_frags; [intros x; symmetry; apply Ag|exact Al'|tauto].
    + eapply Acc1; eauto.
Qed.
Print Assumptions C83_run_partial.

(** *** From texts to texts *)
Theorem C83_text_partial : forall ck complaint jerr help version fuel wo its argv a nc sched cf stext j js s out f',
  let rc := merge_config (wo_ncpus wo) a cf in
  let c := cconfig_of rc in
  let e := wo_env wo in
  let ls := wo_listing wo in
  let root := rc_root_dir rc in
  let f := wo_fs wo in
  let gl := env_locate e (globals_path c root) in
  on_disk ck complaint jerr wo ->
  SpecArgs.spelled its argv -> SpecArgs.consistent its -> SpecArgs.complete its -> SpecArgs.says its a nc ->
  settled wo a cf js s ->
  f (env_locate e (rc_schema_path rc)) = Ok stext -> text_holds stext j -> says_schema j js -> fits js ->
  aliases_apart c js -> cc_docnode_module c <> cc_globals_module c ->
  qlc_command help version fuel wo argv sched = Exited 0 out f' ->
  forall path contents d frags t o fd frags1 P l, is_source ls root path ->
    f (env_locate e path) = Ok contents -> text_says ck contents [d] -> PropC07.imported_fragments e f c path contents frags ->
    reach e f c path contents t o -> text_says ck o [DFrag fd] -> PropC07.imported_fragments e f c t o frags1 ->
    is_subscription d = false -> doc_root d = Some (P, l) -> NoDup (List.map vd_name (doc_vars d)) ->
    ~ reserved (def_name d) -> (forall x, leaf_name c js x -> ~ declares_name (def_name d) x) ->
    ~ reserved (fr_name fd) -> (forall x, leaf_name c js x -> ~ declares_name (fr_name fd) x) ->
    regular s frags P (fun x => In x l) -> tagged_once s frags P (fun x => In x l) ->
    regular s frags1 (fr_cond fd) (fun x => In x (fr_sels fd)) -> labels_apart s frags1 (fr_cond fd) (fun x => In x (fr_sels fd)) ->
    exists text M G node rest text1 M1 G1 node1,
      f' (out_loc e path) = Ok text /\ only_reads text M /\
      (forall x, imports_from M (cc_globals_module c) x ->
         module_declares G x /\ exists gtext, f' gl = Ok gtext /\ only_reads gtext G) /\
      In (ItConst "graphqlDocument" node (def_name d :: rest)) M /\ In (ItDefault "graphqlDocument") M /\
      f' (out_loc e t) = Ok text1 /\ only_reads text1 M1 /\
      (forall x, imports_from M1 (cc_globals_module c) x ->
         module_declares G1 x /\ exists gtext, f' gl = Ok gtext /\ only_reads gtext G1) /\
      In (ItConst "graphqlDocument" node1 [fr_name fd]) M1 /\ In (ItDefault "graphqlDocument") M1 /\
      forall keys, spread_along s frags (fr_name fd) P (fun x => In x l) keys ->
        forall amb n v w, module_accepts (cc_globals_module c) G M amb n (def_name d) v -> at_path keys v w ->
          exists k, module_accepts (cc_globals_module c) G1 M1 amb k (fr_name fd) w.
Proof.
  intros ck complaint jerr help version fuel wo its argv a nc sched cf stext j js s out f' rc c e ls root f gl
    [Hd Hs] Sp Cn Cm Sy Se Es Th Sj Fi Al Dm H path contents d frags t o fd frags1 P l Src Ec Td If Re Ts If1 Su Dr Nv Nr Le Nr1 Le1 R Tg R1 Lb1.
  assert (Pa : parse_args argv = URun a nc) by (apply PropC65.C65_exact; eauto).
  assert (Hq : qlc fuel wo a sched = Exited 0 out f') by (unfold qlc_command in H; rewrite Pa in H; exact H).
  assert (Sc : wo_schema wo (rc_schema_path rc) = SRDecoded js).
  { rewrite (Hs _ _ Es). apply PropC67.C67_schema. eauto. }
  assert (Pn : forall text ds d, env_parse e text = Ok ds -> In d ds -> parsed_named d).
  { intros text ds d0 E I. rewrite Hd in E. destruct (parse_query ck text) as [ds'|] eqn:Ep; [|discriminate]. injection E as ->. eapply C69_named; eauto. }
  assert (Hf : holds_fragment e o fd).
  { unfold holds_fragment. rewrite Hd. apply C69_text in Ts. rewrite Ts. reflexivity. }
  assert (Epd : env_parse e contents = Ok [d]).
  { rewrite Hd. apply C69_text in Td. rewrite Td. reflexivity. }
  assert (Vv : Forall (fun v => valid_gtype (vgtype v) = true) (doc_vars d)) by (eapply text_vars_valid; [exact Td|left; reflexivity]).
  exact (C83_run_partial fuel wo a sched cf js s out f' Se Sc Al Dm Pn Hq path contents d frags t o fd frags1 P l Src Ec Epd If Re Hf If1 Su Dr Vv Nv Nr Le Nr1 Le1 R Tg R1 Lb1).
Qed.
Print Assumptions C83_text_partial.

(** ** Non-vacuity: the files of C72.  The fragment is spread below [pet], and what is accepted there has more keys *)
Lemma disk_along : spread_along farm [("PetName", disk_fragment)] "PetName" "Query" (fun x => In x disk_sels) ["pet"].
Proof.
  apply along_key. intros T Po. assert (J : In T ["Query"]) by exact (proj2 (possibles_ok farm "Query" T) Po). destruct J as [<-|[]]. clear Po.
  eexists _, _. split.
  { exists "Query", "pet". split; [eapply (occ_field _ _ _ _ _ _ None); left; reflexivity|eexists; split; vm_compute; reflexivity]. }
  split; [eexists; split; [vm_compute; reflexivity|exact Logic.I]|].
  apply along_end. intros T Po'. exists disk_fragment. eapply for_here; [|reflexivity|exact Po'].
  eexists _, _. split.
  { exists "Query", "pet". split; [eapply (occ_field _ _ _ _ _ _ None); left; reflexivity|eexists; split; vm_compute; reflexivity]. }
  split; [reflexivity|]. left. reflexivity.
Qed.
Example C83_nonvacuous : exists out f' text M G text1 M1 G1,
  qlc_command "" "" 30 disk_world ["--num-threads"; "1"] (repeat 0 90) = Exited 0 out f' /\
  f' "./g.graphql.d.ts" = Ok text /\ only_reads text M /\ f' "./n.graphql.d.ts" = Ok text1 /\ only_reads text1 M1 /\
  (exists n, module_accepts "graphql-globals" G M disk_amb n "Q" good_response) /\
  spread_along farm [("PetName", disk_fragment)] "PetName" "Query" (fun x => In x disk_sels) ["pet"] /\ at_path ["pet"] good_response disk_pet /\
  exists n, module_accepts "graphql-globals" G1 M1 disk_amb n "PetName" disk_pet.
Proof.
  assert (Pa : parse_args ["--num-threads"; "1"] = URun (args_threads 1) false) by reflexivity.
  apply PropC65.C65_exact in Pa. destruct Pa as (its & Sp & Cn & Cm & Sy).
  assert (X : exists j, text_holds farm_text j /\ says_schema j farm_json /\ fits farm_json) by (apply (PropC67.C67_schema ""); exact farm_text_read).
  destruct X as (j & Th & Sj & Fi).
  assert (H : exists out f', qlc_command "" "" 30 disk_world ["--num-threads"; "1"] (repeat 0 90) = Exited 0 out f' /\
    exists text is, f' "./g.graphql.d.ts" = Ok text /\ only_reads text is /\ In (ItImport ["Mood"; "Size"] "graphql-globals") is).
  { do 2 eexists. split; [vm_compute; reflexivity|]. do 2 eexists. split; [vm_compute; reflexivity|].
    split; [unfold only_reads; apply (reads_once 2000); vm_compute; reflexivity|]. right; left; reflexivity. }
  destruct H as (out & f' & H & text0 & is & Et0 & R0 & I0).
  assert (Dk : on_disk lenient (fun _ => "syntax error") "" disk_world).
  { split; [reflexivity|]. intros p t E. cbn [disk_world wo_schema]. cbn [disk_world wo_fs wo_env] in E. change (disk_files p = Ok t) in E. rewrite E. reflexivity. }
  assert (Al : aliases_apart (cconfig_of (merge_config (wo_ncpus disk_world) (args_threads 1) config_default)) farm_json).
  { intros n x _ W. cbn in W. subst x. split; [cbn; intuition discriminate|]. intros y L. apply last_in in L. destruct L as [J En]. cbn in J.
    repeat (destruct J as [<-|J]; [discriminate En|]). destruct J. }
  assert (Rs : response farm_json farm [("PetName", disk_fragment)] (active_of always) no_custom "Query" disk_sels good_response).
  { exists 8, "Query". split; [apply possibles_ok; left; reflexivity|]. apply respb_ok. vm_compute. reflexivity. }
  assert (At : at_path ["pet"] good_response disk_pet).
  { eapply at_key; [reflexivity|constructor|constructor]. }
  destruct (C72_text_partial lenient (fun _ => "syntax error") "" "" "" 30 disk_world its ["--num-threads"; "1"] (args_threads 1) false (repeat 0 90)
    config_default farm_text j farm_json farm out f' Dk Sp Cn Cm Sy disk_settled eq_refl Th Sj Fi farm_wrappers Al)
    with (path := "./g.graphql") (contents := barn_query) (d := disk_doc) (frags := [("PetName", disk_fragment)]) (P := "Query") (l := disk_sels)
         (active := active_of always) (custom := no_custom) (amb := disk_amb) as (text' & M' & G' & _ & _ & Et' & R' & Im' & _ & _ & A').
  - discriminate.
  - exact H.
  - apply PropC35.pair_is_source. auto.
  - reflexivity.
  - apply C69_text. vm_compute. reflexivity.
  - exact disk_fragments.
  - reflexivity.
  - reflexivity.
  - apply reservedb_ok. reflexivity.
  - constructor.
  - exact farm_leaves.
  - exact disk_surroundings.
  - exact disk_regular.
  - exact disk_labels.
  - intros x _. apply all_unconditional.
  - intros n fd _. apply Forall_forall. intros x _. apply all_unconditional.
  - destruct (C83_text_partial lenient (fun _ => "syntax error") "" "" "" 30 disk_world its ["--num-threads"; "1"] (args_threads 1) false (repeat 0 90)
      config_default farm_text j farm_json farm out f' Dk Sp Cn Cm Sy disk_settled eq_refl Th Sj Fi Al)
      with (path := "./g.graphql") (contents := barn_query) (d := disk_doc) (frags := [("PetName", disk_fragment)]) (P := "Query") (l := disk_sels)
           (t := "./n.graphql") (o := barn_fragment) (fd := disk_fragment) (frags1 := @nil (string * fragdef))
      as (text & M & G & node & rest & text1 & M1 & G1 & node1 & Et & R & Im & Ico & _ & Et1 & R1 & _ & _ & _ & A).
    + discriminate.
    + exact H.
    + apply PropC35.pair_is_source. auto.
    + reflexivity.
    + apply C69_text. vm_compute. reflexivity.
    + exact disk_fragments.
    + exact disk_imports_fragment.
    + apply C69_text. vm_compute. reflexivity.
    + exact disk_alone.
    + reflexivity.
    + reflexivity.
    + constructor.
    + apply reservedb_ok. reflexivity.
    + exact farm_leaves.
    + apply reservedb_ok. reflexivity.
    + exact pet_name_leaves.
    + exact disk_regular.
    + exact disk_tagged.
    + exact disk_fragment_regular.
    + exact disk_fragment_labels.
    + exists out, f', text, M, G, text1, M1, G1. split; [exact H|]. split; [exact Et|]. split; [exact R|]. split; [exact Et1|]. split; [exact R1|].
      assert (E1 : text = text0) by (assert (X : f' "./g.graphql.d.ts" = Ok text) by exact Et; congruence).
      assert (E2 : text' = text0) by (assert (X : f' "./g.graphql.d.ts" = Ok text') by exact Et'; congruence). subst text text'.
      assert (E1 : M = is) by (apply R0; apply R; reflexivity). assert (E2 : M' = is) by (apply R0; apply R'; reflexivity). subst M M'.
      assert (Ii : imports_from is "graphql-globals" "Mood") by (exists ["Mood"; "Size"]; split; [exact I0|left; reflexivity]).
      destruct (Im "Mood" Ii) as (_ & gt & Eg & Rg). destruct (Im' "Mood" Ii) as (_ & gt' & Eg' & Rg').
      assert (E1 : gt' = gt).
      { match type of Eg with f' ?p = _ => assert (Y : f' p = Ok gt') by exact Eg' end. congruence. }
      subst gt'. assert (E1 : G' = G) by (apply Rg; apply Rg'; reflexivity). subst G'.
      pose proof (A' good_response Rs) as Acc.
      split; [exact Acc|]. split; [exact disk_along|]. split; [exact At|]. destruct Acc as (n & An). exact (A ["pet"] disk_along disk_amb n good_response disk_pet An At).
Qed.

(** ** Refutations *)
(** Object types that share a declaration of the fragment (the sharing of C04) do not share one in the query: what the
    query's type accepts below [pet], and a server returns for a dog, is not of the fragment's type *)
Definition parted_document : list selection := [node 2 "pet" [spread 3 "F"; on 4 "Dog" [leaf 4 "__typename"]]].
Definition parted_module : tsfile :=
  {| tf_node := "QueryDocumentNode"; tf_node_from := cc_docnode_module plain_config; tf_globals := ["Mood"];
     tf_globals_from := cc_globals_module plain_config;
     tf_decls := [DObj "Q_pet_Dog_owner" [prop "mood" (XName "Mood")]; DObj "Q_pet_Dog" [prop "__typename" (XLit "Dog"); prop "owner" (XName "Q_pet_Dog_owner")];
                  DObj "Q_pet_$$other_owner" [prop "name" (XName "string")]; DObj "Q_pet_$$other" [prop "owner" (XName "Q_pet_$$other_owner")];
                  DAlias "Q_pet" ["Q_pet_Dog"; "Q_pet_$$other"];
                  DObj "Q" [prop "pet" (XName "Q_pet")]];
     tf_args := ["Q"; "never"] |}.
Ltac shown d := refine (accepts_decl farm_base _ _ _ d _ _ _); [repeat constructor; cbn; intuition discriminate|cbn; tauto|].
Ltac members := cbn [decl_values]; eexists; split; [reflexivity|]; repeat (apply Forall_cons; [cbn -[accepts]|]); try apply Forall_nil.
Ltac from_elsewhere := split; [cbn; intros ? J E; exfalso; repeat (destruct J as [<-|J]; [discriminate E|]); destruct J|right; cbn; eauto].
Theorem C83_refuted : exists ws co ws1 co1, let pet := VObj [("__typename", VStr "Dog"); ("owner", VObj [("mood", VStr "GLAD")])] in
  document_file 20 (farm_cx [split_fragment]) plain_config plain_order (query parted_document) ws co /\ reads_as co parted_module /\
  document_file 20 (farm_cx []) plain_config plain_order (DFrag split_fragment) ws1 co1 /\ reads_as co1 split_fragment_module /\
  valid_sels farm [("F", split_fragment)] "Query" parted_document /\
  spread_along farm [("F", split_fragment)] "F" "Query" (fun x => In x parted_document) ["pet"] /\
  response farm_json farm [("F", split_fragment)] (active_of always) no_custom "Query" parted_document (VObj [("pet", pet)]) /\
  (exists n, accepts (tf_decls parted_module) farm_base n "Q" (VObj [("pet", pet)])) /\
  at_path ["pet"] (VObj [("pet", pet)]) pet /\ rejected split_fragment_module "F" pet.
Proof.
  do 4 eexists. cbv zeta. split; [eexists; split; vm_compute; reflexivity|]. split; [apply (reads_by 2000); vm_compute; reflexivity|].
  split; [eexists; split; vm_compute; reflexivity|]. split; [apply (reads_by 2000); vm_compute; reflexivity|].
  split; [apply (validb_ok _ _ 9); vm_compute; reflexivity|]. split; [|split; [|split; [|split]]].
  - apply along_key. intros T Po. assert (J : In T ["Query"]) by exact (proj2 (possibles_ok farm "Query" T) Po). destruct J as [<-|[]]. clear Po.
    eexists _, _. split.
    { exists "Query", "pet". split; [eapply (occ_field _ _ _ _ _ _ None); left; reflexivity|eexists; split; vm_compute; reflexivity]. }
    split; [eexists; split; [vm_compute; reflexivity|exact Logic.I]|].
    apply along_end. intros T Po'. exists split_fragment. eapply for_here; [|reflexivity|exact Po'].
    eexists _, _. split.
    { exists "Query", "pet". split; [eapply (occ_field _ _ _ _ _ _ None); left; reflexivity|eexists; split; vm_compute; reflexivity]. }
    split; [reflexivity|]. left. reflexivity.
  - exists 5, "Query". split; [apply possibles_ok; left; reflexivity|]. apply respb_ok. vm_compute. reflexivity.
  - exists 5. shown (DObj "Q" [prop "pet" (XName "Q_pet")]). members.
    shown (DAlias "Q_pet" ["Q_pet_Dog"; "Q_pet_$$other"]). exists "Q_pet_Dog". split; [left; reflexivity|].
    shown (DObj "Q_pet_Dog" [prop "__typename" (XLit "Dog"); prop "owner" (XName "Q_pet_Dog_owner")]). members; [reflexivity|].
    shown (DObj "Q_pet_Dog_owner" [prop "mood" (XName "Mood")]). members. from_elsewhere.
  - eapply at_key; [reflexivity|constructor|constructor].
  - intros base n A. into_decl A (DObj "F" [prop "owner" (XName "F_owner")]).
    destruct A as (kvs & Ev & F). injection Ev as <-. inversion F as [|? ? A _]; subst. cbn in A.
    into_decl A (DObj "F_owner" [prop "name" (XName "string")]).
    destruct A as (kvs & Ev & F2). injection Ev as <-. inversion F2 as [|? ? A _]; subst. cbn in A. discriminate.
Qed.
Print Assumptions C83_refuted.

(** With two keys for [__typename]: all three types share a declaration in the query, where the two keys are not
    related, and the fragment's type tells them apart.  Both documents are regular *)
Definition tags_fragment : fragdef :=
  frag "F" "Pet" [SField (at_pos 2 9) (Some "t") "__typename" [] [] []; SField (at_pos 2 9) (Some "u") "__typename" [] [] []; on 3 "Cat" [leaf 3 "name"]].
Definition tags_document : list selection := [node 2 "pet" [leaf 2 "name"; spread 3 "F"]].
Definition any_pet : texpr := XUnion (XUnion (XLit "Cat") (XLit "Dog")) (XLit "Eel").
Definition tags_module : tsfile :=
  {| tf_node := "QueryDocumentNode"; tf_node_from := cc_docnode_module plain_config; tf_globals := [];
     tf_globals_from := cc_globals_module plain_config;
     tf_decls := [DObj "Q_pet" [prop "name" (XName "string"); prop "t" any_pet; prop "u" any_pet]; DObj "Q" [prop "pet" (XName "Q_pet")]];
     tf_args := ["Q"; "never"] |}.
Definition no_cat : texpr := XUnion (XLit "Dog") (XLit "Eel").
Definition tags_fragment_module : tsfile :=
  {| tf_node := "FragmentDocumentNode"; tf_node_from := cc_docnode_module plain_config; tf_globals := [];
     tf_globals_from := cc_globals_module plain_config;
     tf_decls := [DObj "F_Cat" [prop "name" (XName "string"); prop "t" (XLit "Cat"); prop "u" (XLit "Cat")];
                  DObj "F_$$other" [prop "t" no_cat; prop "u" no_cat]; DAlias "F" ["F_Cat"; "F_$$other"]];
     tf_args := ["F"] |}.
Theorem C83_refuted_tags : exists ws co ws1 co1, let pet := VObj [("name", VStr "Al"); ("t", VStr "Cat"); ("u", VStr "Dog")] in
  document_file 20 (farm_cx [tags_fragment]) plain_config plain_order (query tags_document) ws co /\ reads_as co tags_module /\
  document_file 20 (farm_cx []) plain_config plain_order (DFrag tags_fragment) ws1 co1 /\ reads_as co1 tags_fragment_module /\
  valid_sels farm [("F", tags_fragment)] "Query" tags_document /\
  regular farm [("F", tags_fragment)] "Query" (fun x => In x tags_document) /\ regular farm [] "Pet" (fun x => In x (fr_sels tags_fragment)) /\
  spread_along farm [("F", tags_fragment)] "F" "Query" (fun x => In x tags_document) ["pet"] /\
  (exists n, accepts (tf_decls tags_module) farm_base n "Q" (VObj [("pet", pet)])) /\
  at_path ["pet"] (VObj [("pet", pet)]) pet /\ rejected tags_fragment_module "F" pet.
Proof.
  do 4 eexists. cbv zeta. split; [eexists; split; vm_compute; reflexivity|]. split; [apply (reads_by 2000); vm_compute; reflexivity|].
  split; [eexists; split; vm_compute; reflexivity|]. split; [apply (reads_by 2000); vm_compute; reflexivity|].
  split; [apply (validb_ok _ _ 9); vm_compute; reflexivity|].
  split; [apply (regularb_ok farm _ 12 "Query" tags_document); [vm_compute; reflexivity|tauto]|].
  split; [apply (regularb_ok farm _ 12 "Pet" (fr_sels tags_fragment)); [vm_compute; reflexivity|tauto]|]. split; [|split; [|split]].
  - apply along_key. intros T Po. assert (J : In T ["Query"]) by exact (proj2 (possibles_ok farm "Query" T) Po). destruct J as [<-|[]]. clear Po.
    eexists _, _. split.
    { exists "Query", "pet". split; [eapply (occ_field _ _ _ _ _ _ None); left; reflexivity|eexists; split; vm_compute; reflexivity]. }
    split; [eexists; split; [vm_compute; reflexivity|exact Logic.I]|].
    apply along_end. intros T Po'. exists tags_fragment. eapply for_here; [|reflexivity|exact Po'].
    eexists _, _. split.
    { exists "Query", "pet". split; [eapply (occ_field _ _ _ _ _ _ None); left; reflexivity|eexists; split; vm_compute; reflexivity]. }
    split; [reflexivity|]. right. left. reflexivity.
  - exists 5. shown (DObj "Q" [prop "pet" (XName "Q_pet")]). members.
    shown (DObj "Q_pet" [prop "name" (XName "string"); prop "t" any_pet; prop "u" any_pet]). members; [from_elsewhere|tauto|tauto].
  - eapply at_key; [reflexivity|constructor|constructor].
  - intros base n A. into_decl A (DAlias "F" ["F_Cat"; "F_$$other"]). destruct A as (x & [<-|[<-|[]]] & A).
    + into_decl A (DObj "F_Cat" [prop "name" (XName "string"); prop "t" (XLit "Cat"); prop "u" (XLit "Cat")]).
      destruct A as (kvs & Ev & F). injection Ev as <-. rewrite Forall_forall in F. specialize (F (prop "u" (XLit "Cat")) ltac:(cbn; tauto)). cbn in F. discriminate F.
    + into_decl A (DObj "F_$$other" [prop "t" no_cat; prop "u" no_cat]).
      destruct A as (kvs & Ev & F). injection Ev as <-. inversion F as [|? ? A _]; subst. cbn in A. destruct A as [A|A]; discriminate A.
Qed.
Print Assumptions C83_refuted_tags.
