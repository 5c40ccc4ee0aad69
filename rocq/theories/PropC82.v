(** C82: where a document spreads a fragment, the response has the type exported for the fragment. *)
From Verif Require Import LinkData LinkExt IntroCheck ShareWorlds GlobalRead JsonCheck WrittenEq Package RespFacts RunFacts RequestFacts PropC56 PropC04 PropC43 PropC49 PropC18 PropC35.
From Verif Require Import Gql Json Args SpecGtext SpecJson SpecJtext GlayoutFacts PropC69 PropC72 PartFacts.
From Verif Require SpecArgs PropC13 PropC17 PropC65 PropC67.

(** The module of a fragment, compiled by itself.  [frags] are the fragments of any document that spreads it,
    those of the fragment's own file among them.  Nothing is asked of that document's types: it may be irregular,
    and use [@skip] and [@include] outside of the fragment.  (Full statement, false of the code: without
    [plain_wrappers], [regular], [labels_apart], [unconditional] and the condition on the names of leaf types.) *)
Theorem C82_module_partial : forall js fuel cx c o fd ws co active custom base,
  order_ok (cx_order cx) -> order_ok o -> introspection js (cx_schema cx) -> plain_wrappers js -> proper_types (cx_schema cx) ->
  document_file fuel cx c o (DFrag fd) ws co ->
  frags_valid (cx_schema cx) (cx_frags cx) (fr_sels fd) ->
  regular (cx_schema cx) (cx_frags cx) (fr_cond fd) (fun x => In x (fr_sels fd)) ->
  labels_apart (cx_schema cx) (cx_frags cx) (fr_cond fd) (fun x => In x (fr_sels fd)) ->
  (forall x, In x (fr_sels fd) -> unconditional active x) ->
  (forall n fd, aget n (cx_frags cx) = Some fd -> Forall (unconditional active) (fr_sels fd)) ->
  base_ok c js custom base -> (forall x, leaf_name c js x -> ~ declares_name (fr_name fd) x) ->
  exists m, written_as cx c (DFrag fd) co m /\ tf_args m = [fr_name fd] /\
    forall frags, (forall n fd, aget n (cx_frags cx) = Some fd -> aget n frags = Some fd) -> aget (fr_name fd) frags = Some fd ->
    forall n T M v w, unmixed js (cx_schema cx) frags active T M -> object_response js (cx_schema cx) frags active custom n T M v ->
      spread_at js (cx_schema cx) frags active custom (fr_name fd) T M v w ->
      exists k, accepts (tf_decls m) base k (fr_name fd) w.
Proof.
  intros js fuel cx c o fd ws co active custom base O O' In W Pt H Fv R L U Uf B Und.
  pose proof (intro_consistent _ _ In) as Co.
  destruct (document_described _ _ _ _ (DFrag fd) _ _ _ _ O O' Co Pt H eq_refl eq_refl Fv) as (op & ds & us & vds & vus & _ & V & _ & K & En & Ek & Ev & Rn & Rv & Eg & Et & X).
  pose proof (var_decls c _ (DFrag fd) op vds vus ltac:(constructor) Ev Rv ltac:(constructor)) as Vd.
  assert (Nd : NoDup (List.map decl_name (ds ++ vds))).
  { destruct (rnd_once c (cx_schema cx) (cx_frags cx) Co Pt) as (_ & _ & _ & Y). specialize (Y _ _ _ _ Rn _ _ K (regular_unambiguous _ _ _ _ R) L).
    apply names_app; auto.
    - destruct Vd as [->|(ms' & -> & N)]; repeat constructor. intros [].
    - intros x y I J E. destruct Vd as [->|(ms' & -> & N)]; [destruct J|]. destruct J as [<-|[]]. cbn [decl_name] in E. rewrite En in E.
      destruct (rnd_coll_names c _ _ _ _ Rn x I) as [Ex|(r & Ex)]; rewrite Ex in E.
      + rewrite <- (sapp_nil_r (def_name (DFrag fd))) in E at 1. apply sapp_inj_l in E. discriminate.
      + apply sapp_inj_l in E. discriminate. }
  assert (Ud : forall x y, leaf_name c js x -> List.In y (ds ++ vds) -> decl_name y <> x).
  { intros x y Lx J E. apply (Und x Lx). unfold declares_name. rewrite <- E. apply in_app_or in J. destruct J as [J|J].
    - destruct (rnd_coll_names c _ _ _ _ Rn y J) as [Ex|(r & Ex)]; eauto.
    - destruct Vd as [->|(ms' & -> & N)]; [destruct J|]. destruct J as [<-|[]]. cbn [decl_name]. rewrite En. auto. }
  exists (file_of c op (ds ++ vds) (co_globals co)).
  split; auto. split.
  { cbn [file_of tf_args]. unfold node_args. rewrite En, Ek. reflexivity. }
  intros frags More Fd n T M v w Um Rs Sp. cbn [file_of tf_decls].
  destruct (spread_place _ _ _ _ _ _ _ _ _ _ Sp n Um Rs) as (T' & M' & fd' & k & Ap & Um' & Rs').
  destruct (applied_found _ _ _ _ _ _ _ Ap) as [Fd' Po]. rewrite Fd in Fd'. injection Fd' as <-.
  exists (S (k + k)).
  apply (object_shown c js (cx_schema cx) frags (cx_frags cx) active custom base (ds ++ vds) In W More Uf B Nd Ud k T' (fr_cond fd) (fun x => List.In x (fr_sels fd)) M'); auto.
  - apply X; auto. intros y J. apply in_or_app. auto.
  - apply valid_in. exact V.
  - intros key fld ss C. eapply applied_collects; eauto.
Qed.
Print Assumptions C82_module_partial.

(** The fragments of an imported file are fragments of the file that imports it *)
Lemma frags_through e f c path contents frags t o frags1 : reach e f c path contents t o ->
  PropC07.imported_fragments e f c path contents frags -> imported_fragments e f c t o frags1 ->
  forall n fd, aget n frags1 = Some fd -> aget n frags = Some fd.
Proof.
  intros R If (If1 & _) n fd E. apply If. destruct (If1 n fd E) as (t' & o' & R' & Hf & En). exists t', o'. split; auto. eapply reach_trans; eauto.
Qed.

(** A run with exit code 0.  The source at [path] imports, perhaps through other files, the file [t] of a fragment.
    The output for [t] exports a constant whose type argument is the fragment's name; and that name accepts every
    object, of every response to the document, for which the fragment is executed *)
Theorem C82_run_partial : forall fuel wo a sched cf js s out f',
  let rc := merge_config (wo_ncpus wo) a cf in
  let c := cconfig_of rc in
  let e := wo_env wo in
  let ls := wo_listing wo in
  let root := rc_root_dir rc in
  let f := wo_fs wo in
  let gl := env_locate e (globals_path c root) in
  settled wo a cf js s -> wo_schema wo (rc_schema_path rc) = SRDecoded js ->
  plain_wrappers js -> aliases_apart c js -> cc_docnode_module c <> cc_globals_module c ->
  (forall text ds d, env_parse e text = Ok ds -> In d ds -> parsed_named d) ->
  qlc fuel wo a sched = Exited 0 out f' ->
  forall path contents frags t o fd frags1, is_source ls root path -> f (env_locate e path) = Ok contents ->
    PropC07.imported_fragments e f c path contents frags ->
    reach e f c path contents t o -> holds_fragment e o fd -> PropC07.imported_fragments e f c t o frags1 ->
    ~ reserved (fr_name fd) -> (forall x, leaf_name c js x -> ~ declares_name (fr_name fd) x) ->
    regular s frags1 (fr_cond fd) (fun x => In x (fr_sels fd)) -> labels_apart s frags1 (fr_cond fd) (fun x => In x (fr_sels fd)) ->
    exists text M G node,
      f' (out_loc e t) = Ok text /\ only_reads text M /\
      (forall x, imports_from M (cc_globals_module c) x ->
         module_declares G x /\ exists gtext, f' gl = Ok gtext /\ only_reads gtext G) /\
      In (ItConst "graphqlDocument" node [fr_name fd]) M /\ In (ItDefault "graphqlDocument") M /\
      forall active custom amb, surroundings c js custom amb ->
        (forall x, In x (fr_sels fd) -> unconditional active x) ->
        (forall n fd, aget n frags1 = Some fd -> Forall (unconditional active) (fr_sels fd)) ->
        forall n T l v w, unmixed js s frags active T (fun x => In x l) ->
          object_response js s frags active custom n T (fun x => In x l) v ->
          spread_at js s frags active custom (fr_name fd) T (fun x => In x l) v w ->
          exists k, module_accepts (cc_globals_module c) G M amb k (fr_name fd) w.
Proof.
  intros fuel wo a sched cf js s out f' rc c e ls root f gl Se Es Pw Al Dm Pn H path contents frags t o fd frags1 Sp Er If Re Hf If1 Nr Le R Lb.
  pose proof Se as [_ In0 Jn _ _ _ _ _ _ Sc _]. pose proof (loaded_nameable _ _ _ (in_loaded _ _ In0) Jn) as Nm.
  assert (St : is_source ls root t) by (eapply Sc; eauto).
  assert (Eo : f (env_locate e t) = Ok o) by (destruct Re; auto).
  destruct (run_module fuel wo a sched cf js s out f' Se Es Al Dm Pn H t St) as (o' & d & frags2 & ws & co & Eo' & Ep & Ic & D & Oc & Od & Rm).
  assert (o' = o) by (assert (X : f (env_locate e t) = Ok o') by exact Eo'; congruence). subst o'.
  assert (d = DFrag fd) by (assert (X : env_parse e o = Ok [d]) by exact Ep; unfold holds_fragment in Hf; congruence). subst d.
  pose proof (fragments_agree _ _ _ _ _ _ _ Ic If1) as Ag.
  destruct (Rm eq_refl Nr) as (M & G & P & l & node & rest & Ew & Or & Im & Ico & Ide & Dr & V & Fv & Rf & Acc & _).
  injection Dr as <- <-.
  pose proof (Rf fd eq_refl) as Rest.
  subst rest.
  exists (co_contents co), M, G, node. repeat (split; [assumption|]).
  intros active custom amb Sur U Uf n T l v w Um Rs Spr.
  destruct (C82_module_partial js fuel (file_ctx e c s t frags2) c (suborder (env_order e t) [2; 0]) fd ws co active custom (outside js amb)
    Oc Od In0 Pw (nameable_proper _ _ Nm) D Fv) as (m & W4 & _ & A).
  - cbn [file_ctx cx_schema cx_frags]. eapply regular_ext; [intros x; symmetry; apply Ag|exact R|tauto].
  - eapply labels_apart_ext; [intros x; symmetry; apply Ag|exact Lb|tauto].
  - exact U.
  - cbn [file_ctx cx_frags]. intros x fd' E. apply (Uf x). rewrite <- Ag. exact E.
  - exact (outside_ok c js custom amb Jn Al Sur).
  - exact Le.
  - destruct (A frags) with (n := n) (T := T) (M := fun x => In x l) (v := v) (w := w) as (k & Ak); auto.
    + cbn [file_ctx cx_frags]. eapply frags_through; eauto.
    + apply If. exists t, o. auto.
    + exact (Acc m amb k w W4 Ak).
Qed.
Print Assumptions C82_run_partial.

(** *** From texts to texts *)
Theorem C82_text_partial : forall ck complaint jerr help version fuel wo its argv a nc sched cf stext j js s out f',
  let rc := merge_config (wo_ncpus wo) a cf in
  let c := cconfig_of rc in
  let e := wo_env wo in
  let ls := wo_listing wo in
  let root := rc_root_dir rc in
  let f := wo_fs wo in
  let gl := env_locate e (globals_path c root) in
  on_disk ck complaint jerr wo ->
  SpecArgs.spelled its argv -> SpecArgs.consistent its -> SpecArgs.complete its -> SpecArgs.says its a nc ->
  settled wo a cf js s ->
  f (env_locate e (rc_schema_path rc)) = Ok stext -> text_holds stext j -> says_schema j js -> fits js ->
  plain_wrappers js -> aliases_apart c js -> cc_docnode_module c <> cc_globals_module c ->
  qlc_command help version fuel wo argv sched = Exited 0 out f' ->
  forall path contents frags t o fd frags1 active custom amb, is_source ls root path ->
    f (env_locate e path) = Ok contents -> PropC07.imported_fragments e f c path contents frags ->
    reach e f c path contents t o -> text_says ck o [DFrag fd] -> PropC07.imported_fragments e f c t o frags1 ->
    ~ reserved (fr_name fd) -> (forall x, leaf_name c js x -> ~ declares_name (fr_name fd) x) ->
    regular s frags1 (fr_cond fd) (fun x => In x (fr_sels fd)) -> labels_apart s frags1 (fr_cond fd) (fun x => In x (fr_sels fd)) ->
    surroundings c js custom amb ->
    (forall x, In x (fr_sels fd) -> unconditional active x) ->
    (forall n fd, aget n frags1 = Some fd -> Forall (unconditional active) (fr_sels fd)) ->
    exists text M G node,
      f' (out_loc e t) = Ok text /\ only_reads text M /\
      (forall x, imports_from M (cc_globals_module c) x ->
         module_declares G x /\ exists gtext, f' gl = Ok gtext /\ only_reads gtext G) /\
      In (ItConst "graphqlDocument" node [fr_name fd]) M /\ In (ItDefault "graphqlDocument") M /\
      forall d P l, text_says ck contents [d] -> doc_root d = Some (P, l) ->
      forall n T v w, possible s P T -> unmixed js s frags active T (fun x => In x l) ->
        object_response js s frags active custom n T (fun x => In x l) v ->
        spread_at js s frags active custom (fr_name fd) T (fun x => In x l) v w ->
        exists k, module_accepts (cc_globals_module c) G M amb k (fr_name fd) w.
Proof.
  intros ck complaint jerr help version fuel wo its argv a nc sched cf stext j js s out f' rc c e ls root f gl
    [Hd Hs] Sp Cn Cm Sy Se Es Th Sj Fi Pw Al Dm H path contents frags t o fd frags1 active custom amb Src Ec If Re Ts If1 Nr Le R Lb Sur U Uf.
  assert (Pa : parse_args argv = URun a nc) by (apply PropC65.C65_exact; eauto).
  assert (Hq : qlc fuel wo a sched = Exited 0 out f') by (unfold qlc_command in H; rewrite Pa in H; exact H).
  assert (Sc : wo_schema wo (rc_schema_path rc) = SRDecoded js).
  { rewrite (Hs _ _ Es). apply PropC67.C67_schema. eauto. }
  assert (Pn : forall text ds d, env_parse e text = Ok ds -> In d ds -> parsed_named d).
  { intros text ds d0 E I. rewrite Hd in E. destruct (parse_query ck text) as [ds'|] eqn:Ep; [|discriminate]. injection E as ->. eapply C69_named; eauto. }
  assert (Hf : holds_fragment e o fd).
  { unfold holds_fragment. rewrite Hd. apply C69_text in Ts. rewrite Ts. reflexivity. }
  destruct (C82_run_partial fuel wo a sched cf js s out f' Se Sc Pw Al Dm Pn Hq path contents frags t o fd frags1 Src Ec If Re Hf If1 Nr Le R Lb)
    as (text & M & G & node & Et & Rt & Im & Ico & Ide & A).
  exists text, M, G, node. repeat (split; [assumption|]). intros d P l _ _ n T v w _. exact (A active custom amb Sur U Uf n T l v w).
Qed.
Print Assumptions C82_text_partial.

(** ** Non-vacuity: the files of C72; the query asks for more below [owner] than the fragment it spreads *)
Definition disk_pet : value :=
  VObj [("name", VStr "Rex");
        ("owner", VObj [("mood", VStr "SAD"); ("name", VStr "Kim"); ("pet", VObj [("__typename", VStr "Eel"); ("name", VStr "Al")])])].
Lemma disk_imports_fragment : reach text_env disk_files plain_config "./g.graphql" barn_query "./n.graphql" barn_fragment.
Proof.
  eapply (reach_one _ _ _ _ _ 0 (import_mark +++ "n.graphql" +++ String quote "")); [|vm_compute; reflexivity].
  exists "n.graphql". split; [split; [vm_compute; reflexivity|intros k l' Lt; lia]|]. split.
  - exists "". split; [reflexivity|]. intros X. inversion X.
  - apply (resolves_root plain_config _ "n.graphql").
    + intros r (p & X & _). discriminate.
    + intros r. discriminate.
Qed.
Lemma disk_alone : PropC07.imported_fragments text_env disk_files plain_config "./n.graphql" barn_fragment [].
Proof.
  intros n fd. split; [discriminate|]. intros (t & o & R & _).
  assert (K : forall n l t, ~ imports_at plain_config "./n.graphql" barn_fragment n l t).
  { intros k l t' (r & ([E _] & Ni & _)). destruct Ni as (x & Ex & _). destruct k as [|[|k]]; vm_compute in E; try discriminate. injection E as <-. discriminate Ex. }
  exfalso. clear - R K. induction R as [k l t o A _|mid mc k l t o _ IH _ _]; [exact (K _ _ _ A)|exact IH].
Qed.
Lemma disk_spread : spread_at farm_json farm [("PetName", disk_fragment)] (active_of always) no_custom "PetName" "Query" (fun x => In x disk_sels) good_response disk_pet.
Proof.
  eapply (sp_below _ _ _ _ _ _ _ _ _ "pet" "pet" _ _ _ disk_pet disk_pet "Dog" 7).
  - left. reflexivity.
  - eapply (col_field _ _ _ _ _ _ None). left. reflexivity. reflexivity.
  - apply find_declared. vm_compute. reflexivity.
  - constructor.
  - apply possibles_ok. vm_compute. tauto.
  - eapply response_ext; [|apply respb_ok with (l := match disk_sels with SField _ _ _ _ _ sub :: _ => sub | _ => [] end)].
    + intros z. split.
      * intros Iz. eexists "pet", _. split; [eapply (col_field _ _ _ _ _ _ None); [left; reflexivity|reflexivity]|exact Iz].
      * intros (fld & ss & C & Iz).
        assert (E : exists r, cols farm [("PetName", disk_fragment)] always 9 "Query" disk_sels = Some r /\ forall fld ss, In ("pet", fld, ss) r ->
          ss = match disk_sels with SField _ _ _ _ _ sub :: _ => sub | _ => [] end).
        { eexists. split; [vm_compute; reflexivity|]. intros f1 s1 [X|[X|[]]]; [injection X as _ <-; reflexivity|discriminate X]. }
        destruct E as (r & E & X). apply (cols_ok _ _ _ no_custom _ _ _ _ E) in C. rewrite <- (X _ _ C). exact Iz.
    + vm_compute. reflexivity.
  - eapply (sp_here _ _ _ _ _ _ _ _ _ disk_fragment). eapply app_here; [|reflexivity|reflexivity|apply possibles_ok; vm_compute; tauto].
    eexists "pet", _. split; [eapply (col_field _ _ _ _ _ _ None); [left; reflexivity|reflexivity]|]. left. reflexivity.
Qed.

Lemma disk_unmixed : unmixed farm_json farm [("PetName", disk_fragment)] (active_of always) "Query" (fun x => In x disk_sels).
Proof. apply (unmixedb_ok _ _ _ _ farm_intro 9). vm_compute. reflexivity. Qed.
Lemma disk_fragment_regular : regular farm [] (fr_cond disk_fragment) (fun x => In x (fr_sels disk_fragment)).
Proof. apply (regularb_ok farm _ 12 "Pet" (fr_sels disk_fragment)); [vm_compute; reflexivity|tauto]. Qed.
Lemma disk_fragment_labels : labels_apart farm [] (fr_cond disk_fragment) (fun x => In x (fr_sels disk_fragment)).
Proof.
  apply plain_apart. apply (clean_labels farm [] farm_types_plain); [|exact farm_typename|apply regular_nested; exact disk_fragment_regular|].
  - intros n fd E. discriminate E.
  - apply Forall_forall. repeat (constructor; try (left; reflexivity); try (right; unfold no_underscore; cbn; intuition discriminate)).
Qed.
Lemma pet_name_leaves x : leaf_name plain_config farm_json x -> ~ declares_name "PetName" x.
Proof.
  intros L D.
  assert (Q : exists r, x = "PetName" +++ r).
  { destruct D as [->|[->|(r & ->)]]; [exists ""|exists "Variables"|exists ("_" +++ r)]; reflexivity. }
  destruct Q as (r & ->). destruct L as [L|[(n & Si & _ & j & L & K)|(j & L & K)]].
  - cbn in L. intuition discriminate.
  - apply last_in in L. destruct L as [J En]. cbn in J. repeat (destruct J as [<-|J]; [try discriminate K|]); try destruct J.
    cbn in En. subst n. inversion Si as [| | | | |? Ns]. apply Ns. cbn. auto.
  - apply last_in in L. destruct L as [J En]. cbn in J. repeat (destruct J as [<-|J]; [try discriminate K; try discriminate En|]); try destruct J.
Qed.
Example C82_nonvacuous : exists out f' text M G node,
  qlc_command "" "" 30 disk_world ["--num-threads"; "1"] (repeat 0 90) = Exited 0 out f' /\
  f' "./n.graphql.d.ts" = Ok text /\ only_reads text M /\ In (ItConst "graphqlDocument" node ["PetName"]) M /\
  object_response farm_json farm [("PetName", disk_fragment)] (active_of always) no_custom 8 "Query" (fun x => In x disk_sels) good_response /\
  spread_at farm_json farm [("PetName", disk_fragment)] (active_of always) no_custom "PetName" "Query" (fun x => In x disk_sels) good_response disk_pet /\
  exists n, module_accepts "graphql-globals" G M disk_amb n "PetName" disk_pet.
Proof.
  assert (Pa : parse_args ["--num-threads"; "1"] = URun (args_threads 1) false) by reflexivity.
  apply PropC65.C65_exact in Pa. destruct Pa as (its & Sp & Cn & Cm & Sy).
  assert (X : exists j, text_holds farm_text j /\ says_schema j farm_json /\ fits farm_json) by (apply (PropC67.C67_schema ""); exact farm_text_read).
  destruct X as (j & Th & Sj & Fi).
  assert (H : exists out f', qlc_command "" "" 30 disk_world ["--num-threads"; "1"] (repeat 0 90) = Exited 0 out f').
  { do 2 eexists. vm_compute. reflexivity. }
  destruct H as (out & f' & H).
  assert (Dk : on_disk lenient (fun _ => "syntax error") "" disk_world).
  { split; [reflexivity|]. intros p t E. cbn [disk_world wo_schema]. cbn [disk_world wo_fs wo_env] in E. change (disk_files p = Ok t) in E. rewrite E. reflexivity. }
  assert (Rs : object_response farm_json farm [("PetName", disk_fragment)] (active_of always) no_custom 8 "Query" (fun x => In x disk_sels) good_response).
  { apply respb_ok. vm_compute. reflexivity. }
  destruct (C82_text_partial lenient (fun _ => "syntax error") "" "" "" 30 disk_world its ["--num-threads"; "1"] (args_threads 1) false (repeat 0 90)
    config_default farm_text j farm_json farm out f' Dk Sp Cn Cm Sy disk_settled eq_refl Th Sj Fi farm_wrappers)
    with (path := "./g.graphql") (contents := barn_query) (frags := [("PetName", disk_fragment)]) (t := "./n.graphql") (o := barn_fragment)
         (fd := disk_fragment) (frags1 := @nil (string * fragdef))
         (active := active_of always) (custom := no_custom) (amb := disk_amb) as (text & M & G & node & Et & R & _ & Ico & _ & A).
  - intros n x _ W. cbn in W. subst x. split; [cbn; intuition discriminate|]. intros y L. apply last_in in L. destruct L as [J En]. cbn in J.
    repeat (destruct J as [<-|J]; [discriminate En|]). destruct J.
  - discriminate.
  - exact H.
  - apply PropC35.pair_is_source. auto.
  - reflexivity.
  - exact disk_fragments.
  - exact disk_imports_fragment.
  - apply C69_text. vm_compute. reflexivity.
  - exact disk_alone.
  - apply reservedb_ok. reflexivity.
  - exact pet_name_leaves.
  - exact disk_fragment_regular.
  - exact disk_fragment_labels.
  - exact disk_surroundings.
  - intros x _. apply all_unconditional.
  - intros n fd E. discriminate E.
  - exists out, f', text, M, G, node. split; [exact H|]. split; [exact Et|]. split; [exact R|]. split; [exact Ico|]. split; [exact Rs|]. split; [exact disk_spread|].
    apply (A disk_doc "Query" disk_sels) with (n := 8) (T := "Query") (v := good_response).
    + apply C69_text. vm_compute. reflexivity.
    + reflexivity.
    + apply possibles_ok. vm_compute. auto.
    + exact disk_unmixed.
    + exact Rs.
    + exact disk_spread.
Qed.

(** ** Refutation: object types that share a declaration of the fragment (the sharing of C04) *)
Definition split_fragment : fragdef :=
  frag "F" "Pet" [on 3 "Cat" [node 3 "owner" [leaf 3 "name"]]; on 4 "Dog" [node 4 "owner" [leaf 4 "mood"]]; on 5 "Eel" [node 5 "owner" [leaf 5 "name"]]].
Definition split_fragment_module : tsfile :=
  {| tf_node := "FragmentDocumentNode"; tf_node_from := cc_docnode_module plain_config; tf_globals := [];
     tf_globals_from := cc_globals_module plain_config;
     tf_decls := [DObj "F_owner" [prop "name" (XName "string")]; DObj "F" [prop "owner" (XName "F_owner")]];
     tf_args := ["F"] |}.
Definition split_document : list selection := [node 2 "pet" [spread 3 "F"]].
Theorem C82_refuted : exists ws co, let pet := VObj [("owner", VObj [("mood", VStr "GLAD")])] in
  document_file 20 (farm_cx []) plain_config plain_order (DFrag split_fragment) ws co /\ reads_as co split_fragment_module /\
  valid_sels farm [("F", split_fragment)] "Query" split_document /\
  unmixed farm_json farm [("F", split_fragment)] (active_of always) "Query" (fun x => In x split_document) /\
  object_response farm_json farm [("F", split_fragment)] (active_of always) no_custom 5 "Query" (fun x => In x split_document) (VObj [("pet", pet)]) /\
  spread_at farm_json farm [("F", split_fragment)] (active_of always) no_custom "F" "Query" (fun x => In x split_document) (VObj [("pet", pet)]) pet /\
  rejected split_fragment_module "F" pet.
Proof.
  do 2 eexists. cbv zeta. split; [eexists; split; vm_compute; reflexivity|].
  split; [apply (reads_by 2000); vm_compute; reflexivity|]. split; [apply (validb_ok _ _ 9); vm_compute; reflexivity|].
  split; [apply (unmixedb_ok _ _ _ _ farm_intro 9); vm_compute; reflexivity|]. split; [apply respb_ok; vm_compute; reflexivity|]. split.
  - assert (Sub : picked_below farm [("F", split_fragment)] (active_of always) "Query" (fun x => In x split_document) "pet" (spread 3 "F")).
    { eexists "pet", _. split; [eapply (col_field _ _ _ _ _ _ None); [left; reflexivity|reflexivity]|]. left. reflexivity. }
    eapply (sp_below _ _ _ _ _ _ _ _ _ "pet" "pet" _ _ _ _ _ "Dog" 4).
    + left. reflexivity.
    + eapply (col_field _ _ _ _ _ _ None). left. reflexivity. reflexivity.
    + apply find_declared. vm_compute. reflexivity.
    + constructor.
    + apply possibles_ok. vm_compute. tauto.
    + eapply response_ext; [|apply respb_ok with (l := [spread 3 "F"])].
      * intros z. split; [intros [<-|[]]; exact Sub|]. intros (fld & ss & C & Iz).
        assert (E : exists r, cols farm [("F", split_fragment)] always 9 "Query" split_document = Some r /\ forall fld ss, In ("pet", fld, ss) r -> ss = [spread 3 "F"]).
        { eexists. split; [vm_compute; reflexivity|]. intros f1 s1 [X|[]]. injection X as _ <-. reflexivity. }
        destruct E as (r & E & X). apply (cols_ok _ _ _ no_custom _ _ _ _ E) in C. rewrite <- (X _ _ C). exact Iz.
      * vm_compute. reflexivity.
    + eapply (sp_here _ _ _ _ _ _ _ _ _ split_fragment). eapply app_here; [exact Sub|reflexivity|reflexivity|apply possibles_ok; vm_compute; tauto].
  - intros base n A. into_decl A (DObj "F" [prop "owner" (XName "F_owner")]).
    destruct A as (kvs & Ev & F). injection Ev as <-. inversion F as [|? ? A _]; subst. cbn in A.
    into_decl A (DObj "F_owner" [prop "name" (XName "string")]).
    destruct A as (kvs & Ev & F2). injection Ev as <-. inversion F2 as [|? ? A _]; subst. cbn in A. discriminate.
Qed.
Print Assumptions C82_refuted.
