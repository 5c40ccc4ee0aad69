(** C90: callers stay well typed when variables and input types require less. *)
From Verif Require Import RequestFacts LinkData LinkExt IntroCheck ShareWorlds GlobalRead JsonCheck WrittenEq Written FileFacts Package RespFacts InputFacts VarFacts DeclFacts RunFacts.
From Verif Require Import PropC56 PropC04 PropC43 PropC49 PropC18 PropC14 PropC35 PropC72.
From Verif Require Import Gql Json Args SpecGtext SpecJson SpecJtext GlayoutFacts PropC69 PropC73 SpecRequire.
From Verif Require SpecArgs PropC13 PropC17 PropC65 PropC67 PropC24.

(** ** Requests *)
Lemma stricter_nullable g g' : stricter g g' -> nullable g' = false -> nullable g = false.
Proof. destruct 1; cbn; auto. Qed.
Lemma stricter_input lenient (inner inner' : string -> value -> Prop) g g' : stricter g g' -> gbase g = gbase g' ->
  (forall v, inner (gbase g) v -> inner' (gbase g) v) -> forall v, ginput lenient inner g v -> ginput lenient inner' g' v.
Proof.
  intros S. induction S as [n n0|a b _ IH|a b _ IH|a b _ IH]; cbn [gbase ginput]; intros E H v.
  - subst n0. intros [->|X]; auto.
  - intros [->|[(l & -> & F)|(L & N & X)]]; auto.
    + right. left. exists l. split; auto. eapply Forall_impl; [|exact F]. apply IH; auto.
    + right. right. auto.
  - intros [X N]. auto.
  - intros [X N]. auto.
Qed.
Lemma less_value js0 js si lenient hd : requires_less js0 js -> forall n b v,
  input_value js0 si lenient hd n b v -> input_value js si lenient hd n b v.
Proof.
  intros R. induction n as [|n IH]; [intros b v []|]. intros b v [(Sb & X)|[(j & vs & w & L & K & Ev & I & ->)|(j & kvs & L & K & -> & A & B)]].
  - left. split; auto. destruct Sb as [Sb|(j0 & L & K)]; [left; exact Sb|]. right.
    destruct (rl_kinds _ _ R _ _ L) as (j & L' & K'); [rewrite K; cbn; auto|]. exists j. split; auto. congruence.
  - right. left. destruct (rl_kinds _ _ R _ _ L) as (j' & L' & K'); [rewrite K; cbn; auto|].
    destruct (rl_values _ _ R _ _ _ _ L K Ev L') as (vs' & Ev' & In'). exists j', vs', w. split; auto. split; [congruence|]. auto.
  - right. right. destruct (rl_kinds _ _ R _ _ L) as (j' & L' & K'); [rewrite K; cbn; auto|]. exists j', kvs.
    split; auto. split; [congruence|]. split; auto. split.
    + intros k x Ek. destruct (A k x Ek) as (kind & g & T & X). destruct (rl_fields _ _ R _ _ _ _ T) as (kind' & g' & T' & St & Eb).
      exists kind', g'. split; auto. revert X. apply stricter_input; auto.
    + intros k kind g T N Ek. destruct (rl_new _ _ R _ _ _ _ _ L K T N) as (kind0 & g0 & T0).
      destruct (rl_fields _ _ R _ _ _ _ T0) as (kind' & g' & T' & St & _). destruct (takes_fun _ _ _ _ _ _ _ T T') as [<- <-].
      exact (B k kind0 g0 T0 (stricter_nullable _ _ St N) Ek).
Qed.
(** What a server takes for the variables before, it takes for the variables after *)
Theorem C90_requests : forall js0 js si hd vars0 vars v, requires_less js0 js -> asks_less vars0 vars ->
  request js0 si false hd vars0 v -> request js si false hd vars v.
Proof.
  intros js0 js si hd vars0 vars v R [Inc A] (n & kvs & -> & Ks & Vs). exists n, kvs. split; auto. split; [intros k x E; apply Inc; eauto|].
  intros d I. destruct (A d I) as [(d0 & I0 & En & St & Eb)|[No Nu]].
  - specialize (Vs d0 I0). rewrite En in Vs. destruct (aget (vd_name d) kvs) as [x|].
    + revert Vs. apply stricter_input; auto. intros y. apply less_value. exact R.
    + destruct Vs as [Vs|[Vs _]]; [|discriminate]. left. destruct (nullable (vgtype d)) eqn:E; auto. rewrite (stricter_nullable _ _ St E) in Vs. discriminate.
  - destruct (aget (vd_name d) kvs) as [x|] eqn:E; [|left; exact Nu]. exfalso. apply No. eapply Ks; eauto.
Qed.
Print Assumptions C90_requests.

(** The same for scalars that may be null *)
Lemma stricter_wide (inner inner' : value -> Prop) g g' : stricter g g' -> (forall v, inner v -> inner' v) ->
  (forall v, snug_values inner g v -> snug_values inner' g' v) /\ (forall v, wide_values inner g v -> wide_values inner' g' v).
Proof.
  intros S H. induction S as [n n0|a b _ [IH1 IH2]|a b _ [IH1 IH2]|a b _ [IH1 IH2]].
  - split; [exact H|]. intros v [X|X]; [left; exact X|right; exact (H v X)].
  - assert (X : forall v, snug_values inner (GList a) v -> snug_values inner' (GList b) v).
    { intros v. rewrite !snug_list. intros (l & -> & F). exists l. split; auto. eapply Forall_impl; [|exact F]. exact IH2. }
    split; auto. intros v [Y|Y]; [left|right]; auto.
  - split; exact IH1.
  - split; [exact IH1|]. intros v X. specialize (IH1 v X). unfold wide_values. destruct b; auto.
Qed.
Lemma less_wide js0 js si : requires_less js0 js -> forall n b v, wide_value js0 si n b v -> wide_value js si n b v.
Proof.
  intros R. induction n as [|n IH]; [intros b v []|]. intros b v [(Sb & X)|[(j & vs & w & L & K & Ev & I & ->)|(j & kvs & L & K & -> & A & B)]].
  - left. split; auto. destruct Sb as [Sb|(j0 & L & K)]; [left; exact Sb|]. right.
    destruct (rl_kinds _ _ R _ _ L) as (j & L' & K'); [rewrite K; cbn; auto|]. exists j. split; auto. congruence.
  - right. left. destruct (rl_kinds _ _ R _ _ L) as (j' & L' & K'); [rewrite K; cbn; auto|].
    destruct (rl_values _ _ R _ _ _ _ L K Ev L') as (vs' & Ev' & In'). exists j', vs', w. split; auto. split; [congruence|]. auto.
  - right. right. destruct (rl_kinds _ _ R _ _ L) as (j' & L' & K'); [rewrite K; cbn; auto|]. exists j', kvs.
    split; auto. split; [congruence|]. split; auto. split.
    + intros k x Ek. destruct (A k x Ek) as (kind & g & T & X). destruct (rl_fields _ _ R _ _ _ _ T) as (kind' & g' & T' & St & Eb).
      exists kind', g'. split; auto. revert X. rewrite <- Eb. apply stricter_wide; auto.
    + intros k kind g T N Ek. destruct (rl_new _ _ R _ _ _ _ _ L K T N) as (kind0 & g0 & T0).
      destruct (rl_fields _ _ R _ _ _ _ T0) as (kind' & g' & T' & St & _). destruct (takes_fun _ _ _ _ _ _ _ T T') as [<- <-].
      exact (B k kind0 g0 T0 (stricter_nullable _ _ St N) Ek).
Qed.
Lemma less_request js0 js si vars0 vars v : requires_less js0 js -> asks_less vars0 vars -> wide_request js0 si vars0 v -> wide_request js si vars v.
Proof.
  intros R [Inc A] (n & kvs & -> & Ks & Vs). exists n, kvs. split; auto. split; [intros k x E; apply Inc; eauto|].
  intros d I. destruct (A d I) as [(d0 & I0 & En & St & Eb)|[No Nu]].
  - specialize (Vs d0 I0). rewrite En in Vs. destruct (aget (vd_name d) kvs) as [x|].
    + revert Vs. rewrite <- Eb. apply stricter_wide; auto. intros y. apply less_wide. exact R.
    + destruct (nullable (vgtype d)) eqn:E; auto. rewrite (stricter_nullable _ _ St E) in Vs. discriminate.
  - destruct (aget (vd_name d) kvs) as [x|] eqn:E; [|exact Nu]. exfalso. apply No. eapply Ks; eauto.
Qed.
Lemma request_meets js0 js si vars0 vars v : wide_request js0 si vars0 v -> wide_request js si vars v -> meets vars0 vars v.
Proof.
  intros (n & kvs & -> & Ks0 & Vs0) (n' & kvs' & E & Ks & Vs). injection E as <-. exists kvs. split; auto. split.
  - intros d [I|I] N; [specialize (Vs0 d I)|specialize (Vs d I)]; destruct (aget (vd_name d) kvs); try discriminate; congruence.
  - intros k x E. split; eauto.
Qed.

(** ** Two runs *)
(** Both exit with code 0, whatever the parser.  The variables type of a document after allows all that the
    variables type of a document before allows, if less is required; in any case what both allow has all
    variables required by one of them, and only variables of both *)
Theorem C90_run_partial : forall fuel0 fuel wo0 wo a0 a sched0 sched cf0 cf js0 s0 js s out0 out f0' f',
  let rc0 := merge_config (wo_ncpus wo0) a0 cf0 in
  let rc := merge_config (wo_ncpus wo) a cf in
  let c := cconfig_of rc in
  let e0 := wo_env wo0 in
  let e := wo_env wo in
  let f0 := wo_fs wo0 in
  let f := wo_fs wo in
  settled wo0 a0 cf0 js0 s0 -> wo_schema wo0 (rc_schema_path rc0) = SRDecoded js0 ->
  settled wo a cf js s -> wo_schema wo (rc_schema_path rc) = SRDecoded js ->
  cconfig_of rc0 = c -> inputs_proper js0 -> inputs_proper js -> flat_inputs js0 -> flat_inputs js ->
  aliases_apart c js0 -> aliases_apart c js -> cc_docnode_module c <> cc_globals_module c ->
  (forall text ds d, env_parse e0 text = Ok ds -> In d ds -> parsed_named d) ->
  (forall text ds d, env_parse e text = Ok ds -> In d ds -> parsed_named d) ->
  qlc fuel0 wo0 a0 sched0 = Exited 0 out0 f0' -> qlc fuel wo a sched = Exited 0 out f' ->
  forall path0 contents0 d0 path contents d,
    is_source (wo_listing wo0) (rc_root_dir rc0) path0 -> f0 (env_locate e0 path0) = Ok contents0 -> env_parse e0 contents0 = Ok [d0] ->
    is_source (wo_listing wo) (rc_root_dir rc) path -> f (env_locate e path) = Ok contents -> env_parse e contents = Ok [d] ->
    ~ reserved (def_name d0) -> Forall (fun v => valid_gtype (vgtype v) = true) (doc_vars d0) -> (forall x, input_typename c js0 x -> ~ declares_name (def_name d0) x) ->
    ~ reserved (def_name d) -> Forall (fun v => valid_gtype (vgtype v) = true) (doc_vars d) -> (forall x, input_typename c js x -> ~ declares_name (def_name d) x) ->
    doc_vars d0 <> [] -> doc_vars d <> [] ->
    exists text0 M0 G0 node0 text M G node,
      f0' (out_loc e0 path0) = Ok text0 /\ only_reads text0 M0 /\
      (forall x, imports_from M0 (cc_globals_module c) x ->
         module_declares G0 x /\ exists gtext, f0' (env_locate e0 (globals_path c (rc_root_dir rc0))) = Ok gtext /\ only_reads gtext G0) /\
      In (ItConst "graphqlDocument" node0 [def_name d0; def_name d0 +++ "Variables"]) M0 /\ In (ItDefault "graphqlDocument") M0 /\
      f' (out_loc e path) = Ok text /\ only_reads text M /\
      (forall x, imports_from M (cc_globals_module c) x ->
         module_declares G x /\ exists gtext, f' (env_locate e (globals_path c (rc_root_dir rc))) = Ok gtext /\ only_reads gtext G) /\
      In (ItConst "graphqlDocument" node [def_name d; def_name d +++ "Variables"]) M /\ In (ItDefault "graphqlDocument") M /\
      forall amb n v, module_allows (cc_globals_module c) G0 M0 amb n (def_name d0 +++ "Variables") v ->
        (requires_less js0 js -> asks_less (doc_vars d0) (doc_vars d) ->
           exists k, module_allows (cc_globals_module c) G M amb k (def_name d +++ "Variables") v) /\
        forall k, module_allows (cc_globals_module c) G M amb k (def_name d +++ "Variables") v -> meets (doc_vars d0) (doc_vars d) v.
Proof.
  intros fuel0 fuel wo0 wo a0 a sched0 sched cf0 cf js0 s0 js s out0 out f0' f' rc0 rc c e0 e f0 f Se0 Es0 Se Es Ec Ip0 Ip Fl0 Fl Al0 Al Dm Pn0 Pn H0 H
    path0 contents0 d0 path contents d Sp0 Er0 Ep0 Sp Er Ep Nr0 Vv0 Le0 Nr Vv Le Ne0 Ne.
  pose proof (C73_exact_partial fuel0 wo0 a0 sched0 cf0 js0 s0 out0 f0' Se0 Es0 Ip0 Fl0) as Run0. cbv zeta in Run0. fold rc0 in Run0. rewrite Ec in Run0.
  destruct (Run0 Al0 Dm Pn0 H0 path0 Sp0) as (contents0' & d0' & Er0' & Ep0' & K0). clear Run0.
  assert (contents0' = contents0) by (assert (X : f0 (env_locate e0 path0) = Ok contents0') by exact Er0'; congruence). subst contents0'.
  assert (d0' = d0) by (assert (X : env_parse e0 contents0 = Ok [d0']) by exact Ep0'; congruence). subst d0'.
  destruct (C73_exact_partial fuel wo a sched cf js s out f' Se Es Ip Fl Al Dm Pn H path Sp) as (contents' & d' & Er' & Ep' & K).
  assert (contents' = contents) by (assert (X : f (env_locate e path) = Ok contents') by exact Er'; congruence). subst contents'.
  assert (d' = d) by (assert (X : env_parse e contents = Ok [d']) by exact Ep'; congruence). subst d'.
  destruct (K0 Nr0 Vv0 Le0) as (text0 & M0 & G0 & node0 & rest0 & Et0 & Rt0 & Im0 & Ic0 & Id0 & _ & A0). destruct (A0 Ne0) as (-> & B0).
  destruct (K Nr Vv Le) as (text & M & G & node & rest & Et & Rt & Im & Ic & Id & _ & A). destruct (A Ne) as (-> & B).
  exists text0, M0, G0, node0, text, M, G, node. repeat (split; [assumption|]).
  intros amb n v Av.
  pose proof (proj1 (B0 amb v) (ex_intro _ n Av)) as Rq0. split.
  - intros R As. apply B. eapply less_request; [exact R|exact As|exact Rq0].
  - intros k Av'. pose proof (proj1 (B amb v) (ex_intro _ k Av')) as Rq. eapply request_meets; eauto.
Qed.
Print Assumptions C90_run_partial.

(** From texts to texts: both command lines, schema files and documents are read as C65, C67 and C69 say *)
Theorem C90_text_partial : forall ck complaint0 complaint jerr0 jerr help0 help version0 version fuel0 fuel wo0 wo its0 its argv0 argv a0 a nc0 nc sched0 sched cf0 cf
    stext0 stext j0 j js0 s0 js s out0 out f0' f',
  let rc0 := merge_config (wo_ncpus wo0) a0 cf0 in
  let rc := merge_config (wo_ncpus wo) a cf in
  let c := cconfig_of rc in
  let e0 := wo_env wo0 in
  let e := wo_env wo in
  let f0 := wo_fs wo0 in
  let f := wo_fs wo in
  on_disk ck complaint0 jerr0 wo0 -> on_disk ck complaint jerr wo ->
  SpecArgs.spelled its0 argv0 -> SpecArgs.consistent its0 -> SpecArgs.complete its0 -> SpecArgs.says its0 a0 nc0 ->
  SpecArgs.spelled its argv -> SpecArgs.consistent its -> SpecArgs.complete its -> SpecArgs.says its a nc ->
  settled wo0 a0 cf0 js0 s0 -> settled wo a cf js s ->
  f0 (env_locate e0 (rc_schema_path rc0)) = Ok stext0 -> text_holds stext0 j0 -> says_schema j0 js0 -> fits js0 ->
  f (env_locate e (rc_schema_path rc)) = Ok stext -> text_holds stext j -> says_schema j js -> fits js ->
  cconfig_of rc0 = c -> inputs_proper js0 -> inputs_proper js -> flat_inputs js0 -> flat_inputs js ->
  aliases_apart c js0 -> aliases_apart c js -> cc_docnode_module c <> cc_globals_module c ->
  qlc_command help0 version0 fuel0 wo0 argv0 sched0 = Exited 0 out0 f0' -> qlc_command help version fuel wo argv sched = Exited 0 out f' ->
  forall path0 contents0 d0 path contents d,
    is_source (wo_listing wo0) (rc_root_dir rc0) path0 -> f0 (env_locate e0 path0) = Ok contents0 -> text_says ck contents0 [d0] ->
    is_source (wo_listing wo) (rc_root_dir rc) path -> f (env_locate e path) = Ok contents -> text_says ck contents [d] ->
    ~ reserved (def_name d0) -> (forall x, input_typename c js0 x -> ~ declares_name (def_name d0) x) ->
    ~ reserved (def_name d) -> (forall x, input_typename c js x -> ~ declares_name (def_name d) x) ->
    doc_vars d0 <> [] -> doc_vars d <> [] ->
    exists text0 M0 G0 node0 text M G node,
      f0' (out_loc e0 path0) = Ok text0 /\ only_reads text0 M0 /\
      (forall x, imports_from M0 (cc_globals_module c) x ->
         module_declares G0 x /\ exists gtext, f0' (env_locate e0 (globals_path c (rc_root_dir rc0))) = Ok gtext /\ only_reads gtext G0) /\
      In (ItConst "graphqlDocument" node0 [def_name d0; def_name d0 +++ "Variables"]) M0 /\ In (ItDefault "graphqlDocument") M0 /\
      f' (out_loc e path) = Ok text /\ only_reads text M /\
      (forall x, imports_from M (cc_globals_module c) x ->
         module_declares G x /\ exists gtext, f' (env_locate e (globals_path c (rc_root_dir rc))) = Ok gtext /\ only_reads gtext G) /\
      In (ItConst "graphqlDocument" node [def_name d; def_name d +++ "Variables"]) M /\ In (ItDefault "graphqlDocument") M /\
      forall amb n v, module_allows (cc_globals_module c) G0 M0 amb n (def_name d0 +++ "Variables") v ->
        (requires_less js0 js -> asks_less (doc_vars d0) (doc_vars d) ->
           exists k, module_allows (cc_globals_module c) G M amb k (def_name d +++ "Variables") v) /\
        forall k, module_allows (cc_globals_module c) G M amb k (def_name d +++ "Variables") v -> meets (doc_vars d0) (doc_vars d) v.
Proof.
  intros ck complaint0 complaint jerr0 jerr help0 help version0 version fuel0 fuel wo0 wo its0 its argv0 argv a0 a nc0 nc sched0 sched cf0 cf
    stext0 stext j0 j js0 s0 js s out0 out f0' f' rc0 rc c e0 e f0 f [Hd0 Hs0] [Hd Hs] Sq0 Cn0 Cm0 Sy0 Sq Cn Cm Sy Se0 Se Es0 Th0 Sj0 Fi0 Es Th Sj Fi Ec Ip0 Ip Fl0 Fl Al0 Al Dm H0 H
    path0 contents0 d0 path contents d Sp0 Er0 Ts0 Sp Er Ts Nr0 Le0 Nr Le.
  assert (Pa0 : parse_args argv0 = URun a0 nc0) by (apply PropC65.C65_exact; eauto).
  assert (Pa : parse_args argv = URun a nc) by (apply PropC65.C65_exact; eauto).
  assert (Hq0 : qlc fuel0 wo0 a0 sched0 = Exited 0 out0 f0') by (unfold qlc_command in H0; rewrite Pa0 in H0; exact H0).
  assert (Hq : qlc fuel wo a sched = Exited 0 out f') by (unfold qlc_command in H; rewrite Pa in H; exact H).
  assert (Sc0 : wo_schema wo0 (rc_schema_path rc0) = SRDecoded js0) by (rewrite (Hs0 _ _ Es0); apply PropC67.C67_schema; eauto).
  assert (Sc : wo_schema wo (rc_schema_path rc) = SRDecoded js) by (rewrite (Hs _ _ Es); apply PropC67.C67_schema; eauto).
  assert (Pn0 : forall text ds d, env_parse e0 text = Ok ds -> In d ds -> parsed_named d).
  { intros text ds d1 E I. rewrite Hd0 in E. destruct (parse_query ck text) as [ds'|] eqn:Ep; [|discriminate]. injection E as ->. eapply C69_named; eauto. }
  assert (Pn : forall text ds d, env_parse e text = Ok ds -> In d ds -> parsed_named d).
  { intros text ds d1 E I. rewrite Hd in E. destruct (parse_query ck text) as [ds'|] eqn:Ep; [|discriminate]. injection E as ->. eapply C69_named; eauto. }
  assert (Ep0 : env_parse e0 contents0 = Ok [d0]).
  { rewrite Hd0. pose proof (proj2 (C69_text _ _ _) Ts0) as T. rewrite T. reflexivity. }
  assert (Ep : env_parse e contents = Ok [d]).
  { rewrite Hd. pose proof (proj2 (C69_text _ _ _) Ts) as T. rewrite T. reflexivity. }
  assert (Vv0 : Forall (fun v => valid_gtype (vgtype v) = true) (doc_vars d0)) by (eapply text_vars_valid; [exact Ts0|left; reflexivity]).
  assert (Vv : Forall (fun v => valid_gtype (vgtype v) = true) (doc_vars d)) by (eapply text_vars_valid; [exact Ts|left; reflexivity]).
  exact (C90_run_partial fuel0 fuel wo0 wo a0 a sched0 sched cf0 cf js0 s0 js s out0 out f0' f' Se0 Sc0 Se Sc Ec Ip0 Ip Fl0 Fl Al0 Al Dm Pn0 Pn Hq0 Hq
    path0 contents0 d0 path contents d Sp0 Er0 Ep0 Sp Er Ep Nr0 Vv0 Le0 Nr Vv Le).
Qed.
Print Assumptions C90_text_partial.

(** ** Non-vacuity: before, the tags were required, there was one mood, no order, and two variables *)
Definition stall_json : jschema :=
  [object_type "Query" [plain_field "find" (Worlds.nonnull sstring)];
   PropC24.input_type "Filter" [plain_field "tags" (Worlds.nonnull (SelWorlds.list_of (Worlds.nonnull sstring))); plain_field "mood" (Worlds.nonnull (named_type "ENUM" "Mood"))];
   enum_type "Mood" ["GLAD"]; scalar_type "String"; scalar_type "Int"].
Definition stall : schema := Eval vm_compute in match load_schema stall_json with Ok s => s | Err _ => [] end.
Definition stall_text : string := Eval vm_compute in show_json (w_schema stall_json).
Definition stall_query : string := "query Q($f: Filter!, $n: Int!) { find(filter: $f, first: $n) }".
Definition stall_files : fs := ImportWorlds.files [("./x.graphql", stall_query); ("./schema.json", stall_text)].
Definition stall_world : world :=
  {| wo_env := text_env; wo_listing := flat_listing; wo_ncpus := 4; wo_config := fun _ => CRNotFound "not found";
     wo_schema := fun p => match stall_files p with Ok t => schema_of_text "" t | Err m => SRIoError m end; wo_fs := stall_files |}.
Lemma stall_text_read : schema_of_text "" stall_text = SRDecoded stall_json.
Proof. vm_compute. reflexivity. Qed.
Lemma stall_read path contents : is_source flat_listing "." path -> stall_files (env_locate text_env path) = Ok contents ->
  path = "./x.graphql" /\ contents = stall_query.
Proof. intros ->%PropC43.flat_source E. split; [reflexivity|]. vm_compute in E |- *. congruence. Qed.
Lemma stall_step n l t : ~ imports_at plain_config "./x.graphql" stall_query n l t.
Proof.
  intros H. pose proof (PropC35.imports_target _ _ _ _ _ _ H) as (L & E). destruct H as (q & _ & (rest & Eq & _) & _).
  destruct n as [|[|n]]; vm_compute in L; try discriminate; injection L as <-. discriminate.
Qed.
Lemma stall_reach t o : ~ reach text_env stall_files plain_config "./x.graphql" stall_query t o.
Proof. intros R. induction R as [n l t o A Eo|mid mc n l t o R IH A Eo]; [eapply stall_step; eauto|exact IH]. Qed.
Lemma stall_settled : settled stall_world (args_threads 1) config_default stall_json stall.
Proof.
  constructor.
  - reflexivity.
  - apply (introb_ok stall_json stall true); vm_compute; reflexivity.
  - apply json_nameableb_ok. vm_compute. reflexivity.
  - apply PropC43.C43_nonvacuous.
  - split.
    + intros x y l Hx Hy R. apply PropC43.flat_source in Hy. subst y. change (l <> "./x.graphql.d.ts").
      destruct R as [|contents file' contents' n l t E I A]; [apply PropC43.flat_source in Hx; subst; discriminate|]. exfalso.
      destruct (stall_read _ _ Hx E) as [-> ->]. destruct I as [[-> ->]|R]; [eapply stall_step; eauto|eapply stall_reach; eauto].
    + intros x y Hx Hy _. apply PropC43.flat_source in Hx. apply PropC43.flat_source in Hy. subst. auto.
  - intros p Hp. apply PropC43.flat_source in Hp. subst. discriminate.
  - intros p. exact plain_ok.
  - intros n t nm fs G E. apply aget_In in G. cbn in G.
    repeat (destruct G as [G|G]; [injection G as <- <-; try discriminate E; cbn in E; injection E as <- <-; (split; [reflexivity|]);
      (split; [repeat constructor; cbn; intuition discriminate|]); intros fn f0 I; cbn in I;
      repeat (destruct I as [I|I]; [inversion I; subst; cbn; repeat eexists|]); contradiction|]). destruct G.
  - intros a b x y Pe Ea Eb. apply path_eqb_same in Pe. change (stall_files a = Ok x) in Ea. change (stall_files b = Ok y) in Eb. unfold stall_files, ImportWorlds.files in Ea, Eb. cbn [aget] in Ea, Eb.
    unfold eqb, EqB_string in Ea, Eb.
    destruct (String.eqb_spec a "./x.graphql") as [->|]; [|destruct (String.eqb_spec a "./schema.json") as [->|]; [|discriminate]];
    (destruct (String.eqb_spec b "./x.graphql") as [->|]; [|destruct (String.eqb_spec b "./schema.json") as [->|]; [|discriminate]]); congruence || discriminate.
  - intros path contents t o Sp E R. exfalso. destruct (stall_read _ _ Sp E) as [-> ->]. eapply stall_reach; eauto.
  - left. reflexivity.
Qed.
Lemma stall_takes T k kind g : takes stall_json T k kind g ->
  T = "Filter" /\ k = "tags" /\ kind = "SCALAR" /\ g = GNonNull (GList (GNonNull (GNamed "String"))) \/
  T = "Filter" /\ k = "mood" /\ kind = "ENUM" /\ g = GNonNull (GNamed "Mood").
Proof.
  intros (j & fs & f & L & K & Ef & Lf & Et). apply last_in in L. destruct L as [J <-]. cbn in J.
  repeat (destruct J as [<-|J]; [try discriminate K|]); try destruct J; injection Ef as <-;
    apply last_in in Lf; destruct Lf as [I <-]; cbn [In] in I.
  destruct I as [<-|[<-|[]]]; cbn [jf_type plain_field] in Et.
  - left. change (json_of "SCALAR" (GNonNull (GList (GNonNull (GNamed "String")))) = json_of kind g) in Et. apply json_of_inj in Et. destruct Et as [<- <-]. auto.
  - right. change (json_of "ENUM" (GNonNull (GNamed "Mood")) = json_of kind g) in Et. apply json_of_inj in Et. destruct Et as [<- <-]. auto.
Qed.
Lemma stall_proper : inputs_proper stall_json.
Proof.
  constructor.
  - intros T j fs k f L K Ef Lf. apply last_in in L. destruct L as [J <-]. cbn in J.
    repeat (destruct J as [<-|J]; [try discriminate K|]); try destruct J; injection Ef as <-;
      apply last_in in Lf; destruct Lf as [I <-]; cbn [In] in I.
    destruct I as [<-|[<-|[]]].
    + exists "SCALAR", (GNonNull (GList (GNonNull (GNamed "String")))). cbn. auto 8.
    + exists "ENUM", (GNonNull (GNamed "Mood")). cbn. auto 8.
  - intros T k kind g H. apply stall_takes in H. destruct H as [(_ & _ & -> & ->)|(_ & _ & -> & ->)];
      eexists; (split; [apply lastb_ok; vm_compute; reflexivity|reflexivity]).
  - intros j J I. cbn in J. repeat (destruct J as [<-|J]; [try reflexivity; cbn in I; intuition discriminate|]). destruct J.
Qed.
Lemma stall_flat : flat_inputs stall_json.
Proof. intros T k kind g H. apply stall_takes in H. destruct H as [(_ & _ & _ & ->)|(_ & _ & _ & ->)]; cbn; lia. Qed.
Lemma stall_aliases : aliases_apart plain_config stall_json.
Proof.
  intros n x _ W. cbn in W. subst x. split; [cbn; intuition discriminate|]. intros y L. apply last_in in L. destruct L as [J En]. cbn in J.
  repeat (destruct J as [<-|J]; [discriminate En|]). destruct J.
Qed.
Lemma stall_names x : input_typename plain_config stall_json x -> ~ declares_name "Q" x.
Proof.
  intros L D. assert (Q : exists r, x = String "Q" r) by (destruct D as [->|[->|(r & ->)]]; cbn; eauto).
  destruct Q as (r & ->). destruct L as [L|[(n & _ & W)|(j & L & K)]].
  - cbn in L. intuition discriminate.
  - discriminate W.
  - apply last_in in L. destruct L as [J En]. cbn in J. repeat (destruct J as [<-|J]; [try discriminate En; destruct K; discriminate|]). destruct J.
Qed.
Definition stall_doc : definition := Eval vm_compute in match parse_query lenient stall_query with Some [d] => d | _ => DFrag pet_name end.
Lemma stall_less : requires_less stall_json shop_json.
Proof.
  constructor.
  - intros n j0 L I. apply last_in in L. destruct L as [J <-]. cbn in J.
    repeat (destruct J as [<-|J]; [try (cbn in I; intuition discriminate); eexists; (split; [apply lastb_ok; vm_compute; reflexivity|reflexivity])|]). destruct J.
  - intros n j0 j vs0 L K E L'. apply last_in in L. destruct L as [J <-]. cbn in J.
    repeat (destruct J as [<-|J]; [try discriminate K|]); try destruct J. injection E as <-.
    apply last_in in L'. destruct L' as [J En]. cbn in J. repeat (destruct J as [<-|J]; [try discriminate En|]); try destruct J.
    eexists. split; [reflexivity|]. intros x [<-|[]]. left. reflexivity.
  - intros T k kind g H. apply stall_takes in H. destruct H as [(-> & -> & -> & ->)|(-> & -> & -> & ->)].
    + exists "SCALAR", (GList (GNonNull (GNamed "String"))). split; [apply shop_has|]. split; [repeat constructor|reflexivity].
    + exists "ENUM", (GNonNull (GNamed "Mood")). split; [apply shop_has|]. split; [repeat constructor|reflexivity].
  - intros T k kind g j0 L K H N. apply shop_takes in H. destruct H as [(-> & -> & -> & ->)|[(-> & -> & -> & ->)|[(-> & -> & -> & ->)|(-> & -> & -> & ->)]]]; try discriminate N.
    + exists "ENUM", (GNonNull (GNamed "Mood")). eexists _, _, _. split; [apply lastb_ok; vm_compute; reflexivity|]. split; [reflexivity|]. split; [reflexivity|].
      split; [apply lastb_ok; vm_compute; reflexivity|reflexivity].
    + apply lastb_ok in L. vm_compute in L. discriminate.
Qed.
Lemma stall_asks : asks_less (doc_vars stall_doc) (doc_vars shop_doc).
Proof.
  split; [intros x; cbn; tauto|]. intros d I. cbn in I. destruct I as [<-|[<-|[<-|[]]]].
  - left. eexists. split; [left; reflexivity|]. split; [reflexivity|]. split; [repeat constructor|reflexivity].
  - right. split; [cbn; intuition discriminate|reflexivity].
  - left. eexists. split; [right; left; reflexivity|]. split; [reflexivity|]. split; [repeat constructor|reflexivity].
Qed.
Lemma stall_exact : exists M G, leaves stall_world M G /\ forall scalar_in has_default amb v,
  (loose plain_config stall_json scalar_in amb -> request stall_json scalar_in false has_default (doc_vars stall_doc) v ->
     exists n, module_allows "graphql-globals" G M amb n "QVariables" v) /\
  (tight plain_config stall_json scalar_in amb -> forall lenient n, module_allows "graphql-globals" G M amb n "QVariables" v ->
     request stall_json scalar_in lenient has_default (doc_vars stall_doc) v).
Proof.
  assert (Pa : parse_args ["--num-threads"; "1"] = URun (args_threads 1) false) by reflexivity.
  apply PropC65.C65_exact in Pa. destruct Pa as (its & Sp & Cn & Cm & Sy).
  assert (X : exists j, text_holds stall_text j /\ says_schema j stall_json /\ fits stall_json) by (apply (PropC67.C67_schema ""); exact stall_text_read).
  destruct X as (j & Th & Sj & Fi).
  assert (H : exists out f', qlc_command "" "" 30 stall_world ["--num-threads"; "1"] (repeat 0 90) = Exited 0 out f' /\
    exists text is, f' "./x.graphql.d.ts" = Ok text /\ only_reads text is /\ In (ItImport ["Filter"] "graphql-globals") is).
  { do 2 eexists. split; [vm_compute; reflexivity|]. do 2 eexists. split; [vm_compute; reflexivity|].
    split; [unfold only_reads; apply (reads_once 2000); vm_compute; reflexivity|]. right; left; reflexivity. }
  destruct H as (out & f' & H & text & is & Et & R & I).
  assert (Dk : on_disk lenient (fun _ => "syntax error") "" stall_world).
  { split; [reflexivity|]. intros p t E. cbn [stall_world wo_schema]. cbn [stall_world wo_fs wo_env] in E. change (stall_files p = Ok t) in E. rewrite E. reflexivity. }
  destruct (C73_text_partial lenient (fun _ => "syntax error") "" "" "" 30 stall_world its ["--num-threads"; "1"] (args_threads 1) false (repeat 0 90)
    config_default stall_text j stall_json stall out f' Dk Sp Cn Cm Sy stall_settled eq_refl Th Sj Fi stall_proper stall_flat stall_aliases)
    with (path := "./x.graphql") (contents := stall_query) (d := stall_doc) as (text' & M & G & node & Et' & R' & Im & _ & _ & A).
  - discriminate.
  - exact H.
  - apply PropC43.C43_nonvacuous.
  - reflexivity.
  - apply C69_text. vm_compute. reflexivity.
  - apply reservedb_ok. reflexivity.
  - discriminate.
  - exact stall_names.
  - assert (Ex : text' = text) by (assert (X : f' "./x.graphql.d.ts" = Ok text') by exact Et'; congruence). subst text'.
    assert (Ei : M = is) by (apply R; apply R'; reflexivity). subst M.
    assert (Ii : imports_from is "graphql-globals" "Filter") by (exists ["Filter"]; split; [exact I|left; reflexivity]).
    destruct (Im _ Ii) as (_ & gtext & Eg & Rg). exists is, G. split; [exists out, f', text, gtext; auto|exact A].
Qed.
Lemma leaves_fun wo M G M' G' : leaves wo M G -> leaves wo M' G' -> M' = M /\ G' = G.
Proof.
  intros (out & f & t & gt & H & E & R & Eg & Rg) (out' & f' & t' & gt' & H' & E' & R' & Eg' & Rg').
  assert (Ef : f' = f) by (rewrite H in H'; congruence). subst f'. assert (t' = t) by congruence. assert (gt' = gt) by congruence. subst t' gt'.
  split; [apply R|apply Rg]; [apply R'|apply Rg']; reflexivity.
Qed.
Lemma stall_both : exists M0 G0 M G, leaves stall_world M0 G0 /\ leaves shop_world M G /\
  forall amb n v, module_allows "graphql-globals" G0 M0 amb n "QVariables" v ->
    exists k, module_allows "graphql-globals" G M amb k "QVariables" v.
Proof.
  destruct stall_exact as (M0 & G0 & L0 & A0). destruct shop_exact as (M & G & L & A). exists M0, G0, M, G. split; auto. split; auto.
  assert (Pa : parse_args ["--num-threads"; "1"] = URun (args_threads 1) false) by reflexivity.
  apply PropC65.C65_exact in Pa. destruct Pa as (its & Sp & Cn & Cm & Sy).
  assert (X : exists j, text_holds shop_text j /\ says_schema j shop_json /\ fits shop_json) by (apply (PropC67.C67_schema ""); exact shop_text_read).
  destruct X as (j & Th & Sj & Fi).
  assert (X : exists j, text_holds stall_text j /\ says_schema j stall_json /\ fits stall_json) by (apply (PropC67.C67_schema ""); exact stall_text_read).
  destruct X as (j0 & Th0 & Sj0 & Fi0).
  assert (Dk : on_disk lenient (fun _ => "syntax error") "" shop_world).
  { split; [reflexivity|]. intros p t E. cbn [shop_world wo_schema]. cbn [shop_world wo_fs wo_env] in E. change (shop_files p = Ok t) in E. rewrite E. reflexivity. }
  assert (Dk0 : on_disk lenient (fun _ => "syntax error") "" stall_world).
  { split; [reflexivity|]. intros p t E. cbn [stall_world wo_schema]. cbn [stall_world wo_fs wo_env] in E. change (stall_files p = Ok t) in E. rewrite E. reflexivity. }
  pose proof L as (out & f' & text & gtext & H & Et & Rt & Eg & Rg). pose proof L0 as (out0 & f0' & text0 & gtext0 & H0 & Et0 & Rt0 & Eg0 & Rg0).
  assert (I : imports_from M "graphql-globals" "Filter").
  { assert (Y : exists is, leaves shop_world is G /\ imports_from is "graphql-globals" "Filter").
    { exists M. split; auto. assert (Z : exists out f' text is, qlc_command "" "" 30 shop_world ["--num-threads"; "1"] (repeat 0 90) = Exited 0 out f' /\
        f' "./x.graphql.d.ts" = Ok text /\ only_reads text is /\ In (ItImport ["Filter"] "graphql-globals") is).
      { do 4 eexists. split; [vm_compute; reflexivity|]. split; [vm_compute; reflexivity|]. split; [unfold only_reads; apply (reads_once 2000); vm_compute; reflexivity|]. right; left; reflexivity. }
      destruct Z as (o2 & f2 & t2 & is & H2 & E2 & R2 & I2). assert (f2 = f') by (rewrite H in H2; congruence). subst f2. assert (t2 = text) by congruence. subst t2.
      assert (M = is) by (apply R2, Rt; reflexivity). subst M. exists ["Filter"]. split; [exact I2|left; reflexivity]. }
    destruct Y as (is & Li & I). destruct (leaves_fun _ _ _ _ _ L Li) as [-> _]. exact I. }
  assert (I0 : imports_from M0 "graphql-globals" "Filter").
  { assert (Z : exists out f' text is, qlc_command "" "" 30 stall_world ["--num-threads"; "1"] (repeat 0 90) = Exited 0 out f' /\
        f' "./x.graphql.d.ts" = Ok text /\ only_reads text is /\ In (ItImport ["Filter"] "graphql-globals") is).
    { do 4 eexists. split; [vm_compute; reflexivity|]. split; [vm_compute; reflexivity|]. split; [unfold only_reads; apply (reads_once 2000); vm_compute; reflexivity|]. right; left; reflexivity. }
    destruct Z as (o2 & f2 & t2 & is & H2 & E2 & R2 & I2). assert (f2 = f0') by (rewrite H0 in H2; congruence). subst f2. assert (t2 = text0) by congruence. subst t2.
    assert (M0 = is) by (apply R2, Rt0; reflexivity). subst M0. exists ["Filter"]. split; [exact I2|left; reflexivity]. }
  destruct (C90_text_partial lenient (fun _ => "syntax error") (fun _ => "syntax error") "" "" "" "" "" "" 30 30 stall_world shop_world its its ["--num-threads"; "1"] ["--num-threads"; "1"]
    (args_threads 1) (args_threads 1) false false (repeat 0 90) (repeat 0 90) config_default config_default stall_text shop_text j0 j stall_json stall shop_json shop out0 out f0' f'
    Dk0 Dk Sp Cn Cm Sy Sp Cn Cm Sy stall_settled shop_settled eq_refl Th0 Sj0 Fi0 eq_refl Th Sj Fi eq_refl stall_proper shop_proper stall_flat shop_flat stall_aliases shop_aliases)
    with (path0 := "./x.graphql") (contents0 := stall_query) (d0 := stall_doc) (path := "./x.graphql") (contents := shop_query) (d := shop_doc)
    as (t0 & M1 & G1 & n0 & t & M2 & G2 & n & E1 & R1 & Im1 & _ & _ & E2 & R2 & Im2 & _ & _ & B).
  - discriminate.
  - exact H0.
  - exact H.
  - apply PropC43.C43_nonvacuous.
  - reflexivity.
  - apply C69_text. vm_compute. reflexivity.
  - apply PropC43.C43_nonvacuous.
  - reflexivity.
  - apply C69_text. vm_compute. reflexivity.
  - apply reservedb_ok. reflexivity.
  - exact stall_names.
  - apply reservedb_ok. reflexivity.
  - exact shop_names.
  - discriminate.
  - discriminate.
  - assert (X1 : t0 = text0) by (assert (X : f0' "./x.graphql.d.ts" = Ok t0) by exact E1; congruence). subst t0.
    assert (X2 : t = text) by (assert (X : f' "./x.graphql.d.ts" = Ok t) by exact E2; congruence). subst t.
    assert (M1 = M0) by (apply Rt0, R1; reflexivity). subst M1. assert (M2 = M) by (apply Rt, R2; reflexivity). subst M2.
    destruct (Im1 _ I0) as (_ & g0 & Eq0 & Rq0). destruct (Im2 _ I) as (_ & g & Eq & Rq).
    assert (g0 = gtext0) by (assert (X : f0' "./graphql-globals.ts" = Ok g0) by exact Eq0; congruence). subst g0.
    assert (g = gtext) by (assert (X : f' "./graphql-globals.ts" = Ok g) by exact Eq; congruence). subst g.
    assert (G1 = G0) by (apply Rg0, Rq0; reflexivity). subst G1. assert (G2 = G) by (apply Rg, Rq; reflexivity). subst G2.
    intros amb k v Av. exact (proj1 (B amb k v Av) stall_less stall_asks).
Qed.
Definition stall_filter : value := VObj [("mood", VStr "GLAD"); ("tags", VList [VStr "a"])].
Definition stall_request : value := VObj [("n", VNum "7"); ("f", stall_filter)].
Lemma stall_takes_has : takes stall_json "Filter" "tags" "SCALAR" (GNonNull (GList (GNonNull (GNamed "String")))) /\ takes stall_json "Filter" "mood" "ENUM" (GNonNull (GNamed "Mood")).
Proof. split; eexists _, _, _; (split; [apply lastb_ok; vm_compute; reflexivity|]); split; [reflexivity| |reflexivity|]; (split; [reflexivity|]); (split; [apply lastb_ok; vm_compute; reflexivity|reflexivity]). Qed.
Lemma stall_requested hd : request stall_json shop_scalar false hd (doc_vars stall_doc) stall_request.
Proof.
  exists 3. eexists. split; [reflexivity|]. split.
  - intros k x E. cbn [aget] in E. unfold eqb, EqB_string in E.
    destruct (String.eqb_spec k "n") as [->|]; [cbn; auto|]. destruct (String.eqb_spec k "f") as [->|]; [cbn; auto|discriminate].
  - intros d I. cbn in I. destruct I as [<-|[<-|[]]].
    + split; [|discriminate]. right. right. right. eexists _, _. split; [apply lastb_ok; vm_compute; reflexivity|]. split; [reflexivity|]. split; [reflexivity|]. split.
      * intros k x E. cbn [aget] in E. unfold eqb, EqB_string in E.
        destruct (String.eqb_spec k "mood") as [->|]; [|destruct (String.eqb_spec k "tags") as [->|]; [|discriminate]]; injection E as <-.
        -- exists "ENUM", (GNonNull (GNamed "Mood")). split; [apply stall_takes_has|]. split; [|discriminate]. right. right. left.
           eexists _, _, _. split; [apply lastb_ok; vm_compute; reflexivity|]. split; [reflexivity|]. split; [reflexivity|]. split; [left; reflexivity|reflexivity].
        -- exists "SCALAR", (GNonNull (GList (GNonNull (GNamed "String")))). split; [apply stall_takes_has|]. split; [|discriminate]. right. left.
           eexists. split; [reflexivity|]. repeat apply Forall_cons; try apply Forall_nil. split; [|discriminate]. right. left.
           split; [left; cbn; auto|]. exists ScString. split; [constructor|cbn; eauto].
      * intros k kind g T N E. apply stall_takes in T. destruct T as [(_ & -> & _)|(_ & -> & _)]; discriminate.
    + split; [|discriminate]. right. left. split; [left; cbn; auto|]. exists ScInt. split; [constructor|cbn; eauto].
Qed.
Example C90_nonvacuous : requires_less stall_json shop_json /\ asks_less (doc_vars stall_doc) (doc_vars shop_doc) /\
  exists M0 G0 M G, leaves stall_world M0 G0 /\ leaves shop_world M G /\
    (exists n, module_allows "graphql-globals" G0 M0 disk_amb n "QVariables" stall_request) /\
    (exists n, module_allows "graphql-globals" G M disk_amb n "QVariables" stall_request) /\
    exists v, (exists n, module_allows "graphql-globals" G M disk_amb n "QVariables" v) /\ forall n, ~ module_allows "graphql-globals" G0 M0 disk_amb n "QVariables" v.
Proof.
  split; [exact stall_less|]. split; [exact stall_asks|].
  destruct stall_both as (M0 & G0 & M & G & L0 & L & B). destruct stall_exact as (M1 & G1 & L1 & A0). destruct (leaves_fun _ _ _ _ _ L0 L1) as [-> ->].
  destruct shop_exact as (M2 & G2 & L2 & A). destruct (leaves_fun _ _ _ _ _ L L2) as [-> ->].
  exists M0, G0, M, G. split; auto. split; auto.
  destruct (proj1 (A0 shop_scalar no_default disk_amb stall_request) (shop_loose _) (stall_requested _)) as (n & An).
  split; [eauto|]. split; [eapply B; exact An|].
  exists full_request. split; [apply (A shop_scalar no_default disk_amb); [apply shop_loose|apply shop_request]|].
  intros k Ak. apply (proj2 (A0 shop_scalar no_default disk_amb _) (shop_tight _) false) in Ak.
  destruct Ak as (m & kvs & E & _ & Vs). injection E as <-. cbn [doc_vars stall_doc] in Vs. specialize (Vs _ (or_introl eq_refl)).
  cbn [vd_name vgtype vd_type aget eqb EqB_string String.eqb] in Vs. destruct Vs as [[Vs|Vs] _]; [discriminate|].
  destruct m as [|m]; [destruct Vs|]. destruct Vs as [(Sb & sc & Si & X)|[(j & vs & w & _ & _ & _ & _ & X)|(j & kvs & _ & _ & E & X & _)]].
  - inversion Si; subst; destruct X.
  - discriminate X.
  - injection E as <-. destruct (X "sort" _ eq_refl) as (kind & g & T & _). apply stall_takes in T. destruct T as [(_ & T & _)|(_ & T & _)]; discriminate.
Qed.

(** ** Without the guards *)
(** A list of lists in an input object that may be left out is written as one value; one that may not be left out is
    written as a list *)
Definition strict_grid_json : jschema :=
  [object_type "Query" [plain_field "find" (Worlds.nonnull sstring)];
   PropC24.input_type "Grid" [plain_field "cells" (Worlds.nonnull (SelWorlds.list_of (Worlds.nonnull (SelWorlds.list_of (named_type "SCALAR" "Int")))))];
   scalar_type "String"; scalar_type "Int"].
Definition strict_grid_world : world :=
  {| wo_env := text_env; wo_listing := flat_listing; wo_ncpus := 4; wo_config := fun _ => CRNotFound "not found";
     wo_schema := fun _ => SRDecoded strict_grid_json; wo_fs := grid_files |}.
Lemma strict_grid_less : requires_less strict_grid_json grid_json.
Proof.
  assert (T0 : forall T k kind g, takes strict_grid_json T k kind g -> T = "Grid" /\ k = "cells" /\ kind = "SCALAR" /\ g = GNonNull (GList (GNonNull (GList (GNamed "Int"))))).
  { intros T k kind g (j & fs & f & L & K & Ef & Lf & Et). apply last_in in L. destruct L as [J <-]. cbn in J.
    repeat (destruct J as [<-|J]; [try discriminate K|]); try destruct J; injection Ef as <-. apply last_in in Lf. destruct Lf as [[<-|[]] <-].
    change (json_of "SCALAR" (GNonNull (GList (GNonNull (GList (GNamed "Int"))))) = json_of kind g) in Et. apply json_of_inj in Et. destruct Et as [<- <-]. auto. }
  constructor.
  - intros n j0 L I. apply last_in in L. destruct L as [J <-]. cbn in J.
    repeat (destruct J as [<-|J]; [try (cbn in I; intuition discriminate); eexists; (split; [apply lastb_ok; vm_compute; reflexivity|reflexivity])|]). destruct J.
  - intros n j0 j vs0 L K E L'. apply last_in in L. destruct L as [J <-]. cbn in J.
    repeat (destruct J as [<-|J]; [try discriminate K|]); try destruct J.
  - intros T k kind g H. apply T0 in H. destruct H as (-> & -> & -> & ->). exists "SCALAR", (GList (GNonNull (GList (GNamed "Int")))).
    split; [|split; [repeat constructor|reflexivity]]. eexists _, _, _. split; [apply lastb_ok; vm_compute; reflexivity|]. split; [reflexivity|]. split; [reflexivity|].
    split; [apply lastb_ok; vm_compute; reflexivity|reflexivity].
  - intros T k kind g j0 L K (j & fs & f & L' & K' & Ef & Lf & Et) N. exfalso. apply last_in in L'. destruct L' as [J _]. cbn in J.
    repeat (destruct J as [<-|J]; [try discriminate K'|]); try destruct J; injection Ef as <-. apply last_in in Lf. destruct Lf as [[<-|[]] _].
    change (json_of "SCALAR" (GList (GNonNull (GList (GNamed "Int")))) = json_of kind g) in Et. apply json_of_inj in Et. destruct Et as [<- _]. discriminate N.
Qed.
Theorem C90_refuted : requires_less strict_grid_json grid_json /\ asks_less (doc_vars grid_doc) (doc_vars grid_doc) /\
  exists M0 G0 M G, leaves strict_grid_world M0 G0 /\ leaves grid_world M G /\
    exists v, (exists n, module_allows "graphql-globals" G0 M0 disk_amb n "QVariables" v) /\ forall n, ~ module_allows "graphql-globals" G M disk_amb n "QVariables" v.
Proof.
  split; [exact strict_grid_less|]. split.
  { split; [intros x; auto|]. intros d [<-|[]]. left. eexists. split; [left; reflexivity|]. split; [reflexivity|]. split; [repeat constructor|reflexivity]. }
  assert (L0 : exists M G, leaves strict_grid_world M G /\
    module_types M = [DObj "Q" [{| m_comment := ""; m_readonly := true; m_name := "find"; m_optional := false; m_type := XName "string" |}];
                      DObj "QVariables" [{| m_comment := ""; m_readonly := false; m_name := "g"; m_optional := true; m_type := XUnion (XName "Grid") XNull |}]] /\
    imports_from M "graphql-globals" "Grid" /\
    G = [ItType (DObj "Grid" [{| m_comment := ""; m_readonly := false; m_name := "cells"; m_optional := false; m_type := XArr (XParen (XUnion (XName "number") XNull)) |}])]).
  { eexists _, _. split; [|split; [|split]].
    - do 4 eexists. split; [vm_compute; reflexivity|]. split; [vm_compute; reflexivity|]. split; [unfold only_reads; apply (reads_once 2000); vm_compute; reflexivity|].
      split; [vm_compute; reflexivity|]. unfold only_reads. apply (reads_once 2000). vm_compute. reflexivity.
    - vm_compute. reflexivity.
    - exists ["Grid"]. split; [right; left; reflexivity|left; reflexivity].
    - reflexivity. }
  assert (L : exists M G, leaves grid_world M G /\
    In (DObj "QVariables" [{| m_comment := ""; m_readonly := false; m_name := "g"; m_optional := true; m_type := XUnion (XName "Grid") XNull |}]) (module_types M) /\
    (forall d, In d (module_types M) -> decl_name d <> "Grid") /\
    In (DObj "Grid" [{| m_comment := ""; m_readonly := false; m_name := "cells"; m_optional := true; m_type := XUnion (XName "number") XNull |}]) (module_types G) /\
    (forall d, In d (module_types G) -> decl_name d <> "number") /\ (forall vs, ~ In (ItEnum "number" vs) G)).
  { eexists _, _. split.
    - do 4 eexists. split; [vm_compute; reflexivity|]. split; [vm_compute; reflexivity|]. split; [unfold only_reads; apply (reads_once 2000); vm_compute; reflexivity|].
      split; [vm_compute; reflexivity|]. unfold only_reads. apply (reads_once 2000). vm_compute. reflexivity.
    - split; [vm_compute; right; left; reflexivity|]. split; [intros d [<-|[<-|[]]]; discriminate|]. split; [vm_compute; left; reflexivity|].
      split; [intros d [<-|[]]; discriminate|]. intros vs [E|[]]. discriminate E. }
  destruct L0 as (M0 & G0 & L0 & Em & Ii & Eg). destruct L as (M & G & L & I & U & Ig & Ug & Ne).
  exists M0, G0, M, G. split; auto. split; auto. exists (VObj [("g", VObj [("cells", VList [VNum "1"])])]). split.
  - exists 3. unfold module_allows. rewrite Em. split; [|left; eexists; split; [right; left; reflexivity|reflexivity]].
    intros d J E. destruct J as [<-|[<-|[]]]; [discriminate|]. split.
    + eexists. split; [reflexivity|]. apply Forall_cons; [|apply Forall_nil]. cbn [m_name m_type aget eqb EqB_string String.eqb Ascii.eqb Bool.eqb]. left. cbn [denote].
      split; [intros d [<-|[<-|[]]] E'; discriminate E'|]. right. left. split; [exact Ii|]. subst G0. split; [left; eexists; split; [left; reflexivity|reflexivity]|].
      split; [|left; eexists; split; [left; reflexivity|reflexivity]]. intros d [<-|[]] _. split.
      * eexists. split; [reflexivity|]. apply Forall_cons; [|apply Forall_nil]. cbn [m_name m_type aget eqb EqB_string String.eqb Ascii.eqb Bool.eqb denote].
        eexists. split; [reflexivity|]. apply Forall_cons; [|apply Forall_nil]. left.
        split; [intros d [<-|[]] E'; discriminate E'|]. right. right. split; [intros vs [X|[]]; discriminate X|]. cbn. eauto.
      * intros kvs k x Ev Ek. injection Ev as <-. cbn [aget] in Ek. unfold eqb, EqB_string in Ek. destruct (String.eqb_spec k "cells") as [->|]; [left; reflexivity|discriminate].
    + intros kvs k x Ev Ek. injection Ev as <-. cbn [aget] in Ek. unfold eqb, EqB_string in Ek. destruct (String.eqb_spec k "g") as [->|]; [left; reflexivity|discriminate].
  - intros n A. apply (allows_decl _ _ _ _ _ _ A) in I; [|reflexivity]. destruct I as (m & -> & (kvs & E & F) & _). injection E as <-.
    apply Forall_inv in F. cbn [m_type m_name denote aget eqb] in F. destruct F as [F|F]; [|discriminate F].
    destruct m as [|m]; [destruct F|]. destruct F as [_ [(d & Id & Ed)|B]]; [eapply U; eauto|].
    destruct B as [[_ [_ B]]|[_ B]]; [|destruct B].
    apply (allows_decl _ _ _ _ _ _ B) in Ig; [|reflexivity]. destruct Ig as (q & _ & (kvs & E & F) & _). injection E as <-.
    apply Forall_inv in F. destruct F as [F|F]; [|discriminate F]. destruct q as [|q]; [destruct F|]. destruct F as [_ [(d & Id & Ed)|F]]; [eapply Ug; eauto|].
    destruct F as [[(vs & X) _]|[_ (r & F)]]; [eapply Ne; eauto|discriminate F].
Qed.
Print Assumptions C90_refuted.
