(** C72: what a server answers has the type exported for the document, from texts to texts. *)
From Verif Require Import LinkData LinkExt IntroCheck ShareWorlds GlobalRead JsonCheck WrittenEq Package RespFacts RunFacts PropC56 PropC04 PropC43 PropC49 PropC18 PropC35.
From Verif Require Import Gql Json Args SpecGtext SpecJson SpecJtext GlayoutFacts PropC69.
From Verif Require SpecArgs PropC13 PropC17 PropC65 PropC67.

Lemma nameable_proper c s : nameable c s -> proper_types s.
Proof. intros Nm P T Po ->. pose proof (nm_possible _ _ Nm _ _ Po) as G. vm_compute in G. destruct G; discriminate. Qed.

(** The output of a source as a module [M], with the statements [G] of the globals module it imports from: what the
    declarations accept, with the enums as they should be, the two modules accept together *)
Lemma run_module : forall fuel wo a sched cf js s out f',
  let rc := merge_config (wo_ncpus wo) a cf in
  let c := cconfig_of rc in
  let e := wo_env wo in
  let ls := wo_listing wo in
  let root := rc_root_dir rc in
  let f := wo_fs wo in
  let gl := env_locate e (globals_path c root) in
  settled wo a cf js s -> wo_schema wo (rc_schema_path rc) = SRDecoded js ->
  aliases_apart c js -> cc_docnode_module c <> cc_globals_module c ->
  (forall text ds d, env_parse e text = Ok ds -> In d ds -> parsed_named d) ->
  qlc fuel wo a sched = Exited 0 out f' ->
  forall path, is_source ls root path -> exists contents d frags ws co,
    f (env_locate e path) = Ok contents /\ env_parse e contents = Ok [d] /\ imported_fragments e f c path contents frags /\
    document_file fuel (file_ctx e c s path frags) c (suborder (env_order e path) [2; 0]) d ws co /\
    order_ok (cx_order (file_ctx e c s path frags)) /\ order_ok (suborder (env_order e path) [2; 0]) /\
    (is_subscription d = false -> ~ reserved (def_name d) ->
     exists M G P l node rest,
       f' (out_loc e path) = Ok (co_contents co) /\ only_reads (co_contents co) M /\
       (forall x, imports_from M (cc_globals_module c) x ->
          module_declares G x /\ exists gtext, f' gl = Ok gtext /\ only_reads gtext G) /\
       In (ItConst "graphqlDocument" node (def_name d :: rest)) M /\ In (ItDefault "graphqlDocument") M /\
       doc_root d = Some (P, l) /\ valid_sels s frags P l /\ frags_valid s frags l /\ (forall fd, d = DFrag fd -> rest = []) /\
       (forall m amb n v, written_as (file_ctx e c s path frags) c d co m -> accepts (tf_decls m) (outside js amb) n (def_name d) v ->
         exists k, module_accepts (cc_globals_module c) G M amb k (def_name d) v) /\
       (forall m amb n v, written_as (file_ctx e c s path frags) c d co m -> module_accepts (cc_globals_module c) G M amb n (def_name d) v ->
         accepts (tf_decls m) (outside_or_input js amb) n (def_name d) v)).
Proof.
  intros fuel wo a sched cf js s out f' rc c e ls root f gl Se Es Al Dm Pn H path Sp.
  pose proof Se as [_ In0 Jn _ _ _ _ _ _ _ _]. pose proof (in_loaded _ _ In0) as L. pose proof (intro_consistent _ _ In0) as Co.
  pose proof (loaded_nameable _ _ _ L Jn) as Nm.
  destruct (run_linked fuel wo a sched cf js s out f' Se Es Pn H) as (Outs & Gt & Globs).
  destruct (Outs path Sp) as (contents & d & frags & ws & co & Er & Ep & Ic & D & Oc & Od & Eo & Va & Dn & Ug).
  exists contents, d, frags, ws, co. split; [exact Er|]. split; [exact Ep|]. split; [exact Ic|].
  split; [exact D|]. split; [exact Oc|]. split; [exact Od|]. intros Su Nr.
  destruct (Va Su) as (P & l & Dr & V & Fv). specialize (Dn Nr).
  destruct (PropC17.C17_closed _ _ _ _ _ _ _ Oc Od Co D) as (m & W & Cl & Us & Ar).
  destruct (PropC13.C13_partial _ _ _ _ _ _ _ Oc Od Co D Su) as (m1 & W1 & En & Ea & _).
  pose proof (written_same _ _ _ _ _ _ W1 W Nm Dn) as X1. pose proof (items_inj _ _ X1) as (E1 & _ & _ & E2).
  destruct (document_inv _ _ _ _ _ _ _ Oc Od Co D) as (P' & p' & l' & op & ds & us & vds & vus & _ & _ & _ & _ & _ & _ & _ & _ & _ & Eg & W3).
  pose proof (written_same _ _ _ _ _ _ W3 W Nm Dn) as X3. pose proof (items_inj _ _ X3) as (_ & Eg' & _). cbn [file_of tf_globals] in Eg'.
  assert (Gin : forall n, In n (tf_globals m) -> uses_global fuel e ls c s root f n).
  { intros n J. rewrite <- Eg' in J. eapply Permutation_in in J; [|symmetry; apply sort_by_perm]. apply Ug. exact J. }
  assert (Gf : tf_globals m <> [] -> tf_globals_from m = cc_globals_module c).
  { intros Ne. unfold tsfile_items in X3. injection X3 as _ _ X3. cbn [file_of tf_globals tf_globals_from] in X3. rewrite Eg' in X3.
    destruct (tf_globals m); [congruence|]. injection X3. auto. }
  assert (Nf : tf_node_from m = cc_docnode_module c) by (unfold tsfile_items in X3; injection X3 as _ E _; symmetry; exact E).
  assert (Nn : In (tf_node m) node_names).
  { rewrite <- E1, En. destruct d as [[? ?|[] ? ? ? ? ?]|]; cbn; auto. }
  assert (Ga : exists G (lj : list (string * jtypedef)), Forall2 (fun x it => stmt_for c (fst x) (snd x) it) lj G /\
            (forall n j, In (n, j) lj -> last_named jt_name n js j) /\
            (forall n, In n (tf_globals m) -> In n (List.map fst lj)) /\
            (tf_globals m <> [] -> exists gtext, f' gl = Ok gtext /\ only_reads gtext G)).
  { destruct (tf_globals m) as [|g gs] eqn:Et.
    - exists [], []. split; [constructor|]. split; [intros n j []|]. split; [intros n []|congruence].
    - destruct Globs as (gtext & lj & G & Eg2 & Og & _ & Fg & Kl & Kg). { exists g. apply Gin. left; auto. }
      exists G, lj. split; auto. split; auto. split; [|eauto]. intros n J. apply Kg. split; [exists n; split; [apply Gin; auto|constructor]|].
      destruct (Gt n (Gin n J)) as (t & Gn & _). congruence. }
  destruct Ga as (G & lj & Fg & Kl & Gl & Gr).
  assert (Ta : exists rest, tf_args m = def_name d :: rest /\ forall fd, d = DFrag fd -> rest = []).
  { rewrite <- E2, Ea. clear - Dr. destruct d as [[? ?|[] ? [nm|] ? ? ?]|]; [discriminate Dr|..]; cbn; eexists; split; try reflexivity; try (intros fd E; discriminate E). }
  destruct Ta as (rest & Ta & Rf).
  exists (tsfile_items m), G, P, l, (tf_node m), rest.
  split; [exact Eo|]. split; [exact (proj2 W Nm Dn)|]. split; [|split; [|split; [|split; [exact Dr|split; [exact V|split; [exact Fv|split; [exact Rf|split]]]]]]].
  - intros x (ns & I & J). assert (Jg : In x (tf_globals m)).
    { unfold tsfile_items in I. destruct I as [E|I]; [exfalso; injection E as _ E; apply Dm; rewrite <- Nf; exact E|]. apply in_app_or in I. destruct I as [I|I].
      - destruct (tf_globals m) as [|g gs]; [destruct I|]. destruct I as [E|[]]. injection E as <- _. exact J.
      - exfalso. apply in_app_or in I. destruct I as [I|[I|[I|[]]]]; try discriminate. apply in_map_iff in I. destruct I as (z & E & _). discriminate. }
    split; [|apply Gr; intros E; rewrite E in Jg; destruct Jg].
    specialize (Gl x Jg). apply in_map_iff in Gl. destruct Gl as ([x' j] & E & Ij). cbn in E. subst x'.
    destruct (proj2 (stmt_of c lj G Fg) x j Ij) as (it & Iit & S). destruct S; [right; eauto|left]. eexists. split; [exact Iit|reflexivity].
  - unfold tsfile_items. right. apply in_or_app. right. apply in_or_app. right. left. rewrite Ta. reflexivity.
  - unfold tsfile_items. right. apply in_or_app. right. apply in_or_app. right. right. left. reflexivity.
  - intros m4 amb n v W4 Av. pose proof (written_same _ _ _ _ _ _ W4 W Nm Dn) as X4. pose proof (items_inj _ _ X4) as (_ & _ & Eb & _).
    apply (accepts_bare (tf_decls m4)) in Av. rewrite Eb in Av. apply (accepts_bare (tf_decls m)) in Av.
    destruct (tf_globals m) as [|g gs] eqn:Et.
    + (* nothing imported *)
      pose (m0 := {| tf_node := tf_node m; tf_node_from := tf_node_from m; tf_globals := tf_globals m; tf_globals_from := cc_globals_module c;
                     tf_decls := tf_decls m; tf_args := tf_args m |}).
      assert (Ei : tsfile_items m0 = tsfile_items m) by (unfold tsfile_items, m0; cbn [tf_node tf_node_from tf_globals tf_globals_from tf_decls tf_args]; rewrite Et; reflexivity).
      rewrite <- Ei. apply (linked_accepts c js s amb In0 Jn Al m0 G lj) with (n := n); cbn [m0 tf_decls tf_globals tf_node tf_globals_from]; auto.
      * rewrite Et. intros x [].
      * rewrite Et. exact Cl.
      * rewrite Et. intros x [].
      * destruct (Ar (def_name d)) as [E|E]; auto; [rewrite Ta; left; auto|]. exfalso. apply Nr. rewrite E. right. vm_compute. tauto.
    + rewrite <- Et in *. apply (linked_accepts c js s amb In0 Jn Al m G lj) with (n := n); auto.
      * apply Gf. rewrite Et. discriminate.
      * destruct (Ar (def_name d)) as [E|E]; auto; [rewrite Ta; left; auto|]. exfalso. apply Nr. rewrite E. right. vm_compute. tauto.
  - intros m4 amb n v W4 Av. pose proof (written_same _ _ _ _ _ _ W4 W Nm Dn) as X4. pose proof (items_inj _ _ X4) as (_ & _ & Eb & _).
    apply (accepts_bare (tf_decls m4)). rewrite Eb. apply (accepts_bare (tf_decls m)).
    apply (linked_back c js s amb In0 Jn Al m G lj); auto.
    destruct (Ar (def_name d)) as [E|E]; auto; [rewrite Ta; left; auto|]. exfalso. apply Nr. rewrite E. right. vm_compute. tauto.
Qed.
(** The run exits with code 0, whatever the parser: every document that is no subscription has an output
    that reads as a module [M]; what it imports from the globals module is in the file [G] of the run; it
    exports a constant whose first type argument is the name of the document; and that name, as declared by
    [M] and [G] together, accepts every response of a server *)
Theorem C72_run_partial : forall fuel wo a sched cf js s out f',
  let rc := merge_config (wo_ncpus wo) a cf in
  let c := cconfig_of rc in
  let e := wo_env wo in
  let ls := wo_listing wo in
  let root := rc_root_dir rc in
  let f := wo_fs wo in
  let gl := env_locate e (globals_path c root) in
  settled wo a cf js s -> wo_schema wo (rc_schema_path rc) = SRDecoded js ->
  plain_wrappers js -> aliases_apart c js -> cc_docnode_module c <> cc_globals_module c ->
  (forall text ds d, env_parse e text = Ok ds -> In d ds -> parsed_named d) ->
  qlc fuel wo a sched = Exited 0 out f' ->
  forall path, is_source ls root path -> exists contents d frags,
    f (env_locate e path) = Ok contents /\ env_parse e contents = Ok [d] /\ imported_fragments e f c path contents frags /\
    (is_subscription d = false -> ~ reserved (def_name d) ->
     Forall (fun v => valid_gtype (vgtype v) = true) (doc_vars d) -> NoDup (List.map vd_name (doc_vars d)) ->
     (forall x, leaf_name c js x -> ~ declares_name (def_name d) x) ->
     exists text M G P l node rest,
       f' (out_loc e path) = Ok text /\ only_reads text M /\
       (forall x, imports_from M (cc_globals_module c) x ->
          module_declares G x /\ exists gtext, f' gl = Ok gtext /\ only_reads gtext G) /\
       In (ItConst "graphqlDocument" node (def_name d :: rest)) M /\ In (ItDefault "graphqlDocument") M /\
       doc_root d = Some (P, l) /\
       forall active custom amb, surroundings c js custom amb ->
         regular s frags P (fun x => In x l) -> labels_apart s frags P (fun x => In x l) ->
         (forall x, In x l -> unconditional active x) ->
         (forall n fd, aget n frags = Some fd -> Forall (unconditional active) (fr_sels fd)) ->
         forall v, response js s frags active custom P l v ->
           exists n, module_accepts (cc_globals_module c) G M amb n (def_name d) v).
Proof.
  intros fuel wo a sched cf js s out f' rc c e ls root f gl Se Es Pw Al Dm Pn H path Sp.
  pose proof Se as [_ In0 Jn _ _ _ _ _ _ _ _]. pose proof (loaded_nameable _ _ _ (in_loaded _ _ In0) Jn) as Nm.
  destruct (run_module fuel wo a sched cf js s out f' Se Es Al Dm Pn H path Sp) as (contents & d & frags & ws & co & Er & Ep & Ic & D & Oc & Od & Rm).
  exists contents, d, frags. split; [exact Er|]. split; [exact Ep|]. split; [exact Ic|]. intros Su Nr Vv Nv Le.
  destruct (Rm Su Nr) as (M & G & P & l & node & rest & Eo & Or & Im & Ico & Ide & Dr & V & Fv & _ & Acc & _).
  exists (co_contents co), M, G, P, l, node, rest. repeat (split; [assumption|]).
  intros active custom amb Sur R Lb U Uf v Rs.
  destruct (C04_partial js fuel (file_ctx e c s path frags) c (suborder (env_order e path) [2; 0]) d ws co P l active custom (outside js amb)
    Oc Od In0 Pw (nameable_proper _ _ Nm) D Dr Su Fv Vv Nv R Lb U Uf (outside_ok c js custom amb Jn Al Sur) Le) as (m4 & rest' & W4 & _ & A).
  destruct (A v Rs) as (n & Av). exact (Acc m4 amb n v W4 Av).
Qed.
Print Assumptions C72_run_partial.

(** ** From texts to texts *)
(** Documents and the schema are read from the texts of their files *)
Record on_disk (ck : gql_checks) (complaint : string -> string) (jerr : string) (wo : world) : Prop := {
  od_documents : forall text, env_parse (wo_env wo) text = match parse_query ck text with Some d => Ok d | None => Err (complaint text) end;
  od_schema : forall p text, wo_fs wo (env_locate (wo_env wo) p) = Ok text -> wo_schema wo p = schema_of_text jerr text }.

(** The types of variables in a text are types of GraphQL *)
Scheme type_toks_mind := Minimality for type_toks Sort Prop with plain_type_mind := Minimality for plain_type Sort Prop.
Lemma type_valid ts t : type_toks ts t -> valid_gtype (var_gtype t) = true.
Proof.
  apply (type_toks_mind (fun _ t => valid_gtype (var_gtype t) = true)
    (fun _ t => valid_gtype (var_gtype t) = true /\ forall g, var_gtype t <> GNonNull g)).
  - intros us u _ [H _]. exact H.
  - intros us u _ [H N]. cbn [var_gtype]. destruct (var_gtype u) eqn:E; try exact H. exfalso. eapply N. reflexivity.
  - intros n. split; [reflexivity|discriminate].
  - intros us u _ H. split; [exact H|discriminate].
Qed.
Lemma text_vars_valid ck text ds d : text_says ck text ds -> In d ds -> Forall (fun v => valid_gtype (vgtype v) = true) (doc_vars d).
Proof.
  intros (_ & ts & _ & _ & S) I. destruct (series_in _ _ _ _ S I) as (x & D & _). destruct D as [p us r sels D F|k p n name v vars ds' dirs b sels N V D B|p p1 n p2 p3 cc ds' dirs b sels D B]; try constructor.
  cbn [doc_vars]. apply Forall_forall. intros w J. destruct V as [|q us a l q' Sv]; [destruct J|].
  destruct (series_in _ _ _ _ Sv J) as (y & Y & _). destruct Y; unfold vgtype; cbn [vd_type]; eapply type_valid; eauto.
Qed.

(** The command line [argv] says [a]; the file of the schema says [js]; the process exits with code 0.  Then
    for every source file with a text that says one document, which is no subscription, there is an output
    that reads as a module [M], with what it imports from the globals module [G], and the type argument of the
    exported constant accepts every response of a server to that document *)
Theorem C72_text_partial : forall ck complaint jerr help version fuel wo its argv a nc sched cf stext j js s out f',
  let rc := merge_config (wo_ncpus wo) a cf in
  let c := cconfig_of rc in
  let e := wo_env wo in
  let ls := wo_listing wo in
  let root := rc_root_dir rc in
  let f := wo_fs wo in
  let gl := env_locate e (globals_path c root) in
  on_disk ck complaint jerr wo ->
  SpecArgs.spelled its argv -> SpecArgs.consistent its -> SpecArgs.complete its -> SpecArgs.says its a nc ->
  settled wo a cf js s ->
  f (env_locate e (rc_schema_path rc)) = Ok stext -> text_holds stext j -> says_schema j js -> fits js ->
  plain_wrappers js -> aliases_apart c js -> cc_docnode_module c <> cc_globals_module c ->
  qlc_command help version fuel wo argv sched = Exited 0 out f' ->
  forall path contents d frags P l active custom amb, is_source ls root path ->
    f (env_locate e path) = Ok contents -> text_says ck contents [d] -> PropC07.imported_fragments e f c path contents frags ->
    is_subscription d = false -> doc_root d = Some (P, l) -> ~ reserved (def_name d) -> NoDup (List.map vd_name (doc_vars d)) ->
    (forall x, leaf_name c js x -> ~ declares_name (def_name d) x) ->
    surroundings c js custom amb ->
    regular s frags P (fun x => In x l) -> labels_apart s frags P (fun x => In x l) ->
    (forall x, In x l -> unconditional active x) ->
    (forall n fd, aget n frags = Some fd -> Forall (unconditional active) (fr_sels fd)) ->
    exists text M G node rest,
      f' (out_loc e path) = Ok text /\ only_reads text M /\
      (forall x, imports_from M (cc_globals_module c) x ->
         module_declares G x /\ exists gtext, f' gl = Ok gtext /\ only_reads gtext G) /\
      In (ItConst "graphqlDocument" node (def_name d :: rest)) M /\ In (ItDefault "graphqlDocument") M /\
      forall v, response js s frags active custom P l v ->
        exists n, module_accepts (cc_globals_module c) G M amb n (def_name d) v.
Proof.
  intros ck complaint jerr help version fuel wo its argv a nc sched cf stext j js s out f' rc c e ls root f gl
    [Hd Hs] Sp Cn Cm Sy Se Es Th Sj Fi Pw Al Dm H path contents d frags P l active custom amb Src Ec Ts If Su Dr Nr Nv Le Sur R Lb U Uf.
  assert (Pa : parse_args argv = URun a nc) by (apply PropC65.C65_exact; eauto).
  assert (Hq : qlc fuel wo a sched = Exited 0 out f') by (unfold qlc_command in H; rewrite Pa in H; exact H).
  assert (Sc : wo_schema wo (rc_schema_path rc) = SRDecoded js).
  { rewrite (Hs _ _ Es). apply PropC67.C67_schema. eauto. }
  assert (Pn : forall text ds d, env_parse e text = Ok ds -> In d ds -> parsed_named d).
  { intros text ds d0 E I. rewrite Hd in E. destruct (parse_query ck text) as [ds'|] eqn:Ep; [|discriminate]. injection E as ->. eapply C69_named; eauto. }
  destruct (C72_run_partial fuel wo a sched cf js s out f' Se Sc Pw Al Dm Pn Hq path Src) as (contents' & d' & frags' & Ec' & Ep & If' & K).
  assert (contents' = contents).
  { assert (X : f (env_locate e path) = Ok contents') by exact Ec'. rewrite Ec in X. congruence. }
  subst contents'.
  assert (d' = d).
  { rewrite Hd in Ep. apply C69_text in Ts. rewrite Ts in Ep. congruence. }
  subst d'. pose proof (fragments_agree _ _ _ _ _ _ _ If' If) as Ag.
  destruct (K Su Nr (text_vars_valid ck contents [d] d Ts (or_introl eq_refl)) Nv Le) as (text & M & G & P' & l' & node & rest & Et & Rt & Im & Ic & Idf & Dr' & A).
  assert (X : P' = P /\ l' = l) by (rewrite Dr in Dr'; injection Dr' as <- <-; auto). destruct X as [-> ->].
  exists text, M, G, node, rest. split; [exact Et|]. split; [exact Rt|]. split; [exact Im|]. split; [exact Ic|]. split; [exact Idf|].
  intros v Rs. apply (A active custom amb Sur).
  - eapply regular_ext; [intros n; symmetry; apply Ag|exact R|tauto].
  - eapply labels_apart_ext; [intros n; symmetry; apply Ag|exact Lb|tauto].
  - exact U.
  - intros n fd E. apply (Uf n). rewrite <- Ag. exact E.
  - eapply response_frags; [|exact Rs]. intros n. symmetry. apply Ag.
Qed.
Print Assumptions C72_text_partial.

(** ** Non-vacuity: a schema in a JSON file, a document and a fragment in files of their own, and a response *)
Fixpoint show_json (j : json) : string :=
  match j with
  | JNull => "null" | JBool true => "true" | JBool false => "false" | JNat _ => "0" | JNum t => t
  | JStr x => """" +++ x +++ """"
  | JArr l => "[" +++ join "," (List.map show_json l) +++ "]"
  | JObj l => "{" +++ join "," ((fix go (l : list (string * json)) : list string :=
                match l with [] => [] | (k, v) :: l => ("""" +++ k +++ """: " +++ show_json v) :: go l end) l) +++ "}"
  | JBad => ""
  end.
Definition farm_text : string := Eval vm_compute in show_json (w_schema farm_json).
Definition disk_files : fs := ImportWorlds.files [("./g.graphql", barn_query); ("./n.graphql", barn_fragment); ("./schema.json", farm_text)].
Definition disk_world : world :=
  {| wo_env := text_env; wo_listing := PropC35.pair_listing; wo_ncpus := 4; wo_config := fun _ => CRNotFound "not found";
     wo_schema := fun p => match disk_files p with Ok t => schema_of_text "" t | Err m => SRIoError m end; wo_fs := disk_files |}.
Lemma farm_text_read : schema_of_text "" farm_text = SRDecoded farm_json.
Proof. vm_compute. reflexivity. Qed.
Lemma disk_reach file contents t o : (file = "./g.graphql" /\ contents = barn_query) \/ (file = "./n.graphql" /\ contents = barn_fragment) ->
  reach text_env disk_files plain_config file contents t o -> t = "./n.graphql" /\ o = barn_fragment.
Proof.
  intros K R. induction R as [n l t o A Eo|mid mc n l t o R [-> ->] A Eo].
  - apply text_step in A; auto. subst. split; auto. unfold disk_files, ImportWorlds.files in Eo. cbn in Eo. congruence.
  - apply text_step in A; auto. subst. split; auto. unfold disk_files, ImportWorlds.files in Eo. cbn in Eo. congruence.
Qed.
Lemma disk_read path contents : is_source PropC35.pair_listing "." path -> disk_files (env_locate text_env path) = Ok contents ->
  (path = "./g.graphql" /\ contents = barn_query) \/ (path = "./n.graphql" /\ contents = barn_fragment).
Proof. intros [-> | ->]%PropC35.pair_source E; [left|right]; (split; [reflexivity|]); vm_compute in E |- *; congruence. Qed.
Lemma disk_separate : separate text_env PropC35.pair_listing plain_config "." disk_files.
Proof.
  split.
  - intros x y l Hx Hy R. assert (Ey : out_loc text_env y = "./g.graphql.d.ts" \/ out_loc text_env y = "./n.graphql.d.ts").
    { apply PropC35.pair_source in Hy. destruct Hy as [-> | ->]; [left|right]; reflexivity. }
    assert (El : l = "./g.graphql" \/ l = "./n.graphql").
    { destruct R as [|contents file' contents' n l t E I A]; [apply PropC35.pair_source; auto|]. right.
      pose proof (disk_read _ _ Hx E) as K. destruct I as [[-> ->]|R].
      - eapply (text_step x contents); eauto.
      - destruct (disk_reach _ _ _ _ K R) as [-> ->]. eapply (text_step _ _ _ _ _ A). auto. }
    destruct El as [-> | ->], Ey as [-> | ->]; discriminate.
  - intros x y Hx Hy. apply PropC35.pair_source in Hx. apply PropC35.pair_source in Hy. destruct Hx as [-> | ->], Hy as [-> | ->]; auto; discriminate.
Qed.
Lemma disk_settled : settled disk_world (args_threads 1) config_default farm_json farm.
Proof.
  destruct PropC35.C35_nonvacuous as (_ & _ & _ & N & _ & _ & _ & C & _).
  constructor; auto.
  - exact farm_intro.
  - apply json_nameableb_ok. vm_compute. reflexivity.
  - exact disk_separate.
  - intros p Sp. apply PropC35.pair_source in Sp. destruct Sp as [-> | ->]; discriminate.
  - intros p. exact plain_ok.
  - intros a b x y Pe Ea Eb. apply path_eqb_same in Pe. change (disk_files a = Ok x) in Ea. change (disk_files b = Ok y) in Eb. unfold disk_files, ImportWorlds.files in Ea, Eb. cbn [aget] in Ea, Eb.
    unfold eqb, EqB_string in Ea, Eb.
    destruct (String.eqb_spec a "./g.graphql") as [->|]; [|destruct (String.eqb_spec a "./n.graphql") as [->|]; [|destruct (String.eqb_spec a "./schema.json") as [->|]; [|discriminate]]];
    (destruct (String.eqb_spec b "./g.graphql") as [->|]; [|destruct (String.eqb_spec b "./n.graphql") as [->|]; [|destruct (String.eqb_spec b "./schema.json") as [->|]; [|discriminate]]]); congruence || discriminate.
  - intros path contents t o Sp E R. pose proof (disk_read _ _ Sp E) as K. destruct (disk_reach _ _ _ _ K R) as [-> _].
    apply PropC35.pair_is_source. auto.
Qed.
Definition disk_doc : definition := Eval vm_compute in match parse_query lenient barn_query with Some [d] => d | _ => DFrag pet_name end.
Definition disk_fragment : fragdef := Eval vm_compute in match parse_query lenient barn_fragment with Some [DFrag d] => d | _ => pet_name end.
Definition disk_sels : list selection := Eval vm_compute in match doc_root disk_doc with Some (_, l) => l | None => [] end.
Lemma disk_fragments : PropC07.imported_fragments text_env disk_files plain_config "./g.graphql" barn_query [("PetName", disk_fragment)].
Proof.
  intros n fd. split.
  - intros E. cbn [aget] in E. destruct (eqb n "PetName") eqn:En; [|discriminate]. injection E as <-. apply String.eqb_eq in En. subst n.
    exists "./n.graphql", barn_fragment. split; [|split; [vm_compute; reflexivity|reflexivity]].
    eapply (reach_one _ _ _ _ _ 0 (import_mark +++ "n.graphql" +++ String quote "")); [|vm_compute; reflexivity].
    exists "n.graphql". split; [split; [vm_compute; reflexivity|intros k l' Lt; lia]|]. split.
    + exists "". split; [reflexivity|]. intros X. inversion X.
    + apply (resolves_root plain_config _ "n.graphql").
      * intros r (p & X & _). discriminate.
      * intros r. discriminate.
  - intros (t & o & R & Hf & <-). destruct (disk_reach _ _ _ _ (or_introl (conj eq_refl eq_refl)) R) as [-> ->].
    vm_compute in Hf. injection Hf as <-. reflexivity.
Qed.
Lemma disk_regular : regular farm [("PetName", disk_fragment)] "Query" (fun x => In x disk_sels).
Proof. apply (regularb_ok farm _ 12 "Query" disk_sels); [vm_compute; reflexivity|tauto]. Qed.
Lemma disk_labels : labels_apart farm [("PetName", disk_fragment)] "Query" (fun x => In x disk_sels).
Proof.
  apply plain_apart. apply (clean_labels farm [("PetName", disk_fragment)] farm_types_plain); [|exact farm_typename|apply regular_nested; exact disk_regular|].
  - intros n fd E. cbn [aget] in E. destruct (eqb n "PetName"); [|discriminate]. injection E as <-.
    repeat (constructor; try (right; unfold no_underscore; cbn; intuition discriminate)).
  - apply Forall_forall. unfold disk_sels.
    repeat (constructor; try (left; reflexivity); try (right; unfold no_underscore; cbn; intuition discriminate)).
Qed.
Definition disk_amb (n : string) (v : value) : Prop :=
  match n with "boolean" => exists b, v = VBool b | "string" => exists x, v = VStr x | "number" => exists r, v = VNum r | _ => False end.
Lemma disk_surroundings : surroundings plain_config farm_json no_custom disk_amb.
Proof. constructor; try (cbn; eauto; fail); [intros n v []|intros n x v _ []]. Qed.
Example C72_nonvacuous : exists out f' text M G,
  qlc_command "" "" 30 disk_world ["--num-threads"; "1"] (repeat 0 90) = Exited 0 out f' /\
  f' "./g.graphql.d.ts" = Ok text /\ only_reads text M /\ imports_from M "graphql-globals" "Mood" /\ module_declares G "Mood" /\
  response farm_json farm [("PetName", disk_fragment)] (active_of always) no_custom "Query" disk_sels good_response /\
  exists n, module_accepts "graphql-globals" G M disk_amb n "Q" good_response.
Proof.
  assert (Pa : parse_args ["--num-threads"; "1"] = URun (args_threads 1) false) by reflexivity.
  apply PropC65.C65_exact in Pa. destruct Pa as (its & Sp & Cn & Cm & Sy).
  assert (X : exists j, text_holds farm_text j /\ says_schema j farm_json /\ fits farm_json) by (apply (PropC67.C67_schema ""); exact farm_text_read).
  destruct X as (j & Th & Sj & Fi).
  assert (H : exists out f', qlc_command "" "" 30 disk_world ["--num-threads"; "1"] (repeat 0 90) = Exited 0 out f' /\
    exists text is, f' "./g.graphql.d.ts" = Ok text /\ only_reads text is /\ In (ItImport ["Mood"; "Size"] "graphql-globals") is).
  { do 2 eexists. split; [vm_compute; reflexivity|]. do 2 eexists. split; [vm_compute; reflexivity|].
    split; [unfold only_reads; apply (reads_once 2000); vm_compute; reflexivity|]. right; left; reflexivity. }
  destruct H as (out & f' & H & text & is & Et & R & I).
  assert (Dk : on_disk lenient (fun _ => "syntax error") "" disk_world).
  { split; [reflexivity|]. intros p t E. cbn [disk_world wo_schema]. cbn [disk_world wo_fs wo_env] in E. change (disk_files p = Ok t) in E. rewrite E. reflexivity. }
  assert (Rs : response farm_json farm [("PetName", disk_fragment)] (active_of always) no_custom "Query" disk_sels good_response).
  { exists 8, "Query". split; [apply possibles_ok; left; reflexivity|]. apply respb_ok. vm_compute. reflexivity. }
  destruct (C72_text_partial lenient (fun _ => "syntax error") "" "" "" 30 disk_world its ["--num-threads"; "1"] (args_threads 1) false (repeat 0 90)
    config_default farm_text j farm_json farm out f' Dk Sp Cn Cm Sy disk_settled eq_refl Th Sj Fi farm_wrappers)
    with (path := "./g.graphql") (contents := barn_query) (d := disk_doc) (frags := [("PetName", disk_fragment)]) (P := "Query") (l := disk_sels)
         (active := active_of always) (custom := no_custom) (amb := disk_amb) as (text' & M & G & node & rest & Et' & R' & Im & _ & _ & A).
  - intros n x _ W. cbn in W. subst x. split; [cbn; intuition discriminate|]. intros y L. apply last_in in L. destruct L as [J En]. cbn in J.
    repeat (destruct J as [<-|J]; [discriminate En|]). destruct J.
  - discriminate.
  - exact H.
  - apply PropC35.pair_is_source. auto.
  - reflexivity.
  - apply C69_text. vm_compute. reflexivity.
  - exact disk_fragments.
  - reflexivity.
  - reflexivity.
  - apply reservedb_ok. reflexivity.
  - constructor.
  - exact farm_leaves.
  - exact disk_surroundings.
  - exact disk_regular.
  - exact disk_labels.
  - intros x _. apply all_unconditional.
  - intros n fd _. apply Forall_forall. intros x _. apply all_unconditional.
  - assert (Ex : text' = text) by (assert (X : f' "./g.graphql.d.ts" = Ok text') by exact Et'; congruence). subst text'.
    assert (Ei : M = is) by (apply R; apply R'; reflexivity). subst M.
    assert (Ii : imports_from is "graphql-globals" "Mood") by (exists ["Mood"; "Size"]; split; [exact I|left; reflexivity]).
    exists out, f', text, is, G. split; [exact H|]. split; [exact Et|]. split; [exact R|]. split; [exact Ii|]. split; [exact (proj1 (Im _ Ii))|].
    split; [exact Rs|]. exact (A _ Rs).
Qed.
