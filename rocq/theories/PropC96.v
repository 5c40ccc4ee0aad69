(** C96: source files can be moved, if their import lines follow. *)
From Verif Require Import MoveFacts PlaceFacts RefactorFacts RecastFacts LinkFacts GlobalRead EndFacts.
From Verif Require LoadName PropC07 PropC35 PropC49 PropC56 PropC72 PropC78 PropC79 PropC81 PropC84 JsonCheck.

(** Valid projects stay valid and others do not become valid *)
Theorem C96_valid : forall e e' ls ls' f f' c c' s root root' m, moved_project e e' ls ls' c c' root root' m f f' ->
  unique_fragments e ls f c root -> unique_fragments e' ls' f' c' root' ->
  (valid_project e ls f c s root <-> valid_project e' ls' f' c' s root').
Proof.
  intros e e' ls ls' f f' c c' s root root' m M U U'. split; intros V.
  - exact (valid_moved e e' ls ls' c c' root root' m f f' s M U' V).
  - exact (valid_moved e' e ls' ls c' c root' root _ f' f s (moved_project_sym _ _ _ _ _ _ _ _ _ _ _ M) U V).
Qed.
Print Assumptions C96_valid.

(** What C79 asks of a project and its surroundings: one worker, and exclusions *)
Record ordinary (wo : world) (a : cli_args) (cf : config_file) (s : schema) (e : env) (ls : listing) (c : cconfig) (root : string) (f : fs) (rc : runtime_config) : Prop := {
  or_is : e = wo_env wo /\ ls = wo_listing wo /\ rc = merge_config (wo_ncpus wo) a cf /\ c = cconfig_of rc /\ root = rc_root_dir rc /\ f = wo_fs wo;
  or_config : load_config (ca_config_file a) (wo_config wo) = Ok cf;
  or_schema : parse_schema (rc_schema_path rc) (wo_schema wo (rc_schema_path rc)) = Ok s;
  or_names : names_ok ls;
  or_separate : separate e ls c root f;
  or_orders : forall p, order_ok (env_order e p);
  or_paths : paths_agree e f;
  or_types : types_parse e;
  or_finite : finite (dir_kids ls) (WDir root);
  or_one : rc_number_threads rc = 1;
  or_globals : env_write e (globals_path c root) = WOk;
  or_unique : unique_fragments e ls f c root;
  or_inside : imports_inside e ls f c root;
  or_relative : relative_paths e;
  or_queries : forall path contents d, is_source ls root path -> f (env_locate e path) = Ok contents -> env_parse e contents = Ok [d] -> is_subscription d = false;
  or_apart : forall path, is_source ls root path -> out_loc e path <> env_locate e (globals_path c root) }.
Lemma ordinary_exact wo a cf s e ls c root f rc : ordinary wo a cf s e ls c root f rc ->
  consistent s -> inputs_consistent s -> inhabited_types s -> proper_types s ->
  ((exists fuel sched out f', qlc fuel wo a sched = Exited 0 out f') <-> valid_project e ls f c s root).
Proof.
  intros [(-> & -> & -> & -> & -> & ->) Lc Ls N S Ho Ag Ty Fin One W U Ins Rel Qu Sg] Co Ci Inh Pr.
  exact (PropC79.C79_exact_partial wo a cf s Lc Ls N S Ho Ag Co Ci Inh Pr Ty Fin One W U Ins Rel Qu Sg).
Qed.

(** With one worker: some run on the one exits with 0 exactly if some run on the other does *)
Theorem C96_exits_partial : forall wo wo' a a' cf cf' s e e' ls ls' c c' root root' f f' rc rc' m,
  ordinary wo a cf s e ls c root f rc -> ordinary wo' a' cf' s e' ls' c' root' f' rc' ->
  consistent s -> inputs_consistent s -> inhabited_types s -> proper_types s ->
  moved_project e e' ls ls' c c' root root' m f f' ->
  ((exists fuel sched out g, qlc fuel wo a sched = Exited 0 out g) <-> (exists fuel sched out g, qlc fuel wo' a' sched = Exited 0 out g)).
Proof.
  intros wo wo' a a' cf cf' s e e' ls ls' c c' root root' f f' rc rc' m O O' Co Ci Inh Pr M.
  rewrite (ordinary_exact _ _ _ _ _ _ _ _ _ _ O Co Ci Inh Pr), (ordinary_exact _ _ _ _ _ _ _ _ _ _ O' Co Ci Inh Pr).
  apply (C96_valid e e' ls ls' f f' c c' s root root' m M (or_unique _ _ _ _ _ _ _ _ _ _ O) (or_unique _ _ _ _ _ _ _ _ _ _ O')).
Qed.
Print Assumptions C96_exits_partial.

(** ** What is generated *)
Lemma moved_same e e' ls ls' c c' root root' m f f' s path path' : moved_project e e' ls ls' c c' root root' m f f' -> unique_fragments e' ls' f' c' root' ->
  m path path' -> is_source ls' root' path' -> PropC81.settled_source e f c s path -> PropC84.same_source s c c' e e' f f' path path'.
Proof.
  intros M U Hm Sp' (x & d & P & l & fr & V & St).
  destruct (valid_at_moved e e' c c' m f f' s path path' x d P l fr (mp_files _ _ _ _ _ _ _ _ _ _ _ M) Hm (fun y n a b => U path' y n a b Sp') V) as (y & d' & l' & fr' & V' & Sh & Rc).
  pose proof V as [Ex Ep _ _ _ _ Br Ro Su _ _ _ _ _]. pose proof V' as [Ex' Ep' _ _ _ _ Br' Ro' _ _ _ _ _ _].
  exists x, d, fr, P, l, y, d', fr', l'. do 10 (split; [auto|]). split; [exact Ro'|]. apply recast_collects; [exact St|]. apply recasts_told. exact Rc.
Qed.

(** If the project compiled it still does; each output is where its source is now, the same byte for byte, and so is the module of
    globals *)
Theorem C96_outputs_partial : forall fuel fuel' wo wo' a a' sched sched' cf cf' js s m out g code' out' g',
  let rc := merge_config (wo_ncpus wo) a cf in
  let rc' := merge_config (wo_ncpus wo') a' cf' in
  let c := cconfig_of rc in
  let c' := cconfig_of rc' in
  let e := wo_env wo in
  let e' := wo_env wo' in
  let ls := wo_listing wo in
  let ls' := wo_listing wo' in
  let root := rc_root_dir rc in
  let root' := rc_root_dir rc' in
  let f := wo_fs wo in
  let f' := wo_fs wo' in
  LinkFacts.settled wo a cf js s -> LinkFacts.settled wo' a' cf' js s -> same_output_options c c' ->
  inhabited_types s -> types_parse e' -> finite (dir_kids ls') (WDir root') -> env_write e' (globals_path c' root') = WOk ->
  wo_schema wo (rc_schema_path rc) = SRDecoded js -> wo_schema wo' (rc_schema_path rc') = SRDecoded js ->
  (forall text ds d, env_parse e text = Ok ds -> In d ds -> PropC56.parsed_named d) ->
  (forall text ds d, env_parse e' text = Ok ds -> In d ds -> PropC56.parsed_named d) ->
  moved_project e e' ls ls' c c' root root' m f f' -> unique_fragments e' ls' f' c' root' ->
  valid_project e ls f c s root -> (forall path, is_source ls root path -> PropC81.settled_source e f c s path) ->
  qlc fuel wo a sched = Exited 0 out g -> qlc fuel' wo' a' sched' = Exited code' out' g' ->
  code' = 0 /\
  (forall path path', is_source ls root path -> is_source ls' root' path' -> m path path' ->
     exists text, g (out_loc e path) = Ok text /\ g' (out_loc e' path') = Ok text) /\
  ((exists n, PropC49.uses_global fuel e ls c s root f n) ->
     exists text, g (env_locate e (globals_path c root)) = Ok text /\ g' (env_locate e' (globals_path c' root')) = Ok text).
Proof.
  intros fuel fuel' wo wo' a a' sched sched' cf cf' js s m out g code' out' g' rc rc' c c' e e' ls ls' root root' f f' Se Se' Ec Inh Ty Fin W Es Es' Pn Pn' M U V Ss H H'.
  pose proof Se' as [Lc In0 Jn N S Gd Ho C Ag Sc Th]. pose proof (in_loaded _ _ In0) as L. pose proof (intro_consistent _ _ In0) as Co.
  pose proof (PropC72.nameable_proper _ _ (LoadName.loaded_nameable _ _ _ L Jn)) as Pr.
  assert (Ls' : parse_schema (rc_schema_path rc') (wo_schema wo' (rc_schema_path rc')) = Ok s) by (rewrite Es'; cbn [parse_schema]; rewrite L; reflexivity).
  pose proof (valid_moved e e' ls ls' c c' root root' m f f' s M U V) as V'.
  assert (Z : code' = 0).
  { pose proof (PropC79.C79_accepts wo' a' cf' s Lc Ls' N S Ho Ag Co C Inh Pr Ty Fin) as K.
    fold rc' in K. fold root' c' in K. destruct (K V' W) as (k0 & K0). clear K.
    destruct (K0 (Nat.max k0 fuel') (Nat.le_max_l _ _) sched') as (K1 & _).
    rewrite <- (qlc_mono _ _ wo' a' sched' (Nat.le_max_r k0 fuel')) in H' by (rewrite H'; discriminate).
    destruct K1 as [K1|(o & h & K1)]; rewrite H' in K1; [discriminate K1|]. injection K1 as -> _ _. reflexivity. }
  subst code'. split; [reflexivity|].
  destruct (PropC84.C84_run_partial fuel fuel' wo wo' a a' sched sched' cf cf' js s out out' g g' Se Se' Ec Es Es' Pn Pn' H H') as [K1 K2].
  fold rc rc' c c' e e' ls ls' root root' f f' in K1, K2. split.
  - intros path path' Sp Sp' Hm. apply (K1 path path' Sp Sp'). exact (moved_same e e' ls ls' c c' root root' m f f' s path path' M U Hm Sp' (Ss path Sp)).
  - apply K2.
    + intros path Sp. destruct (mp_to _ _ _ _ _ _ _ _ _ _ _ M path Sp) as (path' & Sp' & Hm). exists path'. split; [exact Sp'|].
      exact (moved_same e e' ls ls' c c' root root' m f f' s path path' M U Hm Sp' (Ss path Sp)).
    + intros path' Sp'. destruct (mp_from _ _ _ _ _ _ _ _ _ _ _ M path' Sp') as (path & Sp & Hm). exists path. split; [exact Sp|].
      exact (moved_same e e' ls ls' c c' root root' m f f' s path path' M U Hm Sp' (Ss path Sp)).
Qed.
Print Assumptions C96_outputs_partial.

(** ** From texts to texts *)
From Verif Require Import Gql Json Args SpecGtext SpecJson SpecJtext PropC69 PropC72.
From Verif Require SpecArgs PropC65 PropC67 PropC77.
Theorem C96_text_partial : forall ck complaint complaint' jerr jerr' help help' version version' fuel fuel' wo wo' its its' argv argv' a a' nc nc' sched sched' cf cf'
    stext stext' j j' js s m out g code' out' g',
  let rc := merge_config (wo_ncpus wo) a cf in
  let rc' := merge_config (wo_ncpus wo') a' cf' in
  let c := cconfig_of rc in
  let c' := cconfig_of rc' in
  let e := wo_env wo in
  let e' := wo_env wo' in
  let ls := wo_listing wo in
  let ls' := wo_listing wo' in
  let root := rc_root_dir rc in
  let root' := rc_root_dir rc' in
  let f := wo_fs wo in
  let f' := wo_fs wo' in
  on_disk ck complaint jerr wo -> on_disk ck complaint' jerr' wo' ->
  SpecArgs.spelled its argv -> SpecArgs.consistent its -> SpecArgs.complete its -> SpecArgs.says its a nc ->
  SpecArgs.spelled its' argv' -> SpecArgs.consistent its' -> SpecArgs.complete its' -> SpecArgs.says its' a' nc' ->
  LinkFacts.settled wo a cf js s -> LinkFacts.settled wo' a' cf' js s -> same_output_options c c' ->
  inhabited_types s -> finite (dir_kids ls') (WDir root') -> env_write e' (globals_path c' root') = WOk ->
  f (env_locate e (rc_schema_path rc)) = Ok stext -> text_holds stext j -> says_schema j js ->
  f' (env_locate e' (rc_schema_path rc')) = Ok stext' -> text_holds stext' j' -> says_schema j' js -> fits js ->
  moved_project e e' ls ls' c c' root root' m f f' -> unique_fragments e' ls' f' c' root' ->
  valid_project e ls f c s root -> (forall path, is_source ls root path -> PropC81.settled_source e f c s path) ->
  qlc_command help version fuel wo argv sched = Exited 0 out g -> qlc_command help' version' fuel' wo' argv' sched' = Exited code' out' g' ->
  code' = 0 /\
  (forall path path', is_source ls root path -> is_source ls' root' path' -> m path path' ->
     exists text, g (out_loc e path) = Ok text /\ g' (out_loc e' path') = Ok text) /\
  ((exists n, PropC49.uses_global fuel e ls c s root f n) ->
     exists text, g (env_locate e (globals_path c root)) = Ok text /\ g' (env_locate e' (globals_path c' root')) = Ok text).
Proof.
  intros ck complaint complaint' jerr jerr' help help' version version' fuel fuel' wo wo' its its' argv argv' a a' nc nc' sched sched' cf cf'
    stext stext' j j' js s m out g code' out' g' rc rc' c c' e e' ls ls' root root' f f' Hd Hd' Sp Cn Cm Sy Sp' Cn' Cm' Sy' Se Se' Ec Inh Fin W Es Tx Sj Es' Tx' Sj' Fi M U V Ss H H'.
  assert (Pa : parse_args argv = URun a nc) by (apply PropC65.C65_exact; exists its; auto).
  assert (Pa' : parse_args argv' = URun a' nc') by (apply PropC65.C65_exact; exists its'; auto).
  unfold qlc_command in H, H'. rewrite Pa in H. rewrite Pa' in H'.
  assert (Sc : wo_schema wo (rc_schema_path rc) = SRDecoded js) by (rewrite (od_schema _ _ _ _ Hd _ _ Es); apply PropC67.C67_schema; eauto).
  assert (Sc' : wo_schema wo' (rc_schema_path rc') = SRDecoded js) by (rewrite (od_schema _ _ _ _ Hd' _ _ Es'); apply PropC67.C67_schema; eauto).
  assert (Pn : forall k q w, on_disk ck k q w -> forall text ds d, env_parse (wo_env w) text = Ok ds -> In d ds -> PropC56.parsed_named d).
  { intros k q w Hw text ds d E I. rewrite (od_documents _ _ _ _ Hw) in E. destruct (parse_query ck text) as [ds'|] eqn:Ep; [|discriminate]. injection E as ->. eapply C69_named; eauto. }
  exact (C96_outputs_partial fuel fuel' wo wo' a a' sched sched' cf cf' js s m out g code' out' g' Se Se' Ec Inh (PropC79.disk_types _ _ _ _ Hd') Fin W Sc Sc' (Pn _ _ _ Hd) (Pn _ _ _ Hd') M U V Ss H H').
Qed.
Print Assumptions C96_text_partial.

(** ** The files of C72, with the fragment in a directory of its own, and a prefix for import lines that start at the root *)
Definition at_args : cli_args :=
  {| ca_root_dir := None; ca_config_file := None; ca_schema_path := None; ca_use_custom_scalars := false;
     ca_custom_scalar_prefix := None; ca_root_dir_import_prefix := Some "@/"; ca_global_types_module_name := None;
     ca_docnode_module_name := None; ca_disable_readonly_types := false;
     ca_show_deprecation_warnings := false; ca_num_threads := Some 1 |}.
Definition at_config : cconfig := cconfig_of (merge_config 4 at_args config_default).
Definition parts_query : string :=
  ImportWorlds.import_line "@/parts/n.graphql" +++
  "query Q { pet { ...PetName ... on Dog { owner { name pet { __typename name } } } ... on Cat { extent: size } } all: pets { name __typename } }".
Definition parts_files : fs := ImportWorlds.files [("./g.graphql", parts_query); ("./parts/n.graphql", barn_fragment); ("./schema.json", farm_text)].
Definition parts_listing : listing := fun d =>
  if String.eqb d "." then Ok [Ok {| de_name := "g.graphql"; de_kind := Ok EkFile |}; Ok {| de_name := "parts"; de_kind := Ok EkDir |}]
  else if String.eqb d "./parts" then Ok [Ok {| de_name := "n.graphql"; de_kind := Ok EkFile |}]
  else Err "not found".
Definition parts_world : world := PropC77.world_on parts_listing parts_files.
Definition to_parts (a b : string) : Prop := (a = "./g.graphql" /\ b = "./g.graphql") \/ (a = "./n.graphql" /\ b = "./parts/n.graphql").

Lemma parts_tree p x : in_tree parts_listing "." p x -> In x [WDir "."; WFile "./g.graphql"; WDir "./parts"; WFile "./parts/n.graphql"].
Proof.
  induction 1 as [|p x i y N IH E]; [left; reflexivity|].
  destruct IH as [<-|[<-|[<-|[<-|[]]]]]; vm_compute in E; destruct i as [|[|[|i]]]; try discriminate E; injection E as <-; cbn; auto.
Qed.
Lemma parts_source path : is_source parts_listing "." path -> path = "./g.graphql" \/ path = "./parts/n.graphql".
Proof. intros [p H]. apply parts_tree in H. cbn in H. intuition congruence. Qed.
Lemma parts_is_source path : path = "./g.graphql" \/ path = "./parts/n.graphql" -> is_source parts_listing "." path.
Proof.
  intros [-> | ->].
  - exists [0]. apply (node_child _ _ [] (WDir ".") 0); [constructor|reflexivity].
  - exists [1; 0]. apply (node_child _ _ [1] (WDir "./parts") 0); [|reflexivity]. apply (node_child _ _ [] (WDir ".") 1); [constructor|reflexivity].
Qed.
Lemma parts_step file contents n l t : imports_at at_config file contents n l t ->
  (file = "./g.graphql" /\ contents = parts_query) \/ (file = "./parts/n.graphql" /\ contents = barn_fragment) -> t = "./parts/n.graphql" /\ file = "./g.graphql".
Proof.
  intros H K. pose proof (PropC35.imports_target _ _ _ _ _ _ H) as (L & E). destruct H as (q & _ & (rest & Eq & _) & _).
  destruct K as [[-> ->]|[-> ->]].
  - destruct n as [|[|[|n]]]; vm_compute in L; try discriminate; injection L as <-; [vm_compute in E; split; congruence|discriminate].
  - destruct n as [|[|n]]; vm_compute in L; try discriminate; injection L as <-. discriminate.
Qed.
Lemma parts_reach file contents t o : (file = "./g.graphql" /\ contents = parts_query) \/ (file = "./parts/n.graphql" /\ contents = barn_fragment) ->
  reach text_env parts_files at_config file contents t o -> t = "./parts/n.graphql" /\ o = barn_fragment.
Proof.
  intros K R. induction R as [n l t o A Eo|mid mc n l t o R [-> ->] A Eo].
  - apply parts_step in A; auto. destruct A as [-> _]. split; auto. unfold parts_files, ImportWorlds.files in Eo. cbn in Eo. congruence.
  - apply parts_step in A; auto. destruct A as [_ A]. discriminate A.
Qed.
Lemma parts_read path contents : is_source parts_listing "." path -> parts_files (env_locate text_env path) = Ok contents ->
  (path = "./g.graphql" /\ contents = parts_query) \/ (path = "./parts/n.graphql" /\ contents = barn_fragment).
Proof. intros [-> | ->]%parts_source E; [left|right]; (split; [reflexivity|]); vm_compute in E |- *; congruence. Qed.
Lemma parts_separate : separate text_env parts_listing at_config "." parts_files.
Proof.
  split.
  - intros x y l Hx Hy R. assert (Ey : out_loc text_env y = "./g.graphql.d.ts" \/ out_loc text_env y = "./parts/n.graphql.d.ts").
    { apply parts_source in Hy. destruct Hy as [-> | ->]; [left|right]; reflexivity. }
    assert (El : l = "./g.graphql" \/ l = "./parts/n.graphql").
    { destruct R as [|contents file' contents' n l t E I A]; [apply parts_source; auto|]. right.
      pose proof (parts_read _ _ Hx E) as K. destruct I as [[-> ->]|R].
      - apply (parts_step x contents) in A; auto. exact (proj1 A).
      - destruct (parts_reach _ _ _ _ K R) as [-> ->]. apply parts_step in A; auto. exact (proj1 A). }
    destruct El as [-> | ->], Ey as [-> | ->]; discriminate.
  - intros x y Hx Hy. apply parts_source in Hx. apply parts_source in Hy. destruct Hx as [-> | ->], Hy as [-> | ->]; auto; discriminate.
Qed.
Lemma parts_names : names_ok parts_listing.
Proof.
  intros d es l. unfold parts_listing. destruct (String.eqb d "."); [|destruct (String.eqb d "./parts"); [|discriminate]];
    intros H; inversion H; subst; clear H; cbn; intros H; inversion H; subst; clear H; cbn; (split; [|repeat constructor; cbn; intuition discriminate]);
    repeat constructor; repeat split; try discriminate; cbn; intuition discriminate.
Qed.
Lemma parts_settled : LinkFacts.settled parts_world at_args config_default farm_json farm.
Proof.
  destruct PropC35.C35_nonvacuous as (_ & _ & _ & _ & _ & _ & _ & C & _).
  constructor; auto.
  - exact PropC04.farm_intro.
  - apply JsonCheck.json_nameableb_ok. vm_compute. reflexivity.
  - exact parts_names.
  - exact parts_separate.
  - intros p Sp. apply parts_source in Sp. destruct Sp as [-> | ->]; discriminate.
  - intros p. exact SelWorlds.plain_ok.
  - intros a b x y Pe Ea Eb. apply PathFacts.path_eqb_same in Pe. change (parts_files a = Ok x) in Ea. change (parts_files b = Ok y) in Eb. unfold parts_files, ImportWorlds.files in Ea, Eb. cbn [aget] in Ea, Eb.
    unfold eqb, EqB_string in Ea, Eb.
    destruct (String.eqb_spec a "./g.graphql") as [->|]; [|destruct (String.eqb_spec a "./parts/n.graphql") as [->|]; [|destruct (String.eqb_spec a "./schema.json") as [->|]; [|discriminate]]];
    (destruct (String.eqb_spec b "./g.graphql") as [->|]; [|destruct (String.eqb_spec b "./parts/n.graphql") as [->|]; [|destruct (String.eqb_spec b "./schema.json") as [->|]; [|discriminate]]]); congruence || discriminate.
  - intros path contents t o Sp E R. pose proof (parts_read _ _ Sp E) as K. destruct (parts_reach _ _ _ _ K R) as [-> _].
    apply parts_is_source. auto.
Qed.
Lemma parts_unique : unique_fragments text_env parts_listing parts_files at_config ".".
Proof.
  intros path contents n fd fd' Sp E (t & o & R & Hf & _) (t' & o' & R' & Hf' & _). pose proof (parts_read path contents Sp E) as K.
  destruct (parts_reach _ _ _ _ K R) as [_ ->]. destruct (parts_reach _ _ _ _ K R') as [_ ->]. unfold holds_fragment in Hf, Hf'. congruence.
Qed.
Definition import_of (q : string) : string := import_mark +++ q +++ String quote "".
Lemma root_imports file text qs u q : lines text = List.map import_of qs ++ u -> In q qs -> (forall r, q <> String "." r) ->
  exists n l, imports_at plain_config file text n l (path_join "." q).
Proof.
  intros El I Nd. apply In_nth_error in I. destruct I as (n & En). exists n, (import_of q), q. split; [split|split].
  - rewrite El, nth_error_app1; [rewrite nth_error_map, En; reflexivity|]. rewrite map_length. apply nth_error_Some. congruence.
  - intros k l' Lk E. right. rewrite El, nth_error_app1 in E.
    + rewrite nth_error_map in E. destruct (nth_error qs k); [|discriminate E]. injection E as <-. eexists. reflexivity.
    + rewrite map_length. assert (n < List.length qs) by (apply nth_error_Some; congruence). lia.
  - exists "". split; [reflexivity|]. intros X. inversion X.
  - apply (resolves_root plain_config _ q); [|exact Nd]. intros r (p & X & _). discriminate.
Qed.
Lemma prefix_imports file text qs u q r : lines text = List.map import_of qs ++ u -> In q qs -> q = "@/" +++ r ->
  exists n l, imports_at at_config file text n l (path_join "." r).
Proof.
  intros El I Nd. apply In_nth_error in I. destruct I as (n & En). exists n, (import_of q), q. split; [split|split].
  - rewrite El, nth_error_app1; [rewrite nth_error_map, En; reflexivity|]. rewrite map_length. apply nth_error_Some. congruence.
  - intros k l' Lk E. right. rewrite El, nth_error_app1 in E.
    + rewrite nth_error_map in E. destruct (nth_error qs k); [|discriminate E]. injection E as <-. eexists. reflexivity.
    + rewrite map_length. assert (n < List.length qs) by (apply nth_error_Some; congruence). lia.
  - exists "". split; [reflexivity|]. intros X. inversion X.
  - apply (resolves_prefix at_config _ q). exists "@/". auto.
Qed.
Lemma no_imports c file n l t : ~ imports_at c file barn_fragment n l t.
Proof.
  intros H. pose proof (PropC35.imports_target _ _ _ _ _ _ H) as (L & _). destruct H as (q & _ & (rest & Eq & _) & _).
  destruct n as [|[|n]]; vm_compute in L; try discriminate; injection L as <-. discriminate.
Qed.
Ltac respreading := repeat first [apply rs_nil|apply rs_cons|apply rs_field|apply rs_spread; reflexivity|apply rs_inline].
Lemma closed_imports text qs u : lines text = List.map import_of qs ++ u -> forallb (fun l => negb (String.prefix import_mark l)) u = true -> ~ unclosed_import text.
Proof.
  intros El F (n & l & [E _] & rest & -> & Nq). rewrite El in E. apply nth_error_In, in_app_or in E. destruct E as [X|X].
  - apply in_map_iff in X. destruct X as (q & X & _). assert (Er : rest = q +++ String quote "") by (clear - X; vm_compute in X; injection X as X; symmetry; exact X). subst rest. apply Nq. clear.
    induction q as [|ch q IH]; [left; reflexivity|right; exact IH].
  - rewrite forallb_forall in F. specialize (F _ X). clear - F. vm_compute in F. destruct rest; discriminate F.
Qed.
Lemma parts_moved : moved_project text_env text_env PropC35.pair_listing parts_listing plain_config at_config "." "." to_parts disk_files parts_files.
Proof.
  constructor.
  - intros a b [[-> ->]|[-> ->]].
    + change (disk_files (env_locate text_env "./g.graphql")) with (@Ok string string barn_query).
      change (parts_files (env_locate text_env "./g.graphql")) with (@Ok string string parts_query). split; [|split; [|split]].
      * unfold restated_text. change (env_parse text_env barn_query) with (@Ok string (list definition) [disk_doc]).
        assert (E : env_parse text_env parts_query = Ok [disk_doc]) by (vm_compute; reflexivity). rewrite E.
        constructor; [|constructor]. split; [cbn; repeat split; constructor|]. unfold disk_doc. constructor; [tauto|constructor|respreading].
      * split; intros U; exfalso; revert U;
          [apply (closed_imports barn_query ["n.graphql"] (tl (lines barn_query)))|apply (closed_imports parts_query ["@/parts/n.graphql"] (tl (lines parts_query)))]; vm_compute; reflexivity.
      * intros n l t A. apply text_step in A; [|auto]. subst t.
        destruct (prefix_imports "./g.graphql" parts_query ["@/parts/n.graphql"] (tl (lines parts_query)) "@/parts/n.graphql" "parts/n.graphql") as (n' & l' & A'); [vm_compute; reflexivity|left; reflexivity|reflexivity|].
        exists n', l', "./parts/n.graphql". split; [exact A'|right; auto].
      * intros n l t A. apply parts_step in A; [|auto]. destruct A as [-> _].
        destruct (root_imports "./g.graphql" barn_query ["n.graphql"] (tl (lines barn_query)) "n.graphql") as (n' & l' & A'); [vm_compute; reflexivity|left; reflexivity|discriminate|].
        exists n', l', "./n.graphql". split; [exact A'|right; auto].
    + change (disk_files (env_locate text_env "./n.graphql")) with (@Ok string string barn_fragment).
      change (parts_files (env_locate text_env "./parts/n.graphql")) with (@Ok string string barn_fragment). split; [|split; [|split]].
      * unfold restated_text. change (env_parse text_env barn_fragment) with (@Ok string (list definition) [DFrag disk_fragment]).
        constructor; [|constructor]. split; [cbn; auto|]. unfold disk_fragment. constructor; [reflexivity|reflexivity|cbn [fr_sels]; respreading].
      * tauto.
      * intros n l t A. destruct (no_imports _ _ _ _ _ A).
      * intros n l t A. destruct (no_imports _ _ _ _ _ A).
  - intros path [-> | ->]%PropC35.pair_source; [exists "./g.graphql"|exists "./parts/n.graphql"]; (split; [apply parts_is_source; auto|unfold to_parts; auto]).
  - intros path [-> | ->]%parts_source; [exists "./g.graphql"|exists "./n.graphql"]; (split; [apply PropC35.pair_is_source; auto|unfold to_parts; auto]).
  - split; intros _; (split; [|reflexivity]).
    + intros p d H. apply parts_tree in H. cbn in H. destruct H as [H|[H|[H|[H|[]]]]]; try discriminate H; injection H as <-; do 2 eexists; split; reflexivity.
    + exact (vp_dirs _ _ _ _ _ _ PropC79.disk_project).
Qed.
Example C96_nonvacuous : exists out g out' g' text,
  qlc 30 disk_world (args_threads 1) (repeat 0 90) = Exited 0 out g /\ qlc 30 parts_world at_args (repeat 0 90) = Exited 0 out' g' /\
  g "./n.graphql.d.ts" = Ok text /\ g' "./parts/n.graphql.d.ts" = Ok text /\ (exists err, g' "./n.graphql.d.ts" = Err err) /\
  valid_project text_env parts_listing parts_files at_config farm ".".
Proof.
  assert (H : exists out g out' g', qlc 30 disk_world (args_threads 1) (repeat 0 90) = Exited 0 out g /\
    qlc 30 parts_world at_args (repeat 0 90) = Exited 0 out' g' /\ exists err, g' "./n.graphql.d.ts" = Err err).
  { do 4 eexists. split; [vm_compute; reflexivity|]. split; [vm_compute; reflexivity|]. eexists. vm_compute. reflexivity. }
  destruct H as (out & g & out' & g' & H & H' & Ne). exists out, g, out', g'.
  assert (Pn : forall text ds d, env_parse text_env text = Ok ds -> In d ds -> PropC56.parsed_named d).
  { intros text ds d E I. cbn [env_parse text_env] in E. destruct (parse_query lenient text) as [ds'|] eqn:Ep; [|discriminate]. injection E as ->. eapply C69_named; eauto. }
  destruct (C96_outputs_partial 30 30 disk_world parts_world (args_threads 1) at_args (repeat 0 90) (repeat 0 90) config_default config_default farm_json farm to_parts out g 0 out' g'
    PropC72.disk_settled parts_settled (conj eq_refl (conj eq_refl (conj eq_refl (conj eq_refl eq_refl)))) PropC79.farm_inhabited (PropC79.disk_types lenient (fun _ => "syntax error") "" disk_world (PropC77.world_disk PropC35.pair_listing disk_files))) as (_ & K & _).
  - repeat constructor.
  - reflexivity.
  - exact farm_text_read.
  - exact farm_text_read.
  - exact Pn.
  - exact Pn.
  - exact parts_moved.
  - exact parts_unique.
  - exact PropC79.disk_project.
  - exact PropC81.disk_settled_source.
  - exact H.
  - exact H'.
  - destruct (K "./n.graphql" "./parts/n.graphql") as (text & A & B); [apply PropC35.pair_is_source; auto|apply parts_is_source; auto|right; auto|].
    exists text. do 5 (split; [assumption|]).
    apply (proj1 (C96_valid text_env text_env PropC35.pair_listing parts_listing disk_files parts_files plain_config at_config farm "." "." to_parts parts_moved PropC79.disk_unique parts_unique)).
    exact PropC79.disk_project.
Qed.

(** ** Two fragments of one name: nothing is reported, but the order of the import lines says which one is meant *)
Definition swapped_query : string := ImportWorlds.import_line "b.graphql" +++ ImportWorlds.import_line "a.graphql" +++ "query Q { pet { ...F } }".
Definition swapped_files : fs := ImportWorlds.files [("./x.graphql", swapped_query); ("./a.graphql", PropC79.twice_a); ("./b.graphql", PropC79.twice_b)].
Definition swapped_world : world :=
  {| wo_env := text_env; wo_listing := PropC79.twice_listing; wo_ncpus := 4; wo_config := fun _ => CRNotFound "not found";
     wo_schema := fun _ => SRDecoded farm_json; wo_fs := swapped_files |}.
Definition in_place (a b : string) : Prop := a = b /\ In a ["./x.graphql"; "./a.graphql"; "./b.graphql"].
Lemma swapped_step n ln t : imports_at plain_config "./x.graphql" swapped_query n ln t -> In t ["./a.graphql"; "./b.graphql"].
Proof.
  intros A. pose proof (PropC35.imports_target _ _ _ _ _ _ A) as (L & Et). destruct A as (q & _ & (rest & Eq & _) & _).
  destruct n as [|[|[|[|n]]]]; vm_compute in L; try discriminate L; injection L as <-; [| |discriminate Eq]; vm_compute in Et; injection Et as <-; cbn; auto.
Qed.
Lemma swapped_moved : moved_project text_env text_env PropC79.twice_listing PropC79.twice_listing plain_config plain_config "." "." in_place PropC79.twice_files swapped_files.
Proof.
  assert (Same : forall path x, In (path, x) [("./a.graphql", PropC79.twice_a); ("./b.graphql", PropC79.twice_b)] -> moved_file text_env text_env plain_config plain_config in_place path x path x).
  { intros path x I. split; [|split; [tauto|]].
    - destruct I as [I|[I|[]]]; injection I as <- <-; vm_compute; (constructor; [|constructor]); (split; [cbn; auto|]); constructor; auto; cbn [fr_sels]; respreading.
    - split; intros n l t A; exfalso; pose proof (PropC79.twice_step path x n l t (or_intror I) A) as J;
        pose proof (PropC35.imports_target _ _ _ _ _ _ A) as (L & _); destruct A as (q & _ & (rest & Eq & _) & _);
        (destruct I as [I|[I|[]]]; injection I as <- <-); (destruct n as [|n]; vm_compute in L; [injection L as <-; discriminate Eq|destruct n; discriminate L]). }
  assert (To : forall t text qs u, In t ["./a.graphql"; "./b.graphql"] -> lines text = List.map import_of qs ++ u -> In "a.graphql" qs -> In "b.graphql" qs ->
    exists n l t', imports_at plain_config "./x.graphql" text n l t' /\ t = t').
  { intros t text qs u [<-|[<-|[]]] El Ia Ib.
    - destruct (root_imports "./x.graphql" text qs u "a.graphql" El Ia) as (n & l & A); [discriminate|]. exists n, l, "./a.graphql". auto.
    - destruct (root_imports "./x.graphql" text qs u "b.graphql" El Ib) as (n & l & A); [discriminate|]. exists n, l, "./b.graphql". auto. }
  constructor.
  - intros a b (<- & I). destruct I as [<-|[<-|[<-|[]]]].
    + change (PropC79.twice_files (env_locate text_env "./x.graphql")) with (@Ok string string PropC79.twice_query).
      change (swapped_files (env_locate text_env "./x.graphql")) with (@Ok string string swapped_query). split; [|split; [|split]].
      * vm_compute. constructor; [|constructor]. split; [cbn; repeat split; constructor|]. constructor; [tauto|constructor|respreading].
      * split; intros U; exfalso; revert U;
          [apply (closed_imports PropC79.twice_query ["a.graphql"; "b.graphql"] (tl (tl (lines PropC79.twice_query))))|
           apply (closed_imports swapped_query ["b.graphql"; "a.graphql"] (tl (tl (lines swapped_query))))]; vm_compute; reflexivity.
      * intros n l t A. pose proof (PropC79.twice_step "./x.graphql" _ _ _ _ (or_introl eq_refl) A) as J.
        destruct (To t swapped_query ["b.graphql"; "a.graphql"] (tl (tl (lines swapped_query))) J) as (n' & l' & t' & A' & <-); [vm_compute; reflexivity|right; left; reflexivity|left; reflexivity|].
        exists n', l', t. split; [exact A'|]. split; [reflexivity|right; exact J].
      * intros n l t A. pose proof (swapped_step _ _ _ A) as J.
        destruct (To t PropC79.twice_query ["a.graphql"; "b.graphql"] (tl (tl (lines PropC79.twice_query))) J) as (n' & l' & t' & A' & <-); [vm_compute; reflexivity|left; reflexivity|right; left; reflexivity|].
        exists n', l', t. split; [exact A'|]. split; [reflexivity|right; exact J].
    + exact (Same "./a.graphql" PropC79.twice_a (or_introl eq_refl)).
    + exact (Same "./b.graphql" PropC79.twice_b (or_intror (or_introl eq_refl))).
  - intros path Sp. exists path. split; [exact Sp|]. split; [reflexivity|apply PropC79.twice_source; exact Sp].
  - intros path Sp. exists path. split; [exact Sp|]. split; [reflexivity|apply PropC79.twice_source; exact Sp].
  - tauto.
Qed.
Theorem C96_refuted : exists out g out' g',
  moved_project text_env text_env PropC79.twice_listing PropC79.twice_listing plain_config plain_config "." "." in_place PropC79.twice_files swapped_files /\
  qlc 30 PropC79.twice_world (args_threads 1) (repeat 0 90) = Exited 0 out g /\ qlc 30 swapped_world (args_threads 1) (repeat 0 90) = Exited 0 out' g' /\
  g "./x.graphql.d.ts" <> g' "./x.graphql.d.ts".
Proof.
  do 4 eexists. split; [exact swapped_moved|]. split; [vm_compute; reflexivity|]. split; [vm_compute; reflexivity|]. vm_compute. discriminate.
Qed.
Print Assumptions C96_refuted.
