(** C56: after a successful run the generated files fit together. *)
From Verif Require Import ShareWorlds GlobalRead JsonCheck WrittenEq Package RunFacts PropC43 PropC49 ImportProps.
From Verif Require PropC13 PropC17 PropC55.

(** A parser for GraphQL only produces names of GraphQL (that of PropC69.v: C69_named) *)
Record parsed_named (d : definition) : Prop := {
  pn_name : (forall p l, d <> DOp (OpSelectionSet p l)) -> gname (def_name d);
  pn_keys : forall k, selects [] (doc_sels d) k -> gname k;
  pn_vars : forall v, In v (doc_vars d) -> gname (vd_name v) }.

Lemma selects_own frags sels k : selects frags sels k ->
  selects [] sels k \/ exists n fd, aget n frags = Some fd /\ selects [] (fr_sels fd) k.
Proof.
  induction 1 as [p al n a d sub sels I|p al n a d sub sels k I M IH|p c d sub sels k I M IH|p n d f sels k I G M IH].
  - left. eapply mn_here; eauto.
  - destruct IH as [IH|IH]; auto. left. eapply mn_below; eauto.
  - destruct IH as [IH|IH]; auto. left. eapply mn_inline; eauto.
  - right. destruct IH as [IH|IH]; eauto.
Qed.

(** Every name declared or imported by the statements; the declarations among them *)
Definition bound (is : list item) : list string := flat_map PropC55.binds is.
Definition type_decls (is : list item) : list decl := flat_map (fun i => match i with ItType d => [d] | _ => [] end) is.

(** [text] reads as [is] and nothing else *)
Definition only_reads (text : string) (is : list item) : Prop := forall is', read_module text is' <-> is' = is.

Lemma bare_uses ds n : PropC17.uses (List.map bare_decl ds) n <-> PropC17.uses ds n.
Proof.
  assert (X : forall d, decl_uses (bare_decl d) = decl_uses d).
  { intros [a ms|a l]; [|reflexivity]. cbn [bare_decl decl_uses]. induction ms as [|m ms IH]; [reflexivity|]. cbn. rewrite IH. reflexivity. }
  unfold PropC17.uses. split.
  - intros (d & I & U). apply in_map_iff in I. destruct I as (d' & <- & I). rewrite X in U. eauto.
  - intros (d & I & U). exists (bare_decl d). rewrite X. split; auto. apply in_map. auto.
Qed.
Lemma items_decls m : type_decls (tsfile_items m) = List.map bare_decl (tf_decls m).
Proof.
  unfold type_decls, tsfile_items. cbn [flat_map]. rewrite !flat_map_app. cbn [flat_map app].
  assert (X : flat_map (fun i => match i with ItType d => [d] | _ => [] end) (match tf_globals m with [] => [] | gs => [ItImport gs (tf_globals_from m)] end) = []).
  { destruct (tf_globals m); reflexivity. }
  rewrite X, app_nil_r. cbn [app]. induction (tf_decls m) as [|d l IH]; [reflexivity|]. cbn. f_equal. exact IH.
Qed.

(** The run exits with code 0: every output reads as a module; what it imports from the node module is
    exported there and applied to the right number of arguments; what it imports from the globals module
    is declared once in the globals file of the run, which reads as well; and every other name is
    declared in the module, a type of TypeScript or a custom scalar *)
Theorem C56_partial : forall fuel wo a sched cf js s out f',
  load_config (ca_config_file a) (wo_config wo) = Ok cf ->
  let rc := merge_config (wo_ncpus wo) a cf in
  let c := cconfig_of rc in
  let e := wo_env wo in
  let ls := wo_listing wo in
  let root := rc_root_dir rc in
  let f := wo_fs wo in
  let gl := env_locate e (globals_path c root) in
  wo_schema wo (rc_schema_path rc) = SRDecoded js -> load_schema js = Ok s -> json_nameable c js ->
  names_ok ls -> separate e ls c root f -> (forall path, is_source ls root path -> out_loc e path <> gl) ->
  (forall p, order_ok (env_order e p)) -> inputs_consistent s -> consistent s ->
  (forall text ds d, env_parse e text = Ok ds -> In d ds -> parsed_named d) ->
  (forall path text d, is_source ls root path -> f (env_locate e path) = Ok text -> env_parse e text = Ok [d] -> ~ reserved (def_name d)) ->
  rc_number_threads rc = 1 \/ (0 < rc_number_threads rc /\ flat_tree ls root) ->
  qlc fuel wo a sched = Exited 0 out f' ->
  forall path, is_source ls root path -> exists text is,
    f' (out_loc e path) = Ok text /\ only_reads text is /\
    (forall ns m, In (ItImport ns m) is ->
       (m = cc_docnode_module c /\ forall n, In n ns -> exists k, In (n, k) node_exports) \/
       (m = cc_globals_module c /\ exists gtext gis, f' gl = Ok gtext /\ only_reads gtext gis /\
          NoDup (bound gis) /\ forall n, In n ns -> In n (bound gis))) /\
    (forall x node args, In (ItConst x node args) is ->
       In node (bound is) /\ In (node, List.length args) node_exports /\ forall n, In n args -> n = "never" \/ In n (bound is)) /\
    (forall n, PropC17.uses (type_decls is) n -> In n (bound is) \/ PropC17.builtin n \/ PropC17.custom_scalar c s n).
Proof.
  intros fuel wo a sched cf js s out f' Lc rc c e ls root f gl Es L Jn N S Gd Ho C Co Pn Fr Th H path Sp.
  assert (Ls : parse_schema (rc_schema_path rc) (wo_schema wo (rc_schema_path rc)) = Ok s) by (rewrite Es; cbn [parse_schema]; rewrite L; reflexivity).
  pose proof (loaded_nameable _ _ _ L Jn) as Nm. pose proof (loaded_globals_nameable _ _ _ L Jn) as Gn.
  assert (E2E : (forall path, is_source ls root path -> exists ms co, file_compiles fuel e f c s path ms co /\
     (forall m, In m ms -> ms_level m = CompileWarning) /\ f' (out_loc e path) = Ok (co_contents co)) /\
   ((exists n, uses_global fuel e ls c s root f n) ->
     exists text l ds, f' gl = Ok text /\ NoDup (List.map fst l) /\ sorted_by fst l /\
       (forall n t, In (n, t) l <-> (exists r, uses_global fuel e ls c s root f r /\ leads s r n) /\ get_type s n = Some t) /\
       Forall2 (fun x d => def_text c (fst x) (snd x) d) l ds /\ text = header +++ join (nl +++ nl) ds /\
       forall n, uses_global fuel e ls c s root f n -> global_type s n)).
  { destruct Th as [One|[Pos Fl]].
    - destruct (C49_end_to_end fuel wo a sched cf s out f' Lc Ls N S Gd Ho C One H) as (A & B & _). split; assumption.
    - destruct (C49_flat fuel wo a sched cf s out f' Lc Ls N S Gd Ho C Pos Fl H) as (A & B & _). split; assumption. }
  destruct E2E as [Outs Globs]. destruct (Outs path Sp) as (ms & co & Fc & _ & Eo).
  pose proof Fc as (contents & d & im & ms0 & frags & ms1 & ws & op & Er & Ep & Ei & Ef & Ec & Ei' & _).
  assert (Dd : env_parse e contents = Ok [d]).
  { unfold parse_file in Ep. destruct (env_parse e contents) as [[|d1 [|d2 ds]]|]; try discriminate. injection Ep as <-. reflexivity. }
  assert (Dn : doc_named frags d (def_name d)).
  { destruct (Pn _ _ _ Dd (or_introl eq_refl)) as [P1 P2 P3].
    assert (P1' : gname (def_name d)) by (apply P1; intros p l ->; discriminate Ec).
    constructor; auto; [eapply Fr; eauto|].
    intros k M. apply selects_own in M. destruct M as [M|(n & fd & G & M)]; auto.
    destruct (stage_frag_sound fuel e f c path contents im ms0 frags ms1 (Ho path) Ei Ef n fd G) as (t & o & _ & Hf & _).
    exact (pn_keys _ (Pn _ _ _ Hf (or_introl eq_refl)) k M). }
  assert (Oc : order_ok (cx_order (file_ctx e c s path frags))) by (intros q A k; apply Ho).
  assert (Od : order_ok (suborder (env_order e path) [2; 0])) by (intros q A k; apply Ho).
  assert (D : document_file fuel (file_ctx e c s path frags) c (suborder (env_order e path) [2; 0]) d ws co) by (exists op; auto).
  destruct (PropC17.C17_closed _ _ _ _ _ _ _ Oc Od Co D) as (m & W & Cl & _ & Ar).
  assert (T : exists m', written_as (file_ctx e c s path frags) c d co m' /\
            tf_node m' = (if is_subscription d then "QueryDocumentNode" else PropC13.node_of d) /\ tf_args m' = PropC13.type_args d).
  { destruct (is_subscription d) eqn:Su;
      [destruct (PropC13.C13_subscription _ _ _ _ _ _ _ Oc Od Co D Su) as (m' & X & Y & Z & _)
      |destruct (PropC13.C13_partial _ _ _ _ _ _ _ Oc Od Co D Su) as (m' & X & Y & Z & _)]; eauto. }
  destruct T as (m' & W' & En & Ea).
  destruct (document_inv _ _ _ _ _ _ _ Oc Od Co D) as (P & p & l & op' & ds & us & vds & vus & _ & _ & _ & _ & _ & _ & _ & _ & _ & Eg & W3).
  pose proof (written_same _ _ _ _ _ _ W' W Nm Dn) as X. apply items_inj in X. destruct X as (E1 & _ & _ & E2).
  pose proof (written_same _ _ _ _ _ _ W3 W Nm Dn) as E3. pose proof (items_inj _ _ E3) as (_ & Eg' & _). cbn [file_of tf_globals] in Eg'.
  assert (Bn : bound (tsfile_items m) = tf_node m :: tf_globals m ++ List.map decl_name (tf_decls m) ++ ["graphqlDocument"]).
  { unfold bound, tsfile_items. cbn [flat_map PropC55.binds app]. rewrite !flat_map_app. cbn [flat_map PropC55.binds app]. f_equal.
    f_equal; [destruct (tf_globals m); cbn [flat_map PropC55.binds]; [|rewrite app_nil_r]; reflexivity|]. f_equal.
    clear. induction (tf_decls m) as [|[b ms|b ns] q IH]; [reflexivity| |]; cbn [List.map flat_map PropC55.binds bare_decl decl_name app]; f_equal; exact IH. }
  assert (Im : forall ns q, In (ItImport ns q) (tsfile_items m) ->
            (ns = [tf_node m] /\ q = cc_docnode_module c) \/ (ns = tf_globals m /\ tf_globals m <> [] /\ q = cc_globals_module c)).
  { intros ns q I. pose proof I as I'. rewrite <- E3 in I'. unfold tsfile_items in I'. destruct I' as [E|I'].
    - injection E as <- <-. left. split; auto. rewrite <- E1. clear - E3 E1. unfold tsfile_items in E3. injection E3. intros. congruence.
    - apply in_app_or in I'. destruct I' as [I'|I'].
      + right. cbn [file_of tf_globals tf_globals_from] in I'. rewrite Eg' in I'. destruct (tf_globals m) as [|g gs]; [destruct I'|]. destruct I' as [E|[]].
        injection E as <- <-. repeat split; auto. discriminate.
      + exfalso. apply in_app_or in I'. destruct I' as [I'|[I'|[I'|[]]]]; [|discriminate|discriminate].
        apply in_map_iff in I'. destruct I' as (x & E & _). discriminate. }
  assert (Nx : In (tf_node m, List.length (tf_args m)) node_exports).
  { rewrite <- E1, <- E2, En, Ea. unfold node_exports. clear. destruct d as [[? ?|[] ? ? ? ? ?]|]; cbn; auto 8. }
  exists (co_contents co), (tsfile_items m). split; [exact Eo|]. split; [exact (proj2 W Nm Dn)|]. split; [|split].
  - intros ns q I. destruct (Im ns q I) as [[-> ->]|(-> & Ne & ->)]; [left|right].
    + split; auto. intros n [<-|[]]. eauto.
    + split; auto. assert (U : forall n, In n (tf_globals m) -> uses_global fuel e ls c s root f n).
      { intros n J. rewrite <- Eg' in J. eapply Permutation_in in J; [|symmetry; apply sort_by_perm]. exists path, ms, co. auto. }
      destruct Globs as (gtext & gs & ds' & Eg2 & Ng & _ & Kg & Fg & Et & Tg).
      { destruct (tf_globals m) as [|g gs]; [congruence|]. exists g. apply U. left. auto. }
      destruct (defs_read c s Nm Gn C gs ds') as (items & Si & Oi & Li); auto. { intros n t J. apply Kg in J. tauto. }
      exists gtext, items. split; auto. split.
      { assert (R : read_module gtext items).
        { rewrite Et. exists (flat_map item_toks items). split; [apply (lexes_banner _ _ Li)|apply p_items_ok; auto]. }
        intros is'. split; [|intros ->; exact R]. intros R'. eapply read_module_functional; eauto. }
      assert (Eb : bound items = List.map fst gs).
      { clear - Si. unfold bound. induction Si as [|[n t] it gs items S1 Si IH]; [reflexivity|]. cbn [flat_map List.map fst]. rewrite IH.
        destruct S1; reflexivity. }
      rewrite Eb. split; auto. intros n J. pose proof (U n J) as Un.
      destruct (Tg n Un) as (t & G & _). apply (in_map fst gs (n, t)). apply Kg. split; auto. exists n. split; auto. constructor.
  - intros x node args I. assert (E : node = tf_node m /\ args = tf_args m).
    { unfold tsfile_items in I. destruct I as [I|I]; [discriminate|]. apply in_app_or in I. destruct I as [I|I].
      - destruct (tf_globals m); [destruct I|destruct I as [I|[]]; discriminate].
      - apply in_app_or in I. destruct I as [I|[I|[I|[]]]]; [|injection I as _ <- <-; auto|discriminate].
        apply in_map_iff in I. destruct I as (y & E & _). discriminate. }
    destruct E as [-> ->]. rewrite Bn. split; [left; auto|]. split; auto. intros n J. destruct (Ar n J) as [->|Dl]; auto. right. right.
    apply in_or_app. right. apply in_or_app. left. exact Dl.
  - rewrite items_decls. intros n U. apply (proj1 (bare_uses _ _)) in U. rewrite Bn. destruct (Cl n U) as [Dl|[B|[B|J]]]; auto; left; right; apply in_or_app; auto.
    right. apply in_or_app. left. exact Dl.
Qed.
Print Assumptions C56_partial.

(** The tree of C35: a query that imports a fragment file and uses two enums *)
From Verif Require PropC35.
Lemma gname_written fuel d : gnameb (def_name d) && keysb fuel [] (doc_sels d) && forallb (fun v => gnameb (vd_name v)) (doc_vars d) = true -> parsed_named d.
Proof.
  rewrite !andb_true_iff, forallb_forall. intros [[A B] C]. constructor.
  - intros _. apply gnameb_ok. auto.
  - intros k M. eapply keysb_ok; eauto.
  - intros v I. apply gnameb_ok. auto.
Qed.
Lemma barn_named text ds d : env_parse PropC35.barn_env text = Ok ds -> In d ds -> parsed_named d.
Proof.
  cbn [env_parse PropC35.barn_env]. destruct (srev text) as [|ch r]; [discriminate|].
  repeat match goal with |- (if ?b then _ else _) = _ -> _ => destruct b end; intros E; try discriminate; injection E as <-;
    intros [<-|[]]; apply (gname_written 20); vm_compute; reflexivity.
Qed.
(** It satisfies the hypotheses *)
Example C56_nonvacuous : forall out f',
  qlc 30 (PropC35.barn_world PropC35.pair_listing PropC35.pair_files) (args_threads 1) (repeat 0 90) = Exited 0 out f' ->
  forall path, path = "./g.graphql" \/ path = "./n.graphql" -> exists text is,
    f' (path +++ ".d.ts") = Ok text /\ only_reads text is /\
    forall n, PropC17.uses (type_decls is) n -> In n (bound is) \/ PropC17.builtin n \/ PropC17.custom_scalar plain_config farm n.
Proof.
  intros out f' H path Pa. destruct PropC35.C35_nonvacuous as (_ & _ & _ & N & S & _ & _ & C & Co & _).
  assert (Em : load_config (ca_config_file (args_threads 1)) (wo_config (PropC35.barn_world PropC35.pair_listing PropC35.pair_files)) = Ok config_default) by reflexivity.
  destruct (C56_partial 30 (PropC35.barn_world PropC35.pair_listing PropC35.pair_files) (args_threads 1) (repeat 0 90) config_default farm_json farm out f' Em
    eq_refl farm_loaded) with (path := path) as (text & is & Et & R & _ & _ & U); auto.
  - apply json_nameableb_ok. vm_compute. reflexivity.
  - intros p Sp. apply PropC35.pair_source in Sp. destruct Sp as [-> | ->]; discriminate.
  - intros p. exact plain_ok.
  - exact barn_named.
  - intros p text d Sp E1 E2. apply PropC35.pair_source in Sp. destruct Sp as [-> | ->]; vm_compute in E1; injection E1 as <-;
      vm_compute in E2; injection E2 as <-; apply reservedb_ok; reflexivity.
  - apply PropC35.pair_is_source. exact Pa.
  - exists text, is. split; [|split; [exact R|exact U]]. rewrite <- Et. destruct Pa as [-> | ->]; reflexivity.
Qed.
(** The run exits with code 0; the query imports two enums, which the globals file declares *)
Example C56_example : exists out f' text is gtext gis,
  qlc 30 (PropC35.barn_world PropC35.pair_listing PropC35.pair_files) (args_threads 1) (repeat 0 90) = Exited 0 out f' /\
  f' "./g.graphql.d.ts" = Ok text /\ only_reads text is /\ In (ItImport ["Mood"; "Size"] "graphql-globals") is /\
  f' "./graphql-globals.ts" = Ok gtext /\ only_reads gtext gis /\ bound gis = ["Mood"; "Size"].
Proof.
  do 6 eexists. split; [vm_compute; reflexivity|]. split; [vm_compute; reflexivity|].
  split; [unfold only_reads; apply (reads_once 2000); vm_compute; reflexivity|]. split; [right; left; reflexivity|]. split; [vm_compute; reflexivity|].
  split; [unfold only_reads; apply (reads_once 2000); vm_compute; reflexivity|reflexivity].
Qed.

(** Unless it is configured otherwise, the node module is a path of the package *)
Theorem C56_default_node : forall ncpus a m, ca_docnode_module_name a = None -> cf_docnode_module_name m = None ->
  In (cc_docnode_module (cconfig_of (merge_config ncpus a m))) package_paths.
Proof.
  intros ncpus a m Ea Em. unfold cconfig_of, merge_config. cbn [cc_docnode_module rc_docnode_module_name].
  rewrite Ea, Em. right. left. reflexivity.
Qed.
Print Assumptions C56_default_node.

(** A query named after a predefined type: exit code 0, and the output is not TypeScript *)
Definition any_env : env :=
  {| env_parse := fun _ => Ok [DOp (OpNamed KQuery (at_pos 1 1) (Some "any") [] [] [SelWorlds.node 2 "pet" [SelWorlds.leaf 3 "name"]])];
     env_locate := fun p => p; env_write := fun _ => WOk; env_similar := fun _ _ => false; env_order := fun _ => plain_order |}.
Definition any_world : world :=
  {| wo_env := any_env; wo_listing := PropC35.lone_listing "b.graphql"; wo_ncpus := 4; wo_config := fun _ => CRNotFound "not found";
     wo_schema := fun _ => SRDecoded farm_json; wo_fs := ImportWorlds.files [("./b.graphql", "B")] |}.
Theorem C56_refuted : exists out f' text,
  qlc 30 any_world (args_threads 1) (repeat 0 90) = Exited 0 out f' /\
  (forall text ds d, env_parse any_env text = Ok ds -> In d ds -> parsed_named d) /\
  f' "./b.graphql.d.ts" = Ok text /\ forall is, ~ read_module text is.
Proof.
  do 3 eexists. split; [vm_compute; reflexivity|]. split.
  { intros t ds d E. injection E as <-. intros [<-|[]]. apply (gname_written 20). vm_compute. reflexivity. }
  split; [vm_compute; reflexivity|].
  apply (never_reads 2000 60). eexists. split; [vm_compute; reflexivity|]. intros k. vm_compute. reflexivity.
Qed.
Print Assumptions C56_refuted.
