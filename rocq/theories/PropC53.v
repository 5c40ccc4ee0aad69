(** C53: what is generated for a document is TypeScript, and says what the tree of the model says. *)
From Verif Require Import ShareWorlds GlobalRead JsonCheck.
From Verif Require PropC13.

Lemma rnd_coll_main c xs main ds us : rnd_coll c xs main ds us -> exists x, In x ds /\ decl_name x = main.
Proof.
  intros R. inversion R as [xs0 main0 ds0 us0 N E Pl|xs0 main0 ds0 us0 N Pl]; subst.
  - unfold plan in Pl. rewrite E in Pl. destruct xs as [|x xs]; [congruence|]. inversion Pl; subst.
    eexists. split; [apply in_or_app; left; apply in_or_app; right; left; reflexivity|reflexivity].
  - eexists. split; [apply in_or_app; right; left; reflexivity|reflexivity].
Qed.

(** With usable names in the introspection data and in the document, the text is a sequence of
    statements, and the only one: the import of the node type, the import of the global types if there
    are any, type declarations that include the result type, the document constant and its export *)
Theorem C53_partial : forall fuel js cx c o d ws co,
  order_ok (cx_order cx) -> order_ok o -> load_schema js = Ok (cx_schema cx) -> consistent (cx_schema cx) ->
  json_nameable c js -> doc_named (cx_frags cx) d (def_name d) ->
  document_file fuel cx c o d ws co ->
  exists node gs ds args,
    node = (if is_subscription d then "QueryDocumentNode" else PropC13.node_of d) /\
    Permutation gs (co_globals co) /\ In (def_name d) (List.map decl_name ds) /\ args = PropC13.type_args d /\
    forall is, read_module (co_contents co) is <->
      is = ItImport [node] (cc_docnode_module c)
           :: match gs with [] => [] | _ => [ItImport gs (cc_globals_module c)] end
           ++ List.map ItType ds
           ++ [ItConst "graphqlDocument" node args; ItDefault "graphqlDocument"].
Proof.
  intros fuel js cx c o d ws co O O' L Co Jn Dn H. pose proof (loaded_nameable _ _ _ L Jn) as Nm.
  assert (T : exists m, written_as cx c d co m /\ tf_node m = (if is_subscription d then "QueryDocumentNode" else PropC13.node_of d) /\
            tf_args m = PropC13.type_args d /\ tf_node_from m = cc_docnode_module c).
  { destruct (is_subscription d) eqn:Su; [apply (PropC13.C13_subscription _ _ _ _ _ _ _ O O' Co H Su)|apply (PropC13.C13_partial _ _ _ _ _ _ _ O O' Co H Su)]. }
  destruct T as (m' & [_ W'] & En & Ea & _). specialize (W' Nm Dn).
  destruct (document_inv _ _ _ _ _ _ _ O O' Co H) as (P & p & l & op & ds & us & vds & vus & R & C & Hc & En' & Ek & Ev & Sh & Rn & Rv & Eg & [Et W]).
  specialize (W Nm Dn). set (m := file_of c op (ds ++ vds) (co_globals co)) in *.
  assert (Ei : tsfile_items m = tsfile_items m') by (apply W', W; reflexivity).
  assert (E1 : tf_node m = tf_node m') by (unfold tsfile_items in Ei; injection Ei; auto).
  assert (E2 : tf_args m = tf_args m').
  { unfold tsfile_items in Ei. rewrite !app_comm_cons, !app_assoc in Ei. apply (f_equal (@rev item)) in Ei. rewrite !rev_app_distr in Ei.
    cbn [rev app] in Ei. injection Ei as _ X _. exact X. }
  exists (tf_node m), (tf_globals m), (List.map bare_decl (tf_decls m)), (tf_args m).
  split; [congruence|]. split; [apply Permutation_sym, sort_by_perm|]. split; [|split; [congruence|]].
  - rewrite map_map. cbn [m file_of tf_decls]. rewrite map_app. apply in_or_app. left.
    destruct (rnd_coll_main c _ _ _ _ Rn) as (x & Ix & Ex). apply in_map_iff. exists x. split; auto. destruct x; exact Ex.
  - intros is. rewrite W. unfold tsfile_items. rewrite map_map. destruct (tf_globals m); reflexivity.
Qed.
Print Assumptions C53_partial.

(** The example of a regular document *)
Lemma farm_json_nameable : json_nameable plain_config farm_json.
Proof. apply json_nameableb_ok. vm_compute. reflexivity. Qed.
Example C53_nonvacuous : exists ws co, document_file 20 (farm_cx [pet_name]) plain_config plain_order (query good_sels) ws co /\
  exists gs ds, Permutation gs ["Size"; "Mood"] /\ In "Q" (List.map decl_name ds) /\ forall is, read_module (co_contents co) is <->
    is = ItImport ["QueryDocumentNode"] "@notarize/qlc-cli/typed-documentnode" :: ItImport gs "graphql-globals"
         :: List.map ItType ds ++ [ItConst "graphqlDocument" "QueryDocumentNode" ["Q"; "never"]; ItDefault "graphqlDocument"].
Proof.
  destruct good_compiles as (ws & co & H & Eg). exists ws, co. split; [exact H|].
  destruct (C53_partial 20 farm_json (farm_cx [pet_name]) plain_config plain_order (query good_sels) ws co plain_ok plain_ok farm_loaded
    farm_consistent farm_json_nameable good_named H) as (node & gs & ds & args & En & P & I & Ea & R).
  exists gs, ds. rewrite Eg in P. split; [exact P|]. split; [exact I|]. subst node args. destruct gs as [|g gs]; [apply Permutation_nil in P; discriminate|].
  exact R.
Qed.

(** *** Without usable names *)
(** A valid query named after a predefined type: the output is not TypeScript at all *)
Definition any_sels : list selection := [node 2 "pet" [leaf 3 "name"]].
Definition any_query : definition := DOp (OpNamed KQuery (at_pos 1 1) (Some "any") [] [] any_sels).
Theorem C53_refuted : exists ws co, document_file 20 (farm_cx []) plain_config plain_order any_query ws co /\
  load_schema farm_json = Ok farm /\ consistent farm /\ json_nameable plain_config farm_json /\
  valid_sels farm [] "Query" any_sels /\ gname "any" /\
  forall is, ~ read_module (co_contents co) is.
Proof.
  do 2 eexists. split; [eexists; split; vm_compute; reflexivity|]. split; [exact farm_loaded|]. split; [exact farm_consistent|].
  split; [exact farm_json_nameable|]. split; [apply (validb_ok farm [] 9); vm_compute; reflexivity|]. split; [apply gnameb_ok; reflexivity|].
  apply (never_reads 2000 60). eexists. split; [vm_compute; reflexivity|]. intros k. vm_compute. reflexivity.
Qed.
Print Assumptions C53_refuted.

(** A description that ends the comment and starts another one: the text reads, with a property that
    nothing selects *)
Definition inject : string := "**//readonly extra: string;//**".
Definition inject_json : jschema :=
  [object_type "Query" [{| jf_name := "name"; jf_description := Some inject; jf_type := Worlds.nonnull sstring; jf_deprecated := None |}];
   scalar_type "String"].
Definition inject_schema : schema := Eval vm_compute in match load_schema inject_json with Ok s => s | Err _ => [] end.
Definition inject_cx : ctx := {| cx_schema := inject_schema; cx_deprecations := false; cx_frags := []; cx_order := plain_order |}.
Theorem C53_injected : exists ws co, document_file 20 inject_cx plain_config plain_order (query [leaf 2 "name"]) ws co /\
  load_schema inject_json = Ok inject_schema /\ consistent inject_schema /\ valid_sels inject_schema [] "Query" [leaf 2 "name"] /\
  forall is, read_module (co_contents co) is <->
    is = [ItImport ["QueryDocumentNode"] "@notarize/qlc-cli/typed-documentnode";
          ItType (DObj "Q" [prop "extra" (XName "string"); prop "name" (XName "string")]);
          ItConst "graphqlDocument" "QueryDocumentNode" ["Q"; "never"]; ItDefault "graphqlDocument"].
Proof.
  do 2 eexists. split; [eexists; split; vm_compute; reflexivity|]. split; [vm_compute; reflexivity|].
  split; [apply consistentb_ok; vm_compute; reflexivity|]. split; [apply (validb_ok _ [] 9); vm_compute; reflexivity|].
  apply (reads_once 2000). vm_compute. reflexivity.
Qed.
Print Assumptions C53_injected.
