(** A schema and documents for the examples and refutations about declarations shared by several
    object types. *)
From Verif Require Export NameCheck DeclFacts RegCheck.

Definition enum_type (name : string) (vs : list string) : jtypedef :=
  {| jt_kind := "ENUM"; jt_name := name; jt_description := None; jt_possible_types := None;
     jt_input_fields := None; jt_fields := None; jt_enum_values := Some vs |}.
Definition farm_json : jschema :=
  [object_type "Query" [plain_field "pet" (nonnull (named_type "INTERFACE" "Pet"));
                        plain_field "pets" (nonnull (list_of (nonnull (named_type "INTERFACE" "Pet"))))];
   abstract_type "INTERFACE" "Pet" ["Dog"; "Cat"; "Eel"] (Some [plain_field "name" (nonnull sstring)]);
   object_type "Dog" [plain_field "name" (nonnull sstring); plain_field "size" (nonnull (named_type "ENUM" "Size"));
                      plain_field "owner" (nonnull (named_type "OBJECT" "User"))];
   object_type "Cat" [plain_field "name" (nonnull sstring); plain_field "size" (nonnull (named_type "ENUM" "Size"));
                      plain_field "owner" (nonnull (named_type "OBJECT" "User"))];
   object_type "Eel" [plain_field "name" (nonnull sstring); plain_field "owner" (nonnull (named_type "OBJECT" "User"))];
   object_type "User" [plain_field "name" (nonnull sstring); plain_field "mood" (nonnull (named_type "ENUM" "Mood"));
                       plain_field "pet" (named_type "INTERFACE" "Pet")];
   enum_type "Mood" ["GLAD"; "SAD"]; enum_type "Size" ["BIG"; "SMALL"]; scalar_type "String"].
Definition farm : schema := Eval vm_compute in match load_schema farm_json with Ok s => s | Err _ => [] end.
Lemma farm_loaded : load_schema farm_json = Ok farm.
Proof. vm_compute. reflexivity. Qed.
Lemma farm_consistent : consistent farm.
Proof. apply consistentb_ok. vm_compute. reflexivity. Qed.
Lemma farm_proper : proper_types farm.
Proof. exact (proper_typesb_ok farm eq_refl). Qed.
Definition farm_cx (frags : list fragdef) : ctx :=
  {| cx_schema := farm; cx_deprecations := false; cx_frags := List.map (fun f => (fr_name f, f)) frags; cx_order := plain_order |}.
Definition plain_config : cconfig := cconfig_of (merge_config 4 no_args config_default).
Lemma no_frags_valid s l : frags_valid s [] l.
Proof. intros n fd _ E. discriminate. Qed.

(** The owner of a dog and of another pet, with different selections; a valid document *)
Definition split_sels : list selection :=
  [node 2 "pet" [on 3 "Cat" [node 3 "owner" [leaf 3 "name"]]; on 4 "Dog" [node 4 "owner" [leaf 4 "mood"]];
                 on 5 "Eel" [node 5 "owner" [leaf 5 "name"]]]].
Definition prop (n : string) (e : texpr) : member :=
  {| m_comment := ""; m_readonly := true; m_name := n; m_optional := false; m_type := e |}.
Definition split_module : tsfile :=
  {| tf_node := "QueryDocumentNode"; tf_node_from := cc_docnode_module plain_config; tf_globals := [];
     tf_globals_from := cc_globals_module plain_config;
     tf_decls := [DObj "Q_pet_owner" [prop "name" (XName "string")]; DObj "Q_pet" [prop "owner" (XName "Q_pet_owner")];
                  DObj "Q" [prop "pet" (XName "Q_pet")]];
     tf_args := ["Q"; "never"] |}.
Lemma split_valid : valid_sels farm [] "Query" split_sels.
Proof. apply (validb_ok farm [] 9). vm_compute. reflexivity. Qed.
Lemma split_compiles : exists ws co, document_file 20 (farm_cx []) plain_config plain_order (query split_sels) ws co /\
  reads_as co split_module /\ co_globals co = [].
Proof.
  do 2 eexists. split; [eexists; split; vm_compute; reflexivity|].
  split; [apply (reads_by 2000); vm_compute; reflexivity|vm_compute; reflexivity].
Qed.

(** A regular document: a narrowed interface, aliases, repeated keys, a spread, nesting *)
Definition pet_name : fragdef := frag "PetName" "Pet" [leaf 1 "name"; on 2 "Dog" [node 2 "owner" [leaf 2 "mood"]]].
Definition good_sels : list selection :=
  [node 2 "pet" [spread 3 "PetName"; on 4 "Dog" [node 4 "owner" [leaf 4 "name"; node 5 "pet" [leaf 5 "__typename"; leaf 6 "name"]]];
                 on 7 "Cat" [SField (at_pos 7 9) (Some "extent") "size" [] [] []]];
   SField (at_pos 9 3) (Some "all") "pets" [] [] [leaf 9 "name"; leaf 10 "__typename"]].
Lemma good_regular : regular farm [("PetName", pet_name)] "Query" (fun x => In x good_sels).
Proof. apply (regularb_ok farm _ 12 "Query" good_sels); [vm_compute; reflexivity|tauto]. Qed.
Lemma pet_name_valid : composite farm "Pet" /\ valid_sels farm [("PetName", pet_name)] "Pet" (fr_sels pet_name).
Proof. split; [apply compositeb_ok; reflexivity|apply (validb_ok _ _ 9); vm_compute; reflexivity]. Qed.
Lemma good_frags : frags_valid farm [("PetName", pet_name)] good_sels.
Proof.
  intros n fd _ E. cbn [aget] in E. destruct (eqb n "PetName"); [|discriminate]. injection E as <-. exact pet_name_valid.
Qed.
Lemma good_compiles : exists ws co, document_file 20 (farm_cx [pet_name]) plain_config plain_order (query good_sels) ws co /\
  co_globals co = ["Size"; "Mood"].
Proof. do 2 eexists. split; [eexists; split; vm_compute; reflexivity|]. vm_compute; reflexivity. Qed.

(** Names are usable in all of these *)
Lemma farm_nameable : nameable plain_config farm.
Proof. apply nameableb_ok. vm_compute. reflexivity. Qed.
Lemma good_named : doc_named (cx_frags (farm_cx [pet_name])) (query good_sels) "Q".
Proof. apply (doc_namedb_ok 9). vm_compute. reflexivity. Qed.
Lemma good_reads co m : written_as (farm_cx [pet_name]) plain_config (query good_sels) co m -> reads_as co m.
Proof. intros W. eapply written_reads; [exact W|exact farm_nameable|exact good_named]. Qed.
