(** Specification side for JSON decoding: what an introspection result or a configuration file says. *)
From Verif Require Export Decode.

(** [j] as a record with the given keys: [get k] is the value of key [k], if it has one.  Of an object,
    other keys do not matter, nor does the order; an array lists all fields in order. *)
Inductive holds (keys : list string) : json -> (string -> option json) -> Prop :=
| holds_obj l get :
    (forall k, In k keys ->
       (get k = None /\ ~ In k (List.map fst l)) \/
       (exists v pre suf, get k = Some v /\ l = pre ++ (k, v) :: suf /\
          ~ In k (List.map fst pre) /\ ~ In k (List.map fst suf))) ->
    holds keys (JObj l) get
| holds_arr vs get : List.map get keys = List.map Some vs -> holds keys (JArr vs) get.

(** An optional value: absent and null mean none *)
Inductive maybe {A} (says : json -> A -> Prop) : option json -> option A -> Prop :=
| maybe_absent : maybe says None None
| maybe_null : maybe says (Some JNull) None
| maybe_some j a : j <> JNull -> says j a -> maybe says (Some j) (Some a).
Inductive there {A} (says : json -> A -> Prop) : option json -> A -> Prop :=
| there_some j a : says j a -> there says (Some j) a.

Inductive says_str : json -> string -> Prop := says_str_ s : says_str (JStr s) s.
Inductive says_bool : json -> bool -> Prop := says_bool_ b : says_bool (JBool b) b.
Inductive says_nat : json -> nat -> Prop := says_nat_ n : says_nat (JNat n) n.
Inductive says_list {A} (says : json -> A -> Prop) : json -> list A -> Prop :=
| says_list_ l r : Forall2 says l r -> says_list says (JArr l) r.

Inductive says_type : json -> jtype -> Prop :=
| says_type_ j get k n o :
    holds ["kind"; "name"; "ofType"] j get ->
    there says_str (get "kind") k -> maybe says_str (get "name") n -> maybe says_type (get "ofType") o ->
    says_type j (JT k n o).

Inductive says_field : json -> jfield -> Prop :=
| says_field_ j get f :
    holds ["name"; "description"; "type"; "isDeprecated"] j get ->
    there says_str (get "name") (jf_name f) -> maybe says_str (get "description") (jf_description f) ->
    there says_type (get "type") (jf_type f) -> maybe says_bool (get "isDeprecated") (jf_deprecated f) ->
    says_field j f.

Inductive says_name : json -> string -> Prop :=
| says_name_ j get n : holds ["name"] j get -> there says_str (get "name") n -> says_name j n.

Inductive says_typedef : json -> jtypedef -> Prop :=
| says_typedef_ j get t :
    holds ["kind"; "name"; "description"; "possibleTypes"; "inputFields"; "fields"; "enumValues"] j get ->
    there says_str (get "kind") (jt_kind t) -> there says_str (get "name") (jt_name t) ->
    maybe says_str (get "description") (jt_description t) ->
    maybe (says_list says_name) (get "possibleTypes") (jt_possible_types t) ->
    maybe (says_list says_field) (get "inputFields") (jt_input_fields t) ->
    maybe (says_list says_field) (get "fields") (jt_fields t) ->
    maybe (says_list says_name) (get "enumValues") (jt_enum_values t) ->
    says_typedef j t.

(** {"data": {"__schema": {"types": [...]}}} *)
Inductive says_within {A} (key : string) (says : json -> A -> Prop) : json -> A -> Prop :=
| says_within_ j get a : holds [key] j get -> there says (get key) a -> says_within key says j a.
Definition says_schema : json -> jschema -> Prop :=
  says_within "data" (says_within "__schema" (says_within "types" (says_list says_typedef))).

Inductive says_config : json -> config_file -> Prop :=
| says_config_ j get c :
    holds ["schemaFile"; "useCustomScalars"; "disableReadonlyTypes"; "customScalarPrefix"; "numThreads";
           "showDeprecationWarnings"; "rootDirImportPrefix"; "globalTypesModuleName";
           "typedGraphqlDocumentnodeModuleName"] j get ->
    maybe says_str (get "schemaFile") (cf_schema_path c) ->
    maybe says_bool (get "useCustomScalars") (cf_use_custom_scalars c) ->
    maybe says_bool (get "disableReadonlyTypes") (cf_disable_readonly_types c) ->
    maybe says_str (get "customScalarPrefix") (cf_custom_scalar_prefix c) ->
    maybe says_nat (get "numThreads") (cf_num_threads c) ->
    maybe says_bool (get "showDeprecationWarnings") (cf_show_deprecation_warnings c) ->
    maybe says_str (get "rootDirImportPrefix") (cf_root_dir_import_prefix c) ->
    maybe says_str (get "globalTypesModuleName") (cf_global_types_module_name c) ->
    maybe says_str (get "typedGraphqlDocumentnodeModuleName") (cf_docnode_module_name c) ->
    says_config j c.

(** A standard introspection result *)
Definition w_str (o : option string) : json := match o with None => JNull | Some s => JStr s end.
Definition w_list {A} (w : A -> json) (o : option (list A)) : json :=
  match o with None => JNull | Some l => JArr (List.map w l) end.
Fixpoint w_type (t : jtype) : json :=
  match t with
  | JT k n o => JObj [("kind", JStr k); ("name", w_str n);
                      ("ofType", match o with None => JNull | Some t => w_type t end)]
  end.
Definition w_field (f : jfield) : json :=
  JObj [("name", JStr (jf_name f)); ("description", w_str (jf_description f)); ("type", w_type (jf_type f));
        ("isDeprecated", match jf_deprecated f with None => JNull | Some b => JBool b end)].
Definition w_name (n : string) : json := JObj [("name", JStr n)].
Definition w_typedef (t : jtypedef) : json :=
  JObj [("kind", JStr (jt_kind t)); ("name", JStr (jt_name t)); ("description", w_str (jt_description t));
        ("fields", w_list w_field (jt_fields t)); ("inputFields", w_list w_field (jt_input_fields t));
        ("enumValues", w_list w_name (jt_enum_values t)); ("possibleTypes", w_list w_name (jt_possible_types t))].
Definition w_schema (js : jschema) : json :=
  JObj [("data", JObj [("__schema", JObj [("types", JArr (List.map w_typedef js))])])].

(** The same introspection result: order of the entries, and entries under keys that qlc does not know, are
    free everywhere *)
Definition known_keys : list string :=
  ["data"; "__schema"; "types"; "kind"; "name"; "description"; "possibleTypes"; "inputFields"; "fields"; "enumValues";
   "type"; "isDeprecated"; "ofType"].
Definition knownb (x : string * json) : bool := existsb (String.eqb (fst x)) known_keys.
Inductive same_json : json -> json -> Prop :=
| same_null : same_json JNull JNull
| same_bool b : same_json (JBool b) (JBool b)
| same_nat n : same_json (JNat n) (JNat n)
| same_num t : same_json (JNum t) (JNum t)
| same_str s : same_json (JStr s) (JStr s)
| same_arr l l' : Forall2 same_json l l' -> same_json (JArr l) (JArr l')
| same_obj l m l' : Permutation (filter knownb l) m ->
    Forall2 (fun x y => fst x = fst y /\ same_json (snd x) (snd y)) m (filter knownb l') -> same_json (JObj l) (JObj l').
