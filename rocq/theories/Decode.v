(** Model of the decoding of JSON values by serde's derived [Deserialize] (src/graphql/schema/json.rs and
    the configuration file in src/cli.rs), for values that serde_json has read from a text.
    The text level (syntax, encodings, limit on nesting) is in Json.v.  Not modelled: the texts of errors:
    [None] = some error. *)
From Verif Require Export Main.

(** JSON values.  [JNat] is an integer that fits usize, [JNum] any other number, by its text.  Objects
    keep their entries in order, with duplicates, as the streaming decoder sees them.  [JBad] is a value that
    can only be ignored: a string that is not UTF-8, or an object with such a key (see Json.v). *)
Inductive json : Type :=
| JNull | JBool (b : bool) | JNat (n : nat) | JNum (text : string) | JStr (s : string)
| JArr (l : list json) | JObj (l : list (string * json))
| JBad.

(** String, bool, usize; PathBuf is read like a string *)
Definition d_str (j : json) : option string := match j with JStr s => Some s | _ => None end.
Definition d_bool (j : json) : option bool := match j with JBool b => Some b | _ => None end.
Definition d_nat (j : json) : option nat := match j with JNat n => Some n | _ => None end.

(** Option<T>: null is None *)
Definition d_opt {A} (d : json -> option A) (j : json) : option (option A) :=
  match j with JNull => Some None | _ => option_map Some (d j) end.

(** Vec<T> *)
Fixpoint d_all {A} (d : json -> option A) (l : list json) : option (list A) :=
  match l with
  | [] => Some []
  | j :: l' => match d j, d_all d l' with Some a, Some r => Some (a :: r) | _, _ => None end
  end.
Definition d_list {A} (d : json -> option A) (j : json) : option (list A) :=
  match j with JArr l => d_all d l | _ => None end.

(** The value of a key: [None] = the key occurs twice ("duplicate field"), [Some None] = it is missing *)
Fixpoint once {A} (k : string) (l : list (string * A)) : option (option A) :=
  match l with
  | [] => Some None
  | (k', v) :: l' =>
      if String.eqb k' k then match once k l' with Some None => Some (Some v) | _ => None end
      else once k l'
  end.

(** A derived struct is read from an object, or from an array that holds its fields in the order of
    declaration, all of them and nothing more *)
Definition entries (keys : list string) (j : json) : option (list (string * json)) :=
  match j with
  | JObj l => Some l
  | JArr vs => if Nat.eqb (List.length vs) (List.length keys) then Some (combine keys vs) else None
  | _ => None
  end.

(** A field of type T: missing is an error *)
Definition req {A} (d : json -> option A) (k : string) (l : list (string * json)) : option A :=
  match once k l with Some (Some v) => d v | _ => None end.
(** A field of type Option<T>: missing is None *)
Definition opt {A} (d : json -> option A) (k : string) (l : list (string * json)) : option (option A) :=
  match once k l with
  | None => None
  | Some None => Some None
  | Some (Some v) => d_opt d v
  end.

(** json.rs:5-11 [FieldType].  [of_type] values are decoded before they are looked up, to keep the
    recursion structural; only the one at its key is used. *)
Definition type_keys : list string := ["kind"; "name"; "ofType"].
Definition type_from (l : list (string * json)) (sub : list (string * (json * option jtype))) : option jtype :=
  match req d_str "kind" l, opt d_str "name" l, once "ofType" sub with
  | Some k, Some n, Some None => Some (JT k n None)
  | Some k, Some n, Some (Some (JNull, _)) => Some (JT k n None)
  | Some k, Some n, Some (Some (_, Some t)) => Some (JT k n (Some t))
  | _, _, _ => None
  end.
Fixpoint d_type (j : json) : option jtype :=
  match j with
  | JObj l =>
      type_from l ((fix go (l : list (string * json)) :=
                      match l with [] => [] | (k, v) :: l' => (k, (v, d_type v)) :: go l' end) l)
  | JArr [k; n; o] => type_from (combine type_keys [k; n; o]) [("ofType", (o, d_type o))]
  | _ => None
  end.

(** json.rs:13-21 [Field] *)
Definition field_keys : list string := ["name"; "description"; "type"; "isDeprecated"].
Definition d_field (j : json) : option jfield :=
  match entries field_keys j with
  | None => None
  | Some l =>
      match req d_str "name" l, opt d_str "description" l, req d_type "type" l, opt d_bool "isDeprecated" l with
      | Some n, Some d, Some t, Some b =>
          Some {| jf_name := n; jf_description := d; jf_type := t; jf_deprecated := b |}
      | _, _, _, _ => None
      end
  end.

(** json.rs:23-26 [ComplexObjectDescription] *)
Definition d_name (j : json) : option string :=
  match entries ["name"] j with None => None | Some l => req d_str "name" l end.

(** json.rs:28-40 [Type] *)
Definition typedef_keys : list string :=
  ["kind"; "name"; "description"; "possibleTypes"; "inputFields"; "fields"; "enumValues"].
Definition d_typedef (j : json) : option jtypedef :=
  match entries typedef_keys j with
  | None => None
  | Some l =>
      match req d_str "kind" l, req d_str "name" l, opt d_str "description" l,
            opt (d_list d_name) "possibleTypes" l, opt (d_list d_field) "inputFields" l,
            opt (d_list d_field) "fields" l, opt (d_list d_name) "enumValues" l with
      | Some k, Some n, Some d, Some ps, Some is, Some fs, Some vs =>
          Some {| jt_kind := k; jt_name := n; jt_description := d; jt_possible_types := ps;
                  jt_input_fields := is; jt_fields := fs; jt_enum_values := vs |}
      | _, _, _, _, _, _, _ => None
      end
  end.

(** json.rs:42-63 [Schema], [Data], [RawSchema], [try_from_reader] *)
Definition d_schema (j : json) : option jschema :=
  match entries ["data"] j with
  | None => None
  | Some l =>
      req (fun j => match entries ["__schema"] j with
                    | None => None
                    | Some l => req (fun j => match entries ["types"] j with
                                              | None => None
                                              | Some l => req (d_list d_typedef) "types" l
                                              end) "__schema" l
                    end) "data" l
  end.

(** cli.rs:334-354 [ConfigFileMatches] *)
Definition config_keys : list string :=
  ["schemaFile"; "useCustomScalars"; "disableReadonlyTypes"; "customScalarPrefix"; "numThreads";
   "showDeprecationWarnings"; "rootDirImportPrefix"; "globalTypesModuleName";
   "typedGraphqlDocumentnodeModuleName"].
Definition d_config (j : json) : option config_file :=
  match entries config_keys j with
  | None => None
  | Some l =>
      match opt d_str "schemaFile" l, opt d_bool "useCustomScalars" l, opt d_bool "disableReadonlyTypes" l,
            opt d_str "customScalarPrefix" l, opt d_nat "numThreads" l, opt d_bool "showDeprecationWarnings" l,
            opt d_str "rootDirImportPrefix" l, opt d_str "globalTypesModuleName" l,
            opt d_str "typedGraphqlDocumentnodeModuleName" l with
      | Some sp, Some us, Some dr, Some cp, Some nt, Some sd, Some rp, Some gm, Some dm =>
          Some {| cf_schema_path := sp; cf_use_custom_scalars := us; cf_disable_readonly_types := dr;
                  cf_custom_scalar_prefix := cp; cf_num_threads := nt; cf_show_deprecation_warnings := sd;
                  cf_root_dir_import_prefix := rp; cf_global_types_module_name := gm;
                  cf_docnode_module_name := dm |}
      | _, _, _, _, _, _, _, _, _ => None
      end
  end.

(** json.rs:47-52 and cli.rs:359-383, on a file that holds the JSON value [j]; [e] = serde's error text *)
Definition schema_from (e : string) (j : json) : schema_read :=
  match d_schema j with Some js => SRDecoded js | None => SRJsonError e end.
Definition config_from (e : string) (j : json) : config_read :=
  match d_config j with Some c => CRDecoded c | None => CRDecodeError e end.
