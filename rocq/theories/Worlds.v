(** Small concrete surroundings used by the non-vacuity examples and by the refutations. *)
From Verif Require Export Main.

Definition plain_order : order := fun _ _ l => l.
Definition back_order : order := fun _ _ l => rev l.

Definition no_args : cli_args :=
  {| ca_root_dir := None; ca_config_file := None; ca_schema_path := None; ca_use_custom_scalars := false;
     ca_custom_scalar_prefix := None; ca_root_dir_import_prefix := None; ca_global_types_module_name := None;
     ca_docnode_module_name := None; ca_disable_readonly_types := false;
     ca_show_deprecation_warnings := false; ca_num_threads := None |}.
Definition args_threads (n : nat) : cli_args :=
  {| ca_root_dir := None; ca_config_file := None; ca_schema_path := None; ca_use_custom_scalars := false;
     ca_custom_scalar_prefix := None; ca_root_dir_import_prefix := None; ca_global_types_module_name := None;
     ca_docnode_module_name := None; ca_disable_readonly_types := false;
     ca_show_deprecation_warnings := false; ca_num_threads := Some n |}.

Definition p0 : pos := {| pos_line := 1; pos_col := 1 |}.
Definition named_type (kind name : string) : jtype := JT kind (Some name) None.
Definition nonnull (t : jtype) : jtype := JT "NON_NULL" None (Some t).
Definition plain_field (name : string) (t : jtype) : jfield :=
  {| jf_name := name; jf_description := None; jf_type := t; jf_deprecated := None |}.
Definition object_type (name : string) (fs : list jfield) : jtypedef :=
  {| jt_kind := "OBJECT"; jt_name := name; jt_description := None; jt_possible_types := None;
     jt_input_fields := None; jt_fields := Some fs; jt_enum_values := None |}.

(** type Query { a: String! } *)
Definition tiny_schema : jschema :=
  [object_type "Query" [plain_field "a" (nonnull (named_type "SCALAR" "String"))]].
(** query Q { a } *)
Definition tiny_query : definition :=
  DOp (OpNamed KQuery p0 (Some "Q") [] [] [SField p0 None "a" [] [] []]).

(** An environment in which paths are locations, all writes succeed, and the file contents "Q" parse
    as [tiny_query] *)
Definition tiny_env : env :=
  {| env_parse := fun c => if String.eqb c "Q" then Ok [tiny_query] else Err "syntax error";
     env_locate := fun p => p; env_write := fun _ => WOk; env_similar := fun _ _ => false;
     env_order := fun _ => plain_order |}.

(** ./d/x.graphql holds "Q"; nothing else exists *)
Definition deep_listing : listing := fun d =>
  if String.eqb d "." then Ok [Ok {| de_name := "d"; de_kind := Ok EkDir |}]
  else if String.eqb d "./d" then Ok [Ok {| de_name := "x.graphql"; de_kind := Ok EkFile |}]
  else Err "not found".
(** ./x.graphql holds "Q"; nothing else exists *)
Definition flat_listing : listing := fun d =>
  if String.eqb d "." then Ok [Ok {| de_name := "x.graphql"; de_kind := Ok EkFile |}]
  else Err "not found".
Definition one_file (path contents : string) : fs := fun l =>
  if String.eqb l path then Ok contents else Err "not found".

Definition tiny_world (e : env) (ls : listing) (f : fs) : world :=
  {| wo_env := e; wo_listing := ls; wo_ncpus := 4; wo_config := fun _ => CRNotFound "not found";
     wo_schema := fun _ => SRDecoded tiny_schema; wo_fs := f |}.
