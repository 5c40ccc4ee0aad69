(** Model of src/cli.rs: messages and their rendering, exit report, configuration merging.
    Elsewhere: terminal colours (Colour.v; here the text is the uncoloured one, as with --no-color),
    argument parsing (Args.v), decoding of the configuration file (Decode.v). *)
From Verif Require Export Ast Path Typescript.

(** cli.rs:13-17 [MessageLevel] *)
Inductive level := CompileWarning | CompileError | ProgramError.

(** cli.rs:19-25 [LocationInformation] *)
Record location := { lo_number : string; lo_line : string; lo_help : option string;
                     lo_column : option nat }.

(** cli.rs:28-35 [new_from_line_and_column] *)
Definition loc_line_column (n : nat) (line : string) (col : nat) : location :=
  {| lo_number := string_of_nat n; lo_line := line; lo_help := None; lo_column := Some col |}.

(** cli.rs:37-48 [new_from_contents_and_position].  [position.line - 1] underflows for line 0, which
    graphql_parser never produces (lines are 1-based); truncated subtraction here. *)
Definition loc_position (contents : string) (p : pos) : location :=
  {| lo_number := string_of_nat (pos_line p);
     lo_line := match nth_error (lines contents) (pos_line p - 1) with
                | Some l => l
                | None => "<<QLC unknown line>>"
                end;
     lo_help := None;
     lo_column := Some (pos_col p) |}.

(** cli.rs:50-53 [with_help_text] *)
Definition loc_with_help (l : location) (h : option string) : location :=
  match h with
  | None => l
  | Some _ => {| lo_number := lo_number l; lo_line := lo_line l; lo_help := h; lo_column := lo_column l |}
  end.

(** cli.rs:104-108 [SourceInformation], 131-135 [PrintableMessage] *)
Record message := { ms_level : level; ms_source : option (string * option location);
                    ms_text : string }.

(** cli.rs:59-64 [fmt_colon_encoding] *)
Definition fmt_colon (l : location) : string :=
  match lo_column l with
  | None => ":" +++ lo_number l
  | Some c => ":" +++ lo_number l +++ ":" +++ string_of_nat c
  end.

(** cli.rs:66-100 [fmt_line_encoding]; [column - 1] is truncated (columns are 1-based) *)
Definition fmt_line (l : location) : string :=
  let indent := spaces (String.length (lo_number l) + 1) in
  nl +++ indent +++ "|" +++ nl +++ lo_number l +++ " | " +++ lo_line l +++ nl
  +++ match lo_column l with
      | None => indent +++ " |"
      | Some c => indent +++ "| " +++ spaces (c - 1) +++ "^"
      end
  +++ match lo_help l with
      | None => ""
      | Some t => nl +++ indent +++ "= help: " +++ t
      end.

(** cli.rs:111-127 [fmt_file] *)
Definition fmt_file (src : string * option location) : string :=
  let (file, loc) := src in
  let indent := spaces (match loc with Some l => String.length (lo_number l) | None => 2 end) in
  nl +++ indent +++ "--> " +++ file
  +++ match loc with None => "" | Some l => fmt_colon l +++ fmt_line l end.

(** cli.rs:143-147 header *)
Definition level_name (l : level) : string :=
  match l with
  | CompileWarning => "warning" | CompileError => "error" | ProgramError => "program error"
  end.

(** cli.rs:137-154 [Display for PrintableMessage], without colours *)
Definition show_message (m : message) : string :=
  level_name (ms_level m) +++ ": " +++ ms_text m
  +++ match ms_source m with None => "" | Some s => fmt_file s end.

(** cli.rs:165-179 [new_simple_compile_error], [new_simple_compile_warning]; 225-231
    [new_simple_program_error] *)
Definition simple_message (lv : level) (text : string) : message :=
  {| ms_level := lv; ms_source := None; ms_text := text |}.

(** cli.rs:181-223 [new_compile_error], [new_program_error]; 233-253 [new_compile_warning] *)
Definition located_message (lv : level) (text file contents : string) (p : pos) (help : option string)
  : message :=
  {| ms_level := lv; ms_source := Some (file, Some (loc_with_help (loc_position contents p) help));
     ms_text := text |}.

(** cli.rs:255-265 [with_source_information] *)
Definition with_source (m : message) (file : string) (l : option location) : message :=
  {| ms_level := ms_level m; ms_source := Some (file, l); ms_text := ms_text m |}.

(** cli.rs:267-277 [new_compile_error_from_io_error] *)
Definition io_message (op error path : string) : message :=
  simple_message CompileError ("could not " +++ op +++ " `" +++ path +++ "`: " +++ error).

(** cli.rs:501-519 [similar_help_suggestions]; the edit-distance test (crate strsim) is a parameter *)
Definition similar_help (similar : string -> string -> bool) (name : string) (possible : list string)
  : option string :=
  match filter (similar name) possible with
  | [] => None
  | l => Some (" Did you mean one of the following: `" +++ join "`, `" l +++ "`?")
  end.

(** ** Messages of the compiler stages *)

(** ir.rs:27-53 [From<(&str, &Path, Warning)> for PrintableMessage] *)
Definition warning_message (contents file : string) (w : warning) : message :=
  match w with
  | WOverFragmentNarrowing p possible spread =>
      located_message CompileWarning
        ("fragment over narrowing with type `" +++ spread +++ "`") file contents p
        (Some ("The parent types of this spread are limited to `" +++ join "`, `" possible
               +++ "`, making spreading `" +++ spread +++ "` extraneous."))
  | WDeprecatedFieldUse p field parent =>
      located_message CompileWarning
        ("use of deprecated field `" +++ field +++ "` on type `" +++ parent +++ "`") file contents p None
  end.

(** variable.rs:52-86 [From<(&str, &Path, Error)> for PrintableMessage] *)
Definition var_error_message (contents file : string) (e : var_error) : message :=
  match e with
  | VUnknownCustomType name p =>
      located_message CompileError ("unknown type for variable `" +++ name +++ "`") file contents p None
  | VUnprocessable name p =>
      located_message ProgramError ("failed to process variable `" +++ name +++ "`") file contents p
        (Some "This is most likely a bug in QLC or some unsupported variable type. Please report a bug!")
  | VListOfList name p =>
      located_message CompileError ("unsupported list of lists type for variable `" +++ name +++ "`")
        file contents p (Some "QLC does not support lists of lists as variable types")
  end.

(** ir.rs:114-198 [From<(&str, &Path, Error)> for PrintableMessage] *)
Definition ir_error_message (similar : string -> string -> bool) (contents file : string) (e : ir_error)
  : message :=
  match e with
  | ESelectionSetAsOperationUnsupported p =>
      located_message CompileError "unsupported selection set as operation" file contents p
        (Some "QLC does not support a plain selection set as an operation.")
  | EUnknownFragment name p possible =>
      let extra := match similar_help similar name possible with
                   | Some h => h
                   | None => " Did you forget to import it?"
                   end in
      located_message CompileError ("unknown spread fragment name `" +++ name +++ "`") file contents p
        (Some ("This fragment name doesn't appear to be in scope." +++ extra))
  | EMissingTypeConditionOnInlineFragment p =>
      located_message CompileError "fragment missing type condition on inline fragment" file contents p
        (Some "Fragments must specify a type they can be spread on.")
  | ESelectionSetOnWrongType name p =>
      located_message CompileError ("unexpected selection on field of type `" +++ name +++ "`")
        file contents p
        (Some "This field is not a complex type with selections. Did you accidentally place the curlies on this field?")
  | EMissingSelectionSetOnType name p =>
      located_message CompileError ("expected selection on field of type `" +++ name +++ "`")
        file contents p
        (Some "This is a complex type, and it is improper GraphQL to not have at least one sub field selection.")
  | EUnknownField parent field p possible =>
      let extra := match similar_help similar field possible with Some h => h | None => "" end in
      located_message CompileError ("unknown field `" +++ field +++ "`") file contents p
        (Some ("Check the fields of `" +++ parent +++ "`." +++ extra))
  | EVariable e => var_error_message contents file e
  | EMissingType name => simple_message ProgramError ("failed lookup of type `" +++ name +++ "`")
  | EInputObjectOnSelection field type =>
      simple_message ProgramError
        ("unexpectedly traversing field `" +++ field +++ "` with input object type `" +++ type +++ "`")
  | EUnexpectedComplexTraversal name =>
      simple_message ProgramError ("unexpectedly traversing a terminal of type `" +++ name +++ "`")
  | EMixedTerminalAndComplexFields terminal complex =>
      simple_message ProgramError
        ("unexpectedly attempting merge of complex type `" +++ complex +++ "` and terminal type `"
         +++ terminal +++ "`.")
  end.

(** typescript.rs:29-52 [From<Error> for PrintableMessage] *)
Definition ts_error_message (e : ts_error) : message :=
  simple_message ProgramError
    match e with
    | TMissingType name => "failed lookup of type `" +++ name +++ "`"
    | TNotGlobalType name =>
        "unexpected global type of `" +++ name +++ "`, which is not an enum nor input object"
    | TInvalidFieldDef ftn fname =>
        "unexpected field `" +++ fname +++ "` of type `" +++ ftn
        +++ "`: must be enum, another input object, or scalar"
    | TExpectedAtLeastOnePossibility => "could not determine possiblities for complex type"
    end.

(** schema.rs:200-237 [parse_schema]'s messages *)
Definition schema_error_message (e : schema_error) : message :=
  simple_message CompileError
    ("malformed schema: " +++
     match e with
     | EMissingTypeOfForNonNull | EMissingTypeOfForList => "missing type of information on field"
     | EMissingNameForField => "missing name on field"
     | EUnknownType name kind =>
         "unknown type defintion `" +++ kind +++ "` on field `" +++ name +++ "`"
     | EFieldsMissingForType name => "complex type `" +++ name +++ "` is missing fields"
     | EEnumMissingValues name => "enum `" +++ name +++ "` is missing variants"
     | EInterfaceMissingTypes name => "interface `" +++ name +++ "` has no implementations"
     | EUnionMissingTypes name => "union `" +++ name +++ "` has no implementations"
     end).

(** ** Exit report *)

Definition is_warning (m : message) : bool :=
  match ms_level m with CompileWarning => true | _ => false end.

(** cli.rs:522-557 [print_exit_info]: text printed on stdout and exit code *)
Definition exit_report (ms : list message) : string * nat :=
  let warnings := List.length (filter is_warning ms) in
  let errors := List.length (filter (fun m => negb (is_warning m)) ms) in
  let plural := if 1 <? errors then "s" else "" in
  (String.concat "" (List.map (fun m => show_message m +++ nl +++ nl) ms)
   +++ (if 0 <? errors
        then show_message (simple_message CompileError
               ("failure due to " +++ string_of_nat errors +++ " error" +++ plural)) +++ nl
        else "")
   +++ (if 0 <? warnings
        then show_message (simple_message CompileWarning
               (string_of_nat warnings +++ " warning" +++ plural +++ " emitted")) +++ nl
        else ""),
   if 0 <? errors then 1 else 0).

(** ** Configuration *)

(** cli.rs:295-331 [CliArgs] (after clap's parsing; --no-color only affects colours) *)
Record cli_args := { ca_root_dir : option string; ca_config_file : option string;
                     ca_schema_path : option string; ca_use_custom_scalars : bool;
                     ca_custom_scalar_prefix : option string;
                     ca_root_dir_import_prefix : option string;
                     ca_global_types_module_name : option string;
                     ca_docnode_module_name : option string;
                     ca_disable_readonly_types : bool; ca_show_deprecation_warnings : bool;
                     ca_num_threads : option nat }.

(** cli.rs:308: clap's [requires]: --custom-scalar-prefix is rejected without --use-custom-scalars *)
Definition cli_args_accepted (a : cli_args) : bool :=
  match ca_custom_scalar_prefix a with Some _ => ca_use_custom_scalars a | None => true end.

(** cli.rs:335-354 [ConfigFileMatches] *)
Record config_file := { cf_schema_path : option string; cf_use_custom_scalars : option bool;
                        cf_disable_readonly_types : option bool;
                        cf_custom_scalar_prefix : option string; cf_num_threads : option nat;
                        cf_show_deprecation_warnings : option bool;
                        cf_root_dir_import_prefix : option string;
                        cf_global_types_module_name : option string;
                        cf_docnode_module_name : option string }.

(** derive(Default) *)
Definition config_default : config_file :=
  {| cf_schema_path := None; cf_use_custom_scalars := None; cf_disable_readonly_types := None;
     cf_custom_scalar_prefix := None; cf_num_threads := None; cf_show_deprecation_warnings := None;
     cf_root_dir_import_prefix := None; cf_global_types_module_name := None;
     cf_docnode_module_name := None |}.

(** What opening and decoding the configuration file yields: decoded contents, decoding error,
    file not found, other I/O error *)
Inductive config_read : Type :=
| CRDecoded (c : config_file) | CRDecodeError (e : string) | CRNotFound (e : string) | CRIoError (e : string).

(** cli.rs:357-392 [ConfigFileMatches::from_file_parse] *)
Definition load_config (cli_file : option string) (read : string -> config_read)
  : res message config_file :=
  let path := match cli_file with Some p => p | None => ".qlcrc.json" end in
  match read path with
  | CRDecoded c =>
      Ok {| cf_schema_path :=
              match cf_schema_path c with
              | None => None
              | Some sp => if is_absolute sp then Some sp
                           else option_map (fun d => path_join d sp) (path_parent path)
              end;
            cf_use_custom_scalars := cf_use_custom_scalars c;
            cf_disable_readonly_types := cf_disable_readonly_types c;
            cf_custom_scalar_prefix := cf_custom_scalar_prefix c;
            cf_num_threads := cf_num_threads c;
            cf_show_deprecation_warnings := cf_show_deprecation_warnings c;
            cf_root_dir_import_prefix := cf_root_dir_import_prefix c;
            cf_global_types_module_name := cf_global_types_module_name c;
            cf_docnode_module_name := cf_docnode_module_name c |}
  | CRDecodeError e =>
      Err (simple_message ProgramError ("error in config file `" +++ path +++ "`: " +++ e))
  | CRNotFound e =>
      match cli_file with
      | Some _ => Err (io_message "read" e path)
      | None => Ok config_default
      end
  | CRIoError e => Err (io_message "read" e path)
  end.

(** cli.rs:396-407 [RuntimeConfig] *)
Record runtime_config := { rc_root_dir : string; rc_schema_path : string;
                           rc_show_deprecation_warnings : bool; rc_use_custom_scalars : bool;
                           rc_disable_readonly_types : bool; rc_custom_scalar_prefix : option string;
                           rc_number_threads : nat; rc_root_dir_import_prefix : option string;
                           rc_global_types_module_name : string; rc_docnode_module_name : string }.

Definition opt_or {A} (a b : option A) : option A := match a with Some _ => a | None => b end.
Definition opt_get {A} (a : option A) (d : A) : A := match a with Some x => x | None => d end.

(** cli.rs:410-458 [RuntimeConfig::from_cli], after both sources have been read *)
Definition merge_config (ncpus : nat) (a : cli_args) (f : config_file) : runtime_config :=
  let root := opt_get (ca_root_dir a) "." in
  {| rc_root_dir := root;
     rc_schema_path := opt_get (opt_or (ca_schema_path a) (cf_schema_path f)) (path_join root "schema.json");
     rc_show_deprecation_warnings :=
       ca_show_deprecation_warnings a || opt_get (cf_show_deprecation_warnings f) false;
     rc_use_custom_scalars := ca_use_custom_scalars a || opt_get (cf_use_custom_scalars f) false;
     rc_disable_readonly_types :=
       ca_disable_readonly_types a || opt_get (cf_disable_readonly_types f) false;
     rc_custom_scalar_prefix :=
       opt_or (ca_custom_scalar_prefix a)
              (match cf_use_custom_scalars f with Some _ => cf_custom_scalar_prefix f | None => None end);
     rc_number_threads := opt_get (opt_or (ca_num_threads a) (cf_num_threads f)) (Nat.min ncpus 8);
     rc_root_dir_import_prefix := opt_or (ca_root_dir_import_prefix a) (cf_root_dir_import_prefix f);
     rc_global_types_module_name :=
       opt_get (opt_or (ca_global_types_module_name a) (cf_global_types_module_name f)) "graphql-globals";
     rc_docnode_module_name :=
       opt_get (opt_or (ca_docnode_module_name a) (cf_docnode_module_name f))
               "@notarize/qlc-cli/typed-documentnode" |}.

(** cli.rs:468-474 [bottom_type_config] *)
Definition bottom_of (r : runtime_config) : bottom_config :=
  match rc_use_custom_scalars r, rc_custom_scalar_prefix r with
  | false, _ => BottomAny
  | true, None => BottomReal
  | true, Some s => BottomPrefix s
  end.

(** graphql.rs:42-54 [From<&RuntimeConfig> for CompileConfig] *)
Definition cconfig_of (r : runtime_config) : cconfig :=
  {| cc_root_dir := rc_root_dir r;
     cc_deprecations := rc_show_deprecation_warnings r;
     cc_readonly := negb (rc_disable_readonly_types r);
     cc_bottom := bottom_of r;
     cc_import_prefix := rc_root_dir_import_prefix r;
     cc_globals_module := rc_global_types_module_name r;
     cc_docnode_module := rc_docnode_module_name r |}.
