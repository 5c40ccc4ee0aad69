(** Model of src/graphql.rs: compiling one file, imports, writing outputs.
    The file system, graphql_parser::parse_query and strsim's edit distance are parameters. *)
From Verif Require Export Cli.

(** File system: contents by location.  [Err e] = reading there fails with the I/O error text e
    (missing, unreadable, not UTF-8, ...). *)
Definition fs : Type := string -> res string string.

(** Outcome of [std::fs::write] at a path: success, failure to open (nothing changed), or failure
    after the file was created/truncated, leaving some contents *)
Inductive write_outcome : Type := WOk | WFailOpen (e : string) | WFailMid (e partial : string).

(** Everything external to the modelled code.  [env_locate] is the operating system's path
    resolution (working directory, dot-dot, symbolic links): equal locations = same file.
    [env_order] gives the hash orders used while compiling the file at a path (the globals file is
    keyed by the root directory). *)
Record env := { env_parse : string -> res string document;
                env_locate : string -> string;
                env_write : string -> write_outcome;
                env_similar : string -> string -> bool;
                env_order : string -> order }.

(** graphql.rs:56-65 [read_graphql_file] *)
Definition read_file (e : env) (f : fs) (path : string) : res message string :=
  match f (env_locate e path) with
  | Ok c => Ok c
  | Err err => Err (io_message "read" err path)
  end.

(** [std::fs::write] *)
Definition write_file (e : env) (f : fs) (path contents : string) : fs * option string :=
  let put c := fun l => if String.eqb l (env_locate e path) then Ok c else f l in
  match env_write e path with
  | WOk => (put contents, None)
  | WFailOpen err => (f, Some err)
  | WFailMid err partial => (put partial, Some err)
  end.

(** graphql.rs:84-92: position of the second definition *)
Definition def_pos (d : definition) : pos :=
  match d with
  | DOp (OpSelectionSet p _) => p
  | DOp (OpNamed _ p _ _ _ _) => p
  | DFrag f => fr_pos f
  end.

(** graphql.rs:67-99 [parse_graphql_file].  On success the document has exactly one definition,
    which is returned. *)
Definition parse_file (e : env) (contents path : string) : res message definition :=
  match env_parse e contents with
  | Err err => Err (with_source (simple_message CompileError err) path None)
  | Ok [] => Err (simple_message CompileError "missing defintion in the document")
  | Ok [d] => Ok d
  | Ok (_ :: d :: _) =>
      let loc := loc_with_help (loc_position contents (def_pos d))
        (Some "QLC does not support documents with more than one fragment, query or mutation per file. Move this definition to a seperate file and import it instead.") in
      Err (with_source (simple_message CompileError "multi definition files unsupported") path (Some loc))
  end.

(** graphql.rs:14 [IMPORT_START] *)
Definition import_start : string := "#import " +++ dq.

(** graphql.rs:102-124 [get_file_path_of_fragment]; [None] = panic (slice out of range, or
    [len - 1] underflow, which cannot happen after the prefix test) *)
Definition import_target (c : cconfig) (line current_dir : string) : option string :=
  let last_quote := match rfind (ascii_of_nat 34) line with
                    | Some i => i
                    | None => String.length line - 1
                    end in
  match slice line (String.length import_start) last_quote with
  | None => None
  | Some import_path =>
      let without_prefix :=
        match cc_import_prefix c with
        | None => None
        | Some prefix => strip_prefix prefix import_path
        end in
      Some match without_prefix with
           | Some p => path_join (cc_root_dir c) p
           | None => if starts_with "." import_path then path_join current_dir import_path
                     else path_join (cc_root_dir c) import_path
           end
  end.

(** [HashMap<PathBuf, (String, LocationInformation)>] *)
Definition imports := amap rpath (string * location).

(** graphql.rs:126-167 [add_imported_fragments].  One unit of fuel per nested file; [Diverges] = out
    of fuel. *)
Fixpoint add_imports (fuel : nat) (e : env) (f : fs) (c : cconfig) (file contents : string)
         (im : imports) (ms : list message) : outcome (imports * list message) :=
  match fuel with
  | O => Diverges
  | S k =>
      let current_dir := path_pop file in
      (fix go (n : nat) (ls : list string) (im : imports) (ms : list message)
         : outcome (imports * list message) :=
         match ls with
         | [] => Done (im, ms)
         | line :: ls' =>
             if is_empty line || is_empty (trim line) then go (S n) ls' im ms
             else if negb (starts_with import_start line) then
                    if starts_with "#" line then go (S n) ls' im ms else Done (im, ms)
             else
               let loc := loc_line_column (n + 1) line (String.length import_start) in
               match import_target c line current_dir with
               | None => Panics
               | Some target =>
                   match read_file e f target with
                   | Err m => go (S n) ls' im (ms ++ [with_source m file (Some loc)])
                   | Ok other =>
                       match add_imports k e f c target other im ms with
                       | Done (im', ms') => go (S n) ls' (aset (P target) (other, loc) im') ms'
                       | Panics => Panics
                       | Diverges => Diverges
                       end
                   end
               end
         end) 0 (lines contents) im ms
  end.

(** graphql.rs:176-197: one imported file *)
Definition foreign_step (e : env) (path : string) (st : amap string fragdef * list message)
           (x : rpath * (string * location)) : amap string fragdef * list message :=
  let '(other_path, (contents, loc)) := x in
  let (frags, ms) := st in
  match parse_file e contents (raw other_path) with
  | Err _ => (frags, ms)
  | Ok (DFrag fd) => (aset (fr_name fd) fd frags, ms)
  | Ok (DOp _) =>
      (frags, ms ++ [with_source (simple_message CompileError
                       ("cannot import non-fragment GraphQL document `" +++ path +++ "`")) path
                       (Some (loc_with_help loc
                          (Some "This document is not a fragment, and importing it is probably a mistake.")))])
  end.

(** graphql.rs:169-200 [parse_foreign_fragments], in hash order *)
Definition parse_foreign (e : env) (path : string) (im : imports) (ms : list message)
  : amap string fragdef * list message :=
  fold_left (foreign_step e path) (env_order e path [0; 0] _ im) ([], ms).

(** graphql.rs:18-22 [CompileReport] *)
Record report := { rp_messages : list message; rp_globals : gset }.

(** The sub-oracles used by the two compile stages *)
Definition suborder (o : order) (p : list nat) : order := fun q => o (q ++ p).

(** graphql.rs:202-268 [compile_file].  Fuel bounds both the import recursion and the collection. *)
Definition compile_file (fuel : nat) (e : env) (f : fs) (c : cconfig) (s : schema) (path : string)
  : outcome (fs * res (list message) report) :=
  match read_file e f path with
  | Err m => Done (f, Err [m])
  | Ok contents =>
      match parse_file e contents path with
      | Err m => Done (f, Err [m])
      | Ok d =>
          match add_imports fuel e f c path contents [] [] with
          | Panics => Panics
          | Diverges => Diverges
          | Done (im, ms) =>
              let (frags, ms) := parse_foreign e path im ms in
              let cx := {| cx_schema := s; cx_deprecations := cc_deprecations c; cx_frags := frags;
                           cx_order := suborder (env_order e path) [1; 0] |} in
              match compile_definition fuel cx d with
              | None => Diverges
              | Some (ws, Err errs) =>
                  Done (f, Err (ms ++ List.map (ir_error_message (env_similar e) contents path) errs
                                   ++ List.map (warning_message contents path) ws))
              | Some (ws, Ok op) =>
                  let ms := ms ++ List.map (warning_message contents path) ws in
                  match compile_ir c (suborder (env_order e path) [2; 0]) s op with
                  | Err te => Done (f, Err (ms ++ [ts_error_message te]))
                  | Ok co =>
                      let out := with_extension path "graphql.d.ts" in
                      match write_file e f out (co_contents co) with
                      | (f', Some err) => Done (f', Err [io_message "write" err out])
                      | (f', None) =>
                          Done (f', Ok {| rp_messages := ms; rp_globals := co_globals co |})
                      end
                  end
              end
          end
      end
  end.

(** graphql.rs:280-291: path of the globals file *)
Definition globals_path (c : cconfig) (root : string) : string :=
  let without_prefix :=
    match cc_import_prefix c with
    | None => None
    | Some prefix => strip_prefix prefix (cc_globals_module c)
    end in
  let out := match without_prefix with
             | Some m => path_join root m
             | None => path_join root (cc_globals_module c)
             end in
  match path_extension out with
  | Some _ => out
  | None => with_extension out "ts"
  end.

(** graphql.rs:270-297 [compile_global_types_file]; [None] in the outcome = success *)
Definition compile_globals_file (fuel : nat) (e : env) (f : fs) (c : cconfig) (s : schema)
           (root : string) (names : gset) : outcome (fs * option message) :=
  match names with
  | [] => Done (f, None)
  | _ =>
      match compile_globals fuel c (suborder (env_order e root) [1]) s names with
      | None => Diverges
      | Some (Err te) => Done (f, Some (ts_error_message te))
      | Some (Ok contents) =>
          match write_file e f (globals_path c root) contents with
          | (f', Some err) => Done (f', Some (io_message "write" err root))
          | (f', None) => Done (f', None)
          end
      end
  end.
