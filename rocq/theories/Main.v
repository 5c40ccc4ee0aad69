(** Model of src/worker_pool.rs (work items, aggregation) and src/main.rs. *)
From Verif Require Export Graphql Pool.

(** worker_pool.rs:79-83 [Work] *)
Inductive work : Type := WFile (path : string) | WDir (path : string).

(** An entry produced by [fs::read_dir] *)
Inductive entry_kind := EkDir | EkFile | EkOther.
Record dirent := { de_name : string; de_kind : res string entry_kind }.

(** Directory listings.  [Err] = the directory cannot be opened; an [Err] item = reading that entry
    failed.  Simplification: listings do not change during the run; the only files qlc creates are
    its outputs, whose names do not end in .graphql (see Paths theorems), so that an output
    appearing in a listing would be ignored. *)
Definition listing : Type := string -> res string (list (res string dirent)).

(** worker_pool.rs:88-99: the loop of [run_dir_entry] *)
Fixpoint scan_entries (dir : string) (es : list (res string dirent)) (acc : list work)
  : res string (list work) :=
  match es with
  | [] => Ok acc
  | Err e :: _ => Err e
  | Ok d :: es' =>
      let path := path_join dir (de_name d) in
      match de_kind d with
      | Err e => Err e
      | Ok EkDir => scan_entries dir es' (acc ++ [WDir path])
      | Ok EkFile =>
          match path_extension path with
          | Some ext => if String.eqb ext "graphql" then scan_entries dir es' (acc ++ [WFile path])
                        else scan_entries dir es' acc
          | None => scan_entries dir es' acc
          end
      | Ok EkOther => scan_entries dir es' acc
      end
  end.

(** worker_pool.rs:86-101 [run_dir_entry] *)
Definition run_dir_entry (ls : listing) (dir : string) : res string (list work) :=
  match ls dir with
  | Err e => Err e
  | Ok es => scan_entries dir es []
  end.

(** worker_pool.rs:103-119 [Work::run] together with 136-154 (what the worker does with the result):
    additional work, and the messages and globals added to the worker's aggregate *)
Definition run_work (fuel : nat) (e : env) (ls : listing) (c : cconfig) (s : schema)
  : runner work fs report :=
  fun w f =>
    match w with
    | WDir path =>
        match run_dir_entry ls path with
        | Ok more => Done (f, more, {| rp_messages := []; rp_globals := [] |})
        | Err err => Done (f, [], {| rp_messages := [io_message "read" err path]; rp_globals := [] |})
        end
    | WFile path =>
        match compile_file fuel e f c s path with
        | Done (f', Ok r) => Done (f', [], r)
        | Done (f', Err ms) => Done (f', [], {| rp_messages := ms; rp_globals := [] |})
        | Panics => Panics
        | Diverges => Diverges
        end
    end.

(** worker_pool.rs:36-41 [WorkAggregateResult::new] *)
Definition agg_new : report := {| rp_messages := []; rp_globals := [] |}.

(** worker_pool.rs:43-62 [extend_globals], [extend_messages], [append_message], [extend_from] *)
Definition agg_extend (a r : report) : report :=
  {| rp_messages := rp_messages a ++ rp_messages r; rp_globals := sunion (rp_globals a) (rp_globals r) |}.

(** worker_pool.rs:134-157: the aggregate a worker returns, from the items it completed *)
Definition worker_aggregate (log : list (work * list work * report)) : report :=
  fold_left (fun a x => agg_extend a (snd x)) log agg_new.

(** worker_pool.rs:274-278: the aggregates of all workers, joined in the order of the handles *)
Definition aggregate (p : pool work fs report) : report :=
  fold_left (fun a w => agg_extend a (worker_aggregate (wk_log w))) (ps_workers p) agg_new.

(** worker_pool.rs:249-291 [WorkerPool::work], given the pool's final state *)
Definition finish_work (fuel : nat) (e : env) (c : cconfig) (s : schema) (root : string)
           (p : pool work fs report) : outcome (fs * list message) :=
  let agg := aggregate p in
  match compile_globals_file fuel e (ps_ext p) c s root (rp_globals agg) with
  | Done (f', None) => Done (f', rp_messages agg)
  | Done (f', Some m) => Done (f', rp_messages agg ++ [m])
  | Panics => Panics
  | Diverges => Diverges
  end.

(** How the process ends: exit code and standard output, a panic (exit code 101), an abort, or still
    running after the given schedule *)
Inductive process_end : Type :=
| Exited (code : nat) (out : string) (f : fs)
| ProcPanicked
| ProcAborted
| Running.

(** schema.rs:204-237 [parse_schema], main.rs:8-20: reading the schema file: decoded introspection
    data, an I/O error or a JSON error *)
Inductive schema_read : Type := SRDecoded (j : jschema) | SRIoError (e : string) | SRJsonError (e : string).
Definition parse_schema (path : string) (r : schema_read) : res (list message) schema :=
  match r with
  | SRIoError e => Err [io_message "read" e path]
  | SRJsonError e => Err [simple_message CompileError ("malformed schema: JSON parse error: " +++ e)]
  | SRDecoded j => match load_schema j with
                   | Ok s => Ok s
                   | Err e => Err [schema_error_message e]
                   end
  end.

(** cli.rs:522-557 as the end of the process *)
Definition exit_with (f : fs) (ms : list message) : process_end :=
  let (out, code) := exit_report ms in Exited code out f.

(** Everything the process reads from its surroundings *)
Record world := { wo_env : env; wo_listing : listing; wo_ncpus : nat;
                  wo_config : string -> config_read; wo_schema : string -> schema_read; wo_fs : fs }.

(** main.rs:8-20 [main], with cli.rs:410-458 [from_cli]; the worker threads follow [sched] *)
Definition qlc (fuel : nat) (wo : world) (a : cli_args) (sched : list nat) : process_end :=
  match load_config (ca_config_file a) (wo_config wo) with
  | Err m => exit_with (wo_fs wo) [m]
  | Ok cf =>
      let rc := merge_config (wo_ncpus wo) a cf in
      match parse_schema (rc_schema_path rc) (wo_schema wo (rc_schema_path rc)) with
      | Err ms => exit_with (wo_fs wo) ms
      | Ok s =>
          let c := cconfig_of rc in
          let n := rc_number_threads rc in
          let p := steps (run_work fuel (wo_env wo) (wo_listing wo) c s) n
                         (start n (WDir (rc_root_dir rc)) (wo_fs wo)) sched in
          match pool_status p with
          | StillRunning => Running
          | Aborted => ProcAborted
          | SomePanicked => ProcPanicked
          | AllReturned =>
              match finish_work fuel (wo_env wo) c s (rc_root_dir rc) p with
              | Done (f, ms) => exit_with f ms
              | Panics => ProcPanicked
              | Diverges => ProcAborted
              end
          end
      end
  end.
