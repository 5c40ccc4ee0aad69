(** The worker pool at the grain of single file system operations.

    Pool.v and Main.v perform [Work::run] (src/worker_pool.rs:103-119) in one step.  Here a worker's run
    of an item is a program of reads and writes of files, and every operation is a step of its own, so
    that the operations of different workers interleave.  A read may consist of several observations of
    the file; a write goes through intermediate contents (truncation, partial data).
    Not refined: reading a directory (listings do not change, see Main.v); the file system itself is
    sequentially consistent per operation. *)
From Verif Require Export Main.

(** Programs over the file system *)
Inductive prog (A : Type) : Type :=
| FRet (o : outcome A)
| FRead (l : string) (k : res string string -> prog A)
| FPut (l c : string) (k : prog A).
Arguments FRet {A} o.
Arguments FRead {A} l k.
Arguments FPut {A} l c k.

Fixpoint bind {A B} (p : prog A) (k : A -> prog B) : prog B :=
  match p with
  | FRet (Done a) => k a
  | FRet Panics => FRet Panics
  | FRet Diverges => FRet Diverges
  | FRead l r => FRead l (fun v => bind (r v) k)
  | FPut l c q => FPut l c (bind q k)
  end.

(** How the operating system splits operations: the number of further observations made when a
    location is read, the result of a read from what was observed, and the contents a file goes
    through before it holds what is written *)
Record grain := { gr_more : string -> nat;
                  gr_join : list (res string string) -> res string string;
                  gr_chunks : string -> string -> list string }.

(** [std::fs::read_to_string] (graphql.rs:61) *)
Fixpoint observe (more : nat) (l : string) (seen : list (res string string))
  : prog (list (res string string)) :=
  FRead l (fun v => match more with
                    | O => FRet (Done (seen ++ [v]))
                    | S m => observe m l (seen ++ [v])
                    end).
(** graphql.rs:56-65 [read_graphql_file] *)
Definition read_prog (gr : grain) (e : env) (path : string) : prog (res message string) :=
  bind (observe (gr_more gr (env_locate e path)) (env_locate e path) [])
       (fun vs => FRet (Done match gr_join gr vs with
                             | Ok c => Ok c
                             | Err err => Err (io_message "read" err path)
                             end)).

(** [std::fs::write] (graphql.rs:257) *)
Definition put_prog (gr : grain) (l c : string) (res : option string) : prog (option string) :=
  fold_right (fun x k => FPut l x k) (FRet (Done res)) (gr_chunks gr l c ++ [c]).
Definition write_prog (gr : grain) (e : env) (path contents : string) : prog (option string) :=
  match env_write e path with
  | WOk => put_prog gr (env_locate e path) contents None
  | WFailOpen err => FRet (Done (Some err))
  | WFailMid err partial => put_prog gr (env_locate e path) partial (Some err)
  end.

(** graphql.rs:126-167 [add_imported_fragments] *)
Definition pwalker : Type := string -> string -> imports -> list message -> prog (imports * list message).
Fixpoint import_loop (gr : grain) (rec : pwalker) (e : env) (c : cconfig) (file : string) (n : nat)
         (ls : list string) (im : imports) (ms : list message) : prog (imports * list message) :=
  match ls with
  | [] => FRet (Done (im, ms))
  | line :: ls' =>
      if is_empty line || is_empty (trim line) then import_loop gr rec e c file (S n) ls' im ms
      else if negb (starts_with import_start line) then
             if starts_with "#" line then import_loop gr rec e c file (S n) ls' im ms
             else FRet (Done (im, ms))
      else
        let loc := loc_line_column (n + 1) line (String.length import_start) in
        match import_target c line (path_pop file) with
        | None => FRet Panics
        | Some target =>
            bind (read_prog gr e target) (fun r =>
            match r with
            | Err m => import_loop gr rec e c file (S n) ls' im (ms ++ [with_source m file (Some loc)])
            | Ok other =>
                bind (rec target other im ms) (fun x =>
                import_loop gr rec e c file (S n) ls' (aset (P target) (other, loc) (fst x)) (snd x))
            end)
        end
  end.
Fixpoint imports_prog (gr : grain) (fuel : nat) (e : env) (c : cconfig) (file contents : string)
         (im : imports) (ms : list message) : prog (imports * list message) :=
  match fuel with
  | O => FRet Diverges
  | S k => import_loop gr (imports_prog gr k e c) e c file 0 (lines contents) im ms
  end.

(** graphql.rs:202-268 [compile_file] *)
Definition compile_prog (gr : grain) (fuel : nat) (e : env) (c : cconfig) (s : schema) (path : string)
  : prog (res (list message) report) :=
  bind (read_prog gr e path) (fun r =>
  match r with
  | Err m => FRet (Done (Err [m]))
  | Ok contents =>
      match parse_file e contents path with
      | Err m => FRet (Done (Err [m]))
      | Ok d =>
          bind (imports_prog gr fuel e c path contents [] []) (fun x =>
          let (frags, ms) := parse_foreign e path (fst x) (snd x) in
          let cx := {| cx_schema := s; cx_deprecations := cc_deprecations c; cx_frags := frags;
                       cx_order := suborder (env_order e path) [1; 0] |} in
          match compile_definition fuel cx d with
          | None => FRet Diverges
          | Some (ws, Err errs) =>
              FRet (Done (Err (ms ++ List.map (ir_error_message (env_similar e) contents path) errs
                                  ++ List.map (warning_message contents path) ws)))
          | Some (ws, Ok op) =>
              let ms := ms ++ List.map (warning_message contents path) ws in
              match compile_ir c (suborder (env_order e path) [2; 0]) s op with
              | Err te => FRet (Done (Err (ms ++ [ts_error_message te])))
              | Ok co =>
                  let out := with_extension path "graphql.d.ts" in
                  bind (write_prog gr e out (co_contents co)) (fun w =>
                  FRet (Done match w with
                             | Some err => Err [io_message "write" err out]
                             | None => Ok {| rp_messages := ms; rp_globals := co_globals co |}
                             end))
              end
          end)
      end
  end).

(** worker_pool.rs:103-119 [Work::run] *)
Definition item_prog (gr : grain) (fuel : nat) (e : env) (ls : listing) (c : cconfig) (s : schema) (x : work)
  : prog (list work * report) :=
  match x with
  | WDir path =>
      FRet (Done match run_dir_entry ls path with
                 | Ok more => (more, {| rp_messages := []; rp_globals := [] |})
                 | Err err => ([], {| rp_messages := [io_message "read" err path]; rp_globals := [] |})
                 end)
  | WFile path =>
      bind (compile_prog gr fuel e c s path) (fun r =>
      FRet (Done match r with
                 | Ok r => ([], r)
                 | Err ms => ([], {| rp_messages := ms; rp_globals := [] |})
                 end))
  end.

(** The pool, and for each worker the rest of the program it is executing *)
Record fpool (W R : Type) := { fp_pool : pool W fs R; fp_progs : nat -> option (prog (list W * R)) }.
Arguments Build_fpool {W R}.
Arguments fp_pool {W R} f.
Arguments fp_progs {W R} f.

Definition put (l c : string) (f : fs) : fs := fun l' => if String.eqb l' l then Ok c else f l'.
Definition with_ext {W G R} (p : pool W G R) (g : G) : pool W G R :=
  {| ps_queue := ps_queue p; ps_nwait := ps_nwait p; ps_nquit := ps_nquit p;
     ps_workers := ps_workers p; ps_ext := g; ps_aborted := ps_aborted p |}.
Definition set_prog {A} (ps : nat -> option A) (i : nat) (p : option A) : nat -> option A :=
  fun j => if Nat.eqb j i then p else ps j.
(** The end of an item: the outcome is known, the file system stays as it is *)
Definition commit {W R} (o : outcome (list W * R)) : runner W fs R := fun _ g =>
  match o with
  | Done (ch, r) => Done (g, ch, r)
  | Panics => Panics
  | Diverges => Diverges
  end.

(** Worker [i] takes one step: the next operation of its program if it is running an item, otherwise
    a step of Pool.v *)
Definition fstep {W R} (prg : W -> prog (list W * R)) (n : nat) (s : fpool W R) (i : nat) : fpool W R :=
  let p := fp_pool s in
  if ps_aborted p then s
  else match nth_error (ps_workers p) i with
       | None => s
       | Some w =>
           match wk_pc w with
           | PRun x =>
               match fp_progs s i with
               | None => {| fp_pool := p; fp_progs := set_prog (fp_progs s) i (Some (prg x)) |}
               | Some (FRead l k) => {| fp_pool := p; fp_progs := set_prog (fp_progs s) i (Some (k (ps_ext p l))) |}
               | Some (FPut l c k) => {| fp_pool := with_ext p (put l c (ps_ext p)); fp_progs := set_prog (fp_progs s) i (Some k) |}
               | Some (FRet o) => {| fp_pool := step (commit o) n p i; fp_progs := set_prog (fp_progs s) i None |}
               end
           | _ => {| fp_pool := step (commit Diverges) n p i; fp_progs := fp_progs s |}
           end
       end.
Definition fsteps {W R} (prg : W -> prog (list W * R)) (n : nat) (s : fpool W R) (sched : list nat) : fpool W R :=
  fold_left (fstep prg n) sched s.
Definition fstart {W R} (n : nat) (root : W) (g : fs) : fpool W R :=
  {| fp_pool := start n root g; fp_progs := fun _ => None |}.

(** main.rs:8-20 [main] with this pool; compare [qlc] of Main.v *)
Definition fine_qlc (gr : grain) (fuel : nat) (wo : world) (a : cli_args) (sched : list nat) : process_end :=
  match load_config (ca_config_file a) (wo_config wo) with
  | Err m => exit_with (wo_fs wo) [m]
  | Ok cf =>
      let rc := merge_config (wo_ncpus wo) a cf in
      match parse_schema (rc_schema_path rc) (wo_schema wo (rc_schema_path rc)) with
      | Err ms => exit_with (wo_fs wo) ms
      | Ok s =>
          let c := cconfig_of rc in
          let n := rc_number_threads rc in
          let p := fp_pool (fsteps (item_prog gr fuel (wo_env wo) (wo_listing wo) c s) n
                                   (fstart n (WDir (rc_root_dir rc)) (wo_fs wo)) sched) in
          match pool_status p with
          | StillRunning => Running
          | Aborted => ProcAborted
          | SomePanicked => ProcPanicked
          | AllReturned =>
              match finish_work fuel (wo_env wo) c s (rc_root_dir rc) p with
              | Done (f, ms) => exit_with f ms
              | Panics => ProcPanicked
              | Diverges => ProcAborted
              end
          end
      end
  end.
