(** C44: the exit code reflects the messages. *)
From Verif Require Import ProcFacts.

Theorem C44_exit_code : forall ms,
  (snd (exit_report ms) = 0 <-> forall m, In m ms -> ~ is_error_level (ms_level m)) /\
  (snd (exit_report ms) = 1 <-> exists m, In m ms /\ is_error_level (ms_level m)) /\
  (snd (exit_report ms) = 0 \/ snd (exit_report ms) = 1).
Proof. exact exit_code. Qed.
Print Assumptions C44_exit_code.

(** Whole process: exit code 0 means that configuration and schema were loaded, every worker
    returned, every message of every processed entry is a warning, and the globals step succeeded. *)
Theorem C44_success : forall fuel wo a sched out f,
  qlc fuel wo a sched = Exited 0 out f ->
  exists cf s, load_config (ca_config_file a) (wo_config wo) = Ok cf /\
    let rc := merge_config (wo_ncpus wo) a cf in
    parse_schema (rc_schema_path rc) (wo_schema wo (rc_schema_path rc)) = Ok s /\
    let c := cconfig_of rc in
    let n := rc_number_threads rc in
    let p := steps (run_work fuel (wo_env wo) (wo_listing wo) c s) n
                   (start n (WDir (rc_root_dir rc)) (wo_fs wo)) sched in
    pool_status p = AllReturned /\
    (forall x m, In x (pool_log p) -> In m (rp_messages (snd x)) -> ms_level m = CompileWarning) /\
    compile_globals_file fuel (wo_env wo) (ps_ext p) c s (rc_root_dir rc) (rp_globals (aggregate p))
      = Done (f, None).
Proof. exact qlc_success. Qed.
Print Assumptions C44_success.

(** Non-vacuity: two warnings and one error *)
Example C44_nonvacuous :
  let w := simple_message CompileWarning "w" in
  let e := simple_message ProgramError "e" in
  snd (exit_report [w; w]) = 0 /\ snd (exit_report [w; e; w]) = 1.
Proof. split; reflexivity. Qed.
