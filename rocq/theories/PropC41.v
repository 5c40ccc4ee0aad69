(** C41: a panicking worker does not hang the process. *)
From Verif Require Import PoolProps Worlds.

(** Full statement (false of the code): after a panic the process still ends under every fair
    continuation.  What holds: with one worker thread the process has ended (exit code 101). *)
Theorem C41_single_thread_partial : forall fuel e ls c s root f sched,
  let st := steps (run_work fuel e ls c s) 1 (start 1 (WDir root) f) sched in
  existsb is_panicked (ps_workers st) = true ->
  pool_status st = SomePanicked \/ pool_status st = Aborted.
Proof. intros fuel e ls c s root f sched. exact (panic_single fuel e ls c s 1 root f sched eq_refl). Qed.
Print Assumptions C41_single_thread_partial.

(** For any number of threads: once a worker has panicked, no worker that has not returned yet ever
    returns, under any continuation; in particular the run is never reported as finished. *)
Theorem C41_stuck : forall fuel e ls c s n root f sched more,
  let run := run_work fuel e ls c s in
  let st := steps run n (start n (WDir root) f) sched in
  let later := steps run n (start n (WDir root) f) (sched ++ more) in
  existsb is_panicked (ps_workers st) = true ->
  pool_status later <> AllReturned /\
  List.map is_done (ps_workers later) = List.map is_done (ps_workers st).
Proof. intros fuel e ls c s n root f sched more. exact (panic_final fuel e ls c s n root f sched more). Qed.
Print Assumptions C41_stuck.

(** Two threads, one file whose import line lacks the closing quote: whatever happens after the
    panic, the process never ends. *)
Theorem C41_refuted : exists sched, forall more,
  qlc 10 bad_world (args_threads 2) (sched ++ more) = Running.
Proof. exact panic_hangs. Qed.
Print Assumptions C41_refuted.

(** Non-vacuity: a panic with one thread *)
Example C41_nonvacuous : exists sched, qlc 10 bad_world (args_threads 1) sched = ProcPanicked.
Proof. exists (repeat 0 12). vm_compute. reflexivity. Qed.
