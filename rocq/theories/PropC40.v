(** C40: the pool can always finish. *)
From Verif Require Import PoolProps Worlds PropC38.

(** From every reachable state some continuation makes all workers return, on every finite tree whose
    items are processed without panic, for every number of threads *)
Theorem C40_no_deadlock : forall fuel e ls c s n root f sched,
  finite (dir_kids ls) (WDir root) -> tree_completes (run_work fuel e ls c s) ls root ->
  exists more,
    pool_status (steps (run_work fuel e ls c s) n (start n (WDir root) f) (sched ++ more)) = AllReturned.
Proof. intros fuel e ls c s n root f sched. exact (can_finish fuel e ls c s n root f sched). Qed.
Print Assumptions C40_no_deadlock.

(** Non-vacuity: the hypotheses hold of a tree with a subdirectory *)
Example C40_nonvacuous :
  finite (dir_kids deep_listing) (WDir ".") /\
  tree_completes (run_work 10 tiny_env deep_listing (cconfig_of (merge_config 4 no_args config_default)) []) deep_listing ".".
Proof. exact C38_nonvacuous. Qed.
