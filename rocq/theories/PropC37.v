(** C37: no file is compiled twice. *)
From Verif Require Import PoolProps Worlds.

(** Under every schedule the completed items are the items of distinct positions of the tree *)
Theorem C37_at_most_once : forall fuel e ls c s n root f sched,
  let st := steps (run_work fuel e ls c s) n (start n (WDir root) f) sched in
  exists ps, NoDup ps /\ Forall2 (in_tree ls root) ps (completed st).
Proof. intros fuel e ls c s n root f sched. exact (once fuel e ls c s n root f sched). Qed.
Print Assumptions C37_at_most_once.

(** Non-vacuity: a run of two workers that completes three items *)
Example C37_nonvacuous : exists sched,
  completed (steps (run_work 10 tiny_env deep_listing (cconfig_of (merge_config 4 no_args config_default)) [])
                   2 (start 2 (WDir ".") (one_file "./d/x.graphql" "Q")) sched)
  = [WDir "."; WFile "./d/x.graphql"; WDir "./d"].
Proof. exists (repeat 0 6 ++ repeat 1 6 ++ repeat 0 5). vm_compute. reflexivity. Qed.
