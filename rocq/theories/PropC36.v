(** C36: every file is compiled under every schedule. *)
From Verif Require Import TreeFacts Worlds PoolProps.

(** Full statement (false of the code for two or more threads): when all workers have returned, each
    position of the tree below the root directory has been processed. *)
Definition complete_under (run : runner work fs report) (ls : listing) (n : nat) (root : string) (f : fs) : Prop :=
  forall sched, let s := steps run n (start n (WDir root) f) sched in
  pool_status s = AllReturned -> every_once ls root (completed s).

(** Proved: it holds for every number of threads >= 1 when there are no subdirectories with contents. *)
Theorem C36_complete_partial : forall fuel e ls c s n root f,
  0 < n -> flat_tree ls root -> complete_under (run_work fuel e ls c s) ls n root f.
Proof. exact flat_every. Qed.
Print Assumptions C36_complete_partial.

(** With two or more threads that condition is exact: on any other finite tree whose files all
    compile without panicking some schedule stops all workers with work left over. *)
Theorem C36_exact : forall fuel e ls c s n root f,
  2 <= n -> finite (dir_kids ls) (WDir root) -> tree_completes (run_work fuel e ls c s) ls root ->
  (complete_under (run_work fuel e ls c s) ls n root f <-> flat_tree ls root).
Proof. exact complete_iff_flat. Qed.
Print Assumptions C36_exact.

(** In general nothing is forgotten except what is still in the channel: if all workers have returned
    and the channel holds no work, everything was processed. *)
Theorem C36_leftover : forall fuel e ls c s n root f sched,
  let st := steps (run_work fuel e ls c s) n (start n (WDir root) f) sched in
  pool_status st = AllReturned -> (every_once ls root (completed st) <-> queued (ps_queue st) = []).
Proof. exact every_iff_empty. Qed.
Print Assumptions C36_leftover.

(** The loss is not visible to the user: exit code 0, no message, no output file *)
Theorem C36_refuted : exists wo sched f,
  qlc 10 wo (args_threads 2) sched = Exited 0 "" f /\
  in_tree (wo_listing wo) "." [0; 0] (WFile "./d/x.graphql") /\
  f "./d/x.graphql.d.ts" = Err "not found".
Proof.
  exists (tiny_world tiny_env deep_listing (one_file "./d/x.graphql" "Q")).
  (* worker 0 takes the root; worker 1 finds the channel empty; worker 0 sends ./d; worker 1 takes ./d;
     worker 0 finds the channel empty and all waiting, sends two Quits; worker 1 sends x.graphql behind
     them; both take a Quit *)
  exists ([0;0;0] ++ [1;1;1;1] ++ [0;0;0] ++ [1] ++ repeat 0 8 ++ repeat 1 7 ++ repeat 0 4 ++ repeat 1 8 ++ repeat 0 8).
  eexists. split; [vm_compute; reflexivity|]. split; [|vm_compute; reflexivity].
  apply (node_child _ _ [0] (WDir "./d") 0); [|reflexivity].
  apply (node_child _ _ [] (WDir ".") 0); [constructor|reflexivity].
Qed.
Print Assumptions C36_refuted.

(** Non-vacuity: a flat tree with one file, three threads, a schedule that returns *)
Example C36_nonvacuous :
  flat_tree flat_listing "." /\
  exists sched f, qlc 10 (tiny_world tiny_env flat_listing (one_file "./x.graphql" "Q")) (args_threads 3) sched = Exited 0 "" f /\
    f "./x.graphql.d.ts" <> Err "not found".
Proof.
  split; [intros x [<-|[]]; reflexivity|].
  exists (List.concat (repeat [0; 1; 2] 60)).
  eexists. split; [vm_compute; reflexivity|]. vm_compute. discriminate.
Qed.
