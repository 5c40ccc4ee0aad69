(** C42: any thread count works. *)
From Verif Require Import PoolProps Worlds.

(** Full statement (false of the code for 0 threads, and for two or more threads on deep trees, see
    C36): whenever the pool has stopped, every position of the tree was processed. *)
Definition works_with (run : runner work fs report) (ls : listing) (n : nat) (root : string) (f : fs) : Prop :=
  forall sched, let s := steps run n (start n (WDir root) f) sched in
  pool_status s = AllReturned -> every_once ls root (completed s).

(** Proved: a flat tree works with every positive thread count, and any tree with one thread; if
    nothing panics the pool can stop, whatever has happened before. *)
Theorem C42_positive_partial : forall fuel e ls c s n root f,
  0 < n -> flat_tree ls root \/ n = 1 -> works_with (run_work fuel e ls c s) ls n root f.
Proof.
  intros fuel e ls c s n root f N [F|E].
  - exact (flat_every fuel e ls c s n root f N F).
  - intros sched. exact (single_every fuel e ls c s n root f sched E).
Qed.
Print Assumptions C42_positive_partial.

(** With no thread the pool stops at once, whatever the tree, having processed nothing *)
Theorem C42_zero : forall fuel e ls c s root f sched,
  let st := steps (run_work fuel e ls c s) 0 (start 0 (WDir root) f) sched in
  pool_status st = AllReturned /\ completed st = [] /\ ps_ext st = f.
Proof.
  intros fuel e ls c s root f sched.
  assert (E : steps (run_work fuel e ls c s) 0 (start 0 (WDir root) f) sched = start 0 (WDir root) f).
  { induction sched as [|i l IH]; [reflexivity|].
    change (steps (run_work fuel e ls c s) 0 (step (run_work fuel e ls c s) 0 (start 0 (WDir root) f) i) l = start 0 (WDir root) f).
    replace (step (run_work fuel e ls c s) 0 (start 0 (WDir root) f) i) with (@start work fs report 0 (WDir root) f); auto.
    unfold step. cbn. destruct i; reflexivity. }
  cbn zeta. rewrite E. repeat split.
Qed.
Print Assumptions C42_zero.

(** Observable: [--num-threads 0] exits with code 0 and no output, and the file is not compiled *)
Theorem C42_refuted : exists wo f, forall sched,
  qlc 10 wo (args_threads 0) sched = Exited 0 "" f /\
  in_tree (wo_listing wo) "." [0] (WFile "./x.graphql") /\
  f "./x.graphql.d.ts" = Err "not found".
Proof.
  exists (tiny_world tiny_env flat_listing (one_file "./x.graphql" "Q")).
  exists (one_file "./x.graphql" "Q"). intros sched. split; [|split].
  - unfold qlc.
    match goal with |- context [load_config ?a ?b] => let v := eval vm_compute in (load_config a b) in change (load_config a b) with v end.
    cbn beta iota zeta.
    match goal with |- context [parse_schema ?a ?b] => let v := eval vm_compute in (parse_schema a b) in change (parse_schema a b) with v end.
    cbn beta iota zeta.
    match goal with |- context [run_work ?a ?b ?c ?d ?e] => 
      destruct (C42_zero a b c d e "." (one_file "./x.graphql" "Q") sched) as (S1 & _) ;
      set (run := run_work a b c d e) in * end.
    assert (E : steps run 0 (start 0 (WDir ".") (one_file "./x.graphql" "Q")) sched = start 0 (WDir ".") (one_file "./x.graphql" "Q")).
    { clear S1. clearbody run. induction sched as [|i l IH]; [reflexivity|].
      change (steps run 0 (step run 0 (start 0 (WDir ".") (one_file "./x.graphql" "Q")) i) l = start 0 (WDir ".") (one_file "./x.graphql" "Q")).
      replace (step run 0 (start 0 (WDir ".") (one_file "./x.graphql" "Q")) i) with (@start work fs report 0 (WDir ".") (one_file "./x.graphql" "Q")); auto.
      unfold step. cbn. destruct i; reflexivity. }
    match goal with |- context [steps run ?a ?b ?c] => change (steps run a b c) with (steps run 0 (start 0 (WDir ".") (one_file "./x.graphql" "Q")) sched) end.
    rewrite E. vm_compute. reflexivity.
  - apply (node_child _ _ [] (WDir ".") 0); [constructor|reflexivity].
  - vm_compute. reflexivity.
Qed.
Print Assumptions C42_refuted.

(** Non-vacuity of [C42_positive_partial]: three threads on a flat tree reach a stopped state *)
Example C42_nonvacuous :
  flat_tree flat_listing "." /\
  exists sched f, qlc 10 (tiny_world tiny_env flat_listing (one_file "./x.graphql" "Q")) (args_threads 3) sched = Exited 0 "" f.
Proof.
  split; [intros x [<-|[]]; reflexivity|].
  exists (List.concat (repeat [0; 1; 2] 60)). eexists. vm_compute. reflexivity.
Qed.
