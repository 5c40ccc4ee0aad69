(** C38: single-threaded runs are complete and terminate. *)
From Verif Require Import PoolProps Worlds.

(** When the worker has returned, every position was processed exactly once *)
Theorem C38_complete : forall fuel e ls c s root f sched,
  let st := steps (run_work fuel e ls c s) 1 (start 1 (WDir root) f) sched in
  pool_status st = AllReturned -> every_once ls root (completed st).
Proof. intros fuel e ls c s root f sched. exact (single_every fuel e ls c s 1 root f sched eq_refl). Qed.
Print Assumptions C38_complete.

(** On a finite tree whose files are compiled without panic it returns, after a number of steps that
    does not depend on the schedule *)
Theorem C38_terminates : forall fuel e ls c s root f,
  finite (dir_kids ls) (WDir root) -> tree_completes (run_work fuel e ls c s) ls root ->
  exists N, forall sched, N <= count_occ Nat.eq_dec sched 0 ->
    pool_status (steps (run_work fuel e ls c s) 1 (start 1 (WDir root) f) sched) = AllReturned.
Proof. intros fuel e ls c s root f. exact (single_ends fuel e ls c s 1 root f eq_refl). Qed.
Print Assumptions C38_terminates.

(** Non-vacuity *)
Example C38_nonvacuous :
  finite (dir_kids deep_listing) (WDir ".") /\
  tree_completes (run_work 10 tiny_env deep_listing (cconfig_of (merge_config 4 no_args config_default)) []) deep_listing ".".
Proof.
  split.
  - constructor. repeat constructor.
  - intros p x f N.
    assert (C : x = WDir "." \/ x = WDir "./d" \/ x = WFile "./d/x.graphql").
    { induction N as [|p x i y N IH E]; auto.
      destruct IH as [->|[->| ->]]; cbn in E; destruct i as [|[|i]]; inversion E; auto. }
    destruct C as [->|[->| ->]].
    + do 2 eexists. reflexivity.
    + do 2 eexists. reflexivity.
    + cbn. unfold compile_file, read_file. cbn [tiny_env env_locate].
      destruct (f "./d/x.graphql"); [|do 2 eexists; reflexivity].
      unfold parse_file. cbn [tiny_env env_parse].
      destruct (String.eqb a "Q") eqn:E; [|do 2 eexists; reflexivity].
      apply String.eqb_eq in E. subst a. cbn. do 2 eexists. reflexivity.
Qed.
