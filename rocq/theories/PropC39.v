(** C39: aggregation loses and duplicates nothing. *)
From Verif Require Import PoolProps Worlds.

(** The messages handed to the exit report are those of the completed items, in the order of the
    workers; a name is among the global types exactly when some completed item used it, and appears
    once; the log has one entry per completed item, and each is the genuine result of that item. *)
Theorem C39_aggregation : forall fuel e ls c s n root f sched,
  let st := steps (run_work fuel e ls c s) n (start n (WDir root) f) sched in
  rp_messages (aggregate st) = flat_map (fun x => rp_messages (snd x)) (pool_log st) /\
  (forall g, In g (rp_globals (aggregate st)) <-> exists x, In x (pool_log st) /\ In g (rp_globals (snd x))) /\
  NoDup (rp_globals (aggregate st)) /\
  completed st = List.map (fun x => fst (fst x)) (pool_log st) /\
  forall x ch r, In (x, ch, r) (pool_log st) ->
    exists g g', run_work fuel e ls c s x g = Done (g', ch, r).
Proof.
  intros fuel e ls c s n root f sched st.
  exact (conj (aggregate_messages st) (conj (aggregate_globals st) (conj (aggregate_globals_nodup st)
        (conj eq_refl (log_genuine fuel e ls c s n root f sched))))).
Qed.
Print Assumptions C39_aggregation.

(** Non-vacuity: two workers, the second compiles a file that cannot be parsed *)
Example C39_nonvacuous : exists sched,
  List.map ms_text (rp_messages (aggregate
    (steps (run_work 10 tiny_env deep_listing (cconfig_of (merge_config 4 no_args config_default)) [])
           2 (start 2 (WDir ".") (one_file "./d/x.graphql" "?")) sched))) = ["syntax error"].
Proof. exists (repeat 0 6 ++ repeat 1 6 ++ repeat 0 5). vm_compute. reflexivity. Qed.
