(** Specification side for the worker pool: where work items can be, positions in the tree of work. *)
From Verif Require Export Pool.

(** Work items waiting in the channel *)
Definition queued {W} (q : list (msg W)) : list W :=
  flat_map (fun m => match m with MWork w => [w] | MQuit => [] end) q.

(** Work items held by a worker: taken but not completed, or produced but not sent *)
Definition hand {W} (p : pc W) : list W :=
  match p with
  | PGot1 x | PGot2 x | PRun x => [x]
  | PSend ws => ws
  | _ => []
  end.
Definition hands {W G R} (s : pool W G R) : list W := flat_map (fun w => hand (wk_pc w)) (ps_workers s).

(** Completed items, and the work they asked for *)
Definition completed {W G R} (s : pool W G R) : list W := List.map (fun e => fst (fst e)) (pool_log s).
Definition spawned {W G R} (s : pool W G R) : list W := flat_map (fun e => snd (fst e)) (pool_log s).

(** The tree of work: [node kids root p x] = item [x] sits at position [p], a list of child indices
    from the root *)
Inductive node {W} (kids : W -> list W) (root : W) : list nat -> W -> Prop :=
| node_root : node kids root [] root
| node_child p x i y : node kids root p x -> nth_error (kids x) i = Some y -> node kids root (p ++ [i]) y.

(** The work below [x] is finite *)
Inductive finite {W} (kids : W -> list W) : W -> Prop :=
| finite_node x : Forall (finite kids) (kids x) -> finite kids x.
