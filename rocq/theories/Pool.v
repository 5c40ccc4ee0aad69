(** Model of the concurrent part of src/worker_pool.rs: worker threads, the shared channel and the
    two atomic counters, as a small-step interleaving semantics.

    Parameters of the model: a type [W] of work items, a type [G] of shared external state (the file
    system), a type [R] of results and the function [run] performed by a worker on an item
    ([Work::run], worker_pool.rs:103-119), see Main.v for the instance.
    Simplifications: [run] is one atomic step; the channel (crossbeam, unbounded) is a FIFO queue with
    atomic send and receive; atomics are sequentially consistent as in the code; the 1 ms sleep has no
    effect on the state. *)
From Verif Require Export Base.

(** worker_pool.rs:13-16 [Message] *)
Inductive msg (W : Type) : Type := MWork (w : W) | MQuit.
Arguments MWork {W} w.
Arguments MQuit {W}.

(** Program points of [Worker::run] / [Worker::pop_work] (worker_pool.rs:134-201).  Each is the point
    before one atomic access to shared state. *)
Inductive pc (W : Type) : Type :=
| PTry                       (* 161: try_recv *)
| PGot1 (w : W)              (* 163: set_waiting(false) *)
| PGot2 (w : W)              (* 164: set_quitting(false) *)
| PRun (w : W)               (* 136: work.run *)
| PSend (ws : list W)        (* 145-147: send the additional work, one message per step *)
| PQuit1                     (* 168: set_waiting(true) *)
| PQuit2                     (* 169: set_quitting(true) *)
| PLoadWait                  (* 171: load num_waiting *)
| PLoadQuit (nwait : nat)    (* 172: load num_quitting, then the tests of 176-182 *)
| PErr1                      (* 187: set_waiting(true) *)
| PErr2                      (* 188: set_quitting(false) *)
| PErr3                      (* 189: load num_waiting *)
| PSendQuit (k : nat)        (* 190-192: send k more Quit messages *)
| PDone                      (* 181/156: returned *)
| PPanicked.                 (* the thread panicked inside work.run *)
Arguments PTry {W}.
Arguments PGot1 {W} w.
Arguments PGot2 {W} w.
Arguments PRun {W} w.
Arguments PSend {W} ws.
Arguments PQuit1 {W}.
Arguments PQuit2 {W}.
Arguments PLoadWait {W}.
Arguments PLoadQuit {W} nwait.
Arguments PErr1 {W}.
Arguments PErr2 {W}.
Arguments PErr3 {W}.
Arguments PSendQuit {W} k.
Arguments PDone {W}.
Arguments PPanicked {W}.

(** worker_pool.rs:122-131 [Worker]; [wk_log] lists the completed items with the work they produced
    and their results: the aggregate (messages, globals) is a function of it, see Main.v *)
Record worker (W R : Type) := { wk_pc : pc W; wk_waiting : bool; wk_quitting : bool;
                                wk_log : list (W * list W * R) }.
Arguments Build_worker {W R}.
Arguments wk_pc {W R} w.
Arguments wk_waiting {W R} w.
Arguments wk_quitting {W R} w.
Arguments wk_log {W R} w.

(** Shared state.  [ps_aborted]: the process died (stack overflow inside [run]). *)
Record pool (W G R : Type) := { ps_queue : list (msg W); ps_nwait : nat; ps_nquit : nat;
                                ps_workers : list (worker W R); ps_ext : G; ps_aborted : bool }.
Arguments Build_pool {W G R}.
Arguments ps_queue {W G R} p.
Arguments ps_nwait {W G R} p.
Arguments ps_nquit {W G R} p.
Arguments ps_workers {W G R} p.
Arguments ps_ext {W G R} p.
Arguments ps_aborted {W G R} p.

Definition runner (W G R : Type) : Type := W -> G -> outcome (G * list W * R).

(** worker_pool.rs:211-229 [set_waiting] / [set_quitting]: new counter value *)
Definition set_flag (old desired : bool) (n : nat) : nat :=
  match old, desired with
  | false, true => S n
  | true, false => n - 1
  | _, _ => n
  end.

Fixpoint update {A} (l : list A) (i : nat) (x : A) : list A :=
  match l, i with
  | [], _ => []
  | _ :: l', O => x :: l'
  | y :: l', S k => y :: update l' k x
  end.

(** One step of one worker.  Returns the new worker, queue, counters, external state, aborted flag.
    [n] is [thread_count]. *)
Definition wstep {W G R} (run : runner W G R) (n : nat) (w : worker W R) (q : list (msg W))
           (nw nq : nat) (g : G)
  : worker W R * list (msg W) * nat * nat * G * bool :=
  let at_pc p := {| wk_pc := p; wk_waiting := wk_waiting w; wk_quitting := wk_quitting w; wk_log := wk_log w |} in
  let goto p := (at_pc p, q, nw, nq, g, false) in
  let wait b p := ({| wk_pc := p; wk_waiting := b; wk_quitting := wk_quitting w; wk_log := wk_log w |},
                   q, set_flag (wk_waiting w) b nw, nq, g, false) in
  let quit b p := ({| wk_pc := p; wk_waiting := wk_waiting w; wk_quitting := b; wk_log := wk_log w |},
                   q, nw, set_flag (wk_quitting w) b nq, g, false) in
  match wk_pc w with
  | PTry =>
      match q with
      | [] => goto PErr1
      | MWork x :: q' => (at_pc (PGot1 x), q', nw, nq, g, false)
      | MQuit :: q' => (at_pc PQuit1, q', nw, nq, g, false)
      end
  | PGot1 x => wait false (PGot2 x)
  | PGot2 x => quit false (PRun x)
  | PRun x =>
      match run x g with
      | Done (g', children, r) =>
          ({| wk_pc := PSend children; wk_waiting := wk_waiting w; wk_quitting := wk_quitting w;
              wk_log := wk_log w ++ [(x, children, r)] |}, q, nw, nq, g', false)
      | Panics => goto PPanicked
      | Diverges => (w, q, nw, nq, g, true)
      end
  | PSend [] => goto PTry
  | PSend (x :: xs) => (at_pc (PSend xs), q ++ [MWork x], nw, nq, g, false)
  | PQuit1 => wait true PQuit2
  | PQuit2 => quit true PLoadWait
  | PLoadWait => goto (PLoadQuit nw)
  | PLoadQuit nwait =>
      if nwait <? n then goto PTry
      else if Nat.eqb nq n then goto PDone
      else goto PLoadWait
  | PErr1 => wait true PErr2
  | PErr2 => quit false PErr3
  | PErr3 => if Nat.eqb nw n then goto (PSendQuit n) else goto PTry
  | PSendQuit O => goto PTry
  | PSendQuit (S k) => (at_pc (PSendQuit k), q ++ [MQuit], nw, nq, g, false)
  | PDone => goto PDone
  | PPanicked => goto PPanicked
  end.

(** Worker [i] takes one step; nothing happens if there is no such worker or the process aborted *)
Definition step {W G R} (run : runner W G R) (n : nat) (s : pool W G R) (i : nat) : pool W G R :=
  if ps_aborted s then s
  else match nth_error (ps_workers s) i with
       | None => s
       | Some w =>
           let '(w', q', nw', nq', g', ab) := wstep run n w (ps_queue s) (ps_nwait s) (ps_nquit s) (ps_ext s) in
           {| ps_queue := q'; ps_nwait := nw'; ps_nquit := nq';
              ps_workers := update (ps_workers s) i w'; ps_ext := g'; ps_aborted := ab |}
       end.

(** A schedule is the sequence of workers that take a step *)
Definition steps {W G R} (run : runner W G R) (n : nat) (s : pool W G R) (sched : list nat) : pool W G R :=
  fold_left (step run n) sched s.

(** worker_pool.rs:259-271: a fresh worker *)
Definition fresh_worker {W R} : worker W R :=
  {| wk_pc := PTry; wk_waiting := false; wk_quitting := false; wk_log := [] |}.

(** worker_pool.rs:250-272: the initial state with [n] workers and the root item queued *)
Definition start {W G R} (n : nat) (root : W) (g : G) : pool W G R :=
  {| ps_queue := [MWork root]; ps_nwait := 0; ps_nquit := 0;
     ps_workers := repeat fresh_worker n; ps_ext := g; ps_aborted := false |}.

Definition is_done {W R} (w : worker W R) : bool := match wk_pc w with PDone => true | _ => false end.
Definition is_panicked {W R} (w : worker W R) : bool := match wk_pc w with PPanicked => true | _ => false end.

(** worker_pool.rs:274-278: the scope is left when every thread has ended; the join of a panicked
    thread panics *)
Inductive pool_end : Type := StillRunning | AllReturned | SomePanicked | Aborted.
Definition pool_status {W G R} (s : pool W G R) : pool_end :=
  if ps_aborted s then Aborted
  else if forallb (fun w => is_done w || is_panicked w) (ps_workers s)
       then if existsb is_panicked (ps_workers s) then SomePanicked else AllReturned
       else StillRunning.

(** worker_pool.rs:274-278: results in the order of the handles *)
Definition pool_log {W G R} (s : pool W G R) : list (W * list W * R) :=
  flat_map wk_log (ps_workers s).
