(** C29: a file's output is written only on success, and nothing else is touched. *)
From Verif Require Import GraphqlFacts Worlds.

Theorem C29_writes : forall fuel e f c s path f' r,
  compile_file fuel e f c s path = Done (f', r) ->
  let out := with_extension path "graphql.d.ts" in
  (* no other file changes *)
  (forall l, l <> env_locate e out -> f' l = f l) /\
  match r with
  | Ok _ =>
      (* success: the document and its types compiled, and exactly the result was written *)
      exists ms co, file_compiles fuel e f c s path ms co /\ f' (env_locate e out) = Ok (co_contents co)
  | Err ms =>
      (* failure: nothing was written, unless the operating system failed in the middle of the
         write of a document that did compile *)
      ms <> [] /\
      ((forall l, f' l = f l) \/
       exists ms0 co err partial, file_compiles fuel e f c s path ms0 co /\
         env_write e out = WFailMid err partial /\ ms = [io_message "write" err out] /\
         f' (env_locate e out) = Ok partial)
  end.
Proof.
  intros fuel e f c s path f' r H out. destruct r as [r|ms].
  - apply compile_file_ok in H. destruct H as (ms & co & C & W & _). split.
    + intros l. exact (write_file_other _ _ _ _ _ _ l W).
    + exists ms, co. split; auto. apply write_file_ok in W. apply W.
  - apply compile_file_err in H. destruct H as [[-> N]|(ms0 & co & err & C & W & ->)].
    + split; auto.
    + split; [intros l; exact (write_file_other _ _ _ _ _ _ l W)|]. split; [discriminate|].
      destruct (write_file_err _ _ _ _ _ _ W) as [[-> _]|(partial & Ew & Ep)]; [left; auto|right].
      exists ms0, co, err, partial. auto.
Qed.
Print Assumptions C29_writes.

(** A run that panics or never ends leaves the file system as it was *)
Theorem C29_no_outcome : forall fuel e ls c s path f,
  (forall f' r, compile_file fuel e f c s path <> Done (f', r)) ->
  forall f' k r, run_work fuel e ls c s (WFile path) f <> Done (f', k, r).
Proof.
  intros fuel e ls c s path f H f' k r E. cbn [run_work] in E.
  destruct (compile_file fuel e f c s path) as [[f2 r2]| |] eqn:E2; try discriminate.
  eapply H; eauto.
Qed.
Print Assumptions C29_no_outcome.

(** Non-vacuity: both kinds of result occur *)
Example C29_nonvacuous_ok : exists f' r,
  compile_file 10 tiny_env (one_file "./x.graphql" "Q") (cconfig_of (merge_config 4 no_args config_default))
    (match load_schema tiny_schema with Ok s => s | Err _ => [] end) "./x.graphql" = Done (f', Ok r).
Proof. eexists. eexists. vm_compute. reflexivity. Qed.
Example C29_nonvacuous_err : exists f' ms,
  compile_file 10 tiny_env (one_file "./x.graphql" "Q") (cconfig_of (merge_config 4 no_args config_default))
    [] "./x.graphql" = Done (f', Err ms).
Proof. eexists. eexists. vm_compute. reflexivity. Qed.
