(** C33: no document makes the compiler panic. *)
From Verif Require Import ImportProps ImportWorlds.

(** Full statement (false of the code): compiling a file never panics.
    Proved: it can panic only if an import line (before the first other line) of the file or of a
    file reachable through imports lacks its closing quote. *)
Theorem C33_no_panic_partial : forall fuel e f c s path,
  (forall contents F C, f (env_locate e path) = Ok contents -> importer e f c path contents F C -> ~ unclosed_import C) ->
  compile_file fuel e f c s path <> Panics.
Proof.
  intros fuel e f c s path U H. apply compile_file_panics in H. destruct H as (contents & d & R & _ & E).
  apply add_imports_panics in E. destruct E as (F & C & I & O). apply (U contents F C R I). apply open_unclosed. auto.
Qed.
Print Assumptions C33_no_panic_partial.

(** The condition is exact for parseable files with acyclic imports *)
Theorem C33_exact : forall e f c s path contents d,
  f (env_locate e path) = Ok contents -> parse_file e contents path = Ok d -> acyclic e f c path ->
  (exists F C, importer e f c path contents F C /\ unclosed_import C) <->
  (exists N, forall fuel, N <= fuel -> compile_file fuel e f c s path = Panics).
Proof.
  intros e f c s path contents d R Pd A. split.
  - intros (F & C & I & O). destruct (acyclic_terminates e f c path A contents R) as (N & HN).
    exists N. intros fuel L. apply compile_file_panics. exists contents, d. split; auto. split; auto.
    destruct (add_imports fuel e f c path contents [] []) as [[im ms]| |] eqn:E; auto.
    + exfalso. apply (add_imports_ok e f c fuel) in E. destruct E as (_ & No). apply (No F C I). apply open_unclosed. auto.
    + exfalso. exact (HN _ L _ _ E).
  - intros (N & HN). specialize (HN N (le_n N)). apply compile_file_panics in HN.
    destruct HN as (contents' & d' & R' & _ & E). rewrite R in R'. inversion R'; subst.
    apply add_imports_panics in E. destruct E as (F & C & I & O). exists F, C. split; auto. apply open_unclosed. auto.
Qed.
Print Assumptions C33_exact.

(** A single-threaded run over such a file ends in a panic (for more threads see C41) *)
Theorem C33_refuted : exists wo sched, qlc 10 wo (args_threads 1) sched = ProcPanicked.
Proof.
  exists (tiny_world letter_env (fun d => if String.eqb d "." then Ok [Ok {| de_name := "a.graphql"; de_kind := Ok EkFile |}] else Err "not found") unquoted).
  exists (repeat 0 20). vm_compute. reflexivity.
Qed.
Print Assumptions C33_refuted.

(** Non-vacuity *)
Example C33_nonvacuous : forall F C, importer letter_env (chain "S" "F" "F") tiny_config "./a.graphql" (import_line "b.graphql" +++ "S") F C ->
  ~ unclosed_import C.
Proof.
  intros F C I O.
  destruct (add_imports 5 letter_env (chain "S" "F" "F") tiny_config "./a.graphql" (import_line "b.graphql" +++ "S") [] []) as [[im ms]| |] eqn:E.
  - apply add_imports_ok in E. destruct E as (_ & No). apply (No F C I). apply open_unclosed. auto.
  - vm_compute in E. discriminate.
  - vm_compute in E. discriminate.
Qed.
Example C33_nonvacuous_open : unclosed_import (import_mark +++ "b.graphql" +++ nl +++ "Q").
Proof.
  exists 0, (import_mark +++ "b.graphql"). split; [split; [reflexivity|intros; lia]|].
  exists "b.graphql". split; auto. vm_compute. intuition discriminate.
Qed.
