(** C32: import processing terminates. *)
From Verif Require Import ImportProps ImportWorlds.

(** Full statement (false of the code): for every file system processing the imports of a readable
    file ends. *)
Definition imports_end (e : env) (f : fs) (c : cconfig) (path contents : string) : Prop :=
  exists N, forall fuel, N <= fuel -> add_imports fuel e f c path contents [] [] <> Diverges.

(** Proved: it ends when no infinite chain of imports starts at the file; in particular when the file
    locations can be ranked so that imports go to lower ranks *)
Theorem C32_terminates_partial : forall e f c path contents,
  f (env_locate e path) = Ok contents -> acyclic e f c path -> imports_end e f c path contents.
Proof.
  intros e f c path contents R A. destruct (acyclic_terminates e f c path A contents R) as (N & HN).
  exists N. intros fuel L. apply HN. auto.
Qed.
Print Assumptions C32_terminates_partial.
Theorem C32_ranked : forall e f c (rank : string -> nat),
  (forall a b, import_step e f c b a -> rank (env_locate e b) < rank (env_locate e a)) ->
  forall path, acyclic e f c path.
Proof. exact rank_acyclic. Qed.
Print Assumptions C32_ranked.

(** That condition is exact, for import lines with closing quotes (see C33 for the others) *)
Theorem C32_exact : forall e f c path contents,
  f (env_locate e path) = Ok contents -> (forall F C, importer e f c path contents F C -> ~ unclosed_import C) ->
  (imports_end e f c path contents <-> acyclic e f c path).
Proof.
  intros e f c path contents R U. split.
  - intros (N & HN). specialize (HN N (le_n N)). destruct (add_imports N e f c path contents [] []) as [r| |] eqn:E.
    + eapply done_acyclic; eauto.
    + exfalso. apply add_imports_panics in E. destruct E as (F & C & I & O). apply (U F C I). apply open_unclosed. auto.
    + congruence.
  - intros A. exact (C32_terminates_partial e f c path contents R A).
Qed.
Print Assumptions C32_exact.

Lemma loop_diverges rec e f c file n line ls im ms t other :
  is_empty line || is_empty (trim line) = false -> negb (starts_with import_start line) = false ->
  import_target c line (path_pop file) = Some t -> f (env_locate e t) = Ok other ->
  rec t other im ms = Diverges -> imp_loop rec e f c file n (line :: ls) im ms = Diverges.
Proof. intros E1 E2 E3 E4 E5. cbn [imp_loop]. unfold read_file. rewrite E1, E2, E3, E4, E5. reflexivity. Qed.

(** A file that imports itself makes the compiler recurse without bound: the process is aborted *)
Theorem C32_refuted : exists e f c s path, forall fuel,
  compile_file fuel e f c s path = Diverges.
Proof.
  exists letter_env, looping, tiny_config, [], "./a.graphql". intros fuel.
  assert (K : forall k im ms, add_imports k letter_env looping tiny_config "./a.graphql" (import_line "a.graphql" +++ "Q") im ms = Diverges).
  { induction k as [|k IH]; intros im ms; [reflexivity|]. rewrite add_imports_S.
    change (lines (import_line "a.graphql" +++ "Q")) with [import_mark +++ "a.graphql" +++ String quote ""; "Q"].
    eapply loop_diverges; [vm_compute; reflexivity|vm_compute; reflexivity|vm_compute; reflexivity|reflexivity|apply IH]. }
  unfold compile_file. change (read_file letter_env looping "./a.graphql") with (@Ok message string (import_line "a.graphql" +++ "Q")).
  cbn iota beta. change (parse_file letter_env (import_line "a.graphql" +++ "Q") "./a.graphql") with (@Ok message definition tiny_query).
  cbn iota beta. rewrite K. reflexivity.
Qed.
Print Assumptions C32_refuted.

(** Non-vacuity: a chain of three files *)
Example C32_nonvacuous : acyclic letter_env (chain "S" "F" "F") tiny_config "./a.graphql" /\
  chain "S" "F" "F" (env_locate letter_env "./a.graphql") = Ok (import_line "b.graphql" +++ "S").
Proof.
  split; [|reflexivity].
  eapply (done_acyclic letter_env (chain "S" "F" "F") tiny_config 5 _ _ [] []); [reflexivity|]. vm_compute. reflexivity.
Qed.
