(** C58: the configuration file is read for what it says, under the names of the options. *)
From Verif Require Import SameFacts Worlds.

(** camelCase: a hyphen disappears and the letter after it becomes a capital *)
Definition capital (c : ascii) : ascii :=
  let n := nat_of_ascii c in if Nat.leb 97 n && Nat.leb n 122 then ascii_of_nat (n - 32) else c.
Fixpoint camel (s : string) : string :=
  match s with
  | EmptyString => EmptyString
  | String "-" (String c s') => String (capital c) (camel s')
  | String c s' => String c (camel s')
  end.

(** The options on a command line, under their long names; the directory to compile is not an option and
    --config-file cannot be in the file *)
Definition flag (n : string) (b : bool) : list (string * json) := if b then [(n, JBool true)] else [].
Definition value {A} (n : string) (w : A -> json) (o : option A) : list (string * json) :=
  match o with None => [] | Some x => [(n, w x)] end.
Definition options (a : cli_args) : list (string * json) :=
  value "schema-path" JStr (ca_schema_path a) ++ flag "use-custom-scalars" (ca_use_custom_scalars a) ++
  value "custom-scalar-prefix" JStr (ca_custom_scalar_prefix a) ++
  value "root-dir-import-prefix" JStr (ca_root_dir_import_prefix a) ++
  value "global-types-module-name" JStr (ca_global_types_module_name a) ++
  value "typed-graphql-documentnode-module-name" JStr (ca_docnode_module_name a) ++
  flag "disable-readonly-types" (ca_disable_readonly_types a) ++
  flag "show-deprecation-warnings" (ca_show_deprecation_warnings a) ++ value "num-threads" JNat (ca_num_threads a).
Definition renamed (key : string -> string) (l : list (string * json)) : list (string * json) :=
  List.map (fun x => (key (fst x), snd x)) l.
(** The one option whose key is not its camelcased name *)
Definition key (n : string) : string := if String.eqb n "schema-path" then "schemaFile" else camel n.

Definition root_only (a : cli_args) : cli_args :=
  {| ca_root_dir := ca_root_dir a; ca_config_file := None; ca_schema_path := None; ca_use_custom_scalars := false;
     ca_custom_scalar_prefix := None; ca_root_dir_import_prefix := None; ca_global_types_module_name := None;
     ca_docnode_module_name := None; ca_disable_readonly_types := false; ca_show_deprecation_warnings := false;
     ca_num_threads := None |}.
Definition with_config (wo : world) (r : config_read) : world :=
  {| wo_env := wo_env wo; wo_listing := wo_listing wo; wo_ncpus := wo_ncpus wo; wo_config := fun _ => r;
     wo_schema := wo_schema wo; wo_fs := wo_fs wo |}.

(** Decoding yields [c] exactly when the JSON value says [c] *)
Theorem C58_exact : forall j c, d_config j = Some c <-> says_config j c.
Proof. exact config_decodes. Qed.
Print Assumptions C58_exact.

(** A file that says nothing: an error, exit code 1, nothing is written *)
Theorem C58_rejected : forall fuel wo a sched e j,
  wo_config wo (match ca_config_file a with Some p => p | None => ".qlcrc.json" end) = config_from e j ->
  (forall c, ~ says_config j c) ->
  exists out, qlc fuel wo a sched = Exited 1 out (wo_fs wo).
Proof.
  intros fuel wo a sched e j S N. unfold qlc, load_config. rewrite S. unfold config_from.
  destruct (d_config j) as [c|] eqn:E; [apply config_decodes in E; exfalso; exact (N c E)|].
  eexists. reflexivity.
Qed.
Print Assumptions C58_rejected.

Lemma config_perm l l' : Permutation l l' -> d_config (JObj l) = d_config (JObj l').
Proof. intros P. unfold d_config, entries, opt. rewrite !(fun k => once_perm k _ _ P). reflexivity. Qed.

Definition file_of (a : cli_args) : config_file :=
  let b (x : bool) := if x then Some true else None in
  {| cf_schema_path := ca_schema_path a; cf_use_custom_scalars := b (ca_use_custom_scalars a);
     cf_disable_readonly_types := b (ca_disable_readonly_types a); cf_custom_scalar_prefix := ca_custom_scalar_prefix a;
     cf_num_threads := ca_num_threads a; cf_show_deprecation_warnings := b (ca_show_deprecation_warnings a);
     cf_root_dir_import_prefix := ca_root_dir_import_prefix a; cf_global_types_module_name := ca_global_types_module_name a;
     cf_docnode_module_name := ca_docnode_module_name a |}.
Lemma config_of a : d_config (JObj (renamed key (options a))) = Some (file_of a).
Proof.
  destruct a as [r f sp us cp rp gm dm dr sd nt].
  destruct sp, us, cp, rp, gm, dm, dr, sd, nt; reflexivity.
Qed.

(** Giving the options on the command line or in .qlcrc.json makes no difference *)
Theorem C58_file_or_args : forall fuel wo a sched e l,
  cli_args_accepted a = true -> ca_config_file a = None -> Permutation l (renamed key (options a)) ->
  qlc fuel (with_config wo (config_from e (JObj l))) (root_only a) sched =
  qlc fuel (with_config wo (CRNotFound e)) a sched.
Proof.
  intros fuel wo a sched e l A C P.
  assert (L : exists cf, load_config None (fun _ => config_from e (JObj l)) = Ok cf /\
            merge_config (wo_ncpus wo) (root_only a) cf = merge_config (wo_ncpus wo) a config_default).
  { unfold config_from. rewrite (config_perm _ _ P), config_of. eexists. split; [reflexivity|].
    unfold cli_args_accepted in A.
    destruct a as [r f sp us cp rp gm dm dr sd nt]. cbn [ca_config_file] in C. subst f. cbn in A |- *. unfold merge_config. cbn.
    assert (J : forall d, opt_get (match sp with
                          | Some sp => if is_absolute sp then Some sp else Some (path_join "" sp)
                          | None => None
                          end) d = opt_get (opt_or sp None) d).
    { intros d. destruct sp as [sp|]; [|reflexivity]. unfold path_join. destruct (is_absolute sp); reflexivity. }
    destruct us, dr, sd, nt, rp, gm, dm; cbn in *; f_equal; try apply J; destruct cp; cbn in *; congruence. }
  destruct L as (cf & L & M). unfold qlc, with_config. cbn [wo_config wo_ncpus wo_schema wo_fs wo_env wo_listing root_only ca_config_file].
  rewrite C, L. cbn [load_config]. rewrite M. reflexivity.
Qed.
Print Assumptions C58_file_or_args.

(** As the README describes it, under camelcased names: when the schema path is not among them *)
Theorem C58_camelcased : forall fuel wo a sched e l,
  cli_args_accepted a = true -> ca_config_file a = None -> ca_schema_path a = None ->
  Permutation l (renamed camel (options a)) ->
  qlc fuel (with_config wo (config_from e (JObj l))) (root_only a) sched =
  qlc fuel (with_config wo (CRNotFound e)) a sched.
Proof.
  intros fuel wo a sched e l A C N P. apply C58_file_or_args; auto.
  replace (renamed key (options a)) with (renamed camel (options a)); [exact P|].
  destruct a as [r f sp us cp rp gm dm dr sd nt]. cbn in N. subst sp. destruct us, cp, rp, gm, dm, dr, sd, nt; reflexivity.
Qed.
Print Assumptions C58_camelcased.

(** Keys that are not in the file's vocabulary never matter *)
Theorem C58_unknown_keys : forall l k v,
  ~ In k (List.map key (List.map fst (options
      {| ca_root_dir := None; ca_config_file := None; ca_schema_path := Some ""; ca_use_custom_scalars := true;
         ca_custom_scalar_prefix := Some ""; ca_root_dir_import_prefix := Some ""; ca_global_types_module_name := Some "";
         ca_docnode_module_name := Some ""; ca_disable_readonly_types := true; ca_show_deprecation_warnings := true;
         ca_num_threads := Some 0 |}))) ->
  forall c, says_config (JObj ((k, v) :: l)) c <-> says_config (JObj l) c.
Proof.
  intros l k v N c. assert (E : d_config (JObj ((k, v) :: l)) = d_config (JObj l)).
  { unfold d_config, entries, opt. cbn in N. assert (O : forall k', k <> k' -> once k' ((k, v) :: l) = once k' l).
    { intros k' D. cbn. destruct (String.eqb_spec k k'); [contradiction|reflexivity]. }
    rewrite !O by (intros ->; tauto). reflexivity. }
  split; intros H; apply config_decodes; apply config_decodes in H; congruence.
Qed.
Print Assumptions C58_unknown_keys.

(** The README's way does not work for the schema path: the key schemaPath is ignored, with no message *)
Definition schema_args : cli_args :=
  {| ca_root_dir := None; ca_config_file := None; ca_schema_path := Some "s.json"; ca_use_custom_scalars := false;
     ca_custom_scalar_prefix := None; ca_root_dir_import_prefix := None; ca_global_types_module_name := None;
     ca_docnode_module_name := None; ca_disable_readonly_types := false; ca_show_deprecation_warnings := false;
     ca_num_threads := Some 0 |}.
(** [s.json] is there, [schema.json] is not *)
Definition schema_world : world :=
  {| wo_env := tiny_env; wo_listing := fun _ => Ok []; wo_ncpus := 1; wo_config := fun _ => CRNotFound "No such file";
     wo_schema := fun p => if String.eqb p "s.json" then SRDecoded tiny_schema else SRIoError "No such file";
     wo_fs := fun _ => Err "No such file" |}.
Theorem C58_camelcased_refuted : exists fuel wo a sched e,
  cli_args_accepted a = true /\ ca_config_file a = None /\
  qlc fuel (with_config wo (config_from e (JObj (renamed camel (options a))))) (root_only a) sched <>
  qlc fuel (with_config wo (CRNotFound e)) a sched.
Proof.
  exists 10, schema_world, schema_args, [], "". split; [reflexivity|]. split; [reflexivity|].
  intros E. apply (f_equal (fun p => match p with Exited c _ _ => c | _ => 7 end)) in E. vm_compute in E. discriminate.
Qed.
Print Assumptions C58_camelcased_refuted.

Example C58_nonvacuous :
  renamed key (options (args_threads 4)) = [("numThreads", JNat 4)] /\
  (exists c, says_config (JObj [("useCustomScalars", JBool true); ("numThreads", JNat 2)]) c /\ cf_num_threads c = Some 2) /\
  (forall c, ~ says_config (JObj [("numThreads", JStr "2")]) c) /\ (forall c, ~ says_config (JObj [("numThreads", JNum "-1")]) c) /\
  (forall c, ~ says_config (JObj [("numThreads", JNat 1); ("numThreads", JNat 1)]) c).
Proof.
  split; [reflexivity|]. split; [eexists; split; [apply config_decodes; reflexivity|reflexivity]|].
  repeat split; intros c H; apply config_decodes in H; discriminate.
Qed.
