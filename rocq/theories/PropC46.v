(** C46: configuration precedence. *)
From Verif Require Import CliFacts PathFacts.

Theorem C46_precedence : forall ncpus a f,
  let r := merge_config ncpus a f in
  let root := rc_root_dir r in
  precedence (ca_root_dir a) None "." root /\
  precedence (ca_schema_path a) (cf_schema_path f) (path_join root "schema.json") (rc_schema_path r) /\
  precedence (ca_num_threads a) (cf_num_threads f) (Nat.min ncpus 8) (rc_number_threads r) /\
  precedence (option_map Some (ca_root_dir_import_prefix a)) (option_map Some (cf_root_dir_import_prefix f)) None
             (rc_root_dir_import_prefix r) /\
  precedence (ca_global_types_module_name a) (cf_global_types_module_name f) "graphql-globals"
             (rc_global_types_module_name r) /\
  precedence (ca_docnode_module_name a) (cf_docnode_module_name f) "@notarize/qlc-cli/typed-documentnode"
             (rc_docnode_module_name r) /\
  (rc_show_deprecation_warnings r = true <->
   ca_show_deprecation_warnings a = true \/ cf_show_deprecation_warnings f = Some true) /\
  (rc_use_custom_scalars r = true <-> ca_use_custom_scalars a = true \/ cf_use_custom_scalars f = Some true) /\
  (rc_disable_readonly_types r = true <->
   ca_disable_readonly_types a = true \/ cf_disable_readonly_types f = Some true).
Proof. exact config_precedence. Qed.
Print Assumptions C46_precedence.

(** ... and what the compiler is given of it: read-only properties unless either source disables them, and so on *)
Theorem C46_options : forall ncpus a f,
  let c := cconfig_of (merge_config ncpus a f) in
  (cc_readonly c = true <-> ca_disable_readonly_types a = false /\ cf_disable_readonly_types f <> Some true) /\
  (cc_deprecations c = true <-> ca_show_deprecation_warnings a = true \/ cf_show_deprecation_warnings f = Some true) /\
  (cc_bottom c = BottomAny <-> ca_use_custom_scalars a = false /\ cf_use_custom_scalars f <> Some true) /\
  precedence (ca_root_dir a) None "." (cc_root_dir c) /\
  precedence (option_map Some (ca_root_dir_import_prefix a)) (option_map Some (cf_root_dir_import_prefix f)) None (cc_import_prefix c) /\
  precedence (ca_global_types_module_name a) (cf_global_types_module_name f) "graphql-globals" (cc_globals_module c) /\
  precedence (ca_docnode_module_name a) (cf_docnode_module_name f) "@notarize/qlc-cli/typed-documentnode" (cc_docnode_module c).
Proof.
  intros ncpus a f. cbv zeta. pose proof (config_precedence ncpus a f) as H. cbv zeta in H.
  destruct H as (P1 & _ & _ & P4 & P5 & P6 & D & _ & _).
  split; [|split; [exact D|split; [|split; [exact P1|split; [exact P4|split; [exact P5|exact P6]]]]]].
  - unfold cconfig_of, merge_config, cc_readonly, rc_disable_readonly_types.
    destruct (ca_disable_readonly_types a), (cf_disable_readonly_types f) as [[|]|]; cbn; intuition (try discriminate; try congruence).
  - unfold cconfig_of, merge_config, cc_bottom, bottom_of, rc_use_custom_scalars, rc_custom_scalar_prefix.
    destruct (ca_use_custom_scalars a), (cf_use_custom_scalars f) as [[|]|]; cbn;
      repeat match goal with |- context [match ?x with Some _ => _ | None => _ end] => destruct x end;
      intuition (try discriminate; try congruence).
Qed.
Print Assumptions C46_options.

(** A relative schema path of the configuration file is taken relative to that file *)
Theorem C46_schema_path : forall f read c sp,
  read (opt_get f ".qlcrc.json") = CRDecoded c -> cf_schema_path c = Some sp ->
  exists cf, load_config f read = Ok cf /\
    cf_schema_path cf = if is_absolute sp then Some sp
                        else option_map (fun d => path_join d sp) (path_parent (opt_get f ".qlcrc.json")).
Proof. exact root_relative. Qed.
Print Assumptions C46_schema_path.

(** In texts: dir/file with a relative schema path means dir/path *)
Theorem C46_beside : forall f read c sp t,
  read (opt_get f ".qlcrc.json") = CRDecoded c -> cf_schema_path c = Some sp ->
  (forall r, sp <> "/" +++ r) -> beside sp (opt_get f ".qlcrc.json") t ->
  exists cf, load_config f read = Ok cf /\ cf_schema_path cf = Some t.
Proof.
  intros f read c sp t R E A B. destruct (root_relative f read c sp R E) as (cf & L & P). exists cf. split; [exact L|].
  rewrite P. apply absolute_spec in A. rewrite A. destruct (pop_beside sp _ t A B) as [Et Ep]. rewrite Ep. cbn. rewrite Et. reflexivity.
Qed.
Print Assumptions C46_beside.
Example C46_beside_nonvacuous : forall sp, beside sp ".qlcrc.json" sp /\ beside sp "conf/qlc.json" ("conf/" +++ sp).
Proof.
  intros sp. split.
  - apply beside_here. repeat split; try discriminate. cbn. intuition discriminate.
  - apply (beside_in sp "conf" "qlc.json").
    + exists "", "conf". split; [reflexivity|]. split; [discriminate|]. split; [cbn; intuition discriminate|left; reflexivity].
    + repeat split; try discriminate. cbn. intuition discriminate.
Qed.

(** Full statement (false of the code): the prefix takes effect exactly when custom scalars are
    enabled and a prefix is configured on the command line or, failing that, in the file. *)
Definition prefix_right (ncpus : nat) (a : cli_args) (f : config_file) : Prop := forall p,
  bottom_of (merge_config ncpus a f) = BottomPrefix p <->
  (ca_use_custom_scalars a = true \/ cf_use_custom_scalars f = Some true) /\
  (ca_custom_scalar_prefix a = Some p \/
   (ca_custom_scalar_prefix a = None /\ cf_custom_scalar_prefix f = Some p)).

(** Proved: right whenever the configuration file mentions useCustomScalars or has no prefix. *)
Theorem C46_prefix_partial : forall ncpus a f,
  cf_use_custom_scalars f <> None \/ cf_custom_scalar_prefix f = None -> prefix_right ncpus a f.
Proof. exact prefix_ok. Qed.
Print Assumptions C46_prefix_partial.

(** What the code does in general *)
Theorem C46_prefix_exact : forall ncpus a f p,
  (bottom_of (merge_config ncpus a f) = BottomPrefix p <->
   (ca_use_custom_scalars a = true \/ cf_use_custom_scalars f = Some true) /\
   (ca_custom_scalar_prefix a = Some p \/
    (ca_custom_scalar_prefix a = None /\ cf_custom_scalar_prefix f = Some p /\ cf_use_custom_scalars f <> None))).
Proof. exact prefix_effective. Qed.
Print Assumptions C46_prefix_exact.

Definition no_args : cli_args :=
  {| ca_root_dir := None; ca_config_file := None; ca_schema_path := None; ca_use_custom_scalars := false;
     ca_custom_scalar_prefix := None; ca_root_dir_import_prefix := None; ca_global_types_module_name := None;
     ca_docnode_module_name := None; ca_disable_readonly_types := false;
     ca_show_deprecation_warnings := false; ca_num_threads := None |}.

(** [--use-custom-scalars] with customScalarPrefix in the file: the prefix is ignored *)
Theorem C46_prefix_refuted : exists ncpus a f, cli_args_accepted a = true /\ ~ prefix_right ncpus a f.
Proof.
  exists 8.
  exists {| ca_root_dir := None; ca_config_file := None; ca_schema_path := None; ca_use_custom_scalars := true;
     ca_custom_scalar_prefix := None; ca_root_dir_import_prefix := None; ca_global_types_module_name := None;
     ca_docnode_module_name := None; ca_disable_readonly_types := false;
     ca_show_deprecation_warnings := false; ca_num_threads := None |}.
  exists {| cf_schema_path := None; cf_use_custom_scalars := None; cf_disable_readonly_types := None;
     cf_custom_scalar_prefix := Some "Scalar."; cf_num_threads := None; cf_show_deprecation_warnings := None;
     cf_root_dir_import_prefix := None; cf_global_types_module_name := None; cf_docnode_module_name := None |}.
  split; [reflexivity|]. intros H. specialize (H "Scalar."). cbn in H.
  destruct H as [_ H]. discriminate H. split; auto.
Qed.
Print Assumptions C46_prefix_refuted.

(** Non-vacuity: a command line value over a file value over the default; path of the schema *)
Example C46_nonvacuous :
  let f := {| cf_schema_path := Some "/s.json"; cf_use_custom_scalars := Some true; cf_disable_readonly_types := None;
     cf_custom_scalar_prefix := Some "P"; cf_num_threads := Some 3; cf_show_deprecation_warnings := None;
     cf_root_dir_import_prefix := None; cf_global_types_module_name := None; cf_docnode_module_name := None |} in
  rc_number_threads (merge_config 4 no_args f) = 3 /\ rc_number_threads (merge_config 4 no_args config_default) = 4 /\
  bottom_of (merge_config 4 no_args f) = BottomPrefix "P" /\
  rc_schema_path (merge_config 4 no_args config_default) = "./schema.json" /\
  (exists cf, load_config (Some "conf/q.json") (fun _ => CRDecoded
      {| cf_schema_path := Some "../s.json"; cf_use_custom_scalars := None; cf_disable_readonly_types := None;
         cf_custom_scalar_prefix := None; cf_num_threads := None; cf_show_deprecation_warnings := None;
         cf_root_dir_import_prefix := None; cf_global_types_module_name := None; cf_docnode_module_name := None |})
     = Ok cf /\ cf_schema_path cf = Some "conf/../s.json").
Proof. repeat split. eexists. split; reflexivity. Qed.
