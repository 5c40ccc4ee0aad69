(** C51: the globals file is written where the generated files import it from. *)
From Verif Require Import ScanFacts Graphql BaseFacts Worlds.
From Coq Require Import Lia.

(** The globals module relative to the root directory: the import prefix, if the module name starts
    with it, stands for the root directory *)
Definition module_rel (c : cconfig) (m : string) : Prop :=
  (exists p, cc_import_prefix c = Some p /\ cc_globals_module c = p +++ m) \/
  ((forall p r, cc_import_prefix c = Some p -> cc_globals_module c <> p +++ r) /\ m = cc_globals_module c).

(** A file name without extension: no dot, except possibly in front *)
Definition plain_name (n : string) : Prop := forall a b, n = a +++ "." +++ b -> a = "".

(** A relative module path whose last component is [n] *)
Definition rel_module (m dir n : string) : Prop := ends_in m dir n /\ entry_name n /\ is_absolute m = false.

Lemma split_plain n : plain_name n -> split_file_at_dot n = (n, None).
Proof.
  intros Pn. unfold split_file_at_dot. destruct (rfind dot n) as [[|i]|] eqn:R; auto.
  apply rfind_Some in R. destruct R as (a & b & E & L & _). rewrite (Pn a b E) in L. discriminate.
Qed.
Lemma split_not_plain n : ~ plain_name n -> exists stem ext, split_file_at_dot n = (stem, Some ext).
Proof.
  intros Np. unfold split_file_at_dot. destruct (rfind dot n) as [[|i]|] eqn:R; eauto.
  - exfalso. apply Np. intros a b E. apply rfind_Some in R. destruct R as (a' & b' & E' & L & N).
    destruct a' as [|? a']; [|discriminate]. destruct a as [|x a]; auto. exfalso. apply N. cbn in E'. rewrite E in E'.
    inversion E'; subst. apply has_char_app. right. cbn. auto.
  - exfalso. apply Np. intros a b E. apply rfind_None in R. exfalso. apply R. rewrite E. apply has_char_app. right. cbn. auto.
Qed.
Lemma join_rel root m dir n : rel_module m dir n ->
  path_join root m = dir_prefix root +++ m /\ ends_in (path_join root m) (dir_prefix root +++ dir) n.
Proof.
  intros ((Em & D) & N & A).
  assert (J : path_join root m = dir_prefix root +++ m).
  { unfold path_join. rewrite A. unfold dir_prefix. destruct root as [|x r]; [reflexivity|].
    destruct (ends_with_sep (String x r)); [reflexivity|]. rewrite sapp_assoc. reflexivity. }
  split; auto. split.
  - rewrite J, Em, sapp_assoc. reflexivity.
  - destruct D as [->|D].
    + rewrite sapp_nil_r. apply dir_prefix_ends.
    + right. destruct (last_char dir) as (a & ch & ->). { intros ->. discriminate. }
      rewrite <- sapp_assoc. rewrite ends_with_sep_app in D |- *. auto.
Qed.
Lemma extension_plain s dir n : entry_name n -> ends_in s dir n -> plain_name n ->
  path_extension s = None /\ with_extension s "ts" = s +++ ".ts".
Proof.
  intros N E Pn. unfold path_extension, with_extension. rewrite (file_name_ends s dir n) by auto.
  rewrite (split_plain n Pn). split; auto. cbn [fst].
  rewrite (trim_right_ends s dir n) by auto. destruct E as [-> _]. rewrite slen_app.
  replace (String.length dir + String.length n - String.length n + String.length n) with (String.length (dir +++ n))
    by (rewrite slen_app; lia).
  rewrite take_all. reflexivity.
Qed.

(** What [globals_path] does with the prefix *)
Lemma globals_path_rel c root m : module_rel c m ->
  globals_path c root = match path_extension (path_join root m) with
                        | Some _ => path_join root m
                        | None => with_extension (path_join root m) "ts"
                        end.
Proof.
  intros H. unfold globals_path. destruct H as [(p & E & Em)|(Np & ->)].
  - rewrite E, Em, strip_prefix_app. reflexivity.
  - destruct (cc_import_prefix c) as [p|]; [|reflexivity].
    destruct (strip_prefix p (cc_globals_module c)) eqn:Es; [|reflexivity].
    apply strip_prefix_Some in Es. exfalso. eapply Np; eauto.
Qed.

(** The module MODULE is the file ROOT/MODULE.ts, for relative modules whose last component has no
    extension *)
Theorem C51_globals_path_partial : forall c root m dir n, module_rel c m -> rel_module m dir n -> plain_name n ->
  globals_path c root = dir_prefix root +++ m +++ ".ts".
Proof.
  intros c root m dir n Mr Rm Pn. rewrite (globals_path_rel c root m Mr).
  destruct (join_rel root m dir n Rm) as [J E]. destruct Rm as (_ & N & _).
  destruct (extension_plain _ _ _ N E Pn) as [-> ->]. rewrite J, sapp_assoc. reflexivity.
Qed.
Print Assumptions C51_globals_path_partial.

(** With a dot in the last component the file is called exactly like the module *)
Theorem C51_dotted : forall c root m dir n, module_rel c m -> rel_module m dir n -> ~ plain_name n ->
  globals_path c root = dir_prefix root +++ m.
Proof.
  intros c root m dir n Mr Rm Pn. rewrite (globals_path_rel c root m Mr).
  destruct (join_rel root m dir n Rm) as [J E]. destruct Rm as (_ & N & _).
  unfold path_extension. rewrite (file_name_ends _ _ _ N E). destruct (split_not_plain n Pn) as (st & ex & ->). cbn [snd]. auto.
Qed.
Print Assumptions C51_dotted.

(** An absolute remainder ignores the root directory *)
Theorem C51_absolute : forall c root m, module_rel c m -> is_absolute m = true ->
  globals_path c root = globals_path c "".
Proof.
  intros c root m Mr A. rewrite !(globals_path_rel c _ m Mr). unfold path_join. rewrite A. reflexivity.
Qed.
Print Assumptions C51_absolute.

(** So the file can be outside the root directory, or not be a .ts file *)
Definition with_module (p : option string) (m : string) (c : cconfig) : cconfig :=
  {| cc_root_dir := cc_root_dir c; cc_deprecations := cc_deprecations c; cc_readonly := cc_readonly c; cc_bottom := cc_bottom c;
     cc_import_prefix := p; cc_globals_module := m; cc_docnode_module := cc_docnode_module c |}.
Theorem C51_refuted :
  (exists c root, module_rel c "/globals" /\ cc_globals_module c = "@/globals" /\ root = "src" /\
     globals_path c root = "/globals.ts") /\
  (exists c root m dir n, module_rel c m /\ rel_module m dir n /\ globals_path c root <> dir_prefix root +++ m +++ ".ts").
Proof.
  split.
  - exists (with_module (Some "@") "@/globals" (cconfig_of (merge_config 4 no_args config_default))), "src".
    split; [left; exists "@"; auto|]. split; auto.
  - exists (with_module None "graphql.globals" (cconfig_of (merge_config 4 no_args config_default))), "src", "graphql.globals", "", "graphql.globals".
    split; [right; split; auto; discriminate|]. split.
    + repeat split; auto; try discriminate. cbn. intuition discriminate.
    + vm_compute. discriminate.
Qed.
Print Assumptions C51_refuted.

(** Non-vacuity: prefix @app/, module @app/gen/types *)
Example C51_nonvacuous :
  let c := with_module (Some "@app/") "@app/gen/types" (cconfig_of (merge_config 4 no_args config_default)) in
  module_rel c "gen/types" /\ rel_module "gen/types" "gen/" "types" /\ plain_name "types" /\ globals_path c "src" = "src/gen/types.ts".
Proof.
  split; [left; exists "@app/"; auto|]. split; [|split].
  - repeat split; auto; try discriminate. cbn. intuition discriminate.
  - intros a b E. destruct a as [|a1 a]; auto. exfalso.
    assert (~ has_char "."%char "types"). { cbn. intuition discriminate. }
    apply H. rewrite E. apply has_char_app. right. cbn. auto.
  - reflexivity.
Qed.
