(** C34: bad imports are reported. *)
From Verif Require Import PoolProps ProcFacts ImportWorlds ImportProps SpecImport.

Definition messages_of (r : res (list message) report) : list message :=
  match r with Ok rp => rp_messages rp | Err ms => ms end.
(** The write of the output failed, which replaces all other messages *)
Definition write_failed (path : string) (r : res (list message) report) : Prop :=
  exists err, r = Err [io_message "write" err (with_extension path "graphql.d.ts")].

(** An import (of the file or of a reachable one) that cannot be read is reported as an error at the
    importing line *)
Theorem C34_unreadable : forall fuel e f c s path contents d f' r,
  f (env_locate e path) = Ok contents -> parse_file e contents path = Ok d ->
  compile_file fuel e f c s path = Done (f', r) ->
  forall m, missing e f c path contents m -> In m (messages_of r) \/ write_failed path r.
Proof.
  intros fuel e f c s path contents d f' r R Pd H m Mi. apply compile_file_done in H.
  destruct H as [(m0 & _ & _ & N)|(contents' & d' & im & ms & frags & ms1 & R' & _ & Im & Pf & Cases)].
  { exfalso. eapply N; eauto. }
  rewrite R in R'. inversion R'; subst contents'.
  assert (I : In m ms1).
  { assert (Im' : In m ms) by (apply (stage_missing _ _ _ _ _ _ _ _ Im); auto).
    destruct (foreign_fold e path _ _ _ _ _ Pf) as (A & _). apply A. auto. }
  destruct Cases as [W|[(more & ->)|(more & g & ->)]].
  - right. exact W.
  - left. cbn. apply in_or_app. auto.
  - left. cbn. apply in_or_app. auto.
Qed.
Print Assumptions C34_unreadable.

(** Full statement for imported operations (false of the code, see C34_refuted): the message names the
    importing file and line.  Proved: there is an error message with the text and number of an
    importing line, and it is attributed to the file being compiled; so it is right when no other
    file imports the operation. *)
Theorem C34_operation_partial : forall fuel e f c s path contents d f' r t o,
  f (env_locate e path) = Ok contents -> parse_file e contents path = Ok d ->
  order_ok (env_order e path) -> paths_agree e f ->
  compile_file fuel e f c s path = Done (f', r) ->
  reach e f c path contents t o -> holds_operation e o ->
  write_failed path r \/
  exists F C n l t', importer e f c path contents F C /\ imports_at c F C n l t' /\ same_path t t' /\
    In (operation_message path n l) (messages_of r) /\
    ((forall F' C' n' l' t'', importer e f c path contents F' C' -> imports_at c F' C' n' l' t'' ->
       same_path t t'' -> F' = path) -> F = path /\ C = contents).
Proof.
  intros fuel e f c s path contents d f' r t o R Pd Ord Ag H Re Ho. apply compile_file_done in H.
  destruct H as [(m0 & _ & _ & N)|(contents' & d' & im & ms & frags & ms1 & R' & _ & Im & Pf & Cases)].
  { exfalso. eapply N; eauto. }
  rewrite R in R'. inversion R'; subst contents'.
  destruct (stage_operation _ _ _ _ _ _ _ _ _ _ Ord Im Pf Ag _ _ Re Ho) as (F & n & l & t' & (C & Imp & At) & Pe & I). apply path_eqb_same in Pe.
  assert (K : write_failed path r \/ In (operation_message path n l) (messages_of r)).
  { destruct Cases as [W|[(more & ->)|(more & g & ->)]]; [left; exact W|right|right]; cbn; apply in_or_app; auto. }
  destruct K as [K|K]; [left; exact K|right]. exists F, C, n, l, t'. split; [auto|]. split; [auto|]. split; [auto|]. split; [auto|].
  intros U. assert (F = path) as -> by (eapply U; eauto). split; auto.
  destruct Imp as [[_ ->]|Rp]; auto. apply reach_readable in Rp. congruence.
Qed.
Print Assumptions C34_operation_partial.

(** A run that exits with code 0 processed no file with an unreadable import or an imported
    operation *)
Theorem C34_run : forall fuel wo a sched out f0,
  qlc fuel wo a sched = Exited 0 out f0 ->
  exists cf s, load_config (ca_config_file a) (wo_config wo) = Ok cf /\
    let rc := merge_config (wo_ncpus wo) a cf in
    parse_schema (rc_schema_path rc) (wo_schema wo (rc_schema_path rc)) = Ok s /\
    let c := cconfig_of rc in
    let e := wo_env wo in
    let n := rc_number_threads rc in
    let p := steps (run_work fuel e (wo_listing wo) c s) n (start n (WDir (rc_root_dir rc)) (wo_fs wo)) sched in
    forall path ch r, In (WFile path, ch, r) (pool_log p) -> order_ok (env_order e path) ->
    exists f f' contents, run_work fuel e (wo_listing wo) c s (WFile path) f = Done (f', ch, r) /\
      f (env_locate e path) = Ok contents /\
      (forall m, ~ missing e f c path contents m) /\
      (paths_agree e f -> forall t o, reach e f c path contents t o -> ~ holds_operation e o).
Proof.
  intros fuel wo a sched out f0 H. apply qlc_success in H. destruct H as (cf & s & L & H). exists cf, s. split; auto.
  cbn zeta in *. destruct H as (Ls & _ & Lv & _). split; auto. intros path ch r I Ord.
  destruct (log_genuine _ _ _ _ _ _ _ _ _ _ _ _ I) as (f & f' & Ru).
  assert (Lv' : forall m, In m (rp_messages r) -> ms_level m = CompileWarning) by (intros m Im; apply (Lv _ m I Im)).
  cbn [run_work] in Ru. destruct (compile_file _ _ _ _ _ _) as [[f1 r1]| |] eqn:Ec; try discriminate.
  assert (Em : f1 = f' /\ messages_of r1 = rp_messages r).
  { destruct r1 as [rp|ms]; inversion Ru; subst; auto. }
  destruct Em as [<- Em]. pose proof Ec as Ec0. apply compile_file_done in Ec.
  destruct Ec as [(m0 & -> & Lm & _)|(contents & d & im & ms & frags & ms1 & R & Pd & Im & Pf & Cases)].
  { exfalso. cbn in Em. specialize (Lv' m0). rewrite <- Em in Lv'. rewrite Lv' in Lm; [discriminate|cbn; auto]. }
  assert (W : ~ write_failed path r1).
  { intros (err & E). rewrite E in Em. cbn in Em. rewrite <- Em in Lv'.
    specialize (Lv' _ (or_introl eq_refl)). discriminate. }
  exists f, f1, contents. split; [|split; [auto|split]].
  - destruct r1 as [rp|ms0]; inversion Ru; subst; cbn [run_work]; rewrite Ec0; auto.
  - intros m Mi. destruct (C34_unreadable _ _ _ _ _ _ _ _ _ _ R Pd Ec0 m Mi) as [Inm|X]; [|auto].
    rewrite Em in Inm. apply Lv' in Inm. destruct Mi as (? & ? & ? & ? & ? & ? & _ & _ & _ & ->). discriminate.
  - intros Ag t o Re Ho.
    destruct (C34_operation_partial _ _ _ _ _ _ _ _ _ _ _ _ R Pd Ord Ag Ec0 Re Ho) as [X|(F & C & n & l & t' & _ & _ & _ & Inm & _)]; auto.
    rewrite Em in Inm. apply Lv' in Inm. discriminate.
Qed.
Print Assumptions C34_run.

(** An operation imported by an imported file (line 2 of ./b.graphql) is blamed on line 2 of the
    compiled file, which is another line *)
Theorem C34_refuted : exists f' rp,
  compile_file 10 letter_env (chain "S" "F" "Q") tiny_config tiny_loaded "./a.graphql" = Done (f', Ok rp) /\
  rp_messages rp = [operation_message "./a.graphql" 1 (import_mark +++ "c.graphql" +++ String quote "")] /\
  imports_at tiny_config "./b.graphql" ("# see" +++ nl +++ import_line "c.graphql" +++ "F") 1
    (import_mark +++ "c.graphql" +++ String quote "") "./c.graphql" /\
  nth_error (lines (import_line "b.graphql" +++ "S")) 1 = Some "S".
Proof.
  eexists. eexists. split; [vm_compute; reflexivity|]. split; [vm_compute; reflexivity|]. split; [|reflexivity].
  exists "c.graphql". split; [split; [reflexivity|]|split].
  - intros [|k] l' L E; [|lia]. inversion E; subst. right. eexists. reflexivity.
  - exists "". split; auto.
  - apply (resolves_root tiny_config _ "c.graphql").
    + intros r' (p & E & _). discriminate.
    + intros r E. discriminate.
Qed.
Print Assumptions C34_refuted.

(** An imported file that does not parse, hence holds no fragment, is not reported at all *)
Theorem C34_refuted_unparseable : exists f' rp,
  compile_file 10 letter_env (chain "Q" "!" "F") tiny_config tiny_loaded "./a.graphql" = Done (f', Ok rp) /\
  rp_messages rp = [] /\ env_parse letter_env ("# see" +++ nl +++ import_line "c.graphql" +++ "!") = Err "syntax error".
Proof. eexists. eexists. split; [vm_compute; reflexivity|]. split; vm_compute; reflexivity. Qed.
Print Assumptions C34_refuted_unparseable.

(** Non-vacuity: a missing file two imports away *)
Example C34_nonvacuous : exists m f' rp,
  missing letter_env (files [("./a.graphql", import_line "b.graphql" +++ "Q"); ("./b.graphql", import_line "c.graphql" +++ "F")])
    tiny_config "./a.graphql" (import_line "b.graphql" +++ "Q") m /\
  compile_file 10 letter_env (files [("./a.graphql", import_line "b.graphql" +++ "Q"); ("./b.graphql", import_line "c.graphql" +++ "F")])
    tiny_config tiny_loaded "./a.graphql" = Done (f', Ok rp) /\ rp_messages rp = [m].
Proof.
  set (f := files _).
  assert (H : exists im, add_imports 5 letter_env f tiny_config "./a.graphql" (import_line "b.graphql" +++ "Q") [] []
            = Done (im, [missing_message "./b.graphql" 0 (import_mark +++ "c.graphql" +++ String quote "") "./c.graphql" "not found"])).
  { eexists. vm_compute. reflexivity. }
  destruct H as [im H]. eexists. eexists. eexists. split.
  - apply (stage_missing _ _ _ _ _ _ _ _ H). cbn. left. reflexivity.
  - split; [vm_compute; reflexivity|]. vm_compute. reflexivity.
Qed.
