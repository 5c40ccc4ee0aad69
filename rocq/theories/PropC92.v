(** C92: the order in which the introspection result lists things does not show. *)
From Verif Require Import RearrangeFacts GrowFacts ProjectFacts EndFacts PropC79 PropC80 PropC81.
From Verif Require Import PropC69 PropC72 GrowWorlds.
From Verif Require PropC49 PropC35 PropC78.

(** Read in either order or in none; and every type is found in both, with the same members, so that each schema is the other with
    nothing added *)
Theorem C92_loaded : forall js js' s, rearranged js js' -> declared_once js -> load_schema js = Ok s ->
  exists s', load_schema js' = Ok s' /\ grown s s' /\ grown s' s.
Proof.
  intros js js' s R D L. destruct (rearranged_loads _ _ _ R L) as (s' & L'). exists s'. split; [exact L'|]. split.
  - exact (added_grown _ _ _ _ (rearranged_added _ _ R D) L L').
  - exact (added_grown _ _ _ _ (rearranged_added _ _ (rearranged_sym _ _ R) (rearranged_once _ _ R D)) L' L).
Qed.
Print Assumptions C92_loaded.
Theorem C92_unreadable : forall js js', rearranged js js' -> ((exists er, load_schema js = Err er) <-> (exists er, load_schema js' = Err er)).
Proof.
  assert (X : forall js js', rearranged js js' -> (exists er, load_schema js = Err er) -> exists er, load_schema js' = Err er).
  { intros js js' R (er & E). destruct (load_schema js') as [s'|er'] eqn:E'; [|eauto]. exfalso.
    destruct (rearranged_loads _ _ _ (rearranged_sym _ _ R) E') as (s & L). congruence. }
  intros js js' R. split; apply X; auto. apply rearranged_sym. exact R.
Qed.
Print Assumptions C92_unreadable.

Section Project.
Variables (wo : world) (a : cli_args) (cf : config_file) (read' : string -> schema_read) (js js' : jschema) (s : schema).
Let rc := merge_config (wo_ncpus wo) a cf.
Let c := cconfig_of rc.
Let e := wo_env wo.
Let ls := wo_listing wo.
Let root := rc_root_dir rc.
Let f := wo_fs wo.
Let wo' := with_schema wo read'.
Hypothesis Lc : load_config (ca_config_file a) (wo_config wo) = Ok cf.
Hypothesis Rs : wo_schema wo (rc_schema_path rc) = SRDecoded js.
Hypothesis Rs' : read' (rc_schema_path rc) = SRDecoded js'.
Hypothesis ra : rearranged js js'.
Hypothesis once : declared_once js.
Hypothesis Ld : load_schema js = Ok s.
(** The schema *)
Hypothesis co : consistent s.
Hypothesis ci : inputs_consistent s.
Hypothesis inh : inhabited_types s.
Hypothesis proper : proper_types s.
(** The surroundings *)
Hypothesis names : names_ok ls.
Hypothesis sep : separate e ls c root f.
Hypothesis apart : forall path, is_source ls root path -> out_loc e path <> env_locate e (globals_path c root).
Hypothesis orders : forall p, order_ok (env_order e p).
Hypothesis agree : paths_agree e f.
Hypothesis types : types_parse e.
Hypothesis fin : finite (dir_kids ls) (WDir root).
Hypothesis writable : env_write e (globals_path c root) = WOk.

Lemma other_schema : exists s', load_schema js' = Ok s' /\ grown s s' /\ grown s' s /\
  parse_schema (rc_schema_path rc) (wo_schema wo (rc_schema_path rc)) = Ok s /\ parse_schema (rc_schema_path rc) (read' (rc_schema_path rc)) = Ok s' /\
  consistent s' /\ inputs_consistent s' /\ inhabited_types s' /\ proper_types s'.
Proof.
  destruct (C92_loaded _ _ _ ra once Ld) as (s' & L' & G & G'). exists s'. rewrite Rs, Rs'. cbn [parse_schema]. rewrite Ld, L'.
  repeat (split; [first [reflexivity|assumption]|]). split; [exact (both_consistent s s' G G' co)|]. split; [exact (both_inputs s s' G G' ci)|].
  split; [exact (both_inhabited s s' G G' inh)|exact (both_proper s s' G' proper)].
Qed.

(** Valid in one order is valid in the other; then the runs end, with exit code 0 *)
Theorem C92_accepts : exists s', load_schema js' = Ok s' /\ (valid_project e ls f c s root <-> valid_project e ls f c s' root) /\
  (valid_project e ls f c s root -> exists N, forall k, N <= k -> forall sched,
    (qlc k wo' a sched = Running \/ exists out f', qlc k wo' a sched = Exited 0 out f') /\
    exists more out f', qlc k wo' a (sched ++ more) = Exited 0 out f').
Proof.
  destruct other_schema as (s' & L' & G & G' & Ls & Ls' & Co' & Ci' & In' & Pr'). exists s'. split; [exact L'|]. split.
  - split; apply valid_project_grown; auto.
  - intros V. exact (proj2 (C81_accepts wo a cf read' s s' Lc Ls' G co Co' ci Ci' In' Pr' names sep orders agree types fin writable V)).
Qed.

Hypothesis threads : threads_ok (rc_number_threads rc) ls root.
Hypothesis settled : forall path, is_source ls root path -> settled_source e f c s path.

(** Every file is left the same *)
Theorem C92_outputs_partial : forall fuel fuel' sched sched' out out' f' g',
  qlc fuel wo a sched = Exited 0 out f' -> qlc fuel' wo' a sched' = Exited 0 out' g' -> forall l, f' l = g' l.
Proof.
  destruct other_schema as (s' & L' & G & G' & Ls & Ls' & Co' & Ci' & In' & Pr').
  exact (C81_outputs wo a cf read' s s' Lc Ls Ls' G co Co' ci Ci' names sep apart orders agree fin threads settled).
Qed.
End Project.
Print Assumptions C92_accepts.
Print Assumptions C92_outputs_partial.

(** With one worker and the exclusions of C79: a run exits with 0 exactly if one in the other order does *)
Theorem C92_exits_partial : forall wo a cf read' js js' s,
  let rc := merge_config (wo_ncpus wo) a cf in
  let c := cconfig_of rc in
  let e := wo_env wo in
  let ls := wo_listing wo in
  let root := rc_root_dir rc in
  let f := wo_fs wo in
  load_config (ca_config_file a) (wo_config wo) = Ok cf ->
  wo_schema wo (rc_schema_path rc) = SRDecoded js -> read' (rc_schema_path rc) = SRDecoded js' ->
  rearranged js js' -> declared_once js -> load_schema js = Ok s ->
  consistent s -> inputs_consistent s -> inhabited_types s -> proper_types s ->
  names_ok ls -> separate e ls c root f -> (forall path, is_source ls root path -> out_loc e path <> env_locate e (globals_path c root)) ->
  (forall p, order_ok (env_order e p)) -> paths_agree e f -> types_parse e -> finite (dir_kids ls) (WDir root) -> env_write e (globals_path c root) = WOk ->
  rc_number_threads rc = 1 -> unique_fragments e ls f c root -> imports_inside e ls f c root -> relative_paths e ->
  (forall path contents d, is_source ls root path -> f (env_locate e path) = Ok contents -> env_parse e contents = Ok [d] -> is_subscription d = false) ->
  ((exists fuel sched out f', qlc fuel wo a sched = Exited 0 out f') <-> (exists fuel sched out f', qlc fuel (with_schema wo read') a sched = Exited 0 out f')).
Proof.
  intros wo a cf read' js js' s rc c e ls root f Lc Rs Rs' Ra On Ld Co Ci Inh Pr Nm Sp Ap Or Ag Ty Fi Wr One Un Ins Rel Qu.
  destruct (other_schema wo a cf read' js js' s Rs Rs' Ra On Ld Co Ci Inh Pr) as (s' & L' & G & G' & Ls & Ls' & Co' & Ci' & In' & Pr').
  rewrite (C79_exact_partial wo a cf s Lc Ls Nm Sp Or Ag Co Ci Inh Pr Ty Fi One Wr Un Ins Rel Qu Ap).
  rewrite (C79_exact_partial (with_schema wo read') a cf s' Lc Ls' Nm Sp Or Ag Co' Ci' In' Pr' Ty Fi One Wr Un Ins Rel Qu Ap).
  split; apply valid_project_grown; auto.
Qed.
Print Assumptions C92_exits_partial.

(** ** Non-vacuity: the project of C72, and everything in its introspection result listed backwards *)
Definition backwards (j : jtypedef) : jtypedef :=
  {| jt_kind := jt_kind j; jt_name := jt_name j; jt_description := jt_description j; jt_possible_types := option_map (@rev string) (jt_possible_types j);
     jt_input_fields := option_map (@rev jfield) (jt_input_fields j); jt_fields := option_map (@rev jfield) (jt_fields j);
     jt_enum_values := option_map (@rev string) (jt_enum_values j) |}.
Definition turned_json : jschema := rev (List.map backwards farm_json).
Lemma turned_rearranged : rearranged farm_json turned_json.
Proof.
  exists (rev farm_json). split; [apply Permutation_rev|]. unfold turned_json. rewrite <- map_rev. induction (rev farm_json) as [|j l IH]; cbn [List.map]; constructor; auto.
  constructor; try reflexivity; cbn.
  - destruct (jt_possible_types j); cbn; auto. apply Permutation_rev.
  - destruct (jt_input_fields j); cbn; auto. apply Permutation_rev.
  - destruct (jt_fields j); cbn; auto. apply Permutation_rev.
  - destruct (jt_enum_values j); cbn; auto. apply Permutation_rev.
Qed.
Lemma farm_once : declared_once farm_json.
Proof.
  constructor.
  - repeat constructor; cbn; intuition discriminate.
  - intros j fs I E. unfold farm_json in I. cbn [In] in I. repeat (destruct I as [<-|I]; [cbn in E; try discriminate E; injection E as <-; repeat constructor; cbn; intuition discriminate|]). destruct I.
  - intros j fs I E. unfold farm_json in I. cbn [In] in I. repeat (destruct I as [<-|I]; [cbn in E; discriminate E|]). destruct I.
Qed.
Definition turned_world : world := with_schema disk_world (fun _ => SRDecoded turned_json).
Example C92_nonvacuous : farm_json <> turned_json /\
  (exists out f', qlc 30 disk_world (args_threads 1) (repeat 0 90) = Exited 0 out f') /\
  (exists out f', qlc 30 turned_world (args_threads 1) (repeat 0 90) = Exited 0 out f') /\
  (forall fuel fuel' sched sched' out out' f' g',
     qlc fuel disk_world (args_threads 1) sched = Exited 0 out f' -> qlc fuel' turned_world (args_threads 1) sched' = Exited 0 out' g' -> forall l, f' l = g' l) /\
  exists s', load_schema turned_json = Ok s' /\ valid_project text_env PropC35.pair_listing disk_files plain_config s' ".".
Proof.
  split; [discriminate|]. split; [do 2 eexists; vm_compute; reflexivity|]. split; [do 2 eexists; vm_compute; reflexivity|].
  destruct disk_settled. destruct PropC35.C35_nonvacuous as (_ & _ & _ & N & _ & _ & _ & C & Co & _).
  assert (Dk : on_disk lenient (fun _ => "syntax error") "" disk_world).
  { split; [reflexivity|]. intros p t E. cbn [disk_world wo_schema]. cbn [disk_world wo_fs wo_env] in E. change (disk_files p = Ok t) in E. rewrite E. reflexivity. }
  assert (Rs : wo_schema disk_world (rc_schema_path (merge_config 4 (args_threads 1) config_default)) = SRDecoded farm_json) by (vm_compute; reflexivity).
  split.
  - exact (C92_outputs_partial disk_world (args_threads 1) config_default (fun _ => SRDecoded turned_json) farm_json turned_json farm se_config Rs eq_refl turned_rearranged
      farm_once farm_loaded Co C farm_inhabited farm_proper N disk_separate disk_apart (fun p => plain_ok) se_paths PropC78.disk_finite (or_introl eq_refl) disk_settled_source).
  - destruct (C92_accepts disk_world (args_threads 1) config_default (fun _ => SRDecoded turned_json) farm_json turned_json farm se_config Rs eq_refl turned_rearranged
      farm_once farm_loaded Co C farm_inhabited farm_proper N disk_separate (fun p => plain_ok) se_paths (disk_types _ _ _ _ Dk) PropC78.disk_finite eq_refl) as (s' & L' & V & _).
    exists s'. split; [exact L'|]. apply V. exact disk_project.
Qed.

(** ** Not if a name is declared twice: the last declaration counts *)
Definition calm_type : jtypedef := enum_type "Mood" ["CALM"].
Theorem C92_refuted : rearranged (calm_type :: farm_json) (farm_json ++ [calm_type]) /\ exists out f' out' g',
  qlc 30 (with_schema disk_world (fun _ => SRDecoded (calm_type :: farm_json))) (args_threads 1) (repeat 0 90) = Exited 0 out f' /\
  qlc 30 (with_schema disk_world (fun _ => SRDecoded (farm_json ++ [calm_type]))) (args_threads 1) (repeat 0 90) = Exited 0 out' g' /\
  f' (globals_path plain_config ".") <> g' (globals_path plain_config ".").
Proof.
  split.
  - exists (farm_json ++ [calm_type]). split; [apply Permutation_cons_append|]. induction (farm_json ++ [calm_type]) as [|j l IH]; constructor; auto.
    constructor; try reflexivity; [destruct (jt_possible_types j)|destruct (jt_input_fields j)|destruct (jt_fields j)|destruct (jt_enum_values j)]; cbn; auto.
  - do 4 eexists. split; [vm_compute; reflexivity|]. split; [vm_compute; reflexivity|]. vm_compute. discriminate.
Qed.
Print Assumptions C92_refuted.

(** ** From texts to texts *)
From Verif Require Import Gql Json Args SpecGtext SpecJson SpecJtext SpecAgain GlobalRead PropC77.
From Verif Require SpecArgs PropC65 PropC67 LinkFacts.
Theorem C92_text_partial : forall ck complaint jerr help version fuel wo wo' its argv a nc sched sched' cf stext j js s stext' j' js' out f' code' out' g',
  let rc := merge_config (wo_ncpus wo) a cf in
  let c := cconfig_of rc in
  let e := wo_env wo in
  let ls := wo_listing wo in
  let root := rc_root_dir rc in
  let f := wo_fs wo in
  on_disk ck complaint jerr wo -> on_disk ck complaint jerr wo' ->
  SpecArgs.spelled its argv -> SpecArgs.consistent its -> SpecArgs.complete its -> SpecArgs.says its a nc ->
  LinkFacts.settled wo a cf js s ->
  wo_env wo' = e -> wo_ncpus wo' = wo_ncpus wo -> wo_config wo' = wo_config wo -> wo_listing wo' = ls ->
  same_reads e ls c root f (wo_fs wo') ->
  f (env_locate e (rc_schema_path rc)) = Ok stext -> text_holds stext j -> says_schema j js -> fits js ->
  wo_fs wo' (env_locate e (rc_schema_path rc)) = Ok stext' -> text_holds stext' j' -> says_schema j' js' -> fits js' ->
  rearranged js js' -> declared_once js -> inhabited_types s ->
  finite (dir_kids ls) (WDir root) -> env_write e (globals_path c root) = WOk ->
  (forall path, is_source ls root path -> out_loc e path <> env_locate e (globals_path c root)) ->
  valid_project e ls f c s root -> (forall path, is_source ls root path -> settled_source e f c s path) ->
  qlc_command help version fuel wo argv sched = Exited 0 out f' ->
  qlc_command help version fuel wo' argv sched' = Exited code' out' g' ->
  code' = 0 /\ same_changes f (wo_fs wo') f' g'.
Proof.
  intros ck complaint jerr help version fuel wo wo' its argv a nc sched sched' cf stext j js s stext' j' js' out f' code' out' g' rc c e ls root f
    Hd Hd' Sp Cn Cm Sy St Ee En Ec El Sr Es Tx Sj Fi Es' Tx' Sj' Fi' Ra On Inh Fin W Ap V Se H H'.
  pose proof St as [Lc In0 Jn N S Gd Ho C Ag Sc Th]. pose proof (in_loaded _ _ In0) as L. pose proof (intro_consistent _ _ In0) as Co.
  pose proof (nameable_proper _ _ (loaded_nameable _ _ _ L Jn)) as Pr.
  destruct (C92_loaded _ _ _ Ra On L) as (s' & L' & G & G').
  exact (C81_text_partial ck complaint jerr help version fuel wo wo' its argv a nc sched sched' cf stext j js s stext' j' js' s' out f' code' out' g'
    Hd Hd' Sp Cn Cm Sy St Ee En Ec El Sr Es Tx Sj Fi Es' Tx' Sj' Fi' L' (rearranged_added _ _ Ra On) (both_consistent s s' G G' Co) (both_inputs s s' G G' C)
    (both_inhabited s s' G G' Inh) (both_proper s s' G' Pr) Fin W Ap V Se H H').
Qed.
Print Assumptions C92_text_partial.
Definition turned_text : string := Eval vm_compute in show_json (w_schema turned_json).
Lemma turned_text_read : schema_of_text "" turned_text = SRDecoded turned_json.
Proof. vm_compute. reflexivity. Qed.
Lemma turned_text_end : exists out g', qlc_command "" "" 30 (world_on PropC35.pair_listing (schema_files turned_text)) ["--num-threads"; "1"] (repeat 0 90) = Exited 0 out g'.
Proof. do 2 eexists. vm_compute. reflexivity. Qed.
Example C92_nonvacuous_text : exists out f' out' g',
  qlc_command "" "" 30 disk_world ["--num-threads"; "1"] (repeat 0 90) = Exited 0 out f' /\
  qlc_command "" "" 30 (world_on PropC35.pair_listing (schema_files turned_text)) ["--num-threads"; "1"] (repeat 0 90) = Exited 0 out' g' /\
  same_changes disk_files (schema_files turned_text) f' g'.
Proof.
  destruct disk_ends as (out & H). destruct turned_text_end as (out' & g' & H'). exists out, left_files, out', g'. split; [exact H|]. split; [exact H'|].
  destruct one_thread as (its & Sp & Cn & Cm & Sy).
  assert (X : exists j, text_holds farm_text j /\ says_schema j farm_json /\ fits farm_json) by (apply (PropC67.C67_schema ""); exact farm_text_read).
  destruct X as (j & Th & Sj & Fi).
  assert (X' : exists j, text_holds turned_text j /\ says_schema j turned_json /\ fits turned_json) by (apply (PropC67.C67_schema ""); exact turned_text_read).
  destruct X' as (j' & Th' & Sj' & Fi').
  refine (proj2 (C92_text_partial lenient (fun _ => "syntax error") "" "" "" 30 disk_world (world_on PropC35.pair_listing (schema_files turned_text)) its ["--num-threads"; "1"]
    (args_threads 1) false (repeat 0 90) (repeat 0 90) config_default farm_text j farm_json farm turned_text j' turned_json out left_files 0 out' g'
    (world_disk PropC35.pair_listing disk_files) (world_disk _ _) Sp Cn Cm Sy disk_settled eq_refl eq_refl eq_refl eq_refl (same_but_schema turned_text) eq_refl Th Sj Fi eq_refl Th' Sj' Fi'
    turned_rearranged farm_once farm_inhabited PropC78.disk_finite eq_refl disk_apart disk_project disk_settled_source H H')).
Qed.
