(** C49: end to end, one thread. *)
From Verif Require Import RunFacts Worlds PropC43.

(** Global type names used by a source file, as compiled from the initial contents *)
Definition uses_global (fuel : nat) (e : env) (ls : listing) (c : cconfig) (s : schema) (root : string) (f : fs) (n : string) : Prop :=
  exists path ms co, is_source ls root path /\ file_compiles fuel e f c s path ms co /\ In n (co_globals co).

(** A file that does not compile is reported with an error *)
Lemma failure_reported fuel e f c s path f1 ms : compile_file fuel e f c s path = Done (f1, Err ms) -> exists m, In m ms /\ is_error_level (ms_level m).
Proof.
  intros Ec. unfold compile_file in Ec. unfold read_file in Ec.
        destruct (f (env_locate e path)) as [contents|err].
        2: { inversion Ec; subst. eexists. split; [left; reflexivity|]. left. reflexivity. }
        destruct (parse_file e contents path) as [d|m] eqn:Ep.
        2: { inversion Ec; subst. eexists. split; [left; reflexivity|]. unfold parse_file in Ep.
             destruct (env_parse e contents) as [[|d1 [|d2 ds]]|err]; inversion Ep; subst; left; reflexivity. }
        destruct (add_imports fuel e f c path contents [] []) as [[im ms0]| |]; try discriminate.
        destruct (parse_foreign e path im ms0) as [frags ms1].
        destruct (compile_definition _ _ d) as [[ws [op|errs]]|] eqn:Ed; try discriminate.
        2: { inversion Ec; subst. assert (Ne : errs <> []).
             { destruct d as [op|fd]; cbn [compile_definition] in Ed.
               - unfold build_from_operation in Ed. destruct op as [p ss|k p n vs ds ss]; [inversion Ed; discriminate|].
                 destruct (new_ctrav _ _ _); [|inversion Ed; discriminate].
                 destruct (collect _ _ _ _ _ _) as [[[? ?] [|? ?]]|]; try discriminate; [|inversion Ed; discriminate].
                 destruct (collection_of _ _ _); [|inversion Ed; discriminate].
                 destruct (try_build_variable_ir _ _); inversion Ed; discriminate.
               - destruct (new_ctrav _ _ _); [|inversion Ed; discriminate].
                 destruct (collect _ _ _ _ _ _) as [[[? ?] [|? ?]]|]; try discriminate; [|inversion Ed; discriminate].
                 destruct (collection_of _ _ _); inversion Ed; discriminate. }
             destruct errs as [|er errs]; [congruence|]. exists (ir_error_message (env_similar e) contents path er).
             split; [apply in_or_app; right; left; reflexivity|]. unfold ir_error_message.
             destruct er; try (left; reflexivity); try (right; reflexivity). destruct e0; first [left; reflexivity|right; reflexivity]. }
        destruct (compile_ir _ _ _ op) as [co|te].
        2: { inversion Ec; subst. exists (ts_error_message te). split; [apply in_or_app; right; left; reflexivity|].
             destruct te; right; reflexivity. }
        destruct (write_file e f _ _) as [f2 [err|]]; [|discriminate]. inversion Ec; subst.
        eexists. split; [left; reflexivity|]. left. reflexivity.
Qed.

(** Exit code 0 with every file processed: each output holds the compilation of its document, the
    globals file defines exactly the needed types, nothing else changed.  Outputs and the globals file
    are taken to be different files. *)
Lemma end_to_end fuel wo a sched cf s out f' :
  load_config (ca_config_file a) (wo_config wo) = Ok cf ->
  let rc := merge_config (wo_ncpus wo) a cf in
  let c := cconfig_of rc in
  let e := wo_env wo in
  let ls := wo_listing wo in
  let root := rc_root_dir rc in
  let f := wo_fs wo in
  let gl := env_locate e (globals_path c root) in
  parse_schema (rc_schema_path rc) (wo_schema wo (rc_schema_path rc)) = Ok s ->
  names_ok ls -> separate e ls c root f -> (forall path, is_source ls root path -> out_loc e path <> gl) ->
  (forall p, order_ok (env_order e p)) -> inputs_consistent s ->
  every_once ls root (completed (steps (run_work fuel e ls c s) (rc_number_threads rc)
                       (start (rc_number_threads rc) (WDir root) f) sched)) ->
  qlc fuel wo a sched = Exited 0 out f' ->
  (forall path, is_source ls root path -> exists ms co, file_compiles fuel e f c s path ms co /\
     (forall m, In m ms -> ms_level m = CompileWarning) /\ f' (out_loc e path) = Ok (co_contents co)) /\
  ((exists n, uses_global fuel e ls c s root f n) ->
     exists text l ds, f' gl = Ok text /\ NoDup (List.map fst l) /\ sorted_by fst l /\
       (forall n t, In (n, t) l <-> (exists r, uses_global fuel e ls c s root f r /\ leads s r n) /\ get_type s n = Some t) /\
       Forall2 (fun x d => def_text c (fst x) (snd x) d) l ds /\ text = header +++ join (nl +++ nl) ds /\
       forall n, uses_global fuel e ls c s root f n -> global_type s n) /\
  (forall l, (forall path, is_source ls root path -> l <> out_loc e path) ->
     (l <> gl \/ forall n, ~ uses_global fuel e ls c s root f n) -> f' l = f l).
Proof.
  intros Lc rc c e ls root f gl Ls N S Gd Ho C Ev H.
  apply qlc_success in H as (cf' & s' & Lc' & H). rewrite Lc in Lc'. inversion Lc'; subst cf'.
  cbn zeta in H. fold rc in H. destruct H as (Ls' & H). rewrite Ls in Ls'. inversion Ls'; subst s'.
  fold c in H. fold e ls f root in H.
  set (st := steps _ _ _ _) in *. destruct H as (St & Lv & G).
  destruct (run_outputs fuel e ls c s root f N S _ _ Ev) as [O1 O2]. fold st in O1, O2.
  pose proof (log_results fuel e ls c s root f N S (rc_number_threads rc) sched) as Lr. fold st in Lr.
  assert (Done1 : forall path, is_source ls root path -> exists f1 r ms co,
    compile_file fuel e f c s path = Done (f1, Ok r) /\ file_compiles fuel e f c s path ms co /\
    (forall m, In m ms -> ms_level m = CompileWarning) /\ rp_globals r = co_globals co /\
    In (WFile path, dir_kids ls (WFile path), r) (pool_log st) /\ ps_ext st (out_loc e path) = Ok (co_contents co)).
  { intros path Sp. destruct (O1 path Sp) as (f1 & r & Ec & Eo).
    assert (Il : In (WFile path, dir_kids ls (WFile path), item_report fuel e ls c s f (WFile path)) (pool_log st)).
    { rewrite Lr. apply in_map_iff. exists (WFile path). split; auto. apply (every_once_in _ _ _ _ Ev). auto. }
    unfold item_report in Il. cbn [run_work] in Il. rewrite Ec in Il. destruct r as [r|ms].
    - pose proof Ec as Ec'. apply compile_file_ok in Ec' as (ms & co & Fc & W & ->).
      exists f1, {| rp_messages := ms; rp_globals := co_globals co |}, ms, co. split; auto. split; auto. split.
      { intros m Im. eapply (Lv _ m Il). exact Im. }
      split; auto. split; auto. rewrite Eo. apply write_file_ok in W. apply W.
    - exfalso. assert (Ne : exists m, In m ms /\ is_error_level (ms_level m)).
      { exact (failure_reported _ _ _ _ _ _ _ _ Ec). }
      destruct Ne as (m & Im & Le). rewrite (Lv _ m Il Im) in Le. destruct Le; discriminate. }
  assert (Ug : forall n, In n (rp_globals (aggregate st)) <-> uses_global fuel e ls c s root f n).
  { intros n. rewrite aggregate_globals. split.
    - intros (x & Ix & In0). rewrite Lr in Ix. apply in_map_iff in Ix. destruct Ix as (w & <- & Iw). cbn [snd] in In0.
      destruct w as [path|d].
      + apply (every_once_in _ _ _ _ Ev) in Iw. destruct (Done1 path Iw) as (f1 & r & ms & co & Ec & Fc & _ & Eg & _ & _).
        unfold item_report in In0. cbn [run_work] in In0. rewrite Ec in In0. exists path, ms, co. rewrite <- Eg. auto.
      + exfalso. unfold item_report in In0. cbn [run_work] in In0. destruct (run_dir_entry ls d); destruct In0.
    - intros (path & ms & co & Sp & Fc & In0). destruct (Done1 path Sp) as (f1 & r & ms' & co' & Ec & Fc' & _ & Eg & Il & _).
      eexists. split; [exact Il|]. cbn [snd]. rewrite Eg.
      assert (co' = co) as ->; auto.
      destruct Fc as (ct & d & im & ms0 & fr & ms1 & ws & op & F1 & F2 & F3 & F4 & F5 & F6 & _).
      destruct Fc' as (ct' & d' & im' & ms0' & fr' & ms1' & ws' & op' & F1' & F2' & F3' & F4' & F5' & F6' & _).
      rewrite F1 in F1'. inversion F1'; subst ct'. rewrite F2 in F2'. inversion F2'; subst d'.
      rewrite F3 in F3'. inversion F3'; subst. rewrite F4 in F4'. inversion F4'; subst.
      rewrite F5 in F5'. inversion F5'; subst. rewrite F6 in F6'. inversion F6'; subst. auto. }
  unfold compile_globals_file in G. fold gl in G.
  assert (Os : order_ok (suborder (env_order e root) [1])). { intros q A l. apply Ho. }
  destruct (rp_globals (aggregate st)) as [|x xs] eqn:Eg.
  - inversion G; subst f'. split; [|split].
    + intros path Sp. destruct (Done1 path Sp) as (f1 & r & ms & co & _ & Fc & Wn & _ & _ & Eo). exists ms, co. auto.
    + intros [n Un]. apply Ug in Un. destruct Un.
    + intros l Hl _. apply O2. auto.
  - destruct (compile_globals fuel c _ s (x :: xs)) as [[text|te]|] eqn:Et; try discriminate.
    destruct (write_file e (ps_ext st) (globals_path c root) text) as [f2 [err|]] eqn:W; [discriminate|].
    inversion G; subst f2. split; [|split].
    + intros path Sp. destruct (Done1 path Sp) as (f1 & r & ms & co & _ & Fc & Wn & _ & _ & Eo). exists ms, co.
      split; auto. split; auto. rewrite (write_file_other _ _ _ _ _ _ (out_loc e path) W); auto.
    + intros _. pose proof (fun n => globals_typed _ _ _ _ _ _ Os C Et n) as Gt.
      destruct (globals_done s _ c Os C _ _ _ Gt Et) as (_ & tx & Ex & l & ds & Nl & Sl & Kl & Fl & El).
      inversion Ex; subst tx. exists text, l, ds. split; [apply write_file_ok in W; apply W|]. split; auto. split; auto.
      split; [|split; [auto|split; [auto|intros n Un; apply Gt, Ug; exact Un]]]. intros n t. rewrite Kl. unfold needed. split.
      * intros ((r & Ir & Lr') & Gn). split; auto. exists r. split; auto. apply Ug. auto.
      * intros ((r & Ur & Lr') & Gn). split; auto. exists r. split; auto. apply Ug. auto.
    + intros l Hl [Nl|Nu].
      * rewrite (write_file_other _ _ _ _ _ _ l W); auto.
      * exfalso. apply (Nu x). apply Ug. cbn. auto.
Qed.

Theorem C49_end_to_end : forall fuel wo a sched cf s out f',
  load_config (ca_config_file a) (wo_config wo) = Ok cf ->
  let rc := merge_config (wo_ncpus wo) a cf in
  let c := cconfig_of rc in
  let e := wo_env wo in
  let ls := wo_listing wo in
  let root := rc_root_dir rc in
  let f := wo_fs wo in
  let gl := env_locate e (globals_path c root) in
  parse_schema (rc_schema_path rc) (wo_schema wo (rc_schema_path rc)) = Ok s ->
  names_ok ls -> separate e ls c root f -> (forall path, is_source ls root path -> out_loc e path <> gl) ->
  (forall p, order_ok (env_order e p)) -> inputs_consistent s ->
  rc_number_threads rc = 1 ->
  qlc fuel wo a sched = Exited 0 out f' ->
  (* every source file has its output, and only warnings were reported *)
  (forall path, is_source ls root path -> exists ms co, file_compiles fuel e f c s path ms co /\
     (forall m, In m ms -> ms_level m = CompileWarning) /\ f' (out_loc e path) = Ok (co_contents co)) /\
  (* the globals file *)
  ((exists n, uses_global fuel e ls c s root f n) ->
     exists text l ds, f' gl = Ok text /\ NoDup (List.map fst l) /\ sorted_by fst l /\
       (forall n t, In (n, t) l <-> (exists r, uses_global fuel e ls c s root f r /\ leads s r n) /\ get_type s n = Some t) /\
       Forall2 (fun x d => def_text c (fst x) (snd x) d) l ds /\ text = header +++ join (nl +++ nl) ds /\
       forall n, uses_global fuel e ls c s root f n -> global_type s n) /\
  (* no other file changed *)
  (forall l, (forall path, is_source ls root path -> l <> out_loc e path) ->
     (l <> gl \/ forall n, ~ uses_global fuel e ls c s root f n) -> f' l = f l).
Proof.
  intros fuel wo a sched cf s out f' Lc rc c e ls root f gl Ls N S Gd Ho C One H.
  apply (end_to_end fuel wo a sched cf s out f' Lc Ls N S Gd Ho C); auto.
  apply qlc_success in H as (cf' & s' & Lc' & H). rewrite Lc in Lc'. inversion Lc'; subst cf'.
  cbn zeta in H. fold rc in H. destruct H as (Ls' & St & _). rewrite Ls in Ls'. inversion Ls'; subst s'.
  eapply single_every; eauto.
Qed.
Print Assumptions C49_end_to_end.

(** Any number of threads, if no directory contains a directory *)
Theorem C49_flat : forall fuel wo a sched cf s out f',
  load_config (ca_config_file a) (wo_config wo) = Ok cf ->
  let rc := merge_config (wo_ncpus wo) a cf in
  let c := cconfig_of rc in
  let e := wo_env wo in
  let ls := wo_listing wo in
  let root := rc_root_dir rc in
  let f := wo_fs wo in
  let gl := env_locate e (globals_path c root) in
  parse_schema (rc_schema_path rc) (wo_schema wo (rc_schema_path rc)) = Ok s ->
  names_ok ls -> separate e ls c root f -> (forall path, is_source ls root path -> out_loc e path <> gl) ->
  (forall p, order_ok (env_order e p)) -> inputs_consistent s ->
  0 < rc_number_threads rc -> flat_tree ls root ->
  qlc fuel wo a sched = Exited 0 out f' ->
  (forall path, is_source ls root path -> exists ms co, file_compiles fuel e f c s path ms co /\
     (forall m, In m ms -> ms_level m = CompileWarning) /\ f' (out_loc e path) = Ok (co_contents co)) /\
  ((exists n, uses_global fuel e ls c s root f n) ->
     exists text l ds, f' gl = Ok text /\ NoDup (List.map fst l) /\ sorted_by fst l /\
       (forall n t, In (n, t) l <-> (exists r, uses_global fuel e ls c s root f r /\ leads s r n) /\ get_type s n = Some t) /\
       Forall2 (fun x d => def_text c (fst x) (snd x) d) l ds /\ text = header +++ join (nl +++ nl) ds /\
       forall n, uses_global fuel e ls c s root f n -> global_type s n) /\
  (forall l, (forall path, is_source ls root path -> l <> out_loc e path) ->
     (l <> gl \/ forall n, ~ uses_global fuel e ls c s root f n) -> f' l = f l).
Proof.
  intros fuel wo a sched cf s out f' Lc rc c e ls root f gl Ls N S Gd Ho C One Fl H.
  apply (end_to_end fuel wo a sched cf s out f' Lc Ls N S Gd Ho C); auto.
  apply qlc_success in H as (cf' & s' & Lc' & H). rewrite Lc in Lc'. inversion Lc'; subst cf'.
  cbn zeta in H. fold rc in H. destruct H as (Ls' & St & _). rewrite Ls in Ls'. inversion Ls'; subst s'.
  eapply flat_every; eauto.
Qed.
Print Assumptions C49_flat.

(** Non-vacuity: a one-threaded run that exits with code 0, in a tree satisfying the hypotheses *)
Example C49_nonvacuous : exists out f,
  qlc 10 (tiny_world tiny_env flat_listing (one_file "./x.graphql" "Q")) (args_threads 1) (repeat 0 60) = Exited 0 out f /\
  names_ok flat_listing /\
  separate tiny_env flat_listing (cconfig_of (merge_config 4 no_args config_default)) "." (one_file "./x.graphql" "Q").
Proof. do 2 eexists. split; [vm_compute; reflexivity|]. split; apply C43_nonvacuous. Qed.
