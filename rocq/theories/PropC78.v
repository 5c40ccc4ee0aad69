(** C78: how a run can end. *)
From Verif Require Import RunFacts EndFacts.
From Verif Require PropC49 PropC35.

(** The depth to which the model follows recursion does not show: unless it was not enough, the result is the same for all greater
    depths *)
Theorem C78_depth : forall n m wo a sched, n <= m -> qlc n wo a sched <> ProcAborted -> qlc m wo a sched = qlc n wo a sched.
Proof. exact qlc_mono. Qed.
Print Assumptions C78_depth.

Section Run.
Variables (wo : world) (a : cli_args) (cf : config_file) (s : schema).
Let rc := merge_config (wo_ncpus wo) a cf.
Let c := cconfig_of rc.
Let e := wo_env wo.
Let ls := wo_listing wo.
Let root := rc_root_dir rc.
Let f := wo_fs wo.
Hypothesis Lc : load_config (ca_config_file a) (wo_config wo) = Ok cf.
Hypothesis Ls : parse_schema (rc_schema_path rc) (wo_schema wo (rc_schema_path rc)) = Ok s.
Hypothesis names : names_ok ls.
Hypothesis sep : separate e ls c root f.
Hypothesis orders : forall p, order_ok (env_order e p).
Notation pool_of fuel sched := (steps (run_work fuel e ls c s) (rc_number_threads rc) (start (rc_number_threads rc) (WDir root) f) sched).

Lemma qlc_pool fuel sched : qlc fuel wo a sched =
  match pool_status (pool_of fuel sched) with
  | StillRunning => Running | Aborted => ProcAborted | SomePanicked => ProcPanicked
  | AllReturned => match finish_work fuel e c s root (pool_of fuel sched) with
                   | Done (f, ms) => exit_with f ms | Panics => ProcPanicked | Diverges => ProcAborted end
  end.
Proof. unfold qlc. rewrite Lc. cbv zeta. fold rc. rewrite Ls. reflexivity. Qed.

(** What the items of a run use *)
Lemma pool_globals fuel sched n : In n (rp_globals (aggregate (pool_of fuel sched))) -> PropC49.uses_global fuel e ls c s root f n.
Proof.
  intros I. rewrite aggregate_globals in I. rewrite (log_results fuel e ls c s root f names sep) in I. destruct I as (y & Iy & Hy).
  apply in_map_iff in Iy. destruct Iy as (x & <- & Ix). cbn [snd] in Hy. unfold item_report in Hy.
  destruct x as [path|d]; cbn [run_work] in Hy.
  - destruct (compile_file fuel e f c s path) as [[f1 [r|ms]]| |] eqn:E; try (destruct Hy; fail).
    apply compile_file_ok in E. destruct E as (ms & co & Fc & _ & ->). exists path, ms, co. split; [|auto].
    exact (FineSim.completed_source fuel e ls c s (rc_number_threads rc) root f sched path Ix).
  - destruct (run_dir_entry ls d); destruct Hy.
Qed.

Section Ends.
Hypothesis co : consistent s.
Hypothesis ci : inputs_consistent s.
Hypothesis fin : finite (dir_kids ls) (WDir root).
Hypothesis sound : forall path, is_source ls root path -> sound_source e f c path.
Hypothesis wf : forall k n, PropC49.uses_global k e ls c s root f n -> wellfounded s n.

Lemma all_end : exists N, forall k, N <= k -> forall path, is_source ls root path -> exists f' r, compile_file k e f c s path = Done (f', r).
Proof.
  destruct (finite_list _ _ fin) as (l & Hl).
  assert (X : forall m, (forall y, In y m -> In y l) -> exists N, forall k, N <= k -> forall path, In (WFile path) m -> exists f' r, compile_file k e f c s path = Done (f', r)).
  { induction m as [|x m IH]; intros Sub; [exists 0; intros k _ path []|].
    destruct IH as (N & HN); [intros y I; apply Sub; right; exact I|]. destruct x as [path|d].
    - assert (Sp : is_source ls root path) by (apply Hl; apply Sub; left; reflexivity).
      destruct (sound_ends e f c s path (orders path) co (sound path Sp)) as (N1 & H1).
      exists (N + N1). intros k L p [E|I]; [injection E as <-; apply H1; lia|apply HN; [lia|exact I]].
    - exists N. intros k L p [E|I]; [discriminate E|apply HN; auto]. }
  destruct (X l (fun y I => I)) as (N & HN). exists N. intros k L path Sp. apply HN; auto. apply Hl. exact Sp.
Qed.
Lemma all_globals : exists N names0, (forall k, N <= k -> forall sched n, In n (rp_globals (aggregate (pool_of k sched))) -> In n names0) /\
  (forall n, In n names0 -> wellfounded s n).
Proof.
  destruct all_end as (N & HN). destruct (finite_list _ _ fin) as (l & Hl).
  exists N, (flat_map (fun x => rp_globals (item_report N e ls c s f x)) l). split.
  - intros k L sched n I. rewrite aggregate_globals in I. rewrite (log_results k e ls c s root f names sep) in I. destruct I as (y & Iy & Hy).
    apply in_map_iff in Iy. destruct Iy as (x & <- & Ix). cbn [snd] in Hy. apply in_flat_map. exists x.
    destruct (PoolProps.once k e ls c s (rc_number_threads rc) root f sched) as (ps & _ & F2). destruct (Forall2_in_r _ _ _ _ F2 Ix) as (q & _ & Hq).
    split; [apply Hl; exists q; exact Hq|]. unfold item_report in *. rewrite <- (run_work_mono N k); auto.
    destruct x as [path|d]; cbn [run_work]; [|destruct (run_dir_entry ls d); discriminate].
    destruct (HN N (le_n _) path) as (f1 & r & E); [exists q; exact Hq|]. rewrite E. destruct r; discriminate.
  - intros n I. apply in_flat_map in I. destruct I as (x & Ix & Hx). apply Hl in Ix. unfold item_report in Hx. destruct x as [path|d]; cbn [run_work] in Hx.
    + destruct (compile_file N e f c s path) as [[f1 [r|ms]]| |] eqn:E; try (destruct Hx; fail).
      apply compile_file_ok in E. destruct E as (ms & q & Fc & _ & ->). apply (wf N). exists path, ms, q. auto.
    + destruct (run_dir_entry ls d); destruct Hx.
Qed.
Lemma all_finish : exists N, forall k, N <= k -> forall sched, exists f' ms, finish_work k e c s root (pool_of k sched) = Done (f', ms).
Proof.
  destruct all_globals as (N & names0 & Hn & Hw).
  assert (Oo : order_ok (suborder (env_order e root) [1])) by (intros q A l; apply orders).
  destruct (seed_term_all s _ Oo ci names0 Hw) as (N1 & H1). exists (N + N1). intros k L sched.
  unfold finish_work, compile_globals_file. specialize (H1 k ltac:(lia) (rp_globals (aggregate (pool_of k sched)))).
  destruct (rp_globals (aggregate (pool_of k sched))) as [|x l] eqn:Eg; [eauto|]. rewrite <- Eg in *.
  assert (X : compile_globals k c (suborder (env_order e root) [1]) s (rp_globals (aggregate (pool_of k sched))) <> None).
  { unfold compile_globals, global_defs. fold (seed_map s (suborder (env_order e root) [1]) k (rp_globals (aggregate (pool_of k sched)))).
    destruct (seed_map s _ k _) as [[m|er]|]; [destruct (collect_res _); discriminate|discriminate|].
    exfalso. apply H1; auto. intros n I. apply (Hn k ltac:(lia) sched n I). }
  destruct (compile_globals k c _ s _) as [[t|te]|]; [|eauto|congruence]. destruct (write_file _ _ _ _) as [f' [er|]]; eauto.
Qed.

(** From some depth on every run is under way or has exited, and can be continued to an exit *)
Theorem C78_can_exit_partial : exists N, forall k, N <= k -> forall sched,
  (qlc k wo a sched = Running \/ exists code out f', qlc k wo a sched = Exited code out f') /\
  exists more code out f', qlc k wo a (sched ++ more) = Exited code out f'.
Proof.
  destruct all_end as (N1 & H1), all_finish as (N2 & H2). exists (N1 + N2). intros k L sched. specialize (H1 k ltac:(lia)). specialize (H2 k ltac:(lia)).
  assert (X : forall sched, pool_status (pool_of k sched) = AllReturned -> exists code out f', qlc k wo a sched = Exited code out f').
  { intros sc E. rewrite qlc_pool, E. destruct (H2 sc) as (f' & ms & ->). unfold exit_with. destruct (exit_report ms). eauto. }
  split.
  - destruct (ends_status k e ls c s (rc_number_threads rc) root f names sep H1 sched fin) as [E|E]; [left; rewrite qlc_pool, E; reflexivity|right; auto].
  - destruct (ends_finish k e ls c s (rc_number_threads rc) root f names sep H1 sched fin) as (more & E). exists more. auto.
Qed.

(** With one worker it exits, after a number of steps that depends on the files only *)
Theorem C78_exits_partial : rc_number_threads rc = 1 ->
  exists N M, forall k sched, N <= k -> M <= count_occ Nat.eq_dec sched 0 -> exists code out f', qlc k wo a sched = Exited code out f'.
Proof.
  intros One. destruct all_end as (N1 & H1), all_finish as (N2 & H2). exists (N1 + N2). set (N := N1 + N2).
  destruct (ends_single N e ls c s (rc_number_threads rc) root f names sep (H1 N ltac:(lia)) One fin) as (M & HM). exists M. intros k sched Lk Lm.
  assert (X : exists code out f', qlc N wo a sched = Exited code out f').
  { rewrite qlc_pool, (HM sched Lm). destruct (H2 N ltac:(lia) sched) as (f' & ms & ->). unfold exit_with. destruct (exit_report ms). eauto. }
  destruct X as (code & out & f' & E). exists code, out, f'. rewrite <- E. apply C78_depth; [exact Lk|]. rewrite E. discriminate.
Qed.
End Ends.

(** Only sources that are well formed let a run exit, if it has processed every file *)
Theorem C78_exited : forall fuel sched code out f',
  rc_number_threads rc = 1 \/ (0 < rc_number_threads rc /\ flat_tree ls root) -> consistent s -> inputs_consistent s ->
  qlc fuel wo a sched = Exited code out f' ->
  (forall path contents d, is_source ls root path -> f (env_locate e path) = Ok contents -> env_parse e contents = Ok [d] ->
     acyclic e f c path /\ (forall F C, importer e f c path contents F C -> ~ unclosed_import C) /\
     exists frags, (forall n fd, aget n frags = Some fd -> brought e f c path contents n fd) /\
       forall P l, doc_root d = Some (P, l) -> is_subscription d = false -> composite s P -> Acc (leads_below s frags) (P, l)) /\
  (code = 0 -> forall n, PropC49.uses_global fuel e ls c s root f n -> wellfounded s n).
Proof.
  intros fuel sched code out f' Th Co Ci H. pose proof H as H0. rewrite qlc_pool in H. destruct (pool_status (pool_of fuel sched)) eqn:St; try discriminate H.
  assert (Ev : every_once ls root (completed (pool_of fuel sched))).
  { destruct Th as [One|[Pos Fl]]; [apply single_every; auto|apply flat_every; auto]. }
  destruct (run_outputs fuel e ls c s root f names sep _ _ Ev) as [Ro _]. split.
  - intros path contents d Sp Ec Ed. destruct (Ro path Sp) as (f1 & r & Ef & _). unfold compile_file, read_file in Ef. rewrite Ec in Ef.
    rewrite (proj2 (parse_one e contents path d) Ed) in Ef.
    destruct (add_imports fuel e f c path contents [] []) as [[im ms]| |] eqn:Ei; try discriminate Ef.
    split; [eapply done_acyclic; eauto|]. split.
    { intros F C I O. apply (add_imports_ok e f c fuel) in Ei. destruct Ei as (_ & No). apply (No F C I). apply open_unclosed. auto. }
    destruct (parse_foreign e path im ms) as [frags ms1] eqn:Eg. exists frags. split.
    { intros n fd G. exact (stage_frag_sound fuel e f c path contents im ms frags ms1 (orders path) Ei Eg n fd G). }
    intros P l Dr Su Cp. assert (Oc : order_ok (cx_order (file_ctx e c s path frags))) by (intros q A k; apply orders).
    apply (C12_exact (file_ctx e c s path frags) d P l Oc Co Dr Su Cp). exists fuel. unfold file_ctx. intros En. rewrite En in Ef. discriminate Ef.
  - intros -> n (path & ms & q & Sp & Fc & In1).
    apply qlc_success in H0 as (cf' & s' & Lc' & H0). rewrite Lc in Lc'. injection Lc' as <-. cbv zeta in H0. fold rc in H0.
    destruct H0 as (Ls' & H0). rewrite Ls in Ls'. injection Ls' as <-. fold c e ls f root in H0. destruct H0 as (_ & Lv & G).
    set (st := pool_of fuel sched) in *. destruct (Ro path Sp) as (f1 & r & Ef & _).
    assert (Il : In (WFile path, dir_kids ls (WFile path), item_report fuel e ls c s f (WFile path)) (pool_log st)).
    { unfold st. rewrite (log_results fuel e ls c s root f names sep). apply in_map_iff. exists (WFile path). split; auto. apply (every_once_in _ _ _ _ Ev). auto. }
    unfold item_report in Il. cbn [run_work] in Il. rewrite Ef in Il.
    assert (Er : exists r0, r = Ok r0 /\ rp_globals r0 = co_globals q).
    { destruct (write_file e f (with_extension path "graphql.d.ts") (co_contents q)) as [f2 [er|]] eqn:Ew.
      - exfalso. assert (X : compile_file fuel e f c s path = Done (f2, Err [io_message "write" er (with_extension path "graphql.d.ts")])).
        { destruct Fc as (contents & d & im & ms0 & frags & ms1 & ws & op & E1 & E2 & E3 & E4 & E5 & E6 & _).
          unfold compile_file, read_file. unfold file_ctx in E5. rewrite E1, E2, E3, E4, E5, E6, Ew. reflexivity. }
        rewrite X in Ef. injection Ef as _ <-. specialize (Lv _ (io_message "write" er (with_extension path "graphql.d.ts")) Il (or_introl eq_refl)). discriminate Lv.
      - assert (X : compile_file fuel e f c s path = Done (f2, Ok {| rp_messages := ms; rp_globals := co_globals q |})).
        { apply compile_file_ok. exists ms, q. auto. }
        rewrite X in Ef. injection Ef as _ <-. eexists. split; reflexivity. }
    destruct Er as (r0 & -> & Er).
    assert (Ig : In n (rp_globals (aggregate st))).
    { rewrite aggregate_globals. eexists. split; [exact Il|]. cbn [snd]. rewrite Er. exact In1. }
    unfold compile_globals_file in G. destruct (rp_globals (aggregate st)) as [|g0 gs] eqn:Eg; [destruct Ig|]. rewrite <- Eg in *.
    destruct (compile_globals fuel c (suborder (env_order e root) [1]) s (rp_globals (aggregate st))) as [[t|te]|] eqn:Ecg; try discriminate G.
    unfold compile_globals, global_defs in Ecg. fold (seed_map s (suborder (env_order e root) [1]) fuel (rp_globals (aggregate st))) in Ecg.
    destruct (seed_map s _ fuel _) as [[m|er]|] eqn:Es; try discriminate Ecg.
    refine (seed_wf s _ _ Ci fuel _ m Es n Ig). intros p A k. apply orders.
Qed.

(** A worker panics only over an import without its closing quote, in a file that the imports of a source lead to *)
Theorem C78_panics : forall fuel sched, qlc fuel wo a sched = ProcPanicked ->
  exists path contents F C, is_source ls root path /\ f (env_locate e path) = Ok contents /\ importer e f c path contents F C /\ unclosed_import C.
Proof.
  intros fuel sched H. rewrite qlc_pool in H.
  assert (P : pool_status (pool_of fuel sched) = SomePanicked).
  { destruct (pool_status (pool_of fuel sched)); try discriminate H; [|reflexivity].
    pose proof (finish_no_panic fuel e c s root (pool_of fuel sched)) as X.
    destruct (finish_work fuel e c s root (pool_of fuel sched)) as [[f' ms]| |]; [|exfalso; apply X; reflexivity|discriminate H].
    unfold exit_with in H. destruct (exit_report ms). discriminate H. }
  destruct (run_panics fuel e ls c s (rc_number_threads rc) root f sched names sep P) as (path & Sp & Pa).
  apply compile_file_panics in Pa. destruct Pa as (contents & d & Ec & _ & Ei).
  apply add_imports_panics in Ei. destruct Ei as (F & C & I & O). exists path, contents, F, C. repeat split; auto. apply open_unclosed. exact O.
Qed.
End Run.
Print Assumptions C78_can_exit_partial.
Print Assumptions C78_exits_partial.
Print Assumptions C78_exited.
Print Assumptions C78_panics.

(** ** Non-vacuity: the two documents of C72, one importing and spreading the fragment of the other *)
From Verif Require Import ShareWorlds LinkFacts PropC69 PropC72.
Lemma disk_imports path contents : path = "./g.graphql" /\ contents = barn_query \/ path = "./n.graphql" /\ contents = barn_fragment ->
  exists r, add_imports 5 text_env disk_files plain_config path contents [] [] = Done r.
Proof. intros [[-> ->]|[-> ->]]; eexists; vm_compute; reflexivity. Qed.
(** Selections without spreads *)
Fixpoint bare (x : selection) : bool :=
  match x with SField _ _ _ _ _ sub => forallb bare sub | SInline _ _ _ sub => forallb bare sub | SSpread _ _ _ => false end.
Lemma bare_spreads l b : forallb bare l = true -> ~ SpecDiag.spreads l b.
Proof.
  intros E H. induction H as [l p n d I|l p al n a d sub m I H IH|l p c d sub m I H IH]; rewrite forallb_forall in E; specialize (E _ I); cbn in E; auto. discriminate E.
Qed.
Lemma disk_sound path : is_source PropC35.pair_listing "." path -> sound_source text_env disk_files plain_config path.
Proof.
  intros Sp contents d Ec Ed. pose proof (disk_read path contents Sp Ec) as K. destruct (disk_imports path contents K) as ([im ms] & Ei). constructor.
  - eapply done_acyclic; eauto.
  - intros F C I O. apply (add_imports_ok text_env disk_files plain_config 5) in Ei. destruct Ei as (_ & No). apply (No F C I). apply open_unclosed. exact O.
  - intros P l m _ _. constructor. intros b (fd & (t & o & R & Hf & _) & Sp1). exfalso. destruct (disk_reach _ _ _ _ K R) as [_ ->].
    assert (Efd : fd = disk_fragment) by (unfold holds_fragment in Hf; vm_compute in Hf; injection Hf as <-; reflexivity). subst fd.
    revert Sp1. apply (bare_spreads (fr_sels disk_fragment)). reflexivity.
Qed.
Lemma farm_wellfounded n : wellfounded farm n.
Proof.
  constructor. intros m (t & Gt & nm & fs & fn & x & Ed & _). exfalso. apply aget_In in Gt.
  assert (X : Forall (fun x : string * stype => match st_def (snd x) with TInputObject _ _ => False | _ => True end) farm) by (vm_compute; repeat constructor).
  rewrite Forall_forall in X. specialize (X _ Gt). cbn [snd] in X. rewrite Ed in X. exact X.
Qed.
Lemma disk_finite : finite (dir_kids PropC35.pair_listing) (WDir ".").
Proof. constructor. repeat constructor. Qed.
Lemma disk_schema : parse_schema (rc_schema_path (merge_config 4 (args_threads 1) config_default))
  (wo_schema disk_world (rc_schema_path (merge_config 4 (args_threads 1) config_default))) = Ok farm.
Proof. vm_compute. reflexivity. Qed.
Example C78_nonvacuous : exists N M, forall k sched, N <= k -> M <= count_occ Nat.eq_dec sched 0 ->
  exists code out f', qlc k disk_world (args_threads 1) sched = Exited code out f'.
Proof.
  destruct disk_settled. destruct PropC35.C35_nonvacuous as (_ & _ & _ & N & _ & _ & _ & C & Co & _).
  refine (C78_exits_partial disk_world (args_threads 1) config_default farm se_config disk_schema N disk_separate (fun p => plain_ok) Co C disk_finite disk_sound _ eq_refl).
  intros k n _. apply farm_wellfounded.
Qed.

(** ** A document that imports itself: no run exits, whatever the schedule and however much stack there is *)
Definition knot : fs := ImportWorlds.files [("./x.graphql", ImportWorlds.import_line "x.graphql" +++ "Q")].
Definition knot_world : world := tiny_world ImportWorlds.letter_env flat_listing knot.
Definition knot_text : string := ImportWorlds.import_line "x.graphql" +++ "Q".
Lemma knot_step file n l t : imports_at plain_config file knot_text n l t -> t = "./x.graphql".
Proof.
  intros H. pose proof (PropC35.imports_target _ _ _ _ _ _ H) as (L & E). destruct H as (q & _ & (rest & Eq & _) & _).
  destruct n as [|[|[|n]]]; vm_compute in L; try discriminate; injection L as <-; [vm_compute in E; congruence|discriminate].
Qed.
Lemma knot_reach t o : reach ImportWorlds.letter_env knot plain_config "./x.graphql" knot_text t o -> t = "./x.graphql" /\ o = knot_text.
Proof.
  intros R. induction R as [n l t o A Eo|mid mc n l t o R [-> ->] A Eo]; apply knot_step in A; subst; split; auto; vm_compute in Eo |- *; congruence.
Qed.
Lemma knot_separate : separate ImportWorlds.letter_env flat_listing plain_config "." knot.
Proof.
  split.
  - intros x y l Hx Hy R. apply PropC43.flat_source in Hx. apply PropC43.flat_source in Hy. subst.
    change (out_loc ImportWorlds.letter_env "./x.graphql") with "./x.graphql.d.ts".
    destruct R as [|contents file' contents' n l t E I A]; [discriminate|].
    assert (contents = knot_text) by (vm_compute in E |- *; congruence). subst contents.
    assert (X : contents' = knot_text). { destruct I as [[_ ->]|R]; [reflexivity|apply (knot_reach _ _ R)]. }
    subst contents'. apply knot_step in A. subst t. discriminate.
  - intros x y Hx Hy _. apply PropC43.flat_source in Hx. apply PropC43.flat_source in Hy. subst. reflexivity.
Qed.
Lemma knot_imports : import_step ImportWorlds.letter_env knot plain_config "./x.graphql" "./x.graphql".
Proof.
  exists knot_text, 0, (import_mark +++ "x.graphql" +++ String quote ""), knot_text. split; [vm_compute; reflexivity|]. split; [|vm_compute; reflexivity].
  exists "x.graphql". split; [split; [vm_compute; reflexivity|intros k l' Lt; lia]|]. split.
  - exists "". split; [reflexivity|]. intros X. destruct X.
  - apply (resolves_root plain_config (path_pop "./x.graphql") "x.graphql").
    + intros r (p & E & _). discriminate E.
    + intros r E. discriminate E.
Qed.
Lemma tiny_loads : parse_schema (rc_schema_path (merge_config 4 (args_threads 1) config_default)) (SRDecoded tiny_schema) = Ok ImportWorlds.tiny_loaded.
Proof. vm_compute. reflexivity. Qed.
Theorem C78_refuted : forall fuel sched code out f', qlc fuel knot_world (args_threads 1) sched <> Exited code out f'.
Proof.
  intros fuel sched code out f' H.
  assert (Ci : inputs_consistent ImportWorlds.tiny_loaded).
  { intros n t nm fs Gt Ed. exfalso. apply aget_In in Gt.
    assert (X : Forall (fun x : string * stype => match st_def (snd x) with TInputObject _ _ => False | _ => True end) ImportWorlds.tiny_loaded) by (vm_compute; repeat constructor).
    rewrite Forall_forall in X. specialize (X _ Gt). cbn [snd] in X. rewrite Ed in X. exact X. }
  assert (Co : consistent ImportWorlds.tiny_loaded) by (apply consistentb_ok; vm_compute; reflexivity).
  destruct (C78_exited knot_world (args_threads 1) config_default ImportWorlds.tiny_loaded eq_refl tiny_loads (proj1 PropC43.C43_nonvacuous) knot_separate (fun p => plain_ok)
    fuel sched code out f' (or_introl eq_refl) Co Ci H) as (X & _).
  destruct (X "./x.graphql" knot_text tiny_query) as (A & _).
  - apply PropC43.C43_nonvacuous.
  - vm_compute; reflexivity.
  - vm_compute; reflexivity.
  - assert (Z : forall p, acyclic ImportWorlds.letter_env knot plain_config p -> p = "./x.graphql" -> False).
    { intros p Ac. induction Ac as [p _ IH]. intros ->. apply (IH "./x.graphql"); [exact knot_imports|reflexivity]. }
    apply (Z _ A eq_refl).
Qed.
Print Assumptions C78_refuted.

(** ** A document with an import that lacks its closing quote: the run panics *)
Definition gap : fs := ImportWorlds.files [("./x.graphql", import_mark +++ "y.graphql" +++ nl +++ "Q")].
Example C78_panics_nonvacuous : qlc 10 (tiny_world ImportWorlds.letter_env flat_listing gap) (args_threads 1) (repeat 0 30) = ProcPanicked.
Proof. vm_compute. reflexivity. Qed.
