(** C79: exactly the valid projects compile. *)
From Verif Require Import ProjectFacts.
From Verif Require PropC49 PropC78.

Section Run.
Variables (wo : world) (a : cli_args) (cf : config_file) (s : schema).
Let rc := merge_config (wo_ncpus wo) a cf.
Let c := cconfig_of rc.
Let e := wo_env wo.
Let ls := wo_listing wo.
Let root := rc_root_dir rc.
Let f := wo_fs wo.
Hypothesis Lc : load_config (ca_config_file a) (wo_config wo) = Ok cf.
Hypothesis Ls : parse_schema (rc_schema_path rc) (wo_schema wo (rc_schema_path rc)) = Ok s.
Hypothesis names : names_ok ls.
Hypothesis sep : separate e ls c root f.
Hypothesis orders : forall p, order_ok (env_order e p).
Hypothesis agree : paths_agree e f.
Hypothesis co : consistent s.
Hypothesis ci : inputs_consistent s.
Hypothesis inh : inhabited_types s.
Hypothesis proper : proper_types s.
Hypothesis types : types_parse e.
Hypothesis fin : finite (dir_kids ls) (WDir root).
Notation pool_of fuel sched := (steps (run_work fuel e ls c s) (rc_number_threads rc) (start (rc_number_threads rc) (WDir root) f) sched).

Section Valid.
Hypothesis valid : valid_project e ls f c s root.
Hypothesis writable : env_write e (globals_path c root) = WOk.

Lemma all_compile : exists N, forall k, N <= k -> forall path, is_source ls root path -> exists f' r, compile_file k e f c s path = Done (f', Ok r) /\
  Forall (fun m => ms_level m = CompileWarning) (rp_messages r).
Proof.
  destruct (finite_list _ _ fin) as (l & Hl).
  assert (X : forall m, (forall y, In y m -> In y l) -> exists N, forall k, N <= k -> forall path, In (WFile path) m -> exists f' r, compile_file k e f c s path = Done (f', Ok r) /\
    Forall (fun m => ms_level m = CompileWarning) (rp_messages r)).
  { induction m as [|x m IH]; intros Sub; [exists 0; intros k _ path []|].
    destruct IH as (N & HN); [intros y I; apply Sub; right; exact I|]. destruct x as [path|d].
    - assert (Sp : is_source ls root path) by (apply Hl; apply Sub; left; reflexivity).
      destruct (valid_file e f c s orders agree co inh types path (vp_sources _ _ _ _ _ _ valid path Sp) (vp_outputs _ _ _ _ _ _ valid path Sp)) as (N1 & H1).
      exists (N + N1). intros k L p [E|I]; [injection E as <-; apply H1; lia|apply HN; [lia|exact I]].
    - exists N. intros k L p [E|I]; [discriminate E|apply HN; auto]. }
  destruct (X l (fun y I => I)) as (N & HN). exists N. intros k L path Sp. apply HN; auto. apply Hl. exact Sp.
Qed.
Lemma uses_valid k n : PropC49.uses_global k e ls c s root f n -> global_type s n /\ wellfounded s n.
Proof.
  intros (path & ms & q & Sp & Fc & I). exact (valid_uses e f c s orders agree co proper types path k ms q n (vp_sources _ _ _ _ _ _ valid path Sp) Fc I).
Qed.
Lemma ends_ok : exists N, forall k, N <= k -> forall sched, pool_status (pool_of k sched) = AllReturned -> exists out f', qlc k wo a sched = Exited 0 out f'.
Proof.
  destruct all_compile as (N1 & H1).
  destruct (PropC78.all_finish wo a cf s names sep orders co ci fin (fun path Sp => valid_sound e f c s path (vp_sources _ _ _ _ _ _ valid path Sp)) (fun k n U => proj2 (uses_valid k n U))) as (N2 & H2).
  exists (N1 + N2). intros k L sched St. specialize (H1 k ltac:(lia)). specialize (H2 k ltac:(lia) sched).
  rewrite (PropC78.qlc_pool wo a cf s Lc Ls). fold rc c e ls root f. rewrite St.
  assert (Ms : forall m, In m (rp_messages (aggregate (pool_of k sched))) -> ~ is_error_level (ms_level m)).
  { intros m I. rewrite aggregate_messages in I. apply in_flat_map in I. destruct I as (x & Ix & Im).
    rewrite (log_results k e ls c s root f names sep) in Ix. apply in_map_iff in Ix. destruct Ix as (w & <- & Iw). cbn [snd] in Im.
    destruct (PoolProps.once k e ls c s (rc_number_threads rc) root f sched) as (ps & _ & F2). destruct (Forall2_in_r _ _ _ _ F2 Iw) as (q & _ & Hq).
    unfold item_report in Im. destruct w as [path|d]; cbn [run_work] in Im.
    - destruct (H1 path (ex_intro _ q Hq)) as (f1 & r & Ef & Fw). rewrite Ef in Im. rewrite Forall_forall in Fw. rewrite (Fw m Im). intros [X|X]; discriminate X.
    - destruct (vp_dirs _ _ _ _ _ _ valid q d Hq) as (es & l & El & Er). unfold run_dir_entry in Im. rewrite El in Im.
      pose proof (scan_readable d es []) as S. destruct (scan_entries d es []); [destruct Im|]. rewrite Er in S. discriminate S. }
  destruct H2 as (f1 & ms & Ef). fold rc c e ls root f in Ef. rewrite Ef.
  assert (Em : ms = rp_messages (aggregate (pool_of k sched))).
  { unfold finish_work in Ef. destruct (compile_globals_file k e (ps_ext (pool_of k sched)) c s root (rp_globals (aggregate (pool_of k sched)))) as [[f2 [m|]]| |] eqn:Eg; try discriminate Ef.
    - exfalso. unfold compile_globals_file in Eg. destruct (rp_globals (aggregate (pool_of k sched))) as [|x xs] eqn:Ex; [discriminate Eg|]. rewrite <- Ex in *.
      destruct (compile_globals k c (suborder (env_order e root) [1]) s (rp_globals (aggregate (pool_of k sched)))) as [r|] eqn:Ec; [|discriminate Eg].
      assert (Oo : order_ok (suborder (env_order e root) [1])) by (intros q A l; apply orders).
      destruct (globals_done s _ c Oo ci _ k r (fun n I => proj1 (uses_valid k n (PropC78.pool_globals wo a cf s names sep k sched n I))) Ec) as (_ & t & -> & _).
      unfold write_file in Eg. fold c root in writable. rewrite writable in Eg. discriminate Eg.
    - injection Ef as _ <-. reflexivity. }
  subst ms. unfold exit_with. pose proof (proj2 (proj1 (exit_code (rp_messages (aggregate (pool_of k sched))))) Ms) as Z.
  destruct (exit_report (rp_messages (aggregate (pool_of k sched)))) as [out code]. cbn [snd] in Z. subst code. eauto.
Qed.

(** A valid project: from some depth on every run is under way or has exited with 0, and can be continued to that exit *)
Theorem C79_accepts : exists N, forall k, N <= k -> forall sched,
  (qlc k wo a sched = Running \/ exists out f', qlc k wo a sched = Exited 0 out f') /\
  exists more out f', qlc k wo a (sched ++ more) = Exited 0 out f'.
Proof.
  destruct ends_ok as (N1 & H1), all_compile as (N2 & H2). exists (N1 + N2). intros k L sched. specialize (H1 k ltac:(lia)). specialize (H2 k ltac:(lia)).
  assert (En : forall path, is_source ls root path -> exists f' r, compile_file k e f c s path = Done (f', r)).
  { intros path Sp. destruct (H2 path Sp) as (f' & r & E & _). eauto. }
  split.
  - destruct (ends_status k e ls c s (rc_number_threads rc) root f names sep En sched fin) as [E|E]; [left|right; auto].
    rewrite (PropC78.qlc_pool wo a cf s Lc Ls). fold rc c e ls root f. rewrite E. reflexivity.
  - destruct (ends_finish k e ls c s (rc_number_threads rc) root f names sep En sched fin) as (more & E). exists more. auto.
Qed.
(** With one worker it exits with 0, after a number of steps that depends on the files only *)
Theorem C79_exits_zero : rc_number_threads rc = 1 ->
  exists N M, forall k sched, N <= k -> M <= count_occ Nat.eq_dec sched 0 -> exists out f', qlc k wo a sched = Exited 0 out f'.
Proof.
  intros One. destruct ends_ok as (N1 & H1), all_compile as (N2 & H2). exists (N1 + N2). set (N := N1 + N2).
  assert (En : forall path, is_source ls root path -> exists f' r, compile_file N e f c s path = Done (f', r)).
  { intros path Sp. destruct (H2 N ltac:(lia) path Sp) as (f' & r & E & _). eauto. }
  destruct (ends_single N e ls c s (rc_number_threads rc) root f names sep En One fin) as (M & HM). exists M. intros k sched Lk Lm.
  destruct (H1 N ltac:(lia) sched (HM sched Lm)) as (out & f' & E). exists out, f'. rewrite <- E. apply PropC78.C78_depth; [exact Lk|]. rewrite E. discriminate.
Qed.
End Valid.

(** Conversely: what exits with 0, every file processed, is valid, unless it holds subscriptions (these are compiled as queries, C05),
    fragments of the same name, or imports from outside *)
Theorem C79_rejects : forall fuel sched out f',
  rc_number_threads rc = 1 \/ (0 < rc_number_threads rc /\ flat_tree ls root) ->
  unique_fragments e ls f c root -> imports_inside e ls f c root -> relative_paths e ->
  (forall path contents d, is_source ls root path -> f (env_locate e path) = Ok contents -> env_parse e contents = Ok [d] -> is_subscription d = false) ->
  (forall path, is_source ls root path -> out_loc e path <> env_locate e (globals_path c root)) ->
  qlc fuel wo a sched = Exited 0 out f' -> valid_project e ls f c s root.
Proof.
  intros fuel sched out f' Th Un Ins Rel Qu Sg H.
  destruct (PropC78.C78_exited wo a cf s Lc Ls names sep orders fuel sched 0 out f' Th co ci H) as (_ & Wf). specialize (Wf eq_refl). fold rc c e ls root f in Wf.
  pose proof H as H0. apply qlc_success in H0 as (cf' & s' & Lc' & H0). rewrite Lc in Lc'. injection Lc' as <-. cbv zeta in H0. fold rc in H0.
  destruct H0 as (Ls' & H0). rewrite Ls in Ls'. injection Ls' as <-. fold c e ls f root in H0. destruct H0 as (St & Lv & _).
  assert (Ev : every_once ls root (completed (pool_of fuel sched))).
  { destruct Th as [One|[Pos Fl]]; [apply single_every; auto|apply flat_every; auto]. }
  pose proof (PropC49.end_to_end fuel wo a sched cf s out f' Lc) as EE. cbv zeta in EE. fold rc c e ls root f in EE.
  destruct (EE Ls names sep Sg orders ci Ev H) as (Cs & Gs & _).
  assert (Wr : forall path, is_source ls root path -> env_write e (with_extension path "graphql.d.ts") = WOk).
  { intros path Sp. destruct (Cs path Sp) as (ms & q & Fc & _). destruct (env_write e (with_extension path "graphql.d.ts")) as [|er|er pa] eqn:Ew; [reflexivity| |]; exfalso.
    all: assert (Il : In (WFile path, dir_kids ls (WFile path), item_report fuel e ls c s f (WFile path)) (pool_log (pool_of fuel sched)))
      by (rewrite (log_results fuel e ls c s root f names sep); apply in_map_iff; exists (WFile path); split; auto; apply (every_once_in _ _ _ _ Ev); auto).
    all: assert (X : exists f2, compile_file fuel e f c s path = Done (f2, Err [io_message "write" er (with_extension path "graphql.d.ts")]))
      by (destruct Fc as (contents & d & im & ms0 & frags & ms1 & ws & op & E1 & E2 & E3 & E4 & E5 & E6 & _);
          unfold compile_file, read_file; unfold file_ctx in E5; rewrite E1, E2, E3, E4, E5, E6; unfold write_file; rewrite Ew; eauto).
    all: destruct X as (f2 & X); unfold item_report in Il; cbn [run_work] in Il; rewrite X in Il.
    all: specialize (Lv _ (io_message "write" er (with_extension path "graphql.d.ts")) Il (or_introl eq_refl)); discriminate Lv. }
  constructor; [| |exact Wr].
  - intros p d Hd. assert (Id : In (WDir d) (completed (pool_of fuel sched))).
    { destruct Ev as (ps & Nd & F2 & Al). destruct (Forall2_in_l _ _ _ _ F2 (Al _ _ Hd)) as (x & Ix & Hx). rewrite (tree_fun ls root p _ _ Hd Hx). exact Ix. }
    assert (Il : In (WDir d, dir_kids ls (WDir d), item_report fuel e ls c s f (WDir d)) (pool_log (pool_of fuel sched))).
    { rewrite (log_results fuel e ls c s root f names sep). apply in_map_iff. exists (WDir d). auto. }
    unfold item_report in Il. cbn [run_work] in Il. unfold run_dir_entry in Il. destruct (ls d) as [es|err].
    + pose proof (scan_readable d es []) as S. destruct (scan_entries d es []) as [l|err]; [destruct S as (l0 & Er & _); eauto|].
      specialize (Lv _ _ Il (or_introl eq_refl)). discriminate Lv.
    + specialize (Lv _ _ Il (or_introl eq_refl)). discriminate Lv.
  - intros path Sp. refine (source_valid e f c s orders agree co proper types ls root fuel Un Ins Rel Qu _ _ path Sp).
    + intros q Sq. destruct (Cs q Sq) as (ms & cq & Fc & Lw & _). eauto.
    + intros q ms cq n Sq Fc I. assert (U : PropC49.uses_global fuel e ls c s root f n) by (exists q, ms, cq; auto).
      split; [|apply Wf; exact U]. destruct Gs as (_ & _ & _ & _ & _ & _ & _ & _ & _ & G); [eauto|]. apply G. exact U.
Qed.

(** Together: with one worker, some run exits with 0 exactly if the project is valid *)
Theorem C79_exact_partial : rc_number_threads rc = 1 -> env_write e (globals_path c root) = WOk ->
  unique_fragments e ls f c root -> imports_inside e ls f c root -> relative_paths e ->
  (forall path contents d, is_source ls root path -> f (env_locate e path) = Ok contents -> env_parse e contents = Ok [d] -> is_subscription d = false) ->
  (forall path, is_source ls root path -> out_loc e path <> env_locate e (globals_path c root)) ->
  ((exists fuel sched out f', qlc fuel wo a sched = Exited 0 out f') <-> valid_project e ls f c s root).
Proof.
  intros One W Un Ins Rel Qu Sg. split.
  - intros (fuel & sched & out & f' & H). exact (C79_rejects fuel sched out f' (or_introl One) Un Ins Rel Qu Sg H).
  - intros V. destruct (C79_exits_zero V W One) as (N & M & H).
    destruct (H N (repeat 0 M) (le_n _)) as (out & f' & E); [|eauto]. clear. induction M as [|M IH]; [apply le_n|]. cbn. destruct (Nat.eq_dec 0 0); [lia|congruence].
Qed.
End Run.
Print Assumptions C79_accepts.
Print Assumptions C79_exits_zero.
Print Assumptions C79_rejects.
Print Assumptions C79_exact_partial.

(** ** From texts *)
From Verif Require Import RegCheck ShareWorlds LinkFacts GlobalRead.
From Verif Require Import Gql Json Args SpecGtext SpecJson SpecJtext GlayoutFacts PropC69 PropC72.
From Verif Require SpecArgs PropC35 PropC43 PropC65 PropC67.
Lemma disk_types ck complaint jerr wo : on_disk ck complaint jerr wo -> types_parse (wo_env wo).
Proof.
  intros [Hd _] contents d v E I. rewrite Hd in E. destruct (parse_query ck contents) as [ds|] eqn:P; [|discriminate E]. injection E as ->.
  apply C69_text in P. pose proof (text_vars_valid ck contents [d] d P (or_introl eq_refl)) as F. rewrite Forall_forall in F. exact (F v I).
Qed.
(** A command line with one thread, on a disk with a schema in which every composite type of a field has an object type: exit code 0
    is possible exactly if the project is valid, under the exclusions of [C79_rejects] *)
Theorem C79_text_partial : forall ck complaint jerr help version wo its argv a nc cf stext j js s,
  let rc := merge_config (wo_ncpus wo) a cf in
  let c := cconfig_of rc in
  let e := wo_env wo in
  let ls := wo_listing wo in
  let root := rc_root_dir rc in
  let f := wo_fs wo in
  on_disk ck complaint jerr wo ->
  SpecArgs.spelled its argv -> SpecArgs.consistent its -> SpecArgs.complete its -> SpecArgs.says its a nc ->
  settled wo a cf js s ->
  f (env_locate e (rc_schema_path rc)) = Ok stext -> text_holds stext j -> says_schema j js -> fits js ->
  inhabited_types s -> finite (dir_kids ls) (WDir root) -> rc_number_threads rc = 1 -> env_write e (globals_path c root) = WOk ->
  unique_fragments e ls f c root -> relative_paths e ->
  (forall path contents d, is_source ls root path -> f (env_locate e path) = Ok contents -> parse_query ck contents = Some [d] -> is_subscription d = false) ->
  ((exists fuel sched out f', qlc_command help version fuel wo argv sched = Exited 0 out f') <-> valid_project e ls f c s root) /\
  (valid_project e ls f c s root -> exists N M, forall k sched, N <= k -> M <= count_occ Nat.eq_dec sched 0 ->
     exists out f', qlc_command help version k wo argv sched = Exited 0 out f').
Proof.
  intros ck complaint jerr help version wo its argv a nc cf stext j js s rc c e ls root f Hd Sp Cn Cm Sy [Lc In0 Jn N S Gd Ho C Ag Sc Th] Es Tx Sj Fi Inh Fin One W Un Rel Qu.
  assert (Pa : parse_args argv = URun a nc) by (apply PropC65.C65_exact; exists its; auto).
  assert (Cr : forall k sched, qlc_command help version k wo argv sched = qlc k wo a sched) by (intros k sched; unfold qlc_command; rewrite Pa; reflexivity).
  assert (Sr : schema_of_text jerr stext = SRDecoded js) by (apply PropC67.C67_schema; exists j; auto).
  assert (Ls : parse_schema (rc_schema_path rc) (wo_schema wo (rc_schema_path rc)) = Ok s).
  { rewrite (od_schema _ _ _ _ Hd _ _ Es), Sr. cbn [parse_schema]. rewrite (in_loaded _ _ In0). reflexivity. }
  pose proof (intro_consistent _ _ In0) as Co.
  pose proof (nameable_proper _ _ (loaded_nameable _ _ _ (in_loaded _ _ In0) Jn)) as Pr.
  pose proof (disk_types _ _ _ _ Hd) as Ty.
  assert (Ins : imports_inside e ls f c root) by (intros path contents t o Sp0 E R; exists t; split; [exact (Sc path contents t o Sp0 E R)|reflexivity]).
  assert (Qu' : forall path contents d, is_source ls root path -> f (env_locate e path) = Ok contents -> env_parse e contents = Ok [d] -> is_subscription d = false).
  { intros path contents d Sp0 E P. apply (Qu path contents d Sp0 E). unfold e in P. rewrite (od_documents _ _ _ _ Hd) in P. destruct (parse_query ck contents) as [ds|]; [|discriminate P]. injection P as ->. reflexivity. }
  split.
  - pose proof (C79_exact_partial wo a cf s Lc Ls N S Ho Ag Co C Inh Pr Ty Fin One W Un Ins Rel Qu' Gd) as X. cbv zeta in X. split.
    + intros (k & sched & out & f' & H). apply X. exists k, sched, out, f'. rewrite <- Cr. exact H.
    + intros V. apply X in V. destruct V as (k & sched & out & f' & H). exists k, sched, out, f'. rewrite Cr. exact H.
  - intros V. destruct (C79_exits_zero wo a cf s Lc Ls N S Ho Ag Co C Inh Pr Ty Fin V W One) as (N0 & M & H). exists N0, M. intros k sched Lk Lm. rewrite Cr. apply H; auto.
Qed.
Print Assumptions C79_text_partial.

(** ** Non-vacuity: the two documents of C72 are a valid project *)
Lemma farm_inhabited : inhabited_types farm.
Proof.
  intros P n f (t & Gt & F) C. apply aget_In in Gt.
  assert (X : forallb (fun x : string * stype => match st_def (snd x) with
     | TObject fs | TInterface _ fs _ | TUnion _ _ fs => forallb (fun y : string * sfield => negb (compositeb farm (ft_name (sf_type (snd y)))) || negb (match possibles farm (ft_name (sf_type (snd y))) with [] => true | _ => false end)) fs
     | _ => true end) farm = true) by (vm_compute; reflexivity).
  rewrite forallb_forall in X. specialize (X _ Gt). cbn [snd] in X.
  assert (Y : negb (compositeb farm (ft_name (sf_type f))) || negb (match possibles farm (ft_name (sf_type f)) with [] => true | _ => false end) = true).
  { destruct (st_def t); try contradiction; rewrite forallb_forall in X; apply aget_In in F; exact (X _ F). }
  apply compositeb_ok in C. rewrite C in Y. cbn [negb orb] in Y. destruct (possibles farm (ft_name (sf_type f))) as [|T l] eqn:E; [discriminate Y|].
  exists T. apply possibles_ok. rewrite E. left. reflexivity.
Qed.
Lemma disk_reads_both path : is_source PropC35.pair_listing "." path -> exists contents, disk_files (env_locate text_env path) = Ok contents.
Proof. intros [-> | ->]%PropC35.pair_source; eexists; vm_compute; reflexivity. Qed.
Lemma disk_unique : unique_fragments text_env PropC35.pair_listing disk_files plain_config ".".
Proof.
  intros path contents n fd fd' Sp E (t & o & R & Hf & _) (t' & o' & R' & Hf' & _). pose proof (disk_read path contents Sp E) as K.
  destruct (disk_reach _ _ _ _ K R) as [_ ->]. destruct (disk_reach _ _ _ _ K R') as [_ ->]. unfold holds_fragment in Hf, Hf'. congruence.
Qed.
Lemma disk_step file contents n ln t : (file = "./g.graphql" /\ contents = barn_query) \/ (file = "./n.graphql" /\ contents = barn_fragment) ->
  imports_at plain_config file contents n ln t -> t = "./n.graphql".
Proof. intros K A. eapply (text_step file contents); eauto. Qed.
Lemma disk_valid_at path : is_source PropC35.pair_listing "." path ->
  (path = "./g.graphql" /\ valid_at text_env disk_files plain_config farm path barn_query disk_doc "Query" disk_sels [("PetName", disk_fragment)]) \/
  (path = "./n.graphql" /\ valid_at text_env disk_files plain_config farm path barn_fragment (DFrag disk_fragment) (fr_cond disk_fragment) (fr_sels disk_fragment) []).
Proof.
  intros Sp. destruct (disk_reads_both path Sp) as (contents & Ec). pose proof (disk_read path contents Sp Ec) as K.
  destruct (PropC78.disk_imports path contents K) as ([im ms] & Ei).
  assert (Ac : acyclic text_env disk_files plain_config path) by (eapply done_acyclic; eauto).
  assert (Qo : forall F C, importer text_env disk_files plain_config path contents F C -> ~ unclosed_import C).
  { intros F C I O. apply (add_imports_ok text_env disk_files plain_config 5) in Ei. destruct Ei as (_ & No). apply (No F C I). apply open_unclosed. exact O. }
  assert (Fo : forall F C n ln t, importer text_env disk_files plain_config path contents F C -> imports_at plain_config F C n ln t -> exists o, disk_files (env_locate text_env t) = Ok o).
  { intros F C n ln t [[-> ->]|R] A; [apply (disk_step path contents) in A; auto|destruct (disk_reach _ _ _ _ K R) as [-> ->]; apply disk_step in A; auto]; subst t; eexists; vm_compute; reflexivity. }
  assert (Fr : forall t o, reach text_env disk_files plain_config path contents t o -> ~ holds_operation text_env o).
  { intros t o R (op & Ho). destruct (disk_reach _ _ _ _ K R) as [_ ->]. vm_compute in Ho. discriminate Ho. }
  destruct K as [[-> ->]|[-> ->]].
  - left. split; [reflexivity|]. constructor; auto.
    + exact disk_fragments.
    + apply compositeb_ok. vm_compute. reflexivity.
    + exists "Query". apply possibles_ok. left. reflexivity.
    + apply (validb_ok farm _ 12). vm_compute. reflexivity.
    + intros v I. unfold disk_doc in I. cbn [doc_vars] in I. destruct I.
    + intros x (v & I & _). unfold disk_doc in I. cbn [doc_vars] in I. destruct I.
  - right. split; [reflexivity|]. constructor; auto.
    + intros n fd. split; [intros X; discriminate X|]. intros (t & o & R & _). exfalso.
      assert (Z : forall t o, ~ reach text_env disk_files plain_config "./n.graphql" barn_fragment t o).
      { intros t0 o0 R0. induction R0 as [m ln t0 o0 A _|mid mc m ln t0 o0 _ IH _ _]; [|exact IH].
        pose proof (PropC35.imports_target _ _ _ _ _ _ A) as (L & _). destruct A as (q & _ & (rest & Eq & _) & _).
        destruct m as [|[|m]]; vm_compute in L; try discriminate L; injection L as <-. discriminate Eq. }
      exact (Z t o R).
    + apply compositeb_ok. vm_compute. reflexivity.
    + exists "Dog". apply possibles_ok. vm_compute. tauto.
    + apply (validb_ok farm _ 12). vm_compute. reflexivity.
    + intros v [].
    + intros x (v & [] & _).
Qed.
Lemma disk_valid path : is_source PropC35.pair_listing "." path -> valid_source text_env disk_files plain_config farm path.
Proof. intros Sp. destruct (disk_valid_at path Sp) as [[_ V]|[_ V]]; do 5 eexists; exact V. Qed.
Lemma disk_project : valid_project text_env PropC35.pair_listing disk_files plain_config farm ".".
Proof.
  constructor; [|exact disk_valid|reflexivity].
  intros p d H. assert (X : d = ".").
  { inversion H as [x|q x i y Hq Hn]; subst; [reflexivity|]. exfalso.
    assert (Y : forall q x, SpecPool.node (dir_kids PropC35.pair_listing) (WDir ".") q x -> x = WDir "." \/ exists z, x = WFile z).
    { intros q0 x0 Hq0. induction Hq0 as [|q1 x1 i1 y1 _ IH En]; [left; reflexivity|]. destruct IH as [->|(z & ->)].
      - right. vm_compute in En. destruct i1 as [|[|[|i1]]]; try discriminate En; injection En as <-; eauto.
      - destruct i1; discriminate En. }
    destruct (Y q x Hq) as [->|(z & ->)]; [vm_compute in Hn; destruct i as [|[|[|i]]]; discriminate Hn|destruct i; discriminate Hn]. }
  subst d. vm_compute. eauto.
Qed.
Example C79_nonvacuous : exists N M, forall k sched, N <= k -> M <= count_occ Nat.eq_dec sched 0 ->
  exists out f', qlc k disk_world (args_threads 1) sched = Exited 0 out f'.
Proof.
  destruct disk_settled. destruct PropC35.C35_nonvacuous as (_ & _ & _ & N & _ & _ & _ & C & Co & _).
  assert (Dk : on_disk lenient (fun _ => "syntax error") "" disk_world).
  { split; [reflexivity|]. intros p t E. cbn [disk_world wo_schema]. cbn [disk_world wo_fs wo_env] in E. change (disk_files p = Ok t) in E. rewrite E. reflexivity. }
  exact (C79_exits_zero disk_world (args_threads 1) config_default farm se_config PropC78.disk_schema N disk_separate (fun p => plain_ok) se_paths Co C farm_inhabited farm_proper
    (disk_types _ _ _ _ Dk) PropC78.disk_finite disk_project eq_refl eq_refl).
Qed.
(** ... and the hypotheses of the converse hold there too *)
Example C79_rejects_nonvacuous : unique_fragments text_env PropC35.pair_listing disk_files plain_config "." /\ imports_inside text_env PropC35.pair_listing disk_files plain_config "." /\
  relative_paths text_env /\
  (forall path contents d, is_source PropC35.pair_listing "." path -> disk_files (env_locate text_env path) = Ok contents -> env_parse text_env contents = Ok [d] -> is_subscription d = false).
Proof.
  split; [exact disk_unique|]. split; [|split].
  - intros path contents t o Sp E R. exists t. split; [|reflexivity]. pose proof (disk_read _ _ Sp E) as K. destruct (disk_reach _ _ _ _ K R) as [-> _]. apply PropC35.pair_is_source. auto.
  - intros a b q E. change (a = b) in E. subst. reflexivity.
  - intros path contents d Sp E P. destruct (disk_read _ _ Sp E) as [[_ ->]|[_ ->]]; vm_compute in P; injection P as <-; reflexivity.
Qed.

(** ** Not only the valid: a subscription to a field of the query type is compiled *)
Definition wrong_files : fs := ImportWorlds.files [("./x.graphql", "subscription S { pet { name } }")].
Definition wrong_world : world :=
  {| wo_env := text_env; wo_listing := flat_listing; wo_ncpus := 4; wo_config := fun _ => CRNotFound "not found";
     wo_schema := fun _ => SRDecoded farm_json; wo_fs := wrong_files |}.
Theorem C79_refuted : exists out f', qlc 30 wrong_world (args_threads 1) (repeat 0 90) = Exited 0 out f' /\
  ~ valid_project text_env flat_listing wrong_files plain_config farm ".".
Proof.
  do 2 eexists. split; [vm_compute; reflexivity|]. intros V.
  destruct (vp_sources _ _ _ _ _ _ V "./x.graphql") as (contents & d & P & l & frags & A); [apply PropC43.C43_nonvacuous|].
  pose proof (va_read _ _ _ _ _ _ _ _ _ _ A) as R. vm_compute in R. injection R as <-. pose proof (va_parse _ _ _ _ _ _ _ _ _ _ A) as Pa. vm_compute in Pa. injection Pa as <-.
  pose proof (va_query _ _ _ _ _ _ _ _ _ _ A) as Q. discriminate Q.
Qed.
Print Assumptions C79_refuted.
(** ... and so is the import of a fragment that lies outside, whatever it selects: here a field that does not exist *)
Definition outer_query : string := ImportWorlds.import_line "../lib/f.graphql" +++ "query Q { pet { ...F } }".
Definition outer_files : fs := ImportWorlds.files [("./x.graphql", outer_query); ("./../lib/f.graphql", "fragment F on Pet { nothing }")].
Definition outer_world : world :=
  {| wo_env := text_env; wo_listing := flat_listing; wo_ncpus := 4; wo_config := fun _ => CRNotFound "not found";
     wo_schema := fun _ => SRDecoded farm_json; wo_fs := outer_files |}.
Lemma outer_reach t o : reach text_env outer_files plain_config "./x.graphql" outer_query t o -> o = "fragment F on Pet { nothing }".
Proof.
  intros R. induction R as [m ln t o A E|mid mc m ln t o _ IH A E]; pose proof (PropC35.imports_target _ _ _ _ _ _ A) as (L & Et); destruct A as (q & _ & (rest & Eq & _) & _).
  - destruct m as [|[|[|m]]]; vm_compute in L; try discriminate L; injection L as <-; [|discriminate Eq].
    vm_compute in Et. injection Et as <-. vm_compute in E. injection E as <-. reflexivity.
  - subst mc. destruct m as [|[|m]]; vm_compute in L; try discriminate L; injection L as <-. discriminate Eq.
Qed.
Theorem C79_outside_refuted : exists out f', qlc 30 outer_world (args_threads 1) (repeat 0 90) = Exited 0 out f' /\
  ~ valid_project text_env flat_listing outer_files plain_config farm ".".
Proof.
  do 2 eexists. split; [vm_compute; reflexivity|]. intros V.
  destruct (vp_sources _ _ _ _ _ _ V "./x.graphql") as (contents & d & P & l & frags & A); [apply PropC43.C43_nonvacuous|].
  pose proof (va_read _ _ _ _ _ _ _ _ _ _ A) as R. vm_compute in R. injection R as <-. pose proof (va_parse _ _ _ _ _ _ _ _ _ _ A) as Pa. vm_compute in Pa. injection Pa as <-.
  pose proof (va_root _ _ _ _ _ _ _ _ _ _ A) as Rt. vm_compute in Rt. injection Rt as <- <-.
  pose proof (va_sels _ _ _ _ _ _ _ _ _ _ A) as Vs. pose proof (va_brought _ _ _ _ _ _ _ _ _ _ A) as Br.
  inversion Vs as [|? ? ? Vp _]; subst. inversion Vp as [|? ? ? ? ? ? ? ? _ _ _ Vq| |]; subst; clear Vp. 
  inversion Vq as [|? ? ? Vf _]; subst. inversion Vf as [| | |? ? ? ? fd Af Cf Vn]; subst.
  apply Br in Af. destruct Af as (t & o & Re & Hf & _). change (reach text_env outer_files plain_config "./x.graphql" outer_query t o) in Re.
  apply outer_reach in Re. subst o. vm_compute in Hf. injection Hf as <-. cbn [fr_cond fr_sels] in Vn.
  inversion Vn as [|? ? ? Vl _]; subst. inversion Vl; subst;
    match goal with H : field_of farm "Pet" "nothing" _ |- _ => destruct H as (ty & Et & H); vm_compute in Et; injection Et as <-; vm_compute in H; discriminate H | _ => idtac end.
Qed.
Print Assumptions C79_outside_refuted.
(** ... and so is a document that two fragments of one name reach, all of them sources, although GraphQL has names of fragments unique *)
Definition twice_query : string := ImportWorlds.import_line "a.graphql" +++ ImportWorlds.import_line "b.graphql" +++ "query Q { pet { ...F } }".
Definition twice_a : string := "fragment F on Pet { name }".
Definition twice_b : string := "fragment F on Pet { __typename }".
Definition twice_files : fs := ImportWorlds.files [("./x.graphql", twice_query); ("./a.graphql", twice_a); ("./b.graphql", twice_b)].
Definition twice_listing : listing := fun d =>
  if String.eqb d "." then Ok (List.map (fun n => Ok {| de_name := n; de_kind := Ok EkFile |}) ["x.graphql"; "a.graphql"; "b.graphql"]) else Err "not found".
Definition twice_world : world :=
  {| wo_env := text_env; wo_listing := twice_listing; wo_ncpus := 4; wo_config := fun _ => CRNotFound "not found";
     wo_schema := fun _ => SRDecoded farm_json; wo_fs := twice_files |}.
Lemma twice_reach_a : reach text_env twice_files plain_config "./x.graphql" twice_query "./a.graphql" twice_a.
Proof.
  eapply (reach_one _ _ _ _ _ 0 (import_mark +++ "a.graphql" +++ String quote "")); [|vm_compute; reflexivity].
  exists "a.graphql". split; [split; [vm_compute; reflexivity|intros k l' Lt; lia]|]. split.
  - exists "". split; [reflexivity|]. intros X. inversion X.
  - apply (resolves_root plain_config _ "a.graphql").
    + intros r (q & X & _). discriminate.
    + intros r. discriminate.
Qed.
Lemma twice_reach_b : reach text_env twice_files plain_config "./x.graphql" twice_query "./b.graphql" twice_b.
Proof.
  eapply (reach_one _ _ _ _ _ 1 (import_mark +++ "b.graphql" +++ String quote "")); [|vm_compute; reflexivity].
  exists "b.graphql". split; [split; [vm_compute; reflexivity|]|].
  { intros [|k] l' Lt Hl; [|lia]. vm_compute in Hl. injection Hl as <-. right. eexists. reflexivity. }
  split.
  - exists "". split; [reflexivity|]. intros X. inversion X.
  - apply (resolves_root plain_config _ "b.graphql").
    + intros r (q & X & _). discriminate.
    + intros r. discriminate.
Qed.
Lemma twice_source path : is_source twice_listing "." path -> In path ["./x.graphql"; "./a.graphql"; "./b.graphql"].
Proof.
  intros [p H]. assert (K : forall p x, in_tree twice_listing "." p x -> x = WDir "." \/ exists q, x = WFile q /\ In q ["./x.graphql"; "./a.graphql"; "./b.graphql"]).
  { clear. intros p x H. induction H as [|q x i y _ IH En]; [left; reflexivity|]. destruct IH as [->|(z & -> & _)].
    - vm_compute in En. destruct i as [|[|[|[|i]]]]; try discriminate En; injection En as <-; right; eexists; (split; [reflexivity|]); cbn; auto.
    - destruct i; discriminate En. }
  destruct (K _ _ H) as [X|(q & X & I)]; [discriminate X|]. injection X as ->. exact I.
Qed.
Lemma twice_is_source path : In path ["./x.graphql"; "./a.graphql"; "./b.graphql"] -> is_source twice_listing "." path.
Proof.
  intros [<-|[<-|[<-|[]]]]; [exists [0]; apply (node_child _ _ [] (WDir ".") 0)|exists [1]; apply (node_child _ _ [] (WDir ".") 1)|
    exists [2]; apply (node_child _ _ [] (WDir ".") 2)]; first [constructor|reflexivity].
Qed.
Lemma twice_step path contents n ln t : In (path, contents) [("./x.graphql", twice_query); ("./a.graphql", twice_a); ("./b.graphql", twice_b)] ->
  imports_at plain_config path contents n ln t -> In t ["./a.graphql"; "./b.graphql"].
Proof.
  intros K A. pose proof (PropC35.imports_target _ _ _ _ _ _ A) as (L & Et). destruct A as (q & _ & (rest & Eq & _) & _).
  destruct K as [K|[K|[K|[]]]]; injection K as <- <-.
  - destruct n as [|[|[|[|n]]]]; vm_compute in L; try discriminate L; injection L as <-; [| |discriminate Eq]; vm_compute in Et; injection Et as <-; cbn; auto.
  - destruct n as [|n]; vm_compute in L; [injection L as <-; discriminate Eq|destruct n; discriminate L].
  - destruct n as [|n]; vm_compute in L; [injection L as <-; discriminate Eq|destruct n; discriminate L].
Qed.
Lemma twice_read path contents : In path ["./x.graphql"; "./a.graphql"; "./b.graphql"] -> twice_files (env_locate text_env path) = Ok contents ->
  In (path, contents) [("./x.graphql", twice_query); ("./a.graphql", twice_a); ("./b.graphql", twice_b)].
Proof. intros [<-|[<-|[<-|[]]]] E; vm_compute in E; injection E as <-; vm_compute; auto. Qed.
Lemma twice_reach path contents t o : In path ["./x.graphql"; "./a.graphql"; "./b.graphql"] -> twice_files (env_locate text_env path) = Ok contents ->
  reach text_env twice_files plain_config path contents t o -> In t ["./a.graphql"; "./b.graphql"].
Proof.
  intros I E R. pose proof (twice_read _ _ I E) as K. induction R as [n ln t o A Et|mid mc n ln t o R IH A Et]; [exact (twice_step _ _ _ _ _ K A)|].
  assert (Em : twice_files (env_locate text_env mid) = Ok mc) by exact (reach_readable _ _ _ _ _ _ _ R).
  exact (twice_step _ _ _ _ _ (twice_read _ _ (or_intror IH) Em) A).
Qed.
Theorem C79_twice_refuted : exists out f', qlc 30 twice_world (args_threads 1) (repeat 0 90) = Exited 0 out f' /\
  imports_inside text_env twice_listing twice_files plain_config "." /\ ~ valid_project text_env twice_listing twice_files plain_config farm ".".
Proof.
  do 2 eexists. split; [vm_compute; reflexivity|]. split.
  - intros path contents t o Sp E R. exists t. split; [|reflexivity]. apply twice_is_source. right. exact (twice_reach _ _ _ _ (twice_source _ Sp) E R).
  - intros V. destruct (vp_sources _ _ _ _ _ _ V "./x.graphql") as (contents & d & P & l & frags & A); [apply twice_is_source; left; reflexivity|].
    pose proof (va_read _ _ _ _ _ _ _ _ _ _ A) as R. change (@Ok string string twice_query = Ok contents) in R. injection R as <-.
    pose proof (va_brought _ _ _ _ _ _ _ _ _ _ A "F") as Br.
    assert (Fa : exists fd, aget "F" frags = Some fd /\ exists p al nm ar di sub, fr_sels fd = [SField p al nm ar di sub] /\ nm = "name").
    { eexists. split; [apply Br; exists "./a.graphql", twice_a; split; [exact twice_reach_a|]; split; [vm_compute; reflexivity|reflexivity]|]. do 6 eexists. split; reflexivity. }
    assert (Fb : exists fd, aget "F" frags = Some fd /\ exists p al nm ar di sub, fr_sels fd = [SField p al nm ar di sub] /\ nm = "__typename").
    { eexists. split; [apply Br; exists "./b.graphql", twice_b; split; [exact twice_reach_b|]; split; [vm_compute; reflexivity|reflexivity]|]. do 6 eexists. split; reflexivity. }
    destruct Fa as (fd & Fa & p1 & a1 & n1 & r1 & d1 & s1 & Ga & Na), Fb as (fd' & Fb & p2 & a2 & n2 & r2 & d2 & s2 & Gb & Nb). rewrite Fa in Fb. injection Fb as <-. rewrite Ga in Gb.
    injection Gb as _ _ E _ _ _. rewrite <- E, Na in Nb. discriminate Nb.
Qed.
Print Assumptions C79_twice_refuted.
