(** C80: what an output depends on. *)
From Verif Require Import RunFacts AgainFacts LinkFacts PropC49 PropC77.
From Verif Require Import Gql Json Args SpecGtext SpecJson SpecJtext PropC69 PropC72 ShareWorlds.
From Verif Require PropC35.

(** One worker, or some over a flat tree *)
Definition threads_ok (n : nat) (ls : listing) (root : string) : Prop := n = 1 \/ (0 < n /\ flat_tree ls root).

(** *** What a run leaves at an output, and what its messages are *)
Section One.
Variables (fuel : nat) (wo : world) (a : cli_args) (sched : list nat) (cf : config_file) (s : schema) (code : nat) (out : string) (f' : fs).
Notation rc := (merge_config (wo_ncpus wo) a cf).
Notation c := (cconfig_of rc).
Notation e := (wo_env wo).
Notation ls := (wo_listing wo).
Notation root := (rc_root_dir rc).
Notation f := (wo_fs wo).
Hypothesis config : load_config (ca_config_file a) (wo_config wo) = Ok cf.
Hypothesis schema_ok : parse_schema (rc_schema_path rc) (wo_schema wo (rc_schema_path rc)) = Ok s.
Hypothesis names : names_ok ls.
Hypothesis sep : separate e ls c root f.
Hypothesis threads : threads_ok (rc_number_threads rc) ls root.
Hypothesis ends : qlc fuel wo a sched = Exited code out f'.

Lemma run_parts : exists ms gm done,
  out = fst (exit_report ms) /\ code = snd (exit_report ms) /\ every_once ls root done /\
  ms = flat_map (fun x => rp_messages (item_report fuel e ls c s f x)) done ++ match gm with Some m => [m] | None => [] end /\
  (forall m, gm = Some m -> exists h h' ns, compile_globals_file fuel e h c s root ns = Done (h', Some m)) /\
  (forall path, is_source ls root path -> out_loc e path <> env_locate e (globals_path c root) ->
     exists f1 r, compile_file fuel e f c s path = Done (f1, r) /\ f' (out_loc e path) = f1 (out_loc e path)).
Proof.
  pose proof ends as H. apply qlc_exit in H. destruct H as (ms & Hp & Eo & Ec).
  assert (K : exists p, p = steps (run_work fuel e ls c s) (rc_number_threads rc) (start (rc_number_threads rc) (WDir root) f) sched /\
    pool_status p = AllReturned /\ finish_work fuel e c s root p = Done (f', ms)).
  { inversion Hp as [m X Em Ef|cf1 ms1 X Y Em Ef|cf1 s1 p f1 ms1 X Y Em Ef]; subst; rewrite config in X; [discriminate| |]; injection X as <-; cbn zeta in Y.
    - rewrite schema_ok in Y. discriminate.
    - destruct Y as (Y & Ep & St & Fw). rewrite schema_ok in Y. injection Y as <-. exists p. auto. }
  destruct K as (p & Ep & St & Fw).
  assert (Ev : every_once ls root (completed p)).
  { rewrite Ep in *. destruct threads as [One|[Pos Fl]]; [apply single_every; auto|apply flat_every; auto]. }
  rewrite Ep in Ev. destruct (run_outputs fuel e ls c s root f names sep _ _ Ev) as [O1 _].
  pose proof (log_results fuel e ls c s root f names sep (rc_number_threads rc) sched) as Lg.
  rewrite <- Ep in Ev, O1, Lg. unfold finish_work in Fw.
  destruct (compile_globals_file fuel e (ps_ext p) c s root (rp_globals (aggregate p))) as [[h gm]| |] eqn:Eg; try discriminate.
  assert (E : f' = h /\ ms = rp_messages (aggregate p) ++ match gm with Some m => [m] | None => [] end).
  { destruct gm; injection Fw as <- <-; auto. rewrite app_nil_r. auto. }
  destruct E as [-> Em]. exists ms, gm, (completed p). split; [exact Eo|]. split; [exact Ec|]. split; [exact Ev|]. split.
  { rewrite Em, aggregate_messages, Lg, !flat_map_concat_map, map_map. reflexivity. }
  split; [intros m ->; eauto|].
  intros path Sp Ng. destruct (O1 path Sp) as (f1 & r & E1 & E2). exists f1, r. split; [exact E1|]. rewrite <- E2.
  clear - Eg Ng. unfold compile_globals_file in Eg. destruct (rp_globals (aggregate p)); [congruence|].
  destruct (compile_globals _ _ _ _ _) as [[t|te]|]; try discriminate; [|congruence].
  destruct (write_file e (ps_ext p) (globals_path c root) t) as [h1 w] eqn:W.
  assert (h1 = h) by (destruct w; congruence). subst h1. exact (write_file_other _ _ _ _ _ _ _ W Ng).
Qed.

Lemma run_clean : code = 0 -> forall path f1 r, is_source ls root path -> compile_file fuel e f c s path = Done (f1, r) -> exists r', r = Ok r'.
Proof.
  intros Z path f1 r Sp E. destruct r as [r'|ms]; [eauto|]. exfalso. destruct (failure_reported _ _ _ _ _ _ _ _ E) as (m & I & L).
  destruct run_parts as (msg & gm & done & _ & Ec & Ev & Em & _). destruct (exit_code msg) as (_ & A & _).
  assert (snd (exit_report msg) = 1); [|congruence]. apply A. exists m. split; [|exact L]. rewrite Em. apply in_or_app. left. apply in_flat_map.
  exists (WFile path). split; [apply (every_once_in _ _ _ _ Ev); exact Sp|]. unfold item_report. cbn [run_work]. rewrite E. exact I.
Qed.
End One.

(** Two runs over possibly different trees with the same configuration, schema and environment.  If a source of both, and what it
    imports, have the same contents, then its output is left as it was by both or made the same by both; the same if one exits with
    code 0, whatever happens to other files *)
Theorem C80_output : forall fuel wo wo' a sched sched' cf s code out f' code' out' g' path,
  let rc := merge_config (wo_ncpus wo) a cf in
  let rc' := merge_config (wo_ncpus wo') a cf in
  let c := cconfig_of rc in
  let e := wo_env wo in
  let root := rc_root_dir rc in
  load_config (ca_config_file a) (wo_config wo) = Ok cf -> load_config (ca_config_file a) (wo_config wo') = Ok cf ->
  parse_schema (rc_schema_path rc) (wo_schema wo (rc_schema_path rc)) = Ok s ->
  parse_schema (rc_schema_path rc) (wo_schema wo' (rc_schema_path rc)) = Ok s ->
  wo_env wo' = e ->
  names_ok (wo_listing wo) -> names_ok (wo_listing wo') ->
  separate e (wo_listing wo) c root (wo_fs wo) -> separate e (wo_listing wo') c root (wo_fs wo') ->
  threads_ok (rc_number_threads rc) (wo_listing wo) root -> threads_ok (rc_number_threads rc') (wo_listing wo') root ->
  qlc fuel wo a sched = Exited code out f' -> qlc fuel wo' a sched' = Exited code' out' g' ->
  is_source (wo_listing wo) root path -> is_source (wo_listing wo') root path ->
  (forall l, SpecFs.reads e (wo_fs wo) c path l -> wo_fs wo' l = wo_fs wo l) ->
  let o := out_loc e path in
  o <> env_locate e (globals_path c root) ->
  ((f' o = wo_fs wo o /\ g' o = wo_fs wo' o) \/ f' o = g' o) /\ (code = 0 \/ code' = 0 -> f' o = g' o).
Proof.
  intros fuel wo wo' a sched sched' cf s code out f' code' out' g' path rc rc' c e root Lc Lc' Ls Ls' Ee N N' S S' Th Th' H H' Sp Sp' A o Ng.
  assert (Rr : rc_root_dir rc' = root) by reflexivity.
  assert (Rc : cconfig_of rc' = c) by reflexivity.
  destruct (run_parts fuel wo a sched cf s code out f' Lc Ls N S Th H) as (_ & _ & _ & _ & _ & _ & _ & _ & O1).
  pose proof (run_clean fuel wo a sched cf s code out f' Lc Ls N S Th H) as C1.
  fold rc in O1, C1. fold c root in O1, C1. fold e in O1, C1.
  rewrite <- Ee in S'.
  destruct (run_parts fuel wo' a sched' cf s code' out' g' Lc' Ls' N' S' Th' H') as (_ & _ & _ & _ & _ & _ & _ & _ & O2).
  pose proof (run_clean fuel wo' a sched' cf s code' out' g' Lc' Ls' N' S' Th' H') as C2.
  fold rc' in O2, C2. rewrite Rc, Rr, Ee in O2, C2.
  destruct (O1 path Sp Ng) as (f1 & r & E1 & V1). destruct (O2 path Sp' Ng) as (g1 & r' & E2 & V2).
  pose proof (compile_agree e (wo_fs wo) (wo_fs wo') c fuel s path A) as K. rewrite E1 in K. destruct K as (g2 & E2' & w & W1 & W2 & _ & W3).
  rewrite E2 in E2'. injection E2' as <- ->. fold o in V1, V2, W1, W2. rewrite V1, V2.
  split; [rewrite W1, W2; destruct w; auto|]. intros Z.
  assert (R : exists r', r = Ok r') by (destruct Z as [Z|Z]; [exact (C1 Z _ _ _ Sp E1)|exact (C2 Z _ _ _ Sp' E2)]). destruct R as (rr & ->).
  destruct w; [rewrite W1, W2; reflexivity|]. destruct (W3 rr eq_refl eq_refl).
Qed.
Print Assumptions C80_output.

(** In particular, editing, adding or removing files after a run that exited with code 0, and running again: the outputs of the
    sources that do not reach any of them stay as they are, even if the second run fails elsewhere *)
Theorem C80_edit : forall fuel wo wo' a sched sched' cf s out f' code' out' g' path (edited : string -> Prop),
  let rc := merge_config (wo_ncpus wo) a cf in
  let rc' := merge_config (wo_ncpus wo') a cf in
  let c := cconfig_of rc in
  let e := wo_env wo in
  let root := rc_root_dir rc in
  let gl := env_locate e (globals_path c root) in
  load_config (ca_config_file a) (wo_config wo) = Ok cf -> load_config (ca_config_file a) (wo_config wo') = Ok cf ->
  parse_schema (rc_schema_path rc) (wo_schema wo (rc_schema_path rc)) = Ok s ->
  parse_schema (rc_schema_path rc) (wo_schema wo' (rc_schema_path rc)) = Ok s ->
  wo_env wo' = e ->
  names_ok (wo_listing wo) -> names_ok (wo_listing wo') ->
  separate e (wo_listing wo) c root (wo_fs wo) -> separate e (wo_listing wo') c root (wo_fs wo') ->
  threads_ok (rc_number_threads rc) (wo_listing wo) root -> threads_ok (rc_number_threads rc') (wo_listing wo') root ->
  qlc fuel wo a sched = Exited 0 out f' -> qlc fuel wo' a sched' = Exited code' out' g' ->
  (forall l, ~ edited l -> wo_fs wo' l = f' l) ->
  is_source (wo_listing wo) root path -> is_source (wo_listing wo') root path ->
  (forall l, SpecFs.reads e (wo_fs wo) c path l -> ~ edited l /\ l <> gl) -> out_loc e path <> gl ->
  g' (out_loc e path) = f' (out_loc e path).
Proof.
  intros fuel wo wo' a sched sched' cf s out f' code' out' g' path edited rc rc' c e root gl Lc Lc' Ls Ls' Ee N N' S S' Th Th' H H' Ed Sp Sp' Nr Ng.
  symmetry. refine (proj2 (C80_output fuel wo wo' a sched sched' cf s 0 out f' code' out' g' path Lc Lc' Ls Ls' Ee N N' S S' Th Th' H H' Sp Sp' _ Ng) (or_introl eq_refl)).
  intros l R. destruct (Nr l R) as [N1 N2]. rewrite (Ed l N1). fold rc c in R. fold e in R.
  apply (C77_untouched fuel wo a sched cf s 0 out f' Lc Ls N S H l); [|exact N2].
  intros p Hp. exact (proj1 S path p l Sp Hp R).
Qed.
Print Assumptions C80_edit.

(** If a run exited with code 0, and the next over the same tree with other contents does not, then an error is reported that
    comes from a source for which, or for an import of which, the contents differ; or from the file of globals *)
Theorem C80_blame : forall fuel wo wo' a sched sched' cf s out f' code' out' g',
  let rc := merge_config (wo_ncpus wo) a cf in
  let rc' := merge_config (wo_ncpus wo') a cf in
  let c := cconfig_of rc in
  let e := wo_env wo in
  let ls := wo_listing wo in
  let root := rc_root_dir rc in
  load_config (ca_config_file a) (wo_config wo) = Ok cf -> load_config (ca_config_file a) (wo_config wo') = Ok cf ->
  parse_schema (rc_schema_path rc) (wo_schema wo (rc_schema_path rc)) = Ok s ->
  parse_schema (rc_schema_path rc) (wo_schema wo' (rc_schema_path rc)) = Ok s ->
  wo_env wo' = e -> wo_listing wo' = ls ->
  names_ok ls -> separate e ls c root (wo_fs wo) -> separate e ls c root (wo_fs wo') ->
  threads_ok (rc_number_threads rc) ls root -> threads_ok (rc_number_threads rc') ls root ->
  qlc fuel wo a sched = Exited 0 out f' -> qlc fuel wo' a sched' = Exited code' out' g' -> code' <> 0 ->
  exists ms m, out' = fst (exit_report ms) /\ In m ms /\ is_error_level (ms_level m) /\
    ((exists path f1 r, is_source ls root path /\ ~ (forall l, SpecFs.reads e (wo_fs wo) c path l -> wo_fs wo' l = wo_fs wo l) /\
        compile_file fuel e (wo_fs wo') c s path = Done (f1, r) /\
        In m (match r with Ok x => rp_messages x | Err l => l end)) \/
     (exists h h' ns, compile_globals_file fuel e h c s root ns = Done (h', Some m))).
Proof.
  intros fuel wo wo' a sched sched' cf s out f' code' out' g' rc rc' c e ls root Lc Lc' Ls Ls' Ee El N S S' Th Th' H H' Nz.
  assert (Rr : rc_root_dir rc' = root) by reflexivity.
  assert (Rc : cconfig_of rc' = c) by reflexivity.
  destruct (run_parts fuel wo a sched cf s 0 out f' Lc Ls N S Th H) as (ms & gm & done & _ & Ez & Ev & Em & _ & O1).
  fold rc in Ev, Em. fold c root in Ev, Em. fold e ls in Ev, Em.
  assert (N' : names_ok (wo_listing wo')) by (rewrite El; exact N). rewrite <- Ee, <- El in S'. rewrite <- El in Th'.
  destruct (run_parts fuel wo' a sched' cf s code' out' g' Lc' Ls' N' S' Th' H') as (ms' & gm' & done' & Eo' & Ec' & Ev' & Em' & Gm & _).
  fold rc' in Ev', Em', Gm. rewrite Rr, El in Ev'. rewrite Rc, Ee, El in Em'. rewrite Rr, Rc, Ee in Gm.
  destruct (exit_code ms') as (_ & A & B). destruct (exit_code ms) as (A0 & _ & _). symmetry in Ez. pose proof (proj1 A0 Ez) as Ez'.
  assert (X : snd (exit_report ms') = 1) by (destruct B; congruence). apply A in X. destruct X as (m & I & L).
  exists ms', m. split; [exact Eo'|]. split; [exact I|]. split; [exact L|].
  rewrite Em' in I. apply in_app_or in I. destruct I as [I|I].
  2:{ right. destruct gm' as [x|]; [|destruct I]. destruct I as [->|[]]. apply Gm. reflexivity. }
  left. apply in_flat_map in I. destruct I as (x & Ix & I). apply (every_once_item _ _ _ _ Ev') in Ix.
  assert (Ex : In x done) by (apply (every_once_item _ _ _ _ Ev); exact Ix).
  assert (Cl : forall m0, In m0 (rp_messages (item_report fuel e ls c s (wo_fs wo) x)) -> ~ is_error_level (ms_level m0)).
  { intros m0 I0. apply Ez'. rewrite Em. apply in_or_app. left. apply in_flat_map. exists x. auto. }
  unfold item_report in I, Cl. destruct x as [path|d]; cbn [run_work] in I, Cl.
  - destruct (compile_file fuel e (wo_fs wo') c s path) as [[f1 r]| |] eqn:E1; [|destruct I|destruct I].
    exists path, f1, r. split; [exact Ix|]. split; [|split; [exact E1|destruct r; exact I]].
    intros Ag. pose proof (compile_agree e (wo_fs wo) (wo_fs wo') c fuel s path Ag) as K.
    destruct (compile_file fuel e (wo_fs wo) c s path) as [[f2 r2]| |].
    + destruct K as (g2 & K & _). rewrite E1 in K. injection K as <- <-. destruct r; exact (Cl m I L).
    + cbn in K. congruence.
    + cbn in K. congruence.
  - destruct (run_dir_entry ls d); [destruct I|]. destruct (Cl m I L).
Qed.
Print Assumptions C80_blame.

(** The query ./g.graphql of [disk_world], edited after the run so that it asks for a field that does not exist: the second run
    fails, the output of the fragment ./n.graphql stays *)
Definition edited_files : fs := fun l => if String.eqb l "./g.graphql" then Ok "query Barn { nothing }" else left_files l.
Definition edited_world : world := world_on again_listing edited_files.
Lemma edited_ends : exists out g', qlc 30 edited_world (args_threads 1) (repeat 0 90) = Exited 1 out g'.
Proof. do 2 eexists. vm_compute. reflexivity. Qed.
Lemma first_ends : exists out, qlc 30 disk_world (args_threads 1) (repeat 0 90) = Exited 0 out left_files.
Proof. eexists. vm_compute. reflexivity. Qed.
Lemma edited_source path : is_source again_listing "." path -> path = "./g.graphql" \/ path = "./n.graphql".
Proof. intros H. apply (source_again _ _ again_relisted) in H. apply PropC35.pair_source. exact H. Qed.
Lemma edited_text path contents : is_source again_listing "." path -> edited_files path = Ok contents ->
  contents = "query Barn { nothing }" \/ contents = barn_fragment.
Proof. intros H E. destruct (edited_source _ H) as [-> | ->]; vm_compute in E; injection E as <-; [left|right]; reflexivity. Qed.
Lemma no_imports file contents n l t : contents = "query Barn { nothing }" \/ contents = barn_fragment -> ~ imports_at plain_config file contents n l t.
Proof.
  intros K H. pose proof (PropC35.imports_target _ _ _ _ _ _ H) as (L & E). destruct H as (q & _ & (rest & Eq & _) & _).
  destruct K as [-> | ->]; destruct n as [|[|n]]; vm_compute in L; try discriminate; injection L as <-; discriminate.
Qed.
Lemma edited_reads path l : is_source again_listing "." path -> SpecFs.reads text_env edited_files plain_config path l -> l = path.
Proof.
  intros Hp R. destruct R as [|contents file' contents' n l t E I A]; [reflexivity|]. exfalso. pose proof (edited_text _ _ Hp E) as K.
  assert (Nr : forall t o, ~ reach text_env edited_files plain_config path contents t o).
  { intros t0 o0 Rr. induction Rr; [|assumption]. eapply no_imports; eauto. }
  destruct I as [[-> ->]|Rr]; [|eapply Nr; eauto]. eapply no_imports; eauto.
Qed.
Lemma edited_separate : separate text_env again_listing plain_config "." edited_files.
Proof.
  split.
  - intros x y l Hx Hy R. apply (edited_reads x l Hx) in R. subst l. apply edited_source in Hx, Hy.
    destruct Hx as [-> | ->], Hy as [-> | ->]; discriminate.
  - intros x y Hx Hy. apply edited_source in Hx, Hy. destruct Hx as [-> | ->], Hy as [-> | ->]; auto; discriminate.
Qed.
Lemma farm_loads p : p = "./schema.json" -> parse_schema p (wo_schema disk_world p) = Ok farm /\ parse_schema p (wo_schema edited_world p) = Ok farm.
Proof.
  intros ->. split.
  - change (wo_schema disk_world "./schema.json") with (match disk_files "./schema.json" with Ok t => schema_of_text "" t | Err m => SRIoError m end).
    assert (E : disk_files "./schema.json" = Ok farm_text) by (vm_compute; reflexivity). rewrite E, farm_text_read. vm_compute. reflexivity.
  - change (wo_schema edited_world "./schema.json") with (match edited_files "./schema.json" with Ok t => schema_of_text "" t | Err m => SRIoError m end).
    assert (E : edited_files "./schema.json" = Ok farm_text) by (vm_compute; reflexivity). rewrite E, farm_text_read. vm_compute. reflexivity.
Qed.
Lemma fragment_reads l : SpecFs.reads text_env disk_files plain_config "./n.graphql" l -> l = "./n.graphql".
Proof.
  intros R. destruct R as [|contents file' contents' n l t E I A]; [reflexivity|].
  assert (contents = barn_fragment) by (vm_compute in E; injection E as <-; reflexivity). subst contents. exfalso.
  destruct I as [[-> ->]|R]; [eapply no_imports; eauto|]. clear A. induction R; [|assumption]. eapply no_imports; eauto.
Qed.
Example C80_nonvacuous : exists out out' g',
  qlc 30 disk_world (args_threads 1) (repeat 0 90) = Exited 0 out left_files /\
  qlc 30 edited_world (args_threads 1) (repeat 0 90) = Exited 1 out' g' /\
  g' "./n.graphql.d.ts" = left_files "./n.graphql.d.ts" /\ (exists t, left_files "./n.graphql.d.ts" = Ok t) /\
  left_files "./n.graphql.d.ts" <> disk_files "./n.graphql.d.ts".
Proof.
  destruct first_ends as (out & H). destruct edited_ends as (out' & g' & H'). exists out, out', g'. split; [exact H|]. split; [exact H'|]. split.
  - destruct PropC35.C35_nonvacuous as (_ & _ & _ & N & _ & _ & _ & C & _).
    apply (C80_edit 30 disk_world edited_world (args_threads 1) (repeat 0 90) (repeat 0 90) config_default farm out left_files 1 out' g' "./n.graphql"
      (fun l => l = "./g.graphql")).
    + reflexivity.
    + reflexivity.
    + exact (proj1 (farm_loads _ eq_refl)).
    + exact (proj2 (farm_loads _ eq_refl)).
    + reflexivity.
    + exact N.
    + exact again_names.
    + exact disk_separate.
    + exact edited_separate.
    + left. reflexivity.
    + left. reflexivity.
    + exact H.
    + exact H'.
    + intros l Nl. change (edited_files l = left_files l). unfold edited_files. apply String.eqb_neq in Nl. rewrite Nl. reflexivity.
    + apply PropC35.pair_is_source. auto.
    + apply (source_again _ _ again_relisted). apply PropC35.pair_is_source. auto.
    + intros l R. apply fragment_reads in R. subst l. split; discriminate.
    + discriminate.
  - split; [eexists; vm_compute; reflexivity|]. vm_compute. discriminate.
Qed.
