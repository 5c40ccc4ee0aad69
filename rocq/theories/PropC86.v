(** C86: options change only what they are for. *)
From Verif Require Import AgainFacts RunFacts LinkFacts PropC72 SettingRun.
From Coq Require Import Lia.

(** Two runs on the same files with the same root directory, import prefix and schema, whatever the other options, the numbers of
    threads and the schedules: the same exit code; the same files are written, the texts differing only at the places [option_place];
    and the same messages but for the warnings of deprecated fields. If the module of globals fails, it does in both runs, with one last
    message, which may name another type *)
Theorem C86_run_partial : forall fuel wo a a' sched sched' cf cf' s code out f' code' out' g',
  let rc := merge_config (wo_ncpus wo) a cf in
  let rc' := merge_config (wo_ncpus wo) a' cf' in
  let c := cconfig_of rc in
  let c' := cconfig_of rc' in
  let e := wo_env wo in
  let ls := wo_listing wo in
  let root := rc_root_dir rc in
  let f := wo_fs wo in
  let gl := env_locate e (globals_path c root) in
  let gl' := env_locate e (globals_path c' root) in
  load_config (ca_config_file a) (wo_config wo) = Ok cf -> load_config (ca_config_file a') (wo_config wo) = Ok cf' ->
  rc_root_dir rc' = root -> rc_root_dir_import_prefix rc' = rc_root_dir_import_prefix rc ->
  parse_schema (rc_schema_path rc) (wo_schema wo (rc_schema_path rc)) = Ok s ->
  parse_schema (rc_schema_path rc') (wo_schema wo (rc_schema_path rc')) = Ok s ->
  names_ok ls -> separate e ls c root f ->
  (forall path, is_source ls root path -> out_loc e path <> gl /\ out_loc e path <> gl') ->
  (globals_path c' root = globals_path c root \/ (env_write e (globals_path c root) = WOk /\ env_write e (globals_path c' root) = WOk)) ->
  (forall p, order_ok (env_order e p)) -> consistent s -> inputs_consistent s ->
  rc_number_threads rc = 1 \/ (0 < rc_number_threads rc /\ flat_tree ls root) ->
  rc_number_threads rc' = 1 \/ (0 < rc_number_threads rc' /\ flat_tree ls root) ->
  qlc fuel wo a sched = Exited code out f' -> qlc fuel wo a' sched' = Exited code' out' g' ->
  code' = code /\
  (forall l, l <> gl -> l <> gl' -> changed_alike (option_place s c c') f f' g' l l) /\
  changed_alike (option_place s c c') f f' g' gl gl' /\
  exists ms ms' last last', out = fst (exit_report (ms ++ last)) /\ out' = fst (exit_report (ms' ++ last')) /\ told_alike c c' ms ms' /\
    List.length last' = List.length last /\ List.length last <= 1 /\ (code = 0 -> last = []).
Proof.
  intros fuel wo a a' sched sched' cf cf' s code out f' code' out' g' rc rc' c c' e ls root f gl gl' Lc Lc' Rr Rp Ls Ls' N S Ng Wr Ho Co Ci Th Th' H H'.
  apply qlc_exit in H. destruct H as (ms & Hp & -> & ->). apply qlc_exit in H'. destruct H' as (ms' & Hp' & -> & ->).
  assert (K : exists p, p = steps (run_work fuel e ls c s) (rc_number_threads rc) (start (rc_number_threads rc) (WDir root) f) sched /\
    pool_status p = AllReturned /\ finish_work fuel e c s root p = Done (f', ms)).
  { inversion Hp as [m X Em Ef|cf1 ms1 X Y Em Ef|cf1 s1 p f1 ms1 X Y Em Ef]; subst; rewrite Lc in X; [discriminate| |]; injection X as <-; cbn zeta in Y; fold rc in Y.
    - rewrite Ls in Y. discriminate.
    - destruct Y as (Y & Ep & St & Fw). rewrite Ls in Y. injection Y as <-. exists p. auto. }
  assert (K' : exists p, p = steps (run_work fuel e ls c' s) (rc_number_threads rc') (start (rc_number_threads rc') (WDir root) f) sched' /\
    pool_status p = AllReturned /\ finish_work fuel e c' s root p = Done (g', ms')).
  { inversion Hp' as [m X Em Ef|cf1 ms1 X Y Em Ef|cf1 s1 p f1 ms1 X Y Em Ef]; subst; rewrite Lc' in X; [discriminate| |]; injection X as <-; cbn zeta in Y; fold rc' in Y.
    - rewrite Ls' in Y. discriminate.
    - destruct Y as (Y & Ep & St & Fw). rewrite Ls' in Y. injection Y as <-. rewrite Rr in *. exists p. auto. }
  destruct K as (p & Ep & St & Fw). destruct K' as (p' & Ep' & St' & Fw').
  assert (Sr : cc_root_dir c' = cc_root_dir c) by exact Rr. assert (Sx : cc_import_prefix c' = cc_import_prefix c) by exact Rp.
  assert (Ev : every_once ls root (completed p)).
  { rewrite Ep in *. destruct Th as [One|[Pos Fl]]; [apply single_every; auto|apply flat_every; auto]. }
  assert (Ev' : every_once ls root (completed p')).
  { rewrite Ep' in *. destruct Th' as [One|[Pos Fl]]; [apply single_every; auto|apply flat_every; auto]. }
  rewrite Ep in Ev. rewrite Ep' in Ev'.
  pose proof (globals_alike e c c' Sr Sx s Co Ho fuel ls root f N S _ _ _ _ Ev Ev') as Ag.
  pose proof (messages_alike e c c' Sr Sx s Co Ho fuel ls root f N S _ _ _ _ Ev Ev') as Am.
  pose proof (outputs_alike e c c' Sr Sx s Co Ho fuel ls root f N S _ _ _ _ Ev Ev') as Ax.
  destruct (run_outputs fuel e ls c s root f N S _ _ Ev) as [_ Q1].
  destruct (run_outputs fuel e ls c' s root f N (separate_same e c c' Sr Sx ls root f S) _ _ Ev') as [_ Q2].
  rewrite <- Ep in *. rewrite <- Ep' in *. clear Ep Ep' Ev Ev' Hp Hp'.
  unfold finish_work in Fw, Fw'.
  destruct (compile_globals_file fuel e (ps_ext p) c s root (rp_globals (aggregate p))) as [[h m]| |] eqn:Eg; try discriminate.
  destruct (compile_globals_file fuel e (ps_ext p') c' s root (rp_globals (aggregate p'))) as [[h' m']| |] eqn:Eg'; try (destruct m; discriminate).
  destruct (globals_file_alike e c c' s Ho fuel root _ _ _ _ _ _ _ _ Ci Ag Wr Eg Eg') as [Em Ch].
  assert (E1 : f' = h /\ ms = rp_messages (aggregate p) ++ match m with Some x => [x] | None => [] end).
  { destruct m; injection Fw as <- <-; auto. rewrite app_nil_r. auto. }
  assert (E2 : g' = h' /\ ms' = rp_messages (aggregate p') ++ match m' with Some x => [x] | None => [] end).
  { destruct m'; injection Fw' as <- <-; auto. rewrite app_nil_r. auto. }
  destruct E1 as [-> Ems], E2 as [-> Ems'].
  assert (Fin : forall ms p m fuel c h (h1 : fs), ms = rp_messages (aggregate p) ++ match m with Some x => [x] | None => [] end ->
    compile_globals_file fuel e h c s root (rp_globals (aggregate p)) = Done (h1, m) ->
    ((exists x, In x ms /\ is_error_level (ms_level x)) <-> (exists x, In x (rp_messages (aggregate p)) /\ is_error_level (ms_level x)) \/ m <> None)).
  { clear. intros ms p m fuel c h h1 -> Eg. split.
    - intros (x & I & L). apply in_app_or in I. destruct I as [I|I]; [left; exists x; auto|]. destruct m; [right; discriminate|destruct I].
    - intros [(x & I & L)|Nm]; [exists x; split; auto; apply in_or_app; auto|]. destruct m as [x|]; [|congruence]. exists x. split; [apply in_or_app; right; left; auto|].
      eapply globals_err_level; eauto. }
  pose proof (Fin _ _ _ _ _ _ _ Ems Eg) as L1. pose proof (Fin _ _ _ _ _ _ _ Ems' Eg') as L2.
  assert (L : (exists x, In x ms /\ is_error_level (ms_level x)) <-> (exists x, In x ms' /\ is_error_level (ms_level x))).
  { rewrite L1, L2. split; (intros [X|X]; [left; first [exact (told_error _ _ _ _ Am X)|exact (told_error' _ _ _ _ Am X)]|right; intros Y; apply X, Em, Y]). }
  destruct (exit_code ms) as (_ & A & B). destruct (exit_code ms') as (_ & A' & B').
  assert (Gn : forall g0, g0 = gl \/ g0 = gl' -> ps_ext p g0 = f g0 /\ ps_ext p' g0 = f g0).
  { intros g0 Hg. assert (Y : forall path, is_source ls root path -> g0 <> out_loc e path).
    { intros path Sp E. destruct (Ng path Sp) as [X1 X2]. destruct Hg; subst g0; congruence. }
    split; [apply Q1; auto|apply Q2; auto]. }
  split; [|split; [|split]].
  - destruct B as [B|B], B' as [B'|B']; try congruence.
    + apply A', L, A in B'. congruence.
    + apply A, L, A' in B. congruence.
  - intros l Nl Nl'. destruct Ch as [[C1 C2]|(x & y & D & C1 & C2)]; unfold changed_alike; rewrite C1, C2; [apply Ax|].
    apply String.eqb_neq in Nl, Nl'. fold gl gl'. rewrite Nl, Nl'. apply Ax.
  - destruct Ch as [[C1 C2]|(x & y & D & C1 & C2)]; unfold changed_alike; rewrite C1, C2.
    + left. split; apply Gn; auto.
    + right. exists x, y. fold gl gl'. rewrite !String.eqb_refl. auto.
  - exists (rp_messages (aggregate p)), (rp_messages (aggregate p')), (match m with Some x => [x] | None => [] end), (match m' with Some x => [x] | None => [] end).
    rewrite <- Ems, <- Ems'. split; [reflexivity|]. split; [reflexivity|]. split; [exact Am|]. split; [|split].
    + destruct m, m'; auto; [destruct Em as [_ Em]; discriminate (Em eq_refl)|destruct Em as [Em _]; discriminate (Em eq_refl)].
    + destruct m; cbn; lia.
    + intros Z. assert (Ne : ~ (exists x, In x ms /\ is_error_level (ms_level x))) by (intros X; apply A in X; congruence).
      rewrite L1 in Ne. destruct m; auto. exfalso. apply Ne. right. discriminate.
Qed.
Print Assumptions C86_run_partial.

(** What is left of the places if options are the same: no option that shapes texts differs *)
Theorem C86_none : forall s c c' a b, cc_readonly c = cc_readonly c' -> cc_bottom c = cc_bottom c' ->
  cc_docnode_module c = cc_docnode_module c' -> cc_globals_module c = cc_globals_module c' -> differs (option_place s c c') a b -> a = b.
Proof.
  intros s c c' a b R B M G. apply differs_equal. intros x y [|n H| |]; congruence.
Qed.
Print Assumptions C86_none.
(** only the one for readonly does *)
Theorem C86_readonly : forall s c c' a b, cc_bottom c = cc_bottom c' -> cc_docnode_module c = cc_docnode_module c' ->
  cc_globals_module c = cc_globals_module c' -> differs (option_place s c c') a b ->
  differs (fun x y => x = property_word (cc_readonly c) /\ y = property_word (cc_readonly c')) a b.
Proof.
  intros s c c' a b B M G. apply differs_same. intros x y [|n H| |].
  - apply differs_at. auto.
  - rewrite B. apply differs_refl.
  - rewrite M. apply differs_refl.
  - rewrite G. apply differs_refl.
Qed.
Print Assumptions C86_readonly.
(** only those for custom scalars do *)
Theorem C86_scalars : forall s c c' a b, cc_readonly c = cc_readonly c' -> cc_docnode_module c = cc_docnode_module c' ->
  cc_globals_module c = cc_globals_module c' -> differs (option_place s c c') a b ->
  differs (fun x y => exists n, names_scalar s n /\ x = scalar_word (cc_bottom c) n /\ y = scalar_word (cc_bottom c') n) a b.
Proof.
  intros s c c' a b R M G. apply differs_same. intros x y [|n H| |].
  - rewrite R. apply differs_refl.
  - apply differs_at. eauto.
  - rewrite M. apply differs_refl.
  - rewrite G. apply differs_refl.
Qed.
Print Assumptions C86_scalars.
(** only those for names of modules do *)
Theorem C86_modules : forall s c c' a b, cc_readonly c = cc_readonly c' -> cc_bottom c = cc_bottom c' -> differs (option_place s c c') a b ->
  differs (fun x y => (x = from_module (cc_docnode_module c) /\ y = from_module (cc_docnode_module c')) \/
                      (x = from_module (cc_globals_module c) /\ y = from_module (cc_globals_module c'))) a b.
Proof.
  intros s c c' a b R B. apply differs_same. intros x y [|n H| |].
  - rewrite R. apply differs_refl.
  - rewrite B. apply differs_refl.
  - apply differs_at. auto.
  - apply differs_at. auto.
Qed.
Print Assumptions C86_modules.

(** From texts to texts: two command lines on one disk *)
From Verif Require Import Gql Json Args SpecGtext SpecJson SpecJtext GlayoutFacts GlobalRead PropC69.
From Verif Require Import ShareWorlds.
From Verif Require SpecArgs PropC35 PropC65 PropC67.
Theorem C86_text_partial : forall ck complaint jerr help version fuel wo its its' argv argv' a a' nc nc' sched sched' cf cf' stext j js s code out f' code' out' g',
  let rc := merge_config (wo_ncpus wo) a cf in
  let rc' := merge_config (wo_ncpus wo) a' cf' in
  let c := cconfig_of rc in
  let c' := cconfig_of rc' in
  let e := wo_env wo in
  let ls := wo_listing wo in
  let root := rc_root_dir rc in
  let f := wo_fs wo in
  let gl := env_locate e (globals_path c root) in
  let gl' := env_locate e (globals_path c' root) in
  on_disk ck complaint jerr wo ->
  SpecArgs.spelled its argv -> SpecArgs.consistent its -> SpecArgs.complete its -> SpecArgs.says its a nc ->
  SpecArgs.spelled its' argv' -> SpecArgs.consistent its' -> SpecArgs.complete its' -> SpecArgs.says its' a' nc' ->
  settled wo a cf js s ->
  load_config (ca_config_file a') (wo_config wo) = Ok cf' -> (forall path, is_source ls root path -> out_loc e path <> gl') ->
  rc_number_threads rc' = 1 \/ (0 < rc_number_threads rc' /\ flat_tree ls root) ->
  rc_root_dir rc' = root -> rc_root_dir_import_prefix rc' = rc_root_dir_import_prefix rc ->
  f (env_locate e (rc_schema_path rc)) = Ok stext -> f (env_locate e (rc_schema_path rc')) = Ok stext ->
  text_holds stext j -> says_schema j js -> fits js ->
  (globals_path c' root = globals_path c root \/ (env_write e (globals_path c root) = WOk /\ env_write e (globals_path c' root) = WOk)) ->
  qlc_command help version fuel wo argv sched = Exited code out f' ->
  qlc_command help version fuel wo argv' sched' = Exited code' out' g' ->
  code' = code /\
  (forall l, l <> gl -> l <> gl' -> changed_alike (option_place s c c') f f' g' l l) /\
  changed_alike (option_place s c c') f f' g' gl gl' /\
  exists ms ms' last last', out = fst (exit_report (ms ++ last)) /\ out' = fst (exit_report (ms' ++ last')) /\ told_alike c c' ms ms' /\
    List.length last' = List.length last /\ List.length last <= 1 /\ (code = 0 -> last = []).
Proof.
  intros ck complaint jerr help version fuel wo its its' argv argv' a a' nc nc' sched sched' cf cf' stext j js s code out f' code' out' g' rc rc' c c' e ls root f gl gl'
    [Hd Hs] Sp Cn Cm Sy Sp' Cn' Cm' Sy' [Lc In0 Jn N S Gd Ho C Ag Sc Th] Lc' Gd' Th' Rr Rp Es Es' Tx Sj Fi Wr H H'.
  assert (Pa : parse_args argv = URun a nc) by (apply PropC65.C65_exact; exists its; auto).
  assert (Pa' : parse_args argv' = URun a' nc') by (apply PropC65.C65_exact; exists its'; auto).
  unfold qlc_command in H, H'. rewrite Pa in H. rewrite Pa' in H'.
  assert (Sr : schema_of_text jerr stext = SRDecoded js) by (apply PropC67.C67_schema; exists j; auto).
  assert (Ps : forall p, parse_schema p (SRDecoded js) = Ok s) by (intros p; cbn [parse_schema]; rewrite (in_loaded _ _ In0); reflexivity).
  assert (Ls : parse_schema (rc_schema_path rc) (wo_schema wo (rc_schema_path rc)) = Ok s) by (rewrite (Hs _ _ Es), Sr; apply Ps).
  assert (Ls' : parse_schema (rc_schema_path rc') (wo_schema wo (rc_schema_path rc')) = Ok s) by (rewrite (Hs _ _ Es'), Sr; apply Ps).
  apply (C86_run_partial fuel wo a a' sched sched' cf cf' s code out f' code' out' g' Lc Lc' Rr Rp Ls Ls' N S); auto.
  exact (intro_consistent _ _ In0).
Qed.
Print Assumptions C86_text_partial.

(** ** The disk of C72, without options and with *)
Definition full_argv : list string :=
  ["--num-threads"; "1"; "--disable-readonly-types"; "--show-deprecation-warnings"; "--use-custom-scalars"; "--global-types-module-name"; "types"].
Definition full_args : cli_args := Eval vm_compute in match parse_args full_argv with URun a _ => a | _ => args_threads 1 end.
Lemma full_parsed : parse_args full_argv = URun full_args false.
Proof. vm_compute. reflexivity. Qed.
Definition exit_files (p : process_end) : fs := match p with Exited _ _ f => f | _ => disk_files end.
Definition few_files : fs := exit_files (qlc_command "" "" 30 disk_world ["--num-threads"; "1"] (repeat 0 90)).
Definition full_files : fs := exit_files (qlc_command "" "" 30 disk_world full_argv (repeat 0 90)).
Lemma exit_zero p : (match p with Exited 0 _ _ => true | _ => false end) = true -> exists out, p = Exited 0 out (exit_files p).
Proof. destruct p as [[|n] out f| | |]; try discriminate. intros _. exists out. reflexivity. Qed.
Lemma few_ends : exists out, qlc_command "" "" 30 disk_world ["--num-threads"; "1"] (repeat 0 90) = Exited 0 out few_files.
Proof. apply exit_zero. vm_compute. reflexivity. Qed.
Lemma full_ends : exists out, qlc_command "" "" 30 disk_world full_argv (repeat 0 90) = Exited 0 out full_files.
Proof. apply exit_zero. vm_compute. reflexivity. Qed.
Definition differ_at (f g : fs) (l l' : string) : bool :=
  match f l, g l' with Ok x, Ok y => negb (String.eqb x y) | _, _ => false end.
Lemma disk_options_show : differ_at few_files full_files "./g.graphql.d.ts" "./g.graphql.d.ts" = true.
Proof. vm_compute. reflexivity. Qed.
Example C86_nonvacuous : exists out out' x y,
  qlc_command "" "" 30 disk_world ["--num-threads"; "1"] (repeat 0 90) = Exited 0 out few_files /\
  qlc_command "" "" 30 disk_world full_argv (repeat 0 90) = Exited 0 out' full_files /\
  few_files "./g.graphql.d.ts" = Ok x /\ full_files "./g.graphql.d.ts" = Ok y /\ x <> y /\
  differs (option_place farm (cconfig_of (merge_config 4 (args_threads 1) config_default)) (cconfig_of (merge_config 4 full_args config_default))) x y.
Proof.
  destruct few_ends as (out & H). destruct full_ends as (out' & H').
  assert (Pa : parse_args ["--num-threads"; "1"] = URun (args_threads 1) false) by reflexivity.
  apply PropC65.C65_exact in Pa. destruct Pa as (its & Sp & Cn & Cm & Sy).
  pose proof full_parsed as Pa. apply PropC65.C65_exact in Pa. destruct Pa as (its' & Sp' & Cn' & Cm' & Sy').
  assert (X : exists j, text_holds farm_text j /\ says_schema j farm_json /\ fits farm_json) by (apply (PropC67.C67_schema ""); exact farm_text_read).
  destruct X as (j & Th & Sj & Fi).
  assert (Dk : on_disk lenient (fun _ => "syntax error") "" disk_world).
  { split; [reflexivity|]. intros p t E. cbn [disk_world wo_schema]. cbn [disk_world wo_fs wo_env] in E. change (disk_files p = Ok t) in E. rewrite E. reflexivity. }
  destruct (C86_text_partial lenient (fun _ => "syntax error") "" "" "" 30 disk_world its its' ["--num-threads"; "1"] full_argv (args_threads 1) full_args false false
    (repeat 0 90) (repeat 0 90) config_default config_default farm_text j farm_json farm 0 out few_files 0 out' full_files
    Dk Sp Cn Cm Sy Sp' Cn' Cm' Sy' disk_settled eq_refl) as (_ & K & _).
  - intros path Src. apply PropC35.pair_source in Src. destruct Src as [-> | ->]; discriminate.
  - left. reflexivity.
  - reflexivity.
  - reflexivity.
  - reflexivity.
  - reflexivity.
  - exact Th.
  - exact Sj.
  - exact Fi.
  - right. split; reflexivity.
  - exact H.
  - exact H'.
  - pose proof disk_options_show as Ds. unfold differ_at in Ds.
    destruct (K "./g.graphql.d.ts") as [[X1 X2]|(x & y & E1 & E2 & D)]; [discriminate|discriminate| |].
    + rewrite X1, X2 in Ds. exfalso. revert Ds. clear. vm_compute. discriminate.
    + rewrite E1, E2 in Ds. exists out, out', x, y. split; [exact H|]. split; [exact H'|]. split; [exact E1|]. split; [exact E2|]. split; [|exact D].
      intros ->. rewrite String.eqb_refl in Ds. discriminate Ds.
Qed.
