(** C77: a run depends on its sources only, and running again changes nothing. *)
From Verif Require Import RunFacts AgainFacts LinkFacts.
From Verif Require Import Gql Json Args SpecGtext SpecJson SpecJtext GlayoutFacts GlobalRead PropC69 PropC72.
From Verif Require Import ShareWorlds.
From Coq Require Import Lia.
From Verif Require SpecArgs PropC35 PropC65 PropC67.

(** Two runs whose sources, and what these import, have the same contents, possibly with more or other workers, another schedule,
    other files around: the same exit code, each location is left as it was by both or made the same by both, and the messages are the
    same in some order, but for the reason told of a directory with several, and for the last message if the module of globals fails
    (which it does in both runs then) *)
Theorem C77_run : forall fuel wo wo' a sched sched' cf s code out f' code' out' g',
  let rc := merge_config (wo_ncpus wo) a cf in
  let rc' := merge_config (wo_ncpus wo') a cf in
  let c := cconfig_of rc in
  let e := wo_env wo in
  let ls := wo_listing wo in
  let root := rc_root_dir rc in
  load_config (ca_config_file a) (wo_config wo) = Ok cf -> load_config (ca_config_file a) (wo_config wo') = Ok cf ->
  parse_schema (rc_schema_path rc) (wo_schema wo (rc_schema_path rc)) = Ok s ->
  parse_schema (rc_schema_path rc) (wo_schema wo' (rc_schema_path rc)) = Ok s ->
  wo_env wo' = e -> relisted ls (wo_listing wo') -> names_ok ls -> names_ok (wo_listing wo') ->
  separate e ls c root (wo_fs wo) -> same_reads e ls c root (wo_fs wo) (wo_fs wo') ->
  (forall p, order_ok (env_order e p)) -> inputs_consistent s ->
  rc_number_threads rc = 1 \/ (0 < rc_number_threads rc /\ flat_tree ls root) ->
  rc_number_threads rc' = 1 \/ (0 < rc_number_threads rc' /\ flat_tree ls root) ->
  qlc fuel wo a sched = Exited code out f' -> qlc fuel wo' a sched' = Exited code' out' g' ->
  code' = code /\ same_changes (wo_fs wo) (wo_fs wo') f' g' /\
  exists ms qs ms' last last', out = fst (exit_report (ms ++ last)) /\ out' = fst (exit_report (ms' ++ last')) /\
    Permutation qs ms' /\ Forall2 (retold ls) ms qs /\ (code = 0 -> qs = ms) /\
    List.length last' = List.length last /\ List.length last <= 1 /\ (code = 0 -> last = []).
Proof.
  intros fuel wo wo' a sched sched' cf s code out f' code' out' g' rc rc' c e ls root Lc Lc' Ls Ls' Ee R N N' S Sr Ho Ci Th Th' H H'.
  assert (Rs : rc_schema_path rc' = rc_schema_path rc) by reflexivity.
  assert (Rr : rc_root_dir rc' = root) by reflexivity.
  assert (Rc : cconfig_of rc' = c) by reflexivity.
  apply qlc_exit in H. destruct H as (ms & Hp & -> & ->). apply qlc_exit in H'. destruct H' as (ms' & Hp' & -> & ->).
  assert (K : exists p, p = steps (run_work fuel e ls c s) (rc_number_threads rc) (start (rc_number_threads rc) (WDir root) (wo_fs wo)) sched /\
    pool_status p = AllReturned /\ finish_work fuel e c s root p = Done (f', ms)).
  { inversion Hp as [m X Em Ef|cf1 ms1 X Y Em Ef|cf1 s1 p f1 ms1 X Y Em Ef]; subst; rewrite Lc in X; [discriminate| |]; injection X as <-; cbn zeta in Y; fold rc in Y.
    - rewrite Ls in Y. discriminate.
    - destruct Y as (Y & Ep & St & Fw). rewrite Ls in Y. injection Y as <-. exists p. auto. }
  assert (K' : exists p, p = steps (run_work fuel e (wo_listing wo') c s) (rc_number_threads rc') (start (rc_number_threads rc') (WDir root) (wo_fs wo')) sched' /\
    pool_status p = AllReturned /\ finish_work fuel e c s root p = Done (g', ms')).
  { inversion Hp' as [m X Em Ef|cf1 ms1 X Y Em Ef|cf1 s1 p f1 ms1 X Y Em Ef]; subst; rewrite Lc' in X; [discriminate| |]; injection X as <-; cbn zeta in Y; fold rc' in Y.
    - rewrite Rs, Ls' in Y. discriminate.
    - destruct Y as (Y & Ep & St & Fw). rewrite Rs, Ls' in Y. injection Y as <-. rewrite Rc, Rr, Ee in *. exists p. auto. }
  destruct K as (p & Ep & St & Fw). destruct K' as (p' & Ep' & St' & Fw').
  assert (Ev : every_once ls root (completed p)).
  { rewrite Ep in *. destruct Th as [One|[Pos Fl]]; [apply single_every; auto|apply flat_every; auto]. }
  assert (Ev' : every_once (wo_listing wo') root (completed p')).
  { rewrite Ep' in *. destruct Th' as [One|[Pos Fl]]; [apply single_every; auto|apply flat_every; auto]. eapply flat_again; eauto. }
  rewrite Ep in Ev. rewrite Ep' in Ev'.
  pose proof (globals_again fuel e ls (wo_listing wo') c s root (wo_fs wo) (wo_fs wo') N N' R S Sr _ _ _ _ Ev Ev') as Ag.
  pose proof (errors_again fuel e ls (wo_listing wo') c s root (wo_fs wo) (wo_fs wo') N N' R S Sr _ _ _ _ Ev Ev') as Ae.
  pose proof (messages_retold fuel e ls (wo_listing wo') c s root (wo_fs wo) (wo_fs wo') N N' R S Sr _ _ _ _ Ev Ev') as Am.
  pose proof (ext_again fuel e ls (wo_listing wo') c s root (wo_fs wo) (wo_fs wo') N N' R S Sr _ _ _ _ Ev Ev') as Ax.
  rewrite <- Ep in *. rewrite <- Ep' in *. clear Ep Ep' Ev Ev' Hp Hp'.
  unfold finish_work in Fw, Fw'.
  destruct (compile_globals_file fuel e (ps_ext p) c s root (rp_globals (aggregate p))) as [[h m]| |] eqn:Eg; try discriminate.
  destruct (compile_globals_file fuel e (ps_ext p') c s root (rp_globals (aggregate p'))) as [[h' m']| |] eqn:Eg'; try (destruct m; discriminate).
  destruct (globals_changes _ _ _ _ _ _ _ _ _ _ _ _ _ _ _ Ho Ci Ax Ag Eg Eg') as [Ch Em].
  assert (E1 : f' = h /\ ms = rp_messages (aggregate p) ++ match m with Some x => [x] | None => [] end).
  { destruct m; injection Fw as <- <-; auto. rewrite app_nil_r. auto. }
  assert (E2 : g' = h' /\ ms' = rp_messages (aggregate p') ++ match m' with Some x => [x] | None => [] end).
  { destruct m'; injection Fw' as <- <-; auto. rewrite app_nil_r. auto. }
  destruct E1 as [-> Ems], E2 as [-> Ems'].
  assert (L1 : (exists x, In x ms /\ is_error_level (ms_level x)) <-> has_error (aggregate p) \/ m <> None).
  { rewrite Ems. split.
    - intros (x & I & L). apply in_app_or in I. destruct I as [I|I]; [left; exists x; auto|]. destruct m; [right; discriminate|destruct I].
    - intros [(x & I & L)|Nm]; [exists x; split; auto; apply in_or_app; auto|]. destruct m as [x|]; [|congruence]. exists x. split; [apply in_or_app; right; left; auto|].
      eapply globals_err_level; eauto. }
  assert (L2 : (exists x, In x ms' /\ is_error_level (ms_level x)) <-> has_error (aggregate p') \/ m' <> None).
  { rewrite Ems'. split.
    - intros (x & I & L). apply in_app_or in I. destruct I as [I|I]; [left; exists x; auto|]. destruct m'; [right; discriminate|destruct I].
    - intros [(x & I & L)|Nm]; [exists x; split; auto; apply in_or_app; auto|]. destruct m' as [x|]; [|congruence]. exists x. split; [apply in_or_app; right; left; auto|].
      eapply globals_err_level; eauto. }
  assert (L : (exists x, In x ms /\ is_error_level (ms_level x)) <-> (exists x, In x ms' /\ is_error_level (ms_level x))).
  { rewrite L1, L2, Ae. destruct m, m'; intuition congruence. }
  destruct (exit_code ms) as (_ & A & B). destruct (exit_code ms') as (_ & A' & B').
  split; [|split; [exact Ch|]].
  - destruct B as [B|B], B' as [B'|B']; try congruence.
    + apply A', L, A in B'. congruence.
    + apply A, L, A' in B. congruence.
  - destruct Am as (qs & Pq & Fq).
    exists (rp_messages (aggregate p)), qs, (rp_messages (aggregate p')), (match m with Some x => [x] | None => [] end), (match m' with Some x => [x] | None => [] end).
    rewrite <- Ems, <- Ems'. split; [reflexivity|]. split; [reflexivity|]. split; [exact Pq|]. split; [exact Fq|].
    split; [|split; [|split]].
    + intros Z. assert (Ne : ~ (exists x, In x ms /\ is_error_level (ms_level x))) by (intros X; apply A in X; congruence).
      rewrite L1 in Ne. assert (Nr : forall x, In x (rp_messages (aggregate p)) -> ms_level x <> CompileError).
      { intros x I E. apply Ne. left. exists x. split; auto. rewrite E. left. reflexivity. }
      clear - Fq Nr. revert Nr. induction Fq as [|x y l l' R F IH]; intros Nr; [reflexivity|].
      rewrite IH by (intros z I; apply Nr; right; exact I). f_equal. destruct R as [R|(d & w & w' & _ & _ & E & _)]; auto.
      exfalso. apply (Nr x); [left; reflexivity|]. rewrite E. reflexivity.
    + destruct m, m'; auto; [destruct Em as [_ Em]; discriminate (Em eq_refl)|destruct Em as [Em _]; discriminate (Em eq_refl)].
    + destruct m; cbn; lia.
    + intros Z. assert (Ne : ~ (exists x, In x ms /\ is_error_level (ms_level x))) by (intros X; apply A in X; congruence).
      rewrite L1 in Ne. destruct m; auto. exfalso. apply Ne. right. discriminate.
Qed.
Print Assumptions C77_run.

(** A run, however it exits, changes nothing but outputs of sources and the file of globals *)
Theorem C77_untouched : forall fuel wo a sched cf s code out f',
  let rc := merge_config (wo_ncpus wo) a cf in
  let c := cconfig_of rc in
  let e := wo_env wo in
  let ls := wo_listing wo in
  let root := rc_root_dir rc in
  load_config (ca_config_file a) (wo_config wo) = Ok cf ->
  parse_schema (rc_schema_path rc) (wo_schema wo (rc_schema_path rc)) = Ok s ->
  names_ok ls -> separate e ls c root (wo_fs wo) ->
  qlc fuel wo a sched = Exited code out f' ->
  forall l, (forall path, is_source ls root path -> l <> out_loc e path) -> l <> env_locate e (globals_path c root) -> f' l = wo_fs wo l.
Proof.
  intros fuel wo a sched cf s code out f' rc c e ls root Lc Ls N S H l No Ng.
  apply qlc_exit in H. destruct H as (ms & Hp & _ & _).
  inversion Hp as [m X Em Ef|cf1 ms1 X Y Em Ef|cf1 s1 p f1 ms1 X Y Em Ef]; subst; auto. rewrite Lc in X. injection X as <-. cbn zeta in Y. fold rc in Y.
  destruct Y as (Y & Ep & _ & Fw). rewrite Ls in Y. injection Y as <-.
  destruct (fs_inv_steps fuel e ls c s (rc_number_threads rc) root (wo_fs wo) N S sched) as (_ & _ & I3).
  destruct (PoolProps.once fuel e ls c s (rc_number_threads rc) root (wo_fs wo) sched) as (ps & _ & F2).
  assert (E : ps_ext p l = wo_fs wo l).
  { rewrite Ep. apply I3. intros path I. apply No. destruct (Forall2_in_r _ _ _ _ F2 I) as (q & _ & Hq). exists q. exact Hq. }
  rewrite <- E. unfold finish_work in Fw. fold c root in Fw. fold e in Fw.
  destruct (compile_globals_file fuel e (ps_ext p) c s root (rp_globals (aggregate p))) as [[h m]| |] eqn:Eg; try discriminate.
  assert (h = f') by (destruct m; congruence). subst h. clear - Eg Ng. unfold compile_globals_file in Eg.
  destruct (rp_globals (aggregate p)); [congruence|].
  destruct (compile_globals _ _ _ _ _) as [[t|te]|]; try discriminate; [|congruence].
  unfold write_file in Eg. destruct (env_write e (globals_path c root)); injection Eg as <- _; auto.
  - apply String.eqb_neq in Ng. rewrite Ng. reflexivity.
  - apply String.eqb_neq in Ng. rewrite Ng. reflexivity.
Qed.
Print Assumptions C77_untouched.

(** Running again on what a run left, whatever its exit code: the same exit code, and no file changes.  The listings now have new
    files, none of them called like a source; no source and no import is the file of globals *)
Theorem C77_again_partial : forall fuel wo wo' a sched sched' cf s code out f' code' out' g',
  let rc := merge_config (wo_ncpus wo) a cf in
  let rc' := merge_config (wo_ncpus wo') a cf in
  let c := cconfig_of rc in
  let e := wo_env wo in
  let ls := wo_listing wo in
  let root := rc_root_dir rc in
  load_config (ca_config_file a) (wo_config wo) = Ok cf -> load_config (ca_config_file a) (wo_config wo') = Ok cf ->
  parse_schema (rc_schema_path rc) (wo_schema wo (rc_schema_path rc)) = Ok s ->
  parse_schema (rc_schema_path rc) (wo_schema wo' (rc_schema_path rc)) = Ok s ->
  wo_env wo' = e -> relisted ls (wo_listing wo') -> names_ok ls -> names_ok (wo_listing wo') ->
  separate e ls c root (wo_fs wo) ->
  (forall path l, is_source ls root path -> SpecFs.reads e (wo_fs wo) c path l -> l <> env_locate e (globals_path c root)) ->
  (forall p, order_ok (env_order e p)) -> inputs_consistent s ->
  rc_number_threads rc = 1 \/ (0 < rc_number_threads rc /\ flat_tree ls root) ->
  rc_number_threads rc' = 1 \/ (0 < rc_number_threads rc' /\ flat_tree ls root) ->
  qlc fuel wo a sched = Exited code out f' -> (forall l, wo_fs wo' l = f' l) ->
  qlc fuel wo' a sched' = Exited code' out' g' ->
  code' = code /\ (forall l, g' l = f' l) /\
  exists ms qs ms' last last', out = fst (exit_report (ms ++ last)) /\ out' = fst (exit_report (ms' ++ last')) /\
    Permutation qs ms' /\ Forall2 (retold ls) ms qs /\ (code = 0 -> qs = ms) /\
    List.length last' = List.length last /\ List.length last <= 1 /\ (code = 0 -> last = []).
Proof.
  intros fuel wo wo' a sched sched' cf s code out f' code' out' g' rc rc' c e ls root Lc Lc' Ls Ls' Ee R N N' S Ng Ho Ci Th Th' H Ef H'.
  assert (Sr : same_reads e ls c root (wo_fs wo) (wo_fs wo')).
  { intros path l Sp Rd. rewrite Ef. apply (C77_untouched fuel wo a sched cf s code out f' Lc Ls N S H); [|exact (Ng path l Sp Rd)].
    intros y Sy. exact (proj1 S path y l Sp Sy Rd). }
  destruct (C77_run fuel wo wo' a sched sched' cf s code out f' code' out' g' Lc Lc' Ls Ls' Ee R N N' S Sr Ho Ci Th Th' H H') as (A & B & C).
  split; [exact A|]. split; [|exact C]. intros l. destruct (B l) as [[_ X]|X]; [rewrite X; apply Ef|auto].
Qed.
Print Assumptions C77_again_partial.

(** The names of outputs are as asked for above *)
Theorem C77_outputs : forall ls root path, names_ok ls -> is_source ls root path ->
  exists d n, path = path_join d n /\ with_extension path "graphql.d.ts" = path_join d (n +++ ".d.ts") /\
    new_entry {| de_name := n +++ ".d.ts"; de_kind := Ok EkFile |}.
Proof.
  intros ls root path N [p H]. destruct (tree_file ls root N p path H) as (d & n & E & Nn & Sn).
  assert (Nn2 : entry_name (n +++ ".d.ts")).
  { destruct Nn as (A & B & C & D). destruct n as [|a n]; [congruence|]. repeat split; try discriminate.
    - destruct n; discriminate.
    - intros Q. inversion Q. destruct n as [|b [|? ?]]; discriminate.
    - rewrite has_char_app. intros [Q|Q]; [auto|]. cbn in Q. intuition discriminate. }
  exists d, n. split; [exact E|]. split.
  - rewrite (output_path ls root N p path H). subst path. rewrite !path_join_prefix by auto. apply sapp_assoc.
  - split; [reflexivity|]. split; [exact Nn2|]. apply output_not_source.
Qed.
Print Assumptions C77_outputs.

(** From texts to texts: two runs of a command line one after the other, the second on the disk the first has left (with any
    schedule).  The schema is no output and not the file of globals either *)
Theorem C77_text_partial : forall ck complaint jerr help version fuel wo wo' its argv a nc sched sched' cf stext j js s code out f' code' out' g',
  let rc := merge_config (wo_ncpus wo) a cf in
  let c := cconfig_of rc in
  let e := wo_env wo in
  let ls := wo_listing wo in
  let root := rc_root_dir rc in
  let f := wo_fs wo in
  let gl := env_locate e (globals_path c root) in
  on_disk ck complaint jerr wo -> on_disk ck complaint jerr wo' ->
  SpecArgs.spelled its argv -> SpecArgs.consistent its -> SpecArgs.complete its -> SpecArgs.says its a nc ->
  settled wo a cf js s ->
  f (env_locate e (rc_schema_path rc)) = Ok stext -> text_holds stext j -> says_schema j js -> fits js ->
  (forall path, is_source ls root path -> env_locate e (rc_schema_path rc) <> out_loc e path) -> env_locate e (rc_schema_path rc) <> gl ->
  (forall path l, is_source ls root path -> SpecFs.reads e f c path l -> l <> gl) ->
  qlc_command help version fuel wo argv sched = Exited code out f' ->
  wo_env wo' = e -> wo_ncpus wo' = wo_ncpus wo -> wo_config wo' = wo_config wo -> wo_fs wo' = f' ->
  relisted ls (wo_listing wo') -> names_ok (wo_listing wo') ->
  qlc_command help version fuel wo' argv sched' = Exited code' out' g' ->
  code' = code /\ (forall l, g' l = f' l) /\
  exists ms qs ms' last last', out = fst (exit_report (ms ++ last)) /\ out' = fst (exit_report (ms' ++ last')) /\
    Permutation qs ms' /\ Forall2 (retold ls) ms qs /\ (code = 0 -> qs = ms) /\
    List.length last' = List.length last /\ List.length last <= 1 /\ (code = 0 -> last = []).
Proof.
  intros ck complaint jerr help version fuel wo wo' its argv a nc sched sched' cf stext j js s code out f' code' out' g' rc c e ls root f gl
    [Hd Hs] [Hd' Hs'] Sp Cn Cm Sy [Lc In0 Jn N S Gd Ho C Ag Sc Th] Es Tx Sj Fi So Sg Rg H Ee En Ec Ef R N' H'.
  assert (Pa : parse_args argv = URun a nc) by (apply PropC65.C65_exact; exists its; auto).
  unfold qlc_command in H, H'. rewrite Pa in H, H'.
  assert (Sr : schema_of_text jerr stext = SRDecoded js) by (apply PropC67.C67_schema; exists j; auto).
  assert (Ps : parse_schema (rc_schema_path rc) (SRDecoded js) = Ok s) by (cbn [parse_schema]; rewrite (in_loaded _ _ In0); reflexivity).
  assert (Ls : parse_schema (rc_schema_path rc) (wo_schema wo (rc_schema_path rc)) = Ok s) by (rewrite (Hs _ _ Es), Sr; exact Ps).
  assert (Es' : wo_fs wo' (env_locate (wo_env wo') (rc_schema_path rc)) = Ok stext).
  { rewrite Ee, Ef. rewrite <- Es. exact (C77_untouched fuel wo a sched cf s code out f' Lc Ls N S H _ So Sg). }
  assert (Ls' : parse_schema (rc_schema_path rc) (wo_schema wo' (rc_schema_path rc)) = Ok s) by (rewrite (Hs' _ _ Es'), Sr; exact Ps).
  assert (Lc' : load_config (ca_config_file a) (wo_config wo') = Ok cf) by (rewrite Ec; exact Lc).
  assert (Th' : rc_number_threads (merge_config (wo_ncpus wo') a cf) = 1 \/
    (0 < rc_number_threads (merge_config (wo_ncpus wo') a cf) /\ flat_tree ls root)) by (rewrite En; exact Th).
  apply (C77_again_partial fuel wo wo' a sched sched' cf s code out f' code' out' g' Lc Lc' Ls Ls' Ee R N N' S Rg Ho C Th Th' H); [|exact H'].
  intros l. rewrite Ef. reflexivity.
Qed.
Print Assumptions C77_text_partial.

(** ** The run of C72, and the run after it, on three new files in the directory *)
Definition disk_end : process_end := qlc_command "" "" 30 disk_world ["--num-threads"; "1"] (repeat 0 90).
Definition left_files : fs := match disk_end with Exited _ _ f => f | _ => disk_files end.
Definition file_entry (n : string) : res string dirent := Ok {| de_name := n; de_kind := Ok EkFile |}.
Definition again_listing : listing := fun d =>
  if String.eqb d "." then Ok (List.map file_entry ["n.graphql"; "g.graphql.d.ts"; "graphql-globals.ts"; "g.graphql"; "n.graphql.d.ts"; "schema.json"])
  else Err "not found".
(** The world of C72 with this listing and these contents *)
Definition world_on (ls : listing) (f : fs) : world :=
  {| wo_env := text_env; wo_listing := ls; wo_ncpus := 4; wo_config := fun _ => CRNotFound "not found";
     wo_schema := fun p => match f p with Ok t => schema_of_text "" t | Err m => SRIoError m end; wo_fs := f |}.
Definition again_world : world := world_on again_listing left_files.
Lemma world_disk ls f : on_disk lenient (fun _ => "syntax error") "" (world_on ls f).
Proof. split; [reflexivity|]. intros p t E. cbn [world_on wo_schema]. cbn [world_on wo_fs wo_env env_locate text_env] in E. rewrite E. reflexivity. Qed.

Lemma again_names : names_ok again_listing.
Proof.
  intros d es l E R. unfold again_listing in E. destruct (String.eqb d "."); [|discriminate]. injection E as <-. cbn in R. injection R as <-.
  split; [repeat constructor; try discriminate; cbn; intuition discriminate|]. repeat constructor; cbn; intuition discriminate.
Qed.
Lemma again_relisted : relisted PropC35.pair_listing again_listing.
Proof.
  intros d. unfold PropC35.pair_listing, again_listing. destruct (String.eqb d "."); [|reflexivity].
  exists (List.map (fun n => {| de_name := n; de_kind := Ok EkFile |}) ["g.graphql.d.ts"; "graphql-globals.ts"; "n.graphql.d.ts"; "schema.json"]). split.
  - cbn [List.map app]. change (Ok {| de_name := ?n; de_kind := Ok EkFile |}) with (file_entry n).
    apply NoDup_Permutation; [repeat constructor; cbn; intuition discriminate|repeat constructor; cbn; intuition discriminate|].
    intros x. cbn. tauto.
  - assert (K : forall n, entry_name n -> String.prefix (srev ".graphql") (srev n) = false -> new_entry {| de_name := n; de_kind := Ok EkFile |}).
    { intros n En X. split; [reflexivity|]. split; [exact En|]. intros (st & _ & E). cbn [de_name] in E. subst n. rewrite srev_app in X. cbn in X. destruct (srev st); discriminate X. }
    repeat (apply Forall_cons; [apply K; [repeat split; try discriminate; cbn; intuition discriminate|reflexivity]|]). apply Forall_nil.
Qed.
Lemma disk_ends : exists out, qlc_command "" "" 30 disk_world ["--num-threads"; "1"] (repeat 0 90) = Exited 0 out left_files.
Proof. eexists. vm_compute. reflexivity. Qed.
Lemma again_ends : exists out g', qlc_command "" "" 30 again_world ["--num-threads"; "1"] (repeat 0 90) = Exited 0 out g'.
Proof. do 2 eexists. vm_compute. reflexivity. Qed.
Lemma disk_reads path l : is_source PropC35.pair_listing "." path -> SpecFs.reads text_env disk_files plain_config path l ->
  l = "./g.graphql" \/ l = "./n.graphql".
Proof.
  intros Hx R. destruct R as [|contents file' contents' n l t E I A]; [apply PropC35.pair_source; auto|]. right.
  pose proof (disk_read _ _ Hx E) as K. destruct I as [[-> ->]|R].
  - eapply (text_step path contents); eauto.
  - destruct (disk_reach _ _ _ _ K R) as [-> ->]. eapply (text_step _ _ _ _ _ A). auto.
Qed.
Lemma disk_changes : left_files "./g.graphql.d.ts" <> disk_files "./g.graphql.d.ts" /\ left_files "./graphql-globals.ts" <> disk_files "./graphql-globals.ts".
Proof. split; vm_compute; discriminate. Qed.
Example C77_nonvacuous : exists out out' g',
  qlc_command "" "" 30 disk_world ["--num-threads"; "1"] (repeat 0 90) = Exited 0 out left_files /\
  left_files "./g.graphql.d.ts" <> disk_files "./g.graphql.d.ts" /\ left_files "./graphql-globals.ts" <> disk_files "./graphql-globals.ts" /\
  qlc_command "" "" 30 again_world ["--num-threads"; "1"] (repeat 0 90) = Exited 0 out' g' /\
  forall l, g' l = left_files l.
Proof.
  destruct disk_ends as (out & H). destruct again_ends as (out' & g' & H'). exists out, out', g'. split; [exact H|].
  split; [exact (proj1 disk_changes)|]. split; [exact (proj2 disk_changes)|]. split; [exact H'|].
  assert (Pa : parse_args ["--num-threads"; "1"] = URun (args_threads 1) false) by reflexivity.
  apply PropC65.C65_exact in Pa. destruct Pa as (its & Sp & Cn & Cm & Sy).
  assert (X : exists j, text_holds farm_text j /\ says_schema j farm_json /\ fits farm_json) by (apply (PropC67.C67_schema ""); exact farm_text_read).
  destruct X as (j & Th & Sj & Fi).
  assert (Dk : on_disk lenient (fun _ => "syntax error") "" disk_world).
  { split; [reflexivity|]. intros p t E. cbn [disk_world wo_schema]. cbn [disk_world wo_fs wo_env] in E. change (disk_files p = Ok t) in E. rewrite E. reflexivity. }
  destruct (C77_text_partial lenient (fun _ => "syntax error") "" "" "" 30 disk_world again_world its ["--num-threads"; "1"] (args_threads 1) false
    (repeat 0 90) (repeat 0 90) config_default farm_text j farm_json farm 0 out left_files 0 out' g' Dk (world_disk again_listing left_files) Sp Cn Cm Sy disk_settled eq_refl Th Sj Fi)
    as (_ & K & _).
  - intros path Src. apply PropC35.pair_source in Src. destruct Src as [-> | ->]; discriminate.
  - discriminate.
  - intros path l Src R. apply (disk_reads path l Src) in R. destruct R as [-> | ->]; discriminate.
  - exact H.
  - reflexivity.
  - reflexivity.
  - reflexivity.
  - reflexivity.
  - exact again_relisted.
  - exact again_names.
  - exact H'.
  - exact K.
Qed.

(** ** A globals module called types.graphql: the file written is ./types.graphql, which the next run takes for a source *)
Definition named_argv : list string := ["--num-threads"; "1"; "--global-types-module-name"; "types.graphql"].
Definition named_end : process_end := qlc_command "" "" 30 disk_world named_argv (repeat 0 90).
Definition named_files : fs := match named_end with Exited _ _ f => f | _ => disk_files end.
Definition named_listing : listing := fun d =>
  if String.eqb d "." then Ok (List.map file_entry ["g.graphql"; "n.graphql"; "g.graphql.d.ts"; "n.graphql.d.ts"; "types.graphql"])
  else Err "not found".
Definition named_world : world := world_on named_listing named_files.
Theorem C77_refuted : exists out out' g',
  qlc_command "" "" 30 disk_world named_argv (repeat 0 90) = Exited 0 out named_files /\
  disk_files "./types.graphql" = Err "not found" /\ (exists t, named_files "./types.graphql" = Ok t) /\
  qlc_command "" "" 30 named_world named_argv (repeat 0 90) = Exited 1 out' g'.
Proof. do 3 eexists. split; [vm_compute; reflexivity|]. split; [vm_compute; reflexivity|]. split; [eexists; vm_compute; reflexivity|vm_compute; reflexivity]. Qed.
Print Assumptions C77_refuted.

(** ** A directory with two entries that cannot be read: each run tells the first it meets *)
Definition broken_listing (es : list (res string dirent)) : listing := fun d => if String.eqb d "." then Ok es else Err "not found".
Definition broken_world (es : list (res string dirent)) : world := world_on (broken_listing es) disk_files.
Definition broken_first : list (res string dirent) := [Err "stale handle"; Ok {| de_name := "x"; de_kind := Err "no such file" |}].
Definition broken_second : list (res string dirent) := [Ok {| de_name := "x"; de_kind := Err "no such file" |}; Err "stale handle"].
Example C77_nonvacuous_reasons : relisted (broken_listing broken_first) (broken_listing broken_second) /\
  exists f' g',
  qlc_command "" "" 30 (broken_world broken_first) ["--num-threads"; "1"] (repeat 0 90) = Exited 1 (fst (exit_report [directory_message "." "stale handle"])) f' /\
  qlc_command "" "" 30 (broken_world broken_second) ["--num-threads"; "1"] (repeat 0 90) = Exited 1 (fst (exit_report [directory_message "." "no such file"])) g' /\
  retold (broken_listing broken_first) (directory_message "." "stale handle") (directory_message "." "no such file").
Proof.
  split.
  - intros d. unfold broken_listing. destruct (String.eqb d "."); [|reflexivity]. exists []. split; [apply perm_swap|constructor].
  - do 2 eexists. split; [vm_compute; reflexivity|]. split; [vm_compute; reflexivity|]. right. exists ".", "stale handle", "no such file".
    split; [exists broken_first; split; [reflexivity|left; left; reflexivity]|]. split; [|split; reflexivity].
    exists broken_first. split; [reflexivity|]. right. exists "x". right. left. reflexivity.
Qed.
