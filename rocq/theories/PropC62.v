(** C62: interleaving the workers' file operations makes no difference. *)
From Verif Require Import FineMore ProcFacts Worlds PropC43.

(** Two ends of the process that cannot be told apart *)
Definition same_end (a b : process_end) : Prop :=
  match a, b with
  | Exited code out f, Exited code' out' f' => code = code' /\ out = out' /\ forall l, f l = f' l
  | ProcPanicked, ProcPanicked => True
  | ProcAborted, ProcAborted => True
  | Running, Running => True
  | _, _ => False
  end.

(** The pool: at every moment its queue, counters and workers are those of a run of whole items, and
    when all workers have returned so are the files *)
Theorem C62_pool : forall gr fuel e ls c s n root f fsched,
  grain_ok gr -> names_ok ls -> separate e ls c root f ->
  let p := fp_pool (fsteps (item_prog gr fuel e ls c s) n (fstart n (WDir root) f) fsched) in
  exists sched, let q := steps (run_work fuel e ls c s) n (start n (WDir root) f) sched in
    ps_queue p = ps_queue q /\ ps_nwait p = ps_nwait q /\ ps_nquit p = ps_nquit q /\
    ps_workers p = ps_workers q /\ ps_aborted p = ps_aborted q /\
    (pool_status p = AllReturned -> forall l, ps_ext p l = ps_ext q l).
Proof.
  intros gr fuel e ls c s n root f fsched G N S p.
  destruct (fine_coarse gr fuel e ls c s n root f G N S fsched) as (sched & E & H). fold p in E, H.
  exists sched. cbn zeta. rewrite E at 1 2 3 4 5. repeat (split; [reflexivity|]). exact H.
Qed.
Print Assumptions C62_pool.

(** The process *)
Lemma finish_same fuel e c s root p q : p = with_ext q (ps_ext p) -> same_fs (ps_ext p) (ps_ext q) ->
  match finish_work fuel e c s root p, finish_work fuel e c s root q with
  | Done (f, ms), Done (f', ms') => ms = ms' /\ forall l, f l = f' l
  | Panics, Panics => True
  | Diverges, Diverges => True
  | _, _ => False
  end.
Proof.
  intros E S. unfold finish_work.
  assert (A : aggregate p = aggregate q) by (rewrite E; reflexivity). rewrite A.
  unfold compile_globals_file. destruct (rp_globals (aggregate q)) as [|x xs]; [auto|].
  destruct (compile_globals fuel c _ s (x :: xs)) as [[t|te]|]; [|auto|auto].
  destruct (write_same e (ps_ext p) (ps_ext q) (globals_path c root) t S) as [W1 W2].
  destruct (write_file e (ps_ext p) _ t) as [f1 r1]. destruct (write_file e (ps_ext q) _ t) as [g1 r2].
  cbn [fst snd] in *. subst r2. destruct r1; auto.
Qed.
Lemma end_same fuel e c s root p q : p = with_ext q (ps_ext p) ->
  (pool_status p = AllReturned -> same_fs (ps_ext p) (ps_ext q)) ->
  same_end
    match pool_status p with
    | StillRunning => Running | Aborted => ProcAborted | SomePanicked => ProcPanicked
    | AllReturned => match finish_work fuel e c s root p with
                     | Done (f, ms) => exit_with f ms | Panics => ProcPanicked | Diverges => ProcAborted end
    end
    match pool_status q with
    | StillRunning => Running | Aborted => ProcAborted | SomePanicked => ProcPanicked
    | AllReturned => match finish_work fuel e c s root q with
                     | Done (f, ms) => exit_with f ms | Panics => ProcPanicked | Diverges => ProcAborted end
    end.
Proof.
  intros E S. assert (St : pool_status q = pool_status p) by (rewrite E; reflexivity). rewrite St.
  destruct (pool_status p); cbn; auto. pose proof (finish_same fuel e c s root p q E (S eq_refl)) as F.
  destruct (finish_work fuel e c s root p) as [[f ms]| |]; destruct (finish_work fuel e c s root q) as [[f' ms']| |]; cbn; try contradiction; auto.
  destruct F as [-> F]. unfold exit_with. destruct (exit_report ms') as [o k]. cbn. auto.
Qed.
Lemma exit_with_same f ms : same_end (exit_with f ms) (exit_with f ms).
Proof. unfold exit_with. destruct (exit_report ms). cbn. auto. Qed.

(** The conditions under which the order of file operations cannot matter *)
Definition calm (wo : world) (a : cli_args) : Prop :=
  forall cf, load_config (ca_config_file a) (wo_config wo) = Ok cf ->
  let rc := merge_config (wo_ncpus wo) a cf in
  names_ok (wo_listing wo) /\ separate (wo_env wo) (wo_listing wo) (cconfig_of rc) (rc_root_dir rc) (wo_fs wo).

Theorem C62_process : forall gr fuel wo a fsched, grain_ok gr -> calm wo a ->
  exists sched, same_end (fine_qlc gr fuel wo a fsched) (qlc fuel wo a sched).
Proof.
  intros gr fuel wo a fsched G Cm. unfold fine_qlc, qlc, calm in *.
  destruct (load_config _ _) as [cf|m]; [|exists []; apply exit_with_same].
  specialize (Cm cf eq_refl). cbn zeta in *. destruct Cm as [N S].
  destruct (parse_schema _ _) as [s|ms]; [|exists []; apply exit_with_same].
  match goal with |- context [fp_pool (fsteps (item_prog _ _ ?e ?ls ?c _) ?n (fstart _ (WDir ?root) ?f) _)] =>
    destruct (fine_coarse gr fuel e ls c s n root f G N S fsched) as (sched & E & H) end.
  exists sched. apply end_same; auto.
Qed.
Print Assumptions C62_process.

(** With a single worker no condition on the files is needed *)
Theorem C62_one_worker : forall gr fuel wo a cf fsched, grain_ok gr ->
  load_config (ca_config_file a) (wo_config wo) = Ok cf -> rc_number_threads (merge_config (wo_ncpus wo) a cf) = 1 ->
  exists sched, same_end (fine_qlc gr fuel wo a fsched) (qlc fuel wo a sched).
Proof.
  intros gr fuel wo a cf fsched G Lc N1. unfold fine_qlc, qlc. rewrite Lc. cbn zeta. rewrite N1.
  destruct (parse_schema _ _) as [s|ms]; [|exists []; apply exit_with_same].
  match goal with |- context [fp_pool (fsteps (item_prog _ _ ?e ?ls ?c _) 1 (fstart _ (WDir ?root) ?f) _)] =>
    destruct (fine_single gr fuel e ls c s 1 root f G fsched eq_refl) as (sched & E & H) end.
  exists sched. apply end_same; auto.
Qed.
Print Assumptions C62_one_worker.

(** Conversely every run of whole items is a run of single operations, whatever the files *)
Theorem C62_covers : forall gr fuel wo a sched, grain_ok gr ->
  exists fsched, same_end (fine_qlc gr fuel wo a fsched) (qlc fuel wo a sched).
Proof.
  intros gr fuel wo a sched G. unfold fine_qlc, qlc.
  destruct (load_config _ _) as [cf|m]; [|exists []; apply exit_with_same]. cbn zeta.
  destruct (parse_schema _ _) as [s|ms]; [|exists []; apply exit_with_same].
  match goal with |- context [steps (run_work _ ?e ?ls ?c _) ?n (start _ (WDir ?root) ?f) sched] =>
    destruct (coarse_fine gr fuel e ls c s n root f G sched) as (fsched & E & H) end.
  exists fsched. apply end_same; auto.
Qed.
Print Assumptions C62_covers.

(** Which items are processed does not depend on the files at all: no item twice, none forgotten except
    those left in the channel, none at all forgotten with one worker or without subdirectories *)
Theorem C62_once : forall gr fuel e ls c s n root f fsched,
  let p := fp_pool (fsteps (item_prog gr fuel e ls c s) n (fstart n (WDir root) f) fsched) in
  pool_status p = AllReturned ->
  (exists ps, NoDup ps /\ Forall2 (in_tree ls root) ps (completed p)) /\
  (every_once ls root (completed p) <-> queued (ps_queue p) = []) /\
  (n = 1 \/ 0 < n /\ flat_tree ls root -> every_once ls root (completed p)).
Proof.
  intros gr fuel e ls c s n root f fsched p St.
  destruct (fine_once gr fuel e ls c s n root f fsched St) as [A B]. split; auto. split; auto.
  intros [N1|[Hn F]]; [eapply fine_one|eapply fine_flat]; eauto.
Qed.
Print Assumptions C62_once.

(** The files after a complete run: each output is what compiling its source from the initial contents
    gives, and nothing else has changed *)
Theorem C62_outputs : forall gr fuel e ls c s n root f fsched,
  grain_ok gr -> names_ok ls -> separate e ls c root f ->
  let p := fp_pool (fsteps (item_prog gr fuel e ls c s) n (fstart n (WDir root) f) fsched) in
  pool_status p = AllReturned -> every_once ls root (completed p) ->
  (forall path, is_source ls root path -> exists f' r, compile_file fuel e f c s path = Done (f', r) /\
     ps_ext p (out_loc e path) = f' (out_loc e path)) /\
  (forall l, (forall path, is_source ls root path -> l <> out_loc e path) -> ps_ext p l = f l).
Proof.
  intros gr fuel e ls c s n root f fsched G N S p St Ev.
  destruct (fine_coarse gr fuel e ls c s n root f G N S fsched) as (sched & E & H). fold p in E, H. specialize (H St).
  assert (Ec : completed p = completed (steps (run_work fuel e ls c s) n (start n (WDir root) f) sched)) by (rewrite E; reflexivity).
  rewrite Ec in Ev. destruct (run_outputs fuel e ls c s root f N S n sched Ev) as [A B]. split.
  - intros path Sp. destruct (A path Sp) as (f' & r & C1 & C2). exists f', r. split; auto. rewrite H. auto.
  - intros l Hl. rewrite H. auto.
Qed.
Print Assumptions C62_outputs.

(** A file is truncated before it is written, and every read looks twice, the second look deciding *)
Definition truncating : grain :=
  {| gr_more := fun _ => 1; gr_join := fun vs => last vs (Err ""); gr_chunks := fun _ _ => [""] |}.
Lemma truncating_ok : grain_ok truncating.
Proof.
  intros v k. cbn [truncating gr_join]. assert (E : repeat v (S k) = repeat v k ++ [v]).
  { clear. induction k as [|k IH]; cbn; auto. cbn in IH. rewrite IH. auto. }
  rewrite E. apply last_last.
Qed.
Definition torn_listing : listing := fun d =>
  if String.eqb d "." then Ok [Ok {| de_name := "a.graphql"; de_kind := Ok EkFile |}; Ok {| de_name := "b.graphql"; de_kind := Ok EkFile |}]
  else Err "not found".
Definition torn_import : string := "#import " +++ dq +++ "./b.graphql.d.ts" +++ dq.
Definition torn_files : fs := fun l =>
  if String.eqb l "./a.graphql" then Ok torn_import else if String.eqb l "./b.graphql" then Ok "Q"
  else if String.eqb l "./b.graphql.d.ts" then Ok "old" else Err "not found".
Definition torn_env : env :=
  {| env_parse := fun c => if String.eqb c "Q" then Ok [tiny_query] else if String.eqb c torn_import then Ok [tiny_query]
                           else if String.eqb c "" then Ok [tiny_query] else Err "syntax error";
     env_locate := fun p => if String.eqb p "././b.graphql.d.ts" then "./b.graphql.d.ts" else p;
     env_write := fun _ => WOk; env_similar := fun _ _ => false; env_order := fun _ => plain_order |}.
Definition torn_world : world := tiny_world torn_env torn_listing torn_files.
Definition torn_config : cconfig := cconfig_of (merge_config 4 (args_threads 2) config_default).
(** Worker 1 takes a.graphql; worker 0 takes b.graphql and truncates its output; worker 1 reads that *)
Definition torn_sched : list nat :=
  repeat 0 8 ++ repeat 1 3 ++ repeat 0 7 ++ repeat 1 60 ++ repeat 0 60 ++ repeat 1 60 ++ repeat 0 60 ++ repeat 1 60.

Definition torn_text : string :=
  match compile_file 10 torn_env torn_files torn_config match load_schema tiny_schema with Ok s => s | Err _ => [] end "./b.graphql" with
  | Done (f, _) => match f "./b.graphql.d.ts" with Ok t => t | Err _ => "" end
  | _ => ""
  end.
(** Contents between whole items *)
Definition whole (g : fs) : Prop :=
  g "./a.graphql" = Ok torn_import /\ g "./b.graphql" = Ok "Q" /\ (g "./b.graphql.d.ts" = Ok "old" \/ g "./b.graphql.d.ts" = Ok torn_text).
Lemma torn_run s x g g' ch r : load_schema tiny_schema = Ok s -> In x [WDir "."; WFile "./a.graphql"; WFile "./b.graphql"] -> whole g ->
  run_work 10 torn_env torn_listing torn_config s x g = Done (g', ch, r) -> whole g' /\ r = {| rp_messages := []; rp_globals := [] |}.
Proof.
  intros Ls I (Ha & Hb & Ho) H. vm_compute in Ls. injection Ls as <-.
  destruct I as [<-|[<-|[<-|[]]]].
  - vm_compute in H. injection H as <- <- <-. repeat split; auto.
  - cbn [run_work] in H. unfold compile_file, read_file in H. change (env_locate torn_env "./a.graphql") with "./a.graphql" in H. rewrite Ha in H.
    change (parse_file torn_env torn_import "./a.graphql") with (@Ok message definition tiny_query) in H. cbv beta iota in H.
    assert (K : exists im, add_imports 10 torn_env g torn_config "./a.graphql" torn_import [] [] = Done (im, []) /\
      (im = [(P "././b.graphql.d.ts", ("old", loc_line_column 1 torn_import 9))] \/ im = [(P "././b.graphql.d.ts", (torn_text, loc_line_column 1 torn_import 9))])).
    { rewrite add_imports_S. change (lines torn_import) with [torn_import]. cbn [imp_loop].
      change (is_empty torn_import || is_empty (trim torn_import)) with false. change (negb (starts_with import_start torn_import)) with false.
      cbv beta iota zeta. change (import_target torn_config torn_import (path_pop "./a.graphql")) with (Some "././b.graphql.d.ts").
      cbv beta iota. unfold read_file. change (env_locate torn_env "././b.graphql.d.ts") with "./b.graphql.d.ts".
      destruct Ho as [-> | ->]; cbv beta iota; vm_compute; eexists; split; try reflexivity; auto. }
    destruct K as (im & K1 & K2). rewrite K1 in H. destruct K2 as [-> | ->]; vm_compute in H; injection H as <- <- <-;
      (split; [|reflexivity]); split; auto.
  - cbn [run_work] in H. unfold compile_file, read_file in H. change (env_locate torn_env "./b.graphql") with "./b.graphql" in H. rewrite Hb in H.
    change (parse_file torn_env "Q" "./b.graphql") with (@Ok message definition tiny_query) in H. cbv beta iota in H.
    change (add_imports 10 torn_env g torn_config "./b.graphql" "Q" [] []) with (@Done (imports * list message) ([], [])) in H.
    vm_compute in H. injection H as <- <- <-. split; [|reflexivity]. repeat split; auto.
Qed.
Lemma torn_whole s n sched : load_schema tiny_schema = Ok s ->
  let st := steps (run_work 10 torn_env torn_listing torn_config s) n (start n (WDir ".") torn_files) sched in
  forall x ch r, In (x, ch, r) (pool_log st) -> r = {| rp_messages := []; rp_globals := [] |}.
Proof.
  intros Ls. cbn zeta.
  set (items := [WDir "."; WFile "./a.graphql"; WFile "./b.graphql"]).
  assert (K : forall x, In x items -> Forall (fun y => In y items) (dir_kids torn_listing x)).
  { intros x [<-|[<-|[<-|[]]]]; apply Forall_forall; intros y Iy; [destruct Iy as [<-|[<-|[]]]|destruct Iy|destruct Iy]; cbn; auto. }
  assert (X : (forall x, In x (queued (ps_queue (steps (run_work 10 torn_env torn_listing torn_config s) n (start n (WDir ".") torn_files) sched))) \/
                         In x (hands (steps (run_work 10 torn_env torn_listing torn_config s) n (start n (WDir ".") torn_files) sched)) -> In x items) /\
     whole (ps_ext (steps (run_work 10 torn_env torn_listing torn_config s) n (start n (WDir ".") torn_files) sched)) /\
     forall x ch r, In (x, ch, r) (pool_log (steps (run_work 10 torn_env torn_listing torn_config s) n (start n (WDir ".") torn_files) sched)) -> r = {| rp_messages := []; rp_globals := [] |}).
  { induction sched as [|i sched IH] using rev_ind.
    - destruct (@items_start work fs report n (fun y => In y items) (WDir ".") torn_files (or_introl eq_refl)) as (Hq & Hh & Hc).
      rewrite Forall_forall in *. split; [intros x [I|I]; [apply Hq|apply Hh]; exact I|]. split.
      + repeat split. left. reflexivity.
      + intros x ch r I. exfalso. unfold pool_log, steps, start in I. cbn in I. clear - I. induction n; cbn in I; auto.
    - destruct IH as (Hi & Hw & Hl). split; [|].
      + destruct (@items_start work fs report n (fun y => In y items) (WDir ".") torn_files (or_introl eq_refl)) as (Hq & Hh & Hc).
        destruct (items_inv (run_work 10 torn_env torn_listing torn_config s) n (dir_kids torn_listing)
          (run_work_kids 10 torn_env torn_listing torn_config s) (fun y => In y items) K (sched ++ [i]) _ Hq Hh Hc) as (Iq & Ih & _).
        rewrite Forall_forall in *. intros x [I|I]; [apply Iq|apply Ih]; exact I.
      + rewrite steps_app. cbn [steps fold_left].
        destruct (step_cases (run_work 10 torn_env torn_listing torn_config s) n (steps (run_work 10 torn_env torn_listing torn_config s) n (start n (WDir ".") torn_files) sched) i)
          as [E|(q & nw & nq & l1 & w & l2 & g & w' & q' & nw' & nq' & g' & ab & E & _ & T & E')].
        * unfold steps in *. rewrite E. auto.
        * unfold steps in *. rewrite E'. rewrite E in Hi, Hw, Hl. clear E E'.
          unfold pool_log, hands in *. cbn [mkp ps_workers ps_ext ps_queue] in *. rewrite flat_map_app in *. cbn [flat_map] in *.
          inv_trans T; cbn [mkw wk_log wk_pc hand] in *; auto.
          destruct (torn_run s x g g' ch r Ls) as [W' ->]; auto.
          { apply Hi. right. apply in_or_app. right. cbn. auto. }
          split; auto. intros y ch' r' I. rewrite !in_app_iff in *.
          destruct I as [I|[[I|[I|[]]]|I]].
          -- eapply Hl. apply in_or_app. left. eauto.
          -- eapply Hl. rewrite !in_app_iff. eauto.
          -- injection I as <- <- <-. auto.
          -- eapply Hl. rewrite !in_app_iff. eauto. }
  apply X.
Qed.

(** The condition is needed: with a.graphql importing the output of b.graphql, a run of single
    operations can fail because a.graphql's worker sees the output truncated, while every run of whole
    items that exits does so with code 0 *)
Theorem C62_condition_needed : exists wo fsched out f,
  fine_qlc truncating 10 wo (args_threads 2) fsched = Exited 1 out f /\
  forall sched code out' f', qlc 10 wo (args_threads 2) sched = Exited code out' f' -> code = 0.
Proof.
  exists torn_world, torn_sched. do 2 eexists. split; [vm_compute; reflexivity|].
  intros sched code out' f' H. apply qlc_exit in H as (ms & Hp & _ & ->).
  inversion Hp as [m Lc' Em Ef|cf' ms' Lc' Ls' Em Ef|cf' s' p f1 ms' Lc' Hw Em Ef]; subst.
  - vm_compute in Lc'. discriminate.
  - injection Lc' as <-. vm_compute in Ls'. discriminate.
  - injection Lc' as <-. cbn zeta in Hw. destruct Hw as (Ls & -> & St & Fw).
    assert (Lm : load_schema tiny_schema = Ok s'). { clear - Ls. vm_compute in Ls. injection Ls as <-. vm_compute. reflexivity. }
    pose proof (torn_whole s' 2 sched Lm) as K. cbn zeta in K.
    change (rc_number_threads (merge_config (wo_ncpus torn_world) (args_threads 2) config_default)) with 2 in Fw.
    change (rc_root_dir (merge_config (wo_ncpus torn_world) (args_threads 2) config_default)) with "." in Fw.
    change (cconfig_of (merge_config (wo_ncpus torn_world) (args_threads 2) config_default)) with torn_config in Fw.
    change (wo_env torn_world) with torn_env in Fw. change (wo_listing torn_world) with torn_listing in Fw. change (wo_fs torn_world) with torn_files in Fw.
    set (st := steps _ 2 _ sched) in *. unfold finish_work in Fw.
    assert (Em : rp_messages (aggregate st) = []).
    { rewrite aggregate_messages. assert (Z : forall l, (forall x, In x l -> rp_messages (snd x) = []) -> flat_map (fun x : work * list work * report => rp_messages (snd x)) l = []).
      { clear. induction l as [|x l IH]; intros H; cbn; auto. rewrite (H x) by (cbn; auto). apply IH. intros y I. apply H. cbn; auto. }
      apply Z. intros [[x ch] r] I. rewrite (K x ch r I). reflexivity. }
    assert (Eg : rp_globals (aggregate st) = []).
    { destruct (rp_globals (aggregate st)) as [|y l] eqn:Eg; auto. exfalso.
      assert (I : In y (rp_globals (aggregate st))) by (rewrite Eg; cbn; auto).
      apply aggregate_globals in I as ([[x ch] r] & I & J). rewrite (K x ch r I) in J. destruct J. }
    rewrite Eg, Em in Fw. cbn [compile_globals_file] in Fw. injection Fw as <- <-. reflexivity.
Qed.
Print Assumptions C62_condition_needed.

(** Non-vacuity: a calm world, and an interleaved run of it in which a read by one worker falls between
    two looks by the other *)
Example C62_nonvacuous :
  grain_ok truncating /\ calm (tiny_world tiny_env flat_listing (one_file "./x.graphql" "Q")) no_args /\
  exists out f, fine_qlc truncating 10 (tiny_world tiny_env flat_listing (one_file "./x.graphql" "Q")) no_args
                  (List.concat (repeat [0; 1; 2; 3] 80)) = Exited 0 out f /\ f "./x.graphql.d.ts" <> Err "not found".
Proof.
  split; [apply truncating_ok|]. split.
  - intros cf H. injection H as <-. destruct C43_nonvacuous as (A & B & _). split; [exact A|exact B].
  - do 2 eexists. split; [vm_compute; reflexivity|vm_compute; discriminate].
Qed.
