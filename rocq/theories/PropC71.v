(** C71: the layout of a source file does not show in what is generated from it. *)
From Verif Require Import Worlds SelWorlds ShareWorlds GlobalRead RunFacts ImportProps ProcFacts.
From Verif Require Import Gql SpecGtext GparseFacts GlexFacts GlayoutFacts SpecLayout LayoutFacts.
From Verif Require Import PropC69.
From Verif Require PropC35.

(** One file, over two file systems whose texts mean the same *)
Theorem C71_file : forall fuel e f f' c s path,
  order_ok (env_order e path) -> by_keys (env_order e path) -> same_files (same_meaning (env_parse e)) f f' ->
  same_outcome (env_parse e) f f' (env_locate e (with_extension path "graphql.d.ts"))
    (compile_file fuel e f c s path) (compile_file fuel e f' c s path).
Proof. intros fuel e f f' c s path Ho Hk F. apply compile_same; auto. Qed.
Print Assumptions C71_file.

(** The whole process, with the same schedule of the worker threads *)
Theorem C71_run : forall fuel wo wo' a sched,
  wo_env wo' = wo_env wo -> wo_listing wo' = wo_listing wo -> wo_ncpus wo' = wo_ncpus wo -> wo_config wo' = wo_config wo -> wo_schema wo' = wo_schema wo ->
  (forall p, order_ok (env_order (wo_env wo) p) /\ by_keys (env_order (wo_env wo) p)) ->
  same_files (same_meaning (env_parse (wo_env wo))) (wo_fs wo) (wo_fs wo') ->
  same_end (env_parse (wo_env wo)) (wo_fs wo) (wo_fs wo') (qlc fuel wo a sched) (qlc fuel wo' a sched).
Proof.
  intros fuel wo wo' a sched E1 E2 E3 E4 E5 Ho F. unfold qlc. rewrite E1, E2, E3, E4, E5.
  assert (X : forall g g' ms ms', same_effect (wo_fs wo) (wo_fs wo') g g' -> Forall2 (like_message (env_parse (wo_env wo))) ms ms' ->
    same_end (env_parse (wo_env wo)) (wo_fs wo) (wo_fs wo') (exit_with g ms) (exit_with g' ms')).
  { intros g g' ms ms' Hg Hm. unfold exit_with. destruct (exit_report ms) as [o k] eqn:Eo, (exit_report ms') as [o' k'] eqn:Eo'. cbn. split.
    - assert (Ek : k = snd (exit_report ms)) by (rewrite Eo; reflexivity). assert (Ek' : k' = snd (exit_report ms')) by (rewrite Eo'; reflexivity).
      subst k k'. unfold exit_report. cbn [snd]. replace (List.length (filter (fun m => negb (is_warning m)) ms')) with (List.length (filter (fun m => negb (is_warning m)) ms)); auto.
      clear - Hm. induction Hm as [|m m' l l' H Hm IH]; auto. cbn [filter].
      assert (is_warning m = is_warning m') as -> by (destruct H as [m m' (A & _)|]; [unfold is_warning; rewrite A|]; reflexivity).
      destruct (is_warning m'); cbn; auto.
    - split; auto. exists ms, ms'. auto. }
  assert (R : forall m, Forall2 (like_message (env_parse (wo_env wo))) m m).
  { induction m; constructor; auto. apply lm_same, same_message_refl. }
  destruct (load_config _ _) as [cf|m]; [|apply X; auto; intros l; auto].
  destruct (parse_schema _ _) as [s|ms]; [|apply X; auto; intros l; auto].
  set (rc := merge_config (wo_ncpus wo) a cf). set (c := cconfig_of rc). cbn zeta.
  match goal with |- context [finish_work _ _ _ _ _ ?p] => match goal with |- context [pool_status ?q] => set (p1 := q) end end.
  match goal with |- same_end _ _ _ _ ?r => match r with context [pool_status ?q] => set (p2 := q) end end.
  assert (S : same_pool work fs report (same_state (wo_fs wo) (wo_fs wo')) (same_report (wo_env wo)) p1 p2).
  { unfold p1, p2. apply steps_same; [|apply start_same; intros l; auto].
    intros w g g' Hg. apply (run_work_same fuel (wo_env wo) (wo_listing wo) c s (wo_fs wo) (wo_fs wo') F Ho); auto. }
  rewrite (status_same _ _ _ _ _ _ _ S). destruct (pool_status p2); try exact I.
  pose proof (finish_same fuel (wo_env wo) c s (wo_fs wo) (wo_fs wo') (rc_root_dir rc) p1 p2 S) as K.
  destruct (finish_work _ _ _ _ _ p1) as [[g ms]| |], (finish_work _ _ _ _ _ p2) as [[g' ms']| |]; try contradiction; try exact I.
  destruct K. apply X; auto.
Qed.
Print Assumptions C71_run.

(** Texts with the same tokens and the same import lines mean the same *)
Lemma essence_unplaced x : essence (unplaced x) = essence x.
Proof.
  revert x. fix IH 1. assert (L : forall l, List.map essence (List.map unplaced l) = List.map essence l).
  { fix IL 1. intros [|x l]; [reflexivity|]. cbn [List.map]. rewrite IH, IL. reflexivity. }
  intros [p al n a d sub|p n d|p c d sub]; cbn [unplaced essence]; try rewrite L; reflexivity.
Qed.
Lemma essence_unplaced_def d : essence_def (unplaced_def d) = essence_def d.
Proof.
  assert (L : forall l, List.map essence (List.map unplaced l) = List.map essence l).
  { induction l as [|x l IL]; [reflexivity|]. cbn [List.map]. rewrite essence_unplaced, IL. reflexivity. }
  destruct d as [[p l|k p n vs ds l]|fd]; cbn; unfold essence_frag; cbn [fr_sels fr_name fr_cond]; rewrite ?L; auto.
  f_equal. f_equal. rewrite map_map. apply map_ext. reflexivity.
Qed.
Lemma essence_same d d' : unplaced_doc d' = unplaced_doc d -> List.map essence_def d = List.map essence_def d'.
Proof.
  intros E. apply (f_equal (List.map essence_def)) in E. unfold unplaced_doc in E. rewrite !map_map in E.
  rewrite (map_ext _ _ essence_unplaced_def d'), (map_ext _ _ essence_unplaced_def d) in E. auto.
Qed.
Theorem C71_tokens : forall ck complaint (parse : string -> res string document) t t',
  (forall text, parse text = match parse_query ck text with Some d => Ok d | None => Err (complaint text) end) ->
  same_tokens ck t t' -> same_meaning parse t t'.
Proof.
  intros ck complaint parse t t' Hp (Si & ts & ts' & T & T' & E). split; auto. rewrite !Hp.
  destruct (parse_query ck t) as [d|] eqn:P.
  - destruct (C69_layout ck t t' ts ts' d T T' E P) as (d' & -> & U). apply essence_same. auto.
  - destruct (parse_query ck t') as [d'|] eqn:P'; [|exact I]. destruct (C69_layout ck t' t ts' ts d' T' T (eq_sym E) P') as (d & P2 & _). congruence.
Qed.
Print Assumptions C71_tokens.

(** C71_run for this reader: source trees that differ in spacing, line breaks, commas and comments *)
Theorem C71_text : forall ck complaint fuel wo wo' a sched,
  (forall text, env_parse (wo_env wo) text = match parse_query ck text with Some d => Ok d | None => Err (complaint text) end) ->
  wo_env wo' = wo_env wo -> wo_listing wo' = wo_listing wo -> wo_ncpus wo' = wo_ncpus wo -> wo_config wo' = wo_config wo -> wo_schema wo' = wo_schema wo ->
  (forall p, order_ok (env_order (wo_env wo) p) /\ by_keys (env_order (wo_env wo) p)) ->
  same_files (fun t t' => t = t' \/ same_tokens ck t t') (wo_fs wo) (wo_fs wo') ->
  same_end (env_parse (wo_env wo)) (wo_fs wo) (wo_fs wo') (qlc fuel wo a sched) (qlc fuel wo' a sched).
Proof.
  intros ck complaint fuel wo wo' a sched Hp E1 E2 E3 E4 E5 Ho F. apply C71_run; auto. intros l. specialize (F l).
  destruct (wo_fs wo l), (wo_fs wo' l); auto. destruct F as [->|F]; [|eapply C71_tokens; eauto].
  apply (alike_refl (wo_env wo) (cconfig_of (merge_config 0 no_args config_default))).
Qed.
Print Assumptions C71_text.

(** Two files laid out differently *)
Definition barn_query' : string :=
  nl +++ "# the barn" +++ nl +++ ImportWorlds.import_line "n.graphql" +++ nl +++
  "query Q # pets and all" +++ nl +++
  "{ pet { ...PetName, ... on Dog {" +++ nl +++ "owner{name,pet{__typename,name}} }... on Cat{extent:size}}" +++ nl +++ nl +++ "all: pets { name __typename } }".
Definition barn_fragment' : string := "  fragment PetName" +++ nl +++ "on Pet{name...on Dog{owner{mood}}}" +++ nl.
Definition text_files' : fs := ImportWorlds.files [("./g.graphql", barn_query'); ("./n.graphql", barn_fragment')].
Definition text_world' : world :=
  {| wo_env := text_env; wo_listing := PropC35.pair_listing; wo_ncpus := 4; wo_config := fun _ => CRNotFound "not found";
     wo_schema := fun _ => SRDecoded farm_json; wo_fs := text_files' |}.
Lemma plain_keys : by_keys plain_order.
Proof. intros q K V W g l. reflexivity. Qed.
Lemma tokens_check ck t t' ts ts' is : import_lines (lines t) is -> import_lines (lines t') is ->
  gql_tokens ck t = Some ts -> gql_tokens ck t' = Some ts' -> bare ts' = bare ts -> same_tokens ck t t'.
Proof.
  intros I1 I2 T T' E. split; [exists is; auto|]. apply tokens_iff in T. apply tokens_iff in T'. destruct T, T'. eauto 8.
Qed.
Fixpoint import_linesb (ls : list string) : list string :=
  match ls with
  | [] => []
  | l :: ls => if starts_with import_start l then l :: import_linesb ls
               else if (is_empty l || is_empty (trim l)) || starts_with "#" l then import_linesb ls else []
  end.
Lemma import_linesb_ok ls : import_lines ls (import_linesb ls).
Proof.
  induction ls as [|l ls IH]; [constructor|]. cbn [import_linesb]. destruct (starts_with import_start l) eqn:E.
  - apply il_import; auto. apply starts_with_spec in E. destruct E as [r ->]. exists r. rewrite ImportFacts.import_mark_start. reflexivity.
  - assert (N : ~ import_line_like l).
    { intros [r ->]. assert (starts_with import_start (import_mark +++ r) = true); [apply starts_with_spec; rewrite <- ImportFacts.import_mark_start; eauto|congruence]. }
    destruct (is_empty l || is_empty (trim l)) eqn:B; [|destruct (starts_with "#" l) eqn:C]; cbn [orb].
    + apply il_skip; auto. left. apply ImportFacts.blank_spec. auto.
    + apply il_skip; auto. right. apply ImportFacts.comment_spec. auto.
    + apply il_stop. intros [H|H]; [apply ImportFacts.blank_spec in H|apply ImportFacts.comment_spec in H]; congruence.
Qed.
Lemma text_same : same_files (fun t t' => t = t' \/ same_tokens lenient t t') text_files text_files'.
Proof.
  intros l. unfold text_files, text_files', ImportWorlds.files. cbn [aget]. unfold eqb, EqB_string.
  assert (A : same_tokens lenient barn_query barn_query').
  { assert (X : exists ts, gql_tokens lenient barn_query = Some ts) by (eexists; vm_compute; reflexivity).
    assert (Y : exists ts, gql_tokens lenient barn_query' = Some ts) by (eexists; vm_compute; reflexivity).
    destruct X as (ts & X), Y as (ts' & Y). eapply (tokens_check lenient _ _ ts ts' (import_linesb (lines barn_query))); auto; [apply import_linesb_ok| |].
    - replace (import_linesb (lines barn_query)) with (import_linesb (lines barn_query')) by (vm_compute; reflexivity). apply import_linesb_ok.
    - vm_compute in X, Y. injection X as <-. injection Y as <-. reflexivity. }
  assert (B : same_tokens lenient barn_fragment barn_fragment').
  { assert (X : exists ts, gql_tokens lenient barn_fragment = Some ts) by (eexists; vm_compute; reflexivity).
    assert (Y : exists ts, gql_tokens lenient barn_fragment' = Some ts) by (eexists; vm_compute; reflexivity).
    destruct X as (ts & X), Y as (ts' & Y). eapply (tokens_check lenient _ _ ts ts' (import_linesb (lines barn_fragment))); auto; [apply import_linesb_ok| |].
    - replace (import_linesb (lines barn_fragment)) with (import_linesb (lines barn_fragment')) by (vm_compute; reflexivity). apply import_linesb_ok.
    - vm_compute in X, Y. injection X as <-. injection Y as <-. reflexivity. }
  destruct (String.eqb l "./g.graphql"); [auto|]. destruct (String.eqb l "./n.graphql"); auto.
Qed.
Example C71_nonvacuous : exists out f1 out' f2 text gtext,
  qlc 30 text_world (args_threads 2) (List.concat (repeat [0; 1] 90)) = Exited 0 out f1 /\
  qlc 30 text_world' (args_threads 2) (List.concat (repeat [0; 1] 90)) = Exited 0 out' f2 /\
  text_files "./g.graphql" <> text_files' "./g.graphql" /\
  f1 "./g.graphql.d.ts" = Ok text /\ f2 "./g.graphql.d.ts" = Ok text /\
  f1 "./graphql-globals.ts" = Ok gtext /\ f2 "./graphql-globals.ts" = Ok gtext.
Proof.
  pose proof (C71_text lenient (fun _ => "syntax error") 30 text_world text_world' (args_threads 2) (List.concat (repeat [0; 1] 90))
    (fun _ => eq_refl) eq_refl eq_refl eq_refl eq_refl eq_refl (fun _ => conj plain_ok plain_keys) text_same) as S.
  assert (H : exists out f1, qlc 30 text_world (args_threads 2) (List.concat (repeat [0; 1] 90)) = Exited 0 out f1 /\
    (exists t, f1 "./g.graphql.d.ts" = Ok t) /\ (exists t, f1 "./graphql-globals.ts" = Ok t) /\
    text_files "./g.graphql.d.ts" = Err "not found" /\ text_files "./graphql-globals.ts" = Err "not found").
  { do 2 eexists. split; [vm_compute; reflexivity|]. repeat split; try (eexists; vm_compute; reflexivity); vm_compute; reflexivity. }
  destruct H as (out & f1 & H & (t & Ht) & (gt & Hg) & N1 & N2). rewrite H in S.
  destruct (qlc 30 text_world' _ _) as [code' out' f2| | |]; try contradiction. cbn [same_end] in S. destruct S as (<- & Ef & _).
  exists out, f1, out', f2, t, gt. cbn [wo_fs text_world text_world'] in Ef. repeat split; auto.
  - vm_compute. discriminate.
  - destruct (Ef "./g.graphql.d.ts") as [[E _]|E]; congruence.
  - destruct (Ef "./graphql-globals.ts") as [[E _]|E]; congruence.
Qed.

(** The import lines must stand: indenting one keeps the tokens, for import lines are comments, and fails the compilation *)
Definition barn_indented : string := " " +++ barn_query.
Definition text_files2 : fs := ImportWorlds.files [("./g.graphql", barn_indented); ("./n.graphql", barn_fragment)].
Theorem C71_refuted_indent : exists ts ts' g r g' m,
  tokens_of lenient start_pos barn_query ts /\ tokens_of lenient start_pos barn_indented ts' /\ bare ts' = bare ts /\
  compile_file 30 text_env text_files plain_config farm "./g.graphql" = Done (g, Ok r) /\
  compile_file 30 text_env text_files2 plain_config farm "./g.graphql" = Done (g', Err [m]) /\
  ms_text m = "unknown spread fragment name `PetName`".
Proof.
  assert (X : exists ts, gql_tokens lenient barn_query = Some ts) by (eexists; vm_compute; reflexivity).
  assert (Y : exists ts, gql_tokens lenient barn_indented = Some ts) by (eexists; vm_compute; reflexivity).
  destruct X as (ts & X), Y as (ts' & Y). pose proof X as X0. pose proof Y as Y0. apply tokens_iff in X0. apply tokens_iff in Y0.
  exists ts, ts'. do 4 eexists. split; [apply X0|]. split; [apply Y0|].
  split; [vm_compute in X, Y; injection X as <-; injection Y as <-; reflexivity|].
  split; [vm_compute; reflexivity|]. split; [vm_compute; reflexivity|]. reflexivity.
Qed.
Print Assumptions C71_refuted_indent.
