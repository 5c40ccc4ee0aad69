(** C64: colours change nothing but colours, and --no-color turns them off. *)
From Verif Require Import BaseFacts ProcFacts Worlds LookFacts.

(** When colours are used: never with --no-color; otherwise when CLICOLOR_FORCE asks for it, or on a
    terminal unless NO_COLOR is set or CLICOLOR is 0 *)
Definition wanted (v : option string) : Prop := exists s, v = Some s /\ s <> "0".
Theorem C64_when : forall flag e, should_colorize flag e = true <->
  flag = false /\
  (wanted (ce_clicolor_force e) \/
   (ce_no_color e = None /\ ce_clicolor e <> Some "0" /\ ce_terminal e = true)).
Proof.
  intros flag e. unfold should_colorize, wanted. destruct flag; [split; [discriminate|intros [F _]; discriminate]|].
  assert (N : forall v, normalize_env v = Some true <-> exists s, v = Some s /\ s <> "0").
  { intros [s|]; cbn; [|split; [discriminate|intros (x & F & _); discriminate]].
    destruct (String.eqb s "0") eqn:E; cbn.
    - apply String.eqb_eq in E. subst. split; [discriminate|]. intros (x & F & G). injection F as <-. congruence.
    - apply String.eqb_neq in E. split; [intros _; eauto|auto]. }
  rewrite <- N. destruct (normalize_env (ce_clicolor_force e)) as [[|]|] eqn:F.
  - split; auto.
  - assert (X : match normalize_env (ce_no_color e) with
                | Some _ => false
                | None => match normalize_env (ce_clicolor e) with Some b => b | None => true end && ce_terminal e
                end = true <-> ce_no_color e = None /\ ce_clicolor e <> Some "0" /\ ce_terminal e = true).
    { destruct (ce_no_color e); cbn; [split; [discriminate|intros [G _]; discriminate]|].
      rewrite andb_true_iff. destruct (ce_clicolor e) as [s|]; cbn; [|split; [intros [_ T]; repeat split; auto; discriminate|tauto]].
      destruct (String.eqb s "0") eqn:E; cbn.
      - apply String.eqb_eq in E. subst. split; [intros [G _]; discriminate|intros (_ & G & _); congruence].
      - apply String.eqb_neq in E. split; [intros [_ T]; repeat split; auto; congruence|tauto]. }
    rewrite X. split; [auto|]. intros [_ [G|G]]; [discriminate|auto].
  - assert (X : match normalize_env (ce_no_color e) with
                | Some _ => false
                | None => match normalize_env (ce_clicolor e) with Some b => b | None => true end && ce_terminal e
                end = true <-> ce_no_color e = None /\ ce_clicolor e <> Some "0" /\ ce_terminal e = true).
    { destruct (ce_no_color e); cbn; [split; [discriminate|intros [G _]; discriminate]|].
      rewrite andb_true_iff. destruct (ce_clicolor e) as [s|]; cbn; [|split; [intros [_ T]; repeat split; auto; discriminate|tauto]].
      destruct (String.eqb s "0") eqn:E; cbn.
      - apply String.eqb_eq in E. subst. split; [intros [G _]; discriminate|intros (_ & G & _); congruence].
      - apply String.eqb_neq in E. split; [intros [_ T]; repeat split; auto; congruence|tauto]. }
    rewrite X. split; [auto|]. intros [_ [G|G]]; [discriminate|auto].
Qed.
Print Assumptions C64_when.

Lemma off_message m : show_message_c false m = show_message m.
Proof.
  unfold show_message_c, show_message, paint. cbn [negb orb].
  destruct (ms_source m) as [[file loc]|]; [|reflexivity].
  unfold fmt_file_c, fmt_file, blue, paint. cbn [negb orb]. destruct loc as [l|]; [|reflexivity].
  unfold fmt_line_c, fmt_line, blue, paint. cbn [negb orb].
  destruct (lo_column l), (lo_help l); reflexivity.
Qed.
Lemma off_report ms : exit_report_c false ms = exit_report ms.
Proof.
  unfold exit_report_c, exit_report. rewrite !off_message.
  rewrite (List.map_ext (fun m => show_message_c false m +++ nl +++ nl) (fun m => show_message m +++ nl +++ nl));
    [auto|]. intros m. rewrite off_message. auto.
Qed.

(** Without colours the output is byte by byte the plain report *)
Theorem C64_off : forall flag e ms, should_colorize flag e = false -> printed flag e ms = exit_report ms.
Proof. intros flag e ms H. unfold printed. rewrite H. apply off_report. Qed.
Print Assumptions C64_off.
Theorem C64_no_color : forall e ms, printed true e ms = exit_report ms.
Proof. intros. apply C64_off. reflexivity. Qed.
Print Assumptions C64_no_color.

(** Whatever the texts contain (also colour codes of their own), a terminal shows the same characters
    with and without colours, and the exit code is the same *)
Theorem C64_same_text : forall flag e ms,
  shown (fst (printed flag e ms)) = shown (fst (exit_report ms)) /\
  snd (printed flag e ms) = snd (exit_report ms).
Proof.
  intros flag e ms. unfold printed. destruct (should_colorize flag e).
  - split; [apply report_shown|reflexivity].
  - rewrite off_report. auto.
Qed.
Print Assumptions C64_same_text.

(** A message as it looks: the pieces of its plain text, each with the right pen; afterwards the
    terminal writes as before *)
Theorem C64_look : forall m, quiet m ->
  screen (show_message_c true m) = written (look m) /\ text_of (look m) = show_message m /\
  pen_after (show_message_c true m) = default_pen.
Proof.
  intros m Q. pose proof (message_looks m Q) as S. unfold shows in S. unfold screen, pen_after. rewrite S.
  split; [apply app_nil_r|]. split; [apply look_text|reflexivity].
Qed.
Print Assumptions C64_look.

(** The whole report: message after message, then the summary lines *)
Theorem C64_report : forall ms, Forall quiet ms ->
  exists summary, Forall quiet summary /\
    screen (fst (exit_report_c true ms)) =
    written (flat_map (fun m => look m ++ [normal (nl +++ nl)]) ms ++
             flat_map (fun m => look m ++ [normal nl]) summary) /\
    fst (exit_report ms) =
    text_of (flat_map (fun m => look m ++ [normal (nl +++ nl)]) ms ++
             flat_map (fun m => look m ++ [normal nl]) summary) /\
    pen_after (fst (exit_report_c true ms)) = default_pen /\
    (forall m, In m summary -> ms_source m = None).
Proof.
  intros ms Q. unfold exit_report_c, exit_report. cbn [fst].
  assert (L1 : shows (String.concat "" (List.map (fun m => show_message_c true m +++ nl +++ nl) ms))
                     (flat_map (fun m => look m ++ [normal (nl +++ nl)]) ms)).
  { clear -Q. induction Q as [|m ms' Qm Q IH]; [apply shows_nil|]. cbn [List.map flat_map]. rewrite concat_cons_empty.
    apply shows_app; [|apply IH]. apply shows_app; [apply message_looks; auto|]. apply shows_normal. reflexivity. }
  assert (T1 : String.concat "" (List.map (fun m => show_message m +++ nl +++ nl) ms) =
               text_of (flat_map (fun m => look m ++ [normal (nl +++ nl)]) ms)).
  { clear. induction ms as [|m ms IH]; [reflexivity|]. cbn [List.map flat_map]. rewrite concat_cons_empty.
    rewrite !text_app, look_text, IH. reflexivity. }
  set (w := List.length (filter is_warning ms)).
  set (n := List.length (filter (fun m => negb (is_warning m)) ms)).
  set (pl := if 1 <? n then "s" else "").
  set (me := simple_message CompileError ("failure due to " +++ string_of_nat n +++ " error" +++ pl)).
  set (mw := simple_message CompileWarning (string_of_nat w +++ " warning" +++ pl +++ " emitted")).
  assert (Qp : without_esc pl = true) by (unfold pl; destruct (1 <? n); auto).
  assert (Qe : quiet me) by (split; [cbn [ms_text me simple_message]; quiet|exact I]).
  assert (Qw : quiet mw) by (split; [cbn [ms_text mw simple_message]; quiet|exact I]).
  set (summary := (if 0 <? n then [me] else []) ++ (if 0 <? w then [mw] else [])).
  assert (One : forall m, quiet m -> shows (show_message_c true m +++ nl) (look m ++ [normal nl])).
  { intros m Qm. apply shows_app; [apply message_looks; auto|]. apply shows_normal. reflexivity. }
  assert (Txt : forall m, text_of (look m ++ [normal nl]) = show_message m +++ nl).
  { intros m. rewrite text_app, look_text. reflexivity. }
  assert (L2 : shows ((if 0 <? n then show_message_c true me +++ nl else "")
                      +++ (if 0 <? w then show_message_c true mw +++ nl else ""))
                     (flat_map (fun m => look m ++ [normal nl]) summary)).
  { unfold summary. rewrite flat_map_app. apply shows_app.
    - destruct (0 <? n); [|apply shows_nil]. cbn [flat_map]. rewrite app_nil_r. auto.
    - destruct (0 <? w); [|apply shows_nil]. cbn [flat_map]. rewrite app_nil_r. auto. }
  assert (T2 : (if 0 <? n then show_message me +++ nl else "") +++ (if 0 <? w then show_message mw +++ nl else "")
               = text_of (flat_map (fun m => look m ++ [normal nl]) summary)).
  { unfold summary. rewrite flat_map_app, text_app. f_equal.
    - destruct (0 <? n); [|reflexivity]. cbn [flat_map]. rewrite app_nil_r. auto.
    - destruct (0 <? w); [|reflexivity]. cbn [flat_map]. rewrite app_nil_r. auto. }
  pose proof (shows_app _ _ _ _ L1 L2) as S. unfold shows in S.
  exists summary. split; [|split; [|split; [|split]]].
  - unfold summary. apply Forall_app. split; [destruct (0 <? n)|destruct (0 <? w)]; auto.
  - unfold screen. rewrite S. apply app_nil_r.
  - rewrite text_app, <- T1, <- T2. reflexivity.
  - unfold pen_after. rewrite S. reflexivity.
  - intros m Hm. unfold summary in Hm. apply in_app_or in Hm.
    destruct Hm as [Hm|Hm].
    + destruct (0 <? n); [destruct Hm as [<-|[]]; reflexivity|destruct Hm].
    + destruct (0 <? w); [destruct Hm as [<-|[]]; reflexivity|destruct Hm].
Qed.
Print Assumptions C64_report.

(** Whole runs: whatever the flag, the environment and the schedule, the screen shows the report of the
    uncoloured run and the process exits with its code *)
Theorem C64_process : forall fuel wo a sched code out f,
  qlc fuel wo a sched = Exited code out f ->
  exists ms, exit_path fuel wo a sched ms f /\
    printed true {| ce_clicolor := None; ce_no_color := None; ce_clicolor_force := None; ce_terminal := true |} ms
    = (out, code) /\
    forall flag e, shown (fst (printed flag e ms)) = shown out /\ snd (printed flag e ms) = code.
Proof.
  intros fuel wo a sched code out f H. apply qlc_exit in H as (ms & E & -> & ->). exists ms. split; [auto|].
  split; [rewrite C64_no_color; destruct (exit_report ms); reflexivity|]. intros flag e. apply C64_same_text.
Qed.
Print Assumptions C64_process.

(** Texts with escape characters reach the terminal unfiltered: their colours leak, also with --no-color *)
Theorem C64_leak_refuted : exists m, pen_after (fst (exit_report [m])) <> default_pen /\
  pen_after (fst (printed true {| ce_clicolor := None; ce_no_color := None; ce_clicolor_force := None;
                                  ce_terminal := true |} [m])) <> default_pen.
Proof.
  exists (io_message "read" "no such file" (String "027" "[31mx.graphql")).
  rewrite C64_no_color. split; vm_compute; discriminate.
Qed.
Print Assumptions C64_leak_refuted.

(** Non-vacuity: a warning with its line and help, as bytes and on the screen *)
Definition C64_message : message :=
  {| ms_level := CompileWarning; ms_text := "old";
     ms_source := Some ("a.graphql", Some {| lo_number := "2"; lo_line := "  x"; lo_help := Some "use y";
                                             lo_column := Some 3 |}) |}.
Example C64_nonvacuous :
  quiet C64_message /\
  should_colorize false {| ce_clicolor := None; ce_no_color := None; ce_clicolor_force := None; ce_terminal := true |} = true /\
  show_message_c true C64_message <> show_message C64_message /\
  firstn 9 (screen (show_message_c true C64_message)) =
    write (ink_pen true (Some yellow)) "warning" ++ write (ink_pen true None) ":" ++ write default_pen " ".
Proof.
  split; [|split; [|split]].
  - repeat split; reflexivity.
  - reflexivity.
  - vm_compute. discriminate.
  - vm_compute. reflexivity.
Qed.
