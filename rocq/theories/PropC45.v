(** C45: the exit report. *)
From Verif Require Import CliFacts.

(** Full statement (false of the code): the printed text is [report_text]: every message once, in
    order, then the counts with the right plural forms. *)
Definition report_right (ms : list message) : Prop :=
  forall e w, count (fun m => is_error_level (ms_level m)) ms e ->
              count (fun m => ms_level m = CompileWarning) ms w ->
              fst (exit_report ms) = report_text ms e w.

(** Proved: right exactly when there is no warning or the two counts agree on being plural. *)
Theorem C45_report_partial : forall ms e w,
  count (fun m => is_error_level (ms_level m)) ms e ->
  count (fun m => ms_level m = CompileWarning) ms w ->
  (fst (exit_report ms) = report_text ms e w <-> (w = 0 \/ (1 <? e) = (1 <? w))).
Proof. exact exit_text_ok. Qed.
Print Assumptions C45_report_partial.

(** In every case the messages appear once and in order and both counts are printed; only the plural
    of the warning count may be wrong: it follows the number of errors. *)
Theorem C45_report_exact : forall ms e w,
  count (fun m => is_error_level (ms_level m)) ms e -> count (fun m => ms_level m = CompileWarning) ms w ->
  fst (exit_report ms) =
  String.concat "" (List.map (fun m => show_message m +++ nl +++ nl) ms)
  +++ (if 0 <? e then "error: failure due to " +++ counted e "error" +++ nl else "")
  +++ (if 0 <? w then "warning: " +++ string_of_nat w +++ " warning" +++ (if 1 <? e then "s" else "") +++ " emitted" +++ nl else "").
Proof. exact exit_text. Qed.
Print Assumptions C45_report_exact.

(** Two warnings and no error: "2 warning emitted" *)
Theorem C45_report_refuted : exists ms, ~ report_right ms.
Proof.
  exists [simple_message CompileWarning "a"; simple_message CompileWarning "b"].
  intros H. specialize (H 0 2).
  assert (C0 : count (fun m => is_error_level (ms_level m)) [simple_message CompileWarning "a"; simple_message CompileWarning "b"] 0).
  { repeat (apply count_no; [intros [E|E]; discriminate|]). constructor. }
  assert (C2 : count (fun m => ms_level m = CompileWarning) [simple_message CompileWarning "a"; simple_message CompileWarning "b"] 2).
  { repeat (apply count_yes; [reflexivity|]). constructor. }
  specialize (H C0 C2). apply (exit_text_ok _ 0 2 C0 C2) in H. destruct H; discriminate.
Qed.
Print Assumptions C45_report_refuted.

(** Non-vacuity: one error, one warning *)
Example C45_nonvacuous :
  let ms := [simple_message CompileWarning "a"; simple_message CompileError "b"] in
  count (fun m => is_error_level (ms_level m)) ms 1 /\ count (fun m => ms_level m = CompileWarning) ms 1 /\
  fst (exit_report ms) = "warning: a" +++ nl +++ nl +++ "error: b" +++ nl +++ nl
    +++ "error: failure due to 1 error" +++ nl +++ "warning: 1 warning emitted" +++ nl.
Proof.
  cbn zeta. split; [|split; [|reflexivity]].
  - apply count_no; [intros [E|E]; discriminate|]. apply count_yes; [left; reflexivity|]. constructor.
  - apply count_yes; [reflexivity|]. apply count_no; [discriminate|]. constructor.
Qed.
