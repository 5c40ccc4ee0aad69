(** C20: descriptions and documentation comments. *)
From Verif Require Import DocFacts Worlds.

(** A description without a comment terminator stays inside its comment: whatever follows the emitted
    text, TypeScript resumes exactly after it *)
Theorem C20_contained_partial : forall d dep w rest, ~ occurs "*/" d ->
  comment_then (compile_documentation (Some d) dep w +++ rest) (nl +++ spaces w +++ rest).
Proof.
  intros d dep w rest N. apply doc_comment; [left; discriminate|].
  apply cut_close_safe, doc_lines_safe. auto.
Qed.
Print Assumptions C20_contained_partial.

(** The comment for deprecation alone, and no comment at all *)
Theorem C20_no_description : forall w rest,
  comment_then (compile_documentation None true w +++ rest) (nl +++ spaces w +++ rest) /\
  compile_documentation None false w = "".
Proof. intros w rest. split; [apply doc_comment; auto|reflexivity]. Qed.
Print Assumptions C20_no_description.

(** Exactly the descriptions that break out: after prefixing the lines and dropping openers, a star,
    one or more terminators and a slash in a row *)
Theorem C20_exact : forall d dep w rest,
  comment_then (compile_documentation (Some d) dep w +++ rest) (nl +++ spaces w +++ rest) <->
  ~ exists p k q, doc_lines w d = p +++ "*" +++ terminators (S k) +++ "/" +++ q.
Proof.
  intros d dep w rest. rewrite doc_comment; [|left; discriminate].
  rewrite <- cut_close_exact. destruct (has_close (cut "*" "/" (doc_lines w d))); split; try congruence.
Qed.
Print Assumptions C20_exact.

(** The claim as stated fails: this description of an enum adds a declaration to the globals file *)
Definition breakout : string := "**//export const injected = 1;/" +++ "*".
Theorem C20_refuted : exists d dep w rest,
  ~ comment_then (compile_documentation (Some d) dep w +++ rest) (nl +++ spaces w +++ rest).
Proof.
  exists breakout, false, 0, "". rewrite C20_exact. intros H. apply H.
  exists "", 0, "export const injected = 1;". reflexivity.
Qed.
Print Assumptions C20_refuted.
Example C20_injects : comment_then (enum_def "E" (Some breakout) ["A"])
  ("export const injected = 1;" +++ nl +++ " */" +++ nl +++ "export enum E {" +++ nl +++ "  A = " +++ dq +++ "A" +++ dq +++ "," +++ nl +++ "}").
Proof.
  exists ("*" +++ nl +++ " * "). split; [reflexivity|]. apply has_close_false. reflexivity.
Qed.

(** Non-vacuity: openers and newlines in a description, and a lone terminator is removed *)
Example C20_nonvacuous : ~ occurs "*/" ("a /* b" +++ nl +++ "/ c").
Proof. apply has_close_false. reflexivity. Qed.
Example C20_nonvacuous_terminator : comment_then (compile_documentation (Some "a */ b") true 2 +++ "x") (nl +++ "  x").
Proof. apply (C20_exact "a */ b" true 2 "x"). rewrite <- cut_close_exact. discriminate. Qed.
