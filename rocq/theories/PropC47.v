(** C47: the displayed source line and caret. *)
From Verif Require Import CliFacts.

(** For a position inside the file: the line shown is the line of the file at the reported number,
    and the caret of the third line stands under the reported column of it.  (Columns are counted
    in bytes here; graphql_parser counts characters, so for lines with non-ASCII text before the
    column or with tabs the visual position is the terminal's matter.) *)
Theorem C47_location : forall contents p l,
  1 <= pos_line p -> 1 <= pos_col p <= String.length l ->
  nth_error (lines contents) (pos_line p - 1) = Some l ->
  line_of contents (pos_line p) l /\
  exists first second third,
    fmt_line (loc_position contents p) = nl +++ first +++ nl +++ second +++ nl +++ third +++ "^" /\
    second = string_of_nat (pos_line p) +++ " | " +++ l /\
    (exists c, String.get (String.length third) second = Some c /\ String.get (pos_col p - 1) l = Some c).
Proof. exact location_shown. Qed.
Print Assumptions C47_location.

(** Every line of the file is found: line numbers and [nth_error (lines _)] agree *)
Theorem C47_line_found : forall contents n l,
  line_of contents n l -> l <> "" -> (forall r, l <> r +++ String (ascii_of_nat 13) "") ->
  nth_error (lines contents) (n - 1) = Some l.
Proof. exact line_found. Qed.
Print Assumptions C47_line_found.

Example C47_nonvacuous :
  let contents := "query {" +++ nl +++ "  user { nme }" +++ nl +++ "}" in
  let p := {| pos_line := 2; pos_col := 10 |} in
  nth_error (lines contents) (pos_line p - 1) = Some "  user { nme }" /\
  line_of contents 2 "  user { nme }" /\
  fmt_line (loc_position contents p) =
    nl +++ "  |" +++ nl +++ "2 |   user { nme }" +++ nl +++ "  |          ^".
Proof.
  cbn zeta. split; [reflexivity|]. split; [|reflexivity].
  exists ("query {" +++ nl), (nl +++ "}"). repeat split; auto.
  - right. exists "query {". reflexivity.
  - right. left. exists "}". reflexivity.
Qed.
