(** Specification side for positions: where a piece of text stands, and which word of the source a part of a
    document is found at. *)
From Verif Require Export SpecDoc SpecGtext SpecDiag SpecCli.

(** [x] stands in [text] at [p]: before it are as many line feeds as the line number says, and between the last of
    them and [x] as many characters as the column says (both count from one) *)
Definition stands (text : string) (p : pos) (x : string) : Prop :=
  exists above left right, text = above +++ left +++ x +++ right /\
    (above = "" \/ exists a, above = a +++ nl) /\ lacks_line left /\
    pos_line p = count_nl above + 1 /\ pos_col p = letters left + 1.

(** No tab, no carriage return, no byte order mark *)
Definition plain_text (text : string) : Prop :=
  all (fun c => c <> ascii_of_nat 9 /\ c <> ascii_of_nat 13) text /\ ~ occurs byte_order_mark text.

(** The word a selection is found at *)
Inductive sel_word : selection -> string -> Prop :=
| sw_field p n a d l : sel_word (SField p None n a d l) n
| sw_alias p k n a d l : sel_word (SField p (Some k) n a d l) k
| sw_spread p n d : sel_word (SSpread p n d) n
| sw_on p c d l : sel_word (SInline p (Some c) d l) "on"
| sw_directive p x d l : sel_word (SInline p None (x :: d) l) "@"
| sw_bare p l : sel_word (SInline p None [] l) "{".
(** The word a definition is found at *)
Definition def_word (d : definition) : string :=
  match d with
  | DOp (OpSelectionSet _ _) => "{"
  | DOp (OpNamed k _ _ _ _ _) => keyword k
  | DFrag _ => "fragment"
  end.
(** [d] has a part at [p] that is found at the word [x] *)
Inductive part_at (d : definition) : pos -> string -> Prop :=
| pa_def : part_at d (doc_pos d) (def_word d)
| pa_var v : In v (doc_vars d) -> part_at d (vd_pos v) "$"
| pa_sel P l y x : doc_root d = Some (P, l) -> SpecDiag.written l y -> sel_word y x -> part_at d (sel_pos y) x.

(** A location of a message: the number, the text and the column of a line of the text, with [x] at the column *)
Definition points (loc : location) (text : string) (p : pos) (x : string) : Prop :=
  lo_number loc = string_of_nat (pos_line p) /\ lo_column loc = Some (pos_col p) /\ line_of text (pos_line p) (lo_line loc) /\
  exists left right, lo_line loc = left +++ x +++ right /\ letters left + 1 = pos_col p.

(** ** Texts with tabs, carriage returns and byte order marks *)
(** No carriage return follows a # on its line *)
Definition tame_text (text : string) : Prop :=
  ~ exists a b r, text = a +++ String "#" (b +++ String (ascii_of_nat 13) r) /\ all (fun d => ~ line_end d) b.
(** As [stands], but for the column, which only counts if the text left of [x] on its line is plain *)
Definition stands_on_line (text : string) (p : pos) (x : string) : Prop :=
  exists above left right, text = above +++ left +++ x +++ right /\
    (above = "" \/ exists a, above = a +++ nl) /\ lacks_line left /\
    pos_line p = count_nl above + 1 /\ (plain_text left -> pos_col p = letters left + 1).
(** As [points], with the same proviso *)
Definition shows (loc : location) (text : string) (p : pos) (x : string) : Prop :=
  lo_number loc = string_of_nat (pos_line p) /\ lo_column loc = Some (pos_col p) /\ line_of text (pos_line p) (lo_line loc) /\
  exists left right, lo_line loc = left +++ x +++ right /\ (plain_text left -> letters left + 1 = pos_col p).
