(** Model of the coloured output of src/cli.rs, with the crate colored 2.0.4 (not part of /repo; its
    published source is followed): a coloured text is [ESC [ codes m] text [ESC [ 0 m], and a reset
    inside the text is followed by the codes again. *)
From Verif Require Export Cli.

Definition esc : ascii := "027".
Definition sgr (codes : string) : string := String esc "[" +++ codes +++ "m".
Definition reset : string := sgr "0".

(** The colours and the style used in cli.rs *)
Inductive colour := Red | Green | Yellow | Blue.
Record ink := { ik_bold : bool; ik_colour : option colour }.

(** colored: [Color::to_fg_str] *)
Definition colour_code (c : colour) : string :=
  match c with Red => "31" | Green => "32" | Yellow => "33" | Blue => "34" end.

(** colored: [ColoredString::compute_style], no background colours in use *)
Definition compute_style (k : ink) : string :=
  sgr ((if ik_bold k then "1" else "")
       +++ match ik_colour k with
           | None => ""
           | Some c => (if ik_bold k then ";" else "") +++ colour_code c
           end).

(** colored: [ColoredString::escape_inner_reset_sequences]: every reset in the text, found from left to
    right without overlaps, is followed by the style *)
Fixpoint escape_inner (style : string) (s : string) : string :=
  match s with
  | EmptyString => EmptyString
  | String c0 s0 =>
      match s0 with
      | String c1 (String c2 (String c3 r)) =>
          if Ascii.eqb c0 esc && Ascii.eqb c1 "[" && Ascii.eqb c2 "0" && Ascii.eqb c3 "m"
          then reset +++ style +++ escape_inner style r
          else String c0 (escape_inner style s0)
      | _ => String c0 (escape_inner style s0)
      end
  end.

(** colored: [ColoredString::is_plain] *)
Definition is_plain (k : ink) : bool :=
  negb (ik_bold k) && match ik_colour k with None => true | Some _ => false end.

(** colored: [Display for ColoredString]; [on] is [control::SHOULD_COLORIZE.should_colorize()] *)
Definition paint (on : bool) (k : ink) (text : string) : string :=
  if negb on || is_plain k then text
  else compute_style k +++ escape_inner (compute_style k) text +++ reset.

(** Environment variables and terminal, as read once by colored: [ShouldColorize::from_env] *)
Record colour_env := { ce_clicolor : option string; ce_no_color : option string;
                       ce_clicolor_force : option string; ce_terminal : bool }.

(** [normalize_env] *)
Definition normalize_env (v : option string) : option bool :=
  match v with Some s => Some (negb (String.eqb s "0")) | None => None end.

(** [from_env], [resolve_clicolor_force], [should_colorize]; cli.rs:413-415: --no-color is
    [control::set_override(false)] *)
Definition should_colorize (flag_no_color : bool) (e : colour_env) : bool :=
  if flag_no_color then false
  else match normalize_env (ce_clicolor_force e) with
       | Some true => true
       | _ => match normalize_env (ce_no_color e) with
              | Some _ => false
              | None => match normalize_env (ce_clicolor e) with Some b => b | None => true end
                        && ce_terminal e
              end
       end.

Section Coloured.
  Variable on : bool.
  Definition plain_ink (c : colour) : ink := {| ik_bold := false; ik_colour := Some c |}.
  Definition bold_ink (c : option colour) : ink := {| ik_bold := true; ik_colour := c |}.
  Definition blue : string -> string := paint on (plain_ink Blue).

  (** cli.rs:66-100 [fmt_line_encoding]; [arrow] is the closure [colorize] *)
  Definition fmt_line_c (arrow : string -> string) (l : location) : string :=
    let bar := blue "|" in
    let indent := spaces (String.length (lo_number l) + 1) in
    nl +++ indent +++ bar +++ nl +++ blue (lo_number l) +++ " " +++ bar +++ " " +++ lo_line l +++ nl
    +++ match lo_column l with
        | None => indent +++ " " +++ bar
        | Some c => indent +++ bar +++ " " +++ spaces (c - 1) +++ arrow "^"
        end
    +++ match lo_help l with
        | None => ""
        | Some t => nl +++ indent +++ blue "=" +++ " " +++ paint on (plain_ink Green) "help:" +++ " " +++ t
        end.

  (** cli.rs:111-127 [fmt_file] *)
  Definition fmt_file_c (arrow : string -> string) (src : string * option location) : string :=
    let (file, loc) := src in
    let indent := spaces (match loc with Some l => String.length (lo_number l) | None => 2 end) in
    nl +++ indent +++ blue "-->" +++ " " +++ file
    +++ match loc with None => "" | Some l => fmt_colon l +++ fmt_line_c arrow l end.

  (** cli.rs:139-147: [colorize] and the colour of [header] *)
  Definition level_colour (l : level) : colour :=
    match l with CompileWarning => Yellow | CompileError | ProgramError => Red end.

  (** cli.rs:137-154 [Display for PrintableMessage] *)
  Definition show_message_c (m : message) : string :=
    paint on (bold_ink (Some (level_colour (ms_level m)))) (level_name (ms_level m))
    +++ paint on (bold_ink None) ":" +++ " " +++ paint on (bold_ink None) (ms_text m)
    +++ match ms_source m with
        | None => ""
        | Some s => fmt_file_c (paint on (plain_ink (level_colour (ms_level m)))) s
        end.

  (** cli.rs:522-557 [print_exit_info] *)
  Definition exit_report_c (ms : list message) : string * nat :=
    let warnings := List.length (filter is_warning ms) in
    let errors := List.length (filter (fun m => negb (is_warning m)) ms) in
    let plural := if 1 <? errors then "s" else "" in
    (String.concat "" (List.map (fun m => show_message_c m +++ nl +++ nl) ms)
     +++ (if 0 <? errors
          then show_message_c (simple_message CompileError
                 ("failure due to " +++ string_of_nat errors +++ " error" +++ plural)) +++ nl
          else "")
     +++ (if 0 <? warnings
          then show_message_c (simple_message CompileWarning
                 (string_of_nat warnings +++ " warning" +++ plural +++ " emitted")) +++ nl
          else ""),
     if 0 <? errors then 1 else 0).
End Coloured.

(** What a run prints and with which code it exits, given its messages *)
Definition printed (flag_no_color : bool) (e : colour_env) (ms : list message) : string * nat :=
  exit_report_c (should_colorize flag_no_color e) ms.
