(** How the report is meant to look: pieces of text with the pen they are written with.  Only the
    message data types are used. *)
From Verif Require Export SpecTerm Cli.

Definition piece : Type := (pen * string)%type.
Definition ink_pen (bold : bool) (colour : option nat) : pen := {| pn_bold := bold; pn_colour := colour |}.
(** Colour numbers of a terminal *)
Definition red := 1. Definition green := 2. Definition yellow := 3. Definition blue4 := 4.

Definition severity (l : level) : nat := match l with CompileWarning => yellow | _ => red end.
Definition normal (s : string) : piece := (default_pen, s).
Definition frame (s : string) : piece := (ink_pen false (Some blue4), s).

Definition look_line (lv : level) (l : location) : list piece :=
  let margin := spaces (String.length (lo_number l) + 1) in
  [normal (nl +++ margin); frame "|"; normal nl; frame (lo_number l); normal " "; frame "|";
   normal (" " +++ lo_line l +++ nl)] ++
  match lo_column l with
  | None => [normal (margin +++ " "); frame "|"]
  | Some c => [normal margin; frame "|"; normal (" " +++ spaces (c - 1));
               (ink_pen false (Some (severity lv)), "^")]
  end ++
  match lo_help l with
  | None => []
  | Some t => [normal (nl +++ margin); frame "="; normal " "; (ink_pen false (Some green), "help:");
               normal (" " +++ t)]
  end.

Definition look_source (lv : level) (src : string * option location) : list piece :=
  let (file, loc) := src in
  [normal (nl +++ spaces (match loc with Some l => String.length (lo_number l) | None => 2 end));
   frame "-->"; normal (" " +++ file)] ++
  match loc with
  | None => []
  | Some l => [normal (":" +++ lo_number l
                       +++ match lo_column l with Some c => ":" +++ string_of_nat c | None => "" end)]
              ++ look_line lv l
  end.

(** Severity in bold colour, text in bold, frame in blue, the mark in the colour of the severity *)
Definition look (m : message) : list piece :=
  [(ink_pen true (Some (severity (ms_level m))), level_name (ms_level m)); (ink_pen true None, ":");
   normal " "; (ink_pen true None, ms_text m)] ++
  match ms_source m with None => [] | Some s => look_source (ms_level m) s end.

Definition written (l : list piece) : list (ascii * pen) := flat_map (fun x => write (fst x) (snd x)) l.
Definition text_of (l : list piece) : string := String.concat "" (List.map snd l).

(** Texts that do not contain the escape character *)
Definition quiet_location (l : location) : Prop :=
  without_esc (lo_number l) = true /\ without_esc (lo_line l) = true /\
  match lo_help l with None => True | Some t => without_esc t = true end.
Definition quiet (m : message) : Prop :=
  without_esc (ms_text m) = true /\
  match ms_source m with
  | None => True
  | Some (file, loc) => without_esc file = true /\ match loc with None => True | Some l => quiet_location l end
  end.
