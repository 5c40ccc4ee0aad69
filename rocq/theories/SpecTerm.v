(** A terminal: what it shows of a text with colour codes, character by character with the pen they are
    written with.  Codes are [ESC [ n ; ... ; n m]; anything else is shown as it is. *)
From Verif Require Export Base.

Record pen := { pn_bold : bool; pn_colour : option nat }.
Definition default_pen : pen := {| pn_bold := false; pn_colour := None |}.

(** Between codes; after ESC; inside a code, with its parameters so far *)
Inductive tmode := TText | TEsc | TCode (held : string).
Definition held (m : tmode) : string :=
  match m with TText => "" | TEsc => String "027" "" | TCode h => String "027" (String "[" h) end.

Definition param (c : ascii) : bool :=
  let n := nat_of_ascii c in ((48 <=? n) && (n <=? 57)) || (n =? 59).

(** Parameters are decimal numbers between semicolons *)
Fixpoint params (n : nat) (s : string) : list nat :=
  match s with
  | EmptyString => [n]
  | String c r => if nat_of_ascii c =? 59 then n :: params 0 r else params (10 * n + (nat_of_ascii c - 48)) r
  end.
(** 0: everything off, 1: bold, 30-37: colour of the letters *)
Definition use_code (p : pen) (n : nat) : pen :=
  if n =? 0 then default_pen
  else if n =? 1 then {| pn_bold := true; pn_colour := pn_colour p |}
  else if (30 <=? n) && (n <=? 37) then {| pn_bold := pn_bold p; pn_colour := Some (n - 30) |}
  else p.

Definition write (p : pen) (s : string) : list (ascii * pen) :=
  List.map (fun c => (c, p)) (list_ascii_of_string s).

Definition tstep (m : tmode) (p : pen) (c : ascii) : list (ascii * pen) * tmode * pen :=
  if Ascii.eqb c "027" then (write p (held m), TEsc, p)
  else match m with
       | TText => (write p (String c ""), TText, p)
       | TEsc => if Ascii.eqb c "[" then ([], TCode "", p) else (write p (held m +++ String c ""), TText, p)
       | TCode h =>
           if param c then ([], TCode (h +++ String c ""), p)
           else if Ascii.eqb c "m" then ([], TText, fold_left use_code (params 0 h) p)
           else (write p (held m +++ String c ""), TText, p)
       end.

Fixpoint trun (m : tmode) (p : pen) (s : string) : list (ascii * pen) * tmode * pen :=
  match s with
  | EmptyString => ([], m, p)
  | String c r =>
      let '(o, m', p') := tstep m p c in
      let '(o', m'', p'') := trun m' p' r in
      (o ++ o', m'', p'')
  end.

(** What is on the screen in the end: an unfinished code is shown *)
Definition screen (s : string) : list (ascii * pen) :=
  let '(o, m, p) := trun TText default_pen s in o ++ write p (held m).
(** The characters on the screen *)
Definition shown (s : string) : list ascii := List.map fst (screen s).
(** The pen the next output is written with *)
Definition pen_after (s : string) : pen := let '(_, _, p) := trun TText default_pen s in p.

Fixpoint without_esc (s : string) : bool :=
  match s with EmptyString => true | String c r => negb (Ascii.eqb c "027") && without_esc r end.
