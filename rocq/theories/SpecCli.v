(** Specification side for messages, exit report, configuration and displayed source lines. *)
From Verif Require Export Cli.

Definition is_error_level (l : level) : Prop := l = CompileError \/ l = ProgramError.

(** Number of messages satisfying a property *)
Inductive count {A} (Q : A -> Prop) : list A -> nat -> Prop :=
| count_nil : count Q [] 0
| count_yes x l n : Q x -> count Q l n -> count Q (x :: l) (S n)
| count_no x l n : ~ Q x -> count Q l n -> count Q (x :: l) n.

(** "1 error", "2 errors" *)
Definition counted (n : nat) (noun : string) : string :=
  string_of_nat n +++ " " +++ noun +++ (if 1 <? n then "s" else "").

(** Text of the whole report with [e] errors and [w] warnings *)
Definition report_text (ms : list message) (e w : nat) : string :=
  String.concat "" (List.map (fun m => show_message m +++ nl +++ nl) ms)
  +++ (if 0 <? e then "error: failure due to " +++ counted e "error" +++ nl else "")
  +++ (if 0 <? w then "warning: " +++ counted w "warning" +++ " emitted" +++ nl else "").

(** First value present: command line, configuration file, default *)
Definition precedence {A} (cli file : option A) (default r : A) : Prop :=
  (forall v, cli = Some v -> r = v) /\
  (forall v, cli = None -> file = Some v -> r = v) /\
  (cli = None -> file = None -> r = default).

(** Number of line feeds *)
Fixpoint count_nl (s : string) : nat :=
  match s with
  | EmptyString => 0
  | String c s' => (if Ascii.eqb c (ascii_of_nat 10) then 1 else 0) + count_nl s'
  end.

(** [l] is the text of line [n] (counted from 1) of [s], without its line ending *)
Definition line_of (s : string) (n : nat) (l : string) : Prop :=
  exists pre rest, s = pre +++ l +++ rest /\ count_nl pre + 1 = n /\ count_nl l = 0 /\
    (pre = "" \/ exists p, pre = p +++ nl) /\
    (rest = "" \/ (exists r, rest = nl +++ r) \/ (exists r, rest = String (ascii_of_nat 13) (nl +++ r))).
