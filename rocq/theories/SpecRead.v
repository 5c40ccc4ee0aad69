(** Specification side: reading a TypeScript declaration module.  A lexer (white space, both kinds of
    comments, identifiers, string literals, punctuation) and a parser for the statements that occur in
    generated files.  Nothing here refers to the model of qlc.

    Simplifications: a qualified name is one token; strings contain no escapes (a backslash is
    rejected); bytes above 127 count as letters. *)
From Verif Require Export SpecFile.

(** ** Tokens *)
Inductive punct := PLBrace | PRBrace | PLBrack | PRBrack | PLParen | PRParen | PLt | PGt
                 | PEq | PSemi | PColon | PQuest | PBar | PComma.
Inductive token := TId (n : string) | TStr (s : string) | TP (p : punct).

Definition punct_of (c : ascii) : option punct :=
  match nat_of_ascii c with
  | 123 => Some PLBrace | 125 => Some PRBrace | 91 => Some PLBrack | 93 => Some PRBrack
  | 40 => Some PLParen | 41 => Some PRParen | 60 => Some PLt | 62 => Some PGt
  | 61 => Some PEq | 59 => Some PSemi | 58 => Some PColon | 63 => Some PQuest
  | 124 => Some PBar | 44 => Some PComma | _ => None
  end.

Definition white (c : ascii) : bool :=
  let n := nat_of_ascii c in (n =? 32) || (n =? 9) || (n =? 10) || (n =? 13).

(** Text after the end of the line, after the end of a block comment *)
Fixpoint after_line (s : string) : string :=
  match s with
  | EmptyString => EmptyString
  | String c r => if nat_of_ascii c =? 10 then r else after_line r
  end.
Fixpoint after_close (s : string) : option string :=
  match s with
  | EmptyString => None
  | String c r =>
      if Ascii.eqb c "*" then
        match r with
        | EmptyString => None
        | String d r' => if Ascii.eqb d "/" then Some r' else after_close r
        end
      else after_close r
  end.

(** Characters a string literal cannot contain: quote, backslash, line feed, carriage return *)
Definition str_stop (c : ascii) : bool :=
  let n := nat_of_ascii c in (n =? 34) || (n =? 92) || (n =? 10) || (n =? 13).
Fixpoint span_str (s : string) : option (string * string) :=
  match s with
  | EmptyString => None
  | String c s' =>
      if nat_of_ascii c =? 34 then Some (EmptyString, s')
      else if str_stop c then None
      else match span_str s' with Some (a, b) => Some (String c a, b) | None => None end
  end.

Definition ocons {A} (a : A) (x : option (list A)) : option (list A) :=
  match x with Some l => Some (a :: l) | None => None end.

(** Tokens of a text; one unit of fuel per token, comment or blank *)
Fixpoint lex (fuel : nat) (s : string) : option (list token) :=
  match fuel with
  | O => None
  | S f =>
      match s with
      | EmptyString => Some []
      | String c s' =>
          if white c then lex f s'
          else if name_char c then let (n, r) := span_name s in ocons (TId n) (lex f r)
          else if nat_of_ascii c =? 34 then
            match span_str s' with Some (l, r) => ocons (TStr l) (lex f r) | None => None end
          else if Ascii.eqb c "/" then
            match s' with
            | String d s'' =>
                if Ascii.eqb d "/" then lex f (after_line s'')
                else if Ascii.eqb d "*" then
                  match after_close s'' with Some r => lex f r | None => None end
                else None
            | EmptyString => None
            end
          else match punct_of c with Some p => ocons (TP p) (lex f s') | None => None end
      end
  end.
Definition lexes (s : string) (ts : list token) : Prop := exists fuel, lex fuel s = Some ts.

(** ** Names *)
(** First character of an identifier: a letter, underscore, dollar *)
Definition start_char (a : ascii) : bool :=
  let n := nat_of_ascii a in
  ((65 <=? n) && (n <=? 90)) || ((97 <=? n) && (n <=? 122)) || (n =? 95) || (n =? 36) || (128 <=? n).
Fixpoint no_dot (s : string) : bool :=
  match s with EmptyString => true | String c s' => negb (nat_of_ascii c =? 46) && no_dot s' end.
Definition ident (n : string) : bool :=
  match n with
  | EmptyString => false
  | String c _ => start_char c && is_empty (snd (span_name n)) && no_dot n
  end.
(** Parts of a qualified name *)
Fixpoint dot_parts (acc s : string) : list string :=
  match s with
  | EmptyString => [acc]
  | String c s' => if nat_of_ascii c =? 46 then acc :: dot_parts EmptyString s'
                   else dot_parts (acc +++ String c EmptyString) s'
  end.
Definition qualified (n : string) : bool := forallb ident (dot_parts EmptyString n).

(** Words that cannot be used as a type reference on their own *)
Definition keywords : list string :=
  ["break"; "case"; "catch"; "class"; "const"; "continue"; "debugger"; "default"; "delete"; "do"; "else";
   "enum"; "export"; "extends"; "false"; "finally"; "for"; "function"; "if"; "import"; "in"; "instanceof";
   "new"; "null"; "return"; "super"; "switch"; "this"; "throw"; "true"; "try"; "typeof"; "var"; "void";
   "while"; "with"; "implements"; "interface"; "let"; "package"; "private"; "protected"; "public"; "static";
   "yield"; "await"; "keyof"; "unique"; "infer"; "readonly"; "asserts"; "abstract"].
(** Predefined types, which cannot be declared or imported *)
Definition predefined : list string :=
  ["any"; "unknown"; "never"; "number"; "bigint"; "boolean"; "string"; "symbol"; "object"; "undefined"].
Definition ref_name (n : string) : bool := qualified n && negb (existsb (String.eqb n) keywords).
Definition binder (n : string) : bool :=
  ident n && negb (existsb (String.eqb n) (keywords ++ predefined)).

(** ** Parsing *)
Fixpoint p_arrs (e : texpr) (ts : list token) {struct ts} : texpr * list token :=
  match ts with
  | TP PLBrack :: TP PRBrack :: r => p_arrs (XArr e) r
  | _ => (e, ts)
  end.
Fixpoint p_union (fuel : nat) (ts : list token) : option (texpr * list token) :=
  match fuel with
  | O => None
  | S f => match p_post f ts with Some (e, r) => p_alts f e r | None => None end
  end
with p_alts (fuel : nat) (e : texpr) (ts : list token) : option (texpr * list token) :=
  match fuel with
  | O => None
  | S f => match ts with
           | TP PBar :: r => match p_post f r with Some (e', r') => p_alts f (XUnion e e') r' | None => None end
           | _ => Some (e, ts)
           end
  end
with p_post (fuel : nat) (ts : list token) : option (texpr * list token) :=
  match fuel with
  | O => None
  | S f => match p_prim f ts with Some (e, r) => Some (p_arrs e r) | None => None end
  end
with p_prim (fuel : nat) (ts : list token) : option (texpr * list token) :=
  match fuel with
  | O => None
  | S f =>
      match ts with
      | TP PLParen :: r =>
          match p_union f r with Some (e, TP PRParen :: r') => Some (XParen e, r') | _ => None end
      | TStr l :: r => Some (XLit l, r)
      | TId n :: r => if String.eqb n "null" then Some (XNull, r)
                      else if ref_name n then Some (XName n, r) else None
      | _ => None
      end
  end.

(** A property of an object type; the name may be any word, [readonly] included *)
Definition p_member (fuel : nat) (ts : list token) : option (member * list token) :=
  let finish ro n opt r :=
    if ident n then
      match p_union fuel r with
      | Some (e, TP PSemi :: r') =>
          Some ({| m_comment := ""; m_readonly := ro; m_name := n; m_optional := opt; m_type := e |}, r')
      | _ => None
      end
    else None in
  match ts with
  | TId n :: TP PColon :: r => finish false n false r
  | TId n :: TP PQuest :: TP PColon :: r => finish false n true r
  | TId w :: TId n :: TP PColon :: r => if String.eqb w "readonly" then finish true n false r else None
  | TId w :: TId n :: TP PQuest :: TP PColon :: r => if String.eqb w "readonly" then finish true n true r else None
  | _ => None
  end.
Fixpoint p_members (fuel : nat) (ts : list token) : option (list member * list token) :=
  match fuel with
  | O => None
  | S f =>
      match ts with
      | TP PRBrace :: r => Some ([], r)
      | _ => match p_member f ts with
             | Some (m, r) => match p_members f r with Some (ms, r') => Some (m :: ms, r') | None => None end
             | None => None
             end
      end
  end.

(** One or more names *)
Fixpoint p_names (ok : string -> bool) (sep : punct -> bool) (ts : list token) : option (list string * list token) :=
  match ts with
  | TId n :: r =>
      if ok n then
        match r with
        | TP p :: r' => if sep p then match p_names ok sep r' with Some (ns, q) => Some (n :: ns, q) | None => None end
                        else Some ([n], r)
        | _ => Some ([n], r)
        end
      else None
  | _ => None
  end.
Definition is_comma (p : punct) : bool := match p with PComma => true | _ => false end.
Definition is_bar (p : punct) : bool := match p with PBar => true | _ => false end.

(** Members of an enum, each followed by a comma *)
Fixpoint p_enum (ts : list token) : option (list (string * string) * list token) :=
  match ts with
  | TP PRBrace :: r => Some ([], r)
  | TId n :: TP PEq :: TStr v :: TP PComma :: r =>
      if ident n then match p_enum r with Some (l, r') => Some ((n, v) :: l, r') | None => None end else None
  | _ => None
  end.

(** Statements *)
Inductive item :=
| ItImport (names : list string) (from : string)          (* import type { A, B } from "m"; *)
| ItType (d : decl)                                       (* export type N = ...; *)
| ItEnum (name : string) (members : list (string * string)) (* export enum N { A = "A", } *)
| ItConst (name node : string) (args : list string)       (* declare const x: N<A, B>; *)
| ItDefault (name : string).                              (* export default x; *)

Definition p_item (fuel : nat) (ts : list token) : option (item * list token) :=
  match ts with
  | TId a :: TId b :: r =>
      if String.eqb a "import" && String.eqb b "type" then
        match r with
        | TP PLBrace :: r1 =>
            match p_names binder is_comma r1 with
            | Some (ns, TP PRBrace :: TId w :: TStr m :: TP PSemi :: r2) =>
                if String.eqb w "from" then Some (ItImport ns m, r2) else None
            | _ => None
            end
        | _ => None
        end
      else if String.eqb a "export" && String.eqb b "type" then
        match r with
        | TId n :: TP PEq :: r0 =>
            if binder n then
              match r0 with
              | TP PLBrace :: r1 =>
                  match p_members fuel r1 with
                  | Some (ms, TP PSemi :: r2) => Some (ItType (DObj n ms), r2)
                  | _ => None
                  end
              | _ =>
                  match p_names ref_name is_bar r0 with
                  | Some (ns, TP PSemi :: r2) => Some (ItType (DAlias n ns), r2)
                  | _ => None
                  end
              end
            else None
        | _ => None
        end
      else if String.eqb a "export" && String.eqb b "enum" then
        match r with
        | TId n :: TP PLBrace :: r1 =>
            if binder n then match p_enum r1 with Some (l, r2) => Some (ItEnum n l, r2) | None => None end else None
        | _ => None
        end
      else if String.eqb a "export" && String.eqb b "default" then
        match r with
        | TId n :: TP PSemi :: r1 => if ident n then Some (ItDefault n, r1) else None
        | _ => None
        end
      else if String.eqb a "declare" && String.eqb b "const" then
        match r with
        | TId x :: TP PColon :: TId n :: TP PLt :: r1 =>
            if binder x && ref_name n then
              match p_names ref_name is_comma r1 with
              | Some (ns, TP PGt :: TP PSemi :: r2) => Some (ItConst x n ns, r2)
              | _ => None
              end
            else None
        | _ => None
        end
      else None
  | _ => None
  end.
Fixpoint p_items (fuel : nat) (ts : list token) : option (list item) :=
  match fuel with
  | O => None
  | S f =>
      match ts with
      | [] => Some []
      | _ => match p_item f ts with Some (i, r) => ocons i (p_items f r) | None => None end
      end
  end.

(** The text [s] is a module consisting of the statements [is] *)
Definition read_module (s : string) (is : list item) : Prop :=
  exists ts, lexes s ts /\ exists fuel, p_items fuel ts = Some is.

(** The statements of a module tree *)
Definition bare_member (m : member) : member :=
  {| m_comment := ""; m_readonly := m_readonly m; m_name := m_name m; m_optional := m_optional m; m_type := m_type m |}.
Definition bare_decl (d : decl) : decl :=
  match d with DObj n ms => DObj n (List.map bare_member ms) | DAlias n l => DAlias n l end.
Definition tsfile_items (m : tsfile) : list item :=
  ItImport [tf_node m] (tf_node_from m)
  :: (match tf_globals m with [] => [] | gs => [ItImport gs (tf_globals_from m)] end)
  ++ List.map (fun d => ItType (bare_decl d)) (tf_decls m)
  ++ [ItConst "graphqlDocument" (tf_node m) (tf_args m); ItDefault "graphqlDocument"].
