(** Model of the reader of GraphQL documents: [graphql_parser::parse_query] of graphql-parser 0.4.0, called in
    src/graphql.rs:71 (crate, not part of /repo; tokenizer.rs, common.rs and query/grammar.rs are followed).
    The crate reads tokens on demand; since a document is accepted only if all of its text is read, that is
    the same as reading all tokens first.  Parameters: which numbers and which escapes in strings are accepted (these
    only occur in arguments and default values).  Not modelled: the texts of errors. *)
From Verif Require Export Ast Json.

(** What common.rs [int_value], [float_value], [string] and tokenizer.rs [check_int], [check_float] accept *)
Record gql_checks := { gk_number : string -> bool; gk_string : string -> bool }.

(** The punctuators: ! $ & ( ) ... : = @ [ ] { | } *)
Inductive gpunct : Type :=
| GBang | GDollar | GAmp | GOpen | GClose | GDots | GColon | GEquals | GAt | GOpenBr | GCloseBr | GOpenCu | GBar | GCloseCu.
Definition punct_text (q : gpunct) : string :=
  match q with
  | GBang => "!" | GDollar => "$" | GAmp => "&" | GOpen => "(" | GClose => ")" | GDots => "..." | GColon => ":"
  | GEquals => "=" | GAt => "@" | GOpenBr => "[" | GCloseBr => "]" | GOpenCu => "{" | GBar => "|" | GCloseCu => "}"
  end.
(** tokenizer.rs [Kind] and the text; strings without their quotes *)
Inductive gtoken : Type := GPunct (q : gpunct) | GName (s : string) | GNum (s : string) | GString (s : string) | GBlock (s : string).
Definition ptok : Type := pos * gtoken.

Definition at_col (n : nat) (p : pos) : pos := {| pos_line := pos_line p; pos_col := pos_col p + n |}.
Definition at_line (p : pos) : pos := {| pos_line := pos_line p + 1; pos_col := 1 |}.

(** tokenizer.rs [skip_whitespace]; [comment]: inside one.  The byte order mark is three bytes of UTF-8. *)
Fixpoint skip_blank (comment : bool) (s : string) (p : pos) : string * pos :=
  match s with
  | EmptyString => (s, p)
  | String c r =>
      if comment then
        if N.eqb (code c) 13 || N.eqb (code c) 10 then skip_blank false r (at_line p) else skip_blank true r p
      else if N.eqb (code c) 13 then skip_blank false r p
      else if N.eqb (code c) 9 then skip_blank false r (at_col 8 p)
      else if N.eqb (code c) 10 then skip_blank false r (at_line p)
      else if N.eqb (code c) 32 || N.eqb (code c) 44 then skip_blank false r (at_col 1 p)
      else if N.eqb (code c) 35 then skip_blank true r p
      else match r with
           | String d (String e r') =>
               if N.eqb (code c) 239 && N.eqb (code d) 187 && N.eqb (code e) 191 then skip_blank false r' p else (s, p)
           | _ => (s, p)
           end
  end.

(** tokenizer.rs [take_token] *)
Definition gname_start (c : ascii) : bool :=
  let n := code c in N.eqb n 95 || (N.leb 97 n && N.leb n 122) || (N.leb 65 n && N.leb n 90).
Definition gname_char (c : ascii) : bool := gname_start c || is_digit c.
(** The characters that end a number *)
Definition ends_number (c : ascii) : bool :=
  existsb (N.eqb (code c)) [32; 10; 13; 9; 44; 35; 33; 36; 58; 61; 64; 124; 38; 40; 41; 91; 93; 123; 125]%N.
Definition single_punct (c : ascii) : option gpunct :=
  let n := code c in
  if N.eqb n 33 then Some GBang else if N.eqb n 36 then Some GDollar else if N.eqb n 38 then Some GAmp
  else if N.eqb n 40 then Some GOpen else if N.eqb n 41 then Some GClose else if N.eqb n 58 then Some GColon
  else if N.eqb n 61 then Some GEquals else if N.eqb n 64 then Some GAt else if N.eqb n 91 then Some GOpenBr
  else if N.eqb n 93 then Some GCloseBr else if N.eqb n 123 then Some GOpenCu else if N.eqb n 124 then Some GBar
  else if N.eqb n 125 then Some GCloseCu else None.
Fixpoint span (f : ascii -> bool) (s : string) : string * string :=
  match s with
  | EmptyString => ("", "")
  | String c r => if f c then let (a, b) := span f r in (String c a, b) else ("", s)
  end.
(** After an opening quote: the text up to the closing one, and what follows *)
Fixpoint string_end (escaped : bool) (s : string) : option (string * string) :=
  match s with
  | EmptyString => None
  | String c r =>
      let go e := option_map (fun x => (String c (fst x), snd x)) (string_end e r) in
      if N.eqb (code c) 34 then if escaped then go false else Some ("", r)
      else if N.eqb (code c) 10 then None
      else go (negb escaped && N.eqb (code c) 92)
  end.
(** After three opening quotes; [slash]: the character before is a backslash *)
Fixpoint block_end (slash : bool) (s : string) : option (string * string) :=
  match s with
  | EmptyString => None
  | String c r =>
      let go := option_map (fun x => (String c (fst x), snd x)) (block_end (N.eqb (code c) 92) r) in
      match r with
      | String d (String e r') =>
          if N.eqb (code c) 34 && N.eqb (code d) 34 && N.eqb (code e) 34 then
            if slash then option_map (fun x => (String c (String d (String e (fst x))), snd x)) (block_end false r')
            else Some ("", r')
          else go
      | _ => go
      end
  end.
Definition take_token (ck : gql_checks) (s : string) : option (gtoken * string) :=
  match s with
  | EmptyString => None
  | String c r =>
      match single_punct c with
      | Some q => Some (GPunct q, r)
      | None =>
          if N.eqb (code c) 46 then
            match r with
            | String d (String e r') => if N.eqb (code d) 46 && N.eqb (code e) 46 then Some (GPunct GDots, r') else None
            | _ => None
            end
          else if gname_start c then let (a, b) := span gname_char r in Some (GName (String c a), b)
          else if N.eqb (code c) 45 || is_digit c then
            let (a, b) := span (fun d => negb (ends_number d)) r in
            if gk_number ck (String c a) then Some (GNum (String c a), b) else None
          else if N.eqb (code c) 34 then
            let plain := match string_end false r with
                         | Some (a, b) => if gk_string ck a then Some (GString a, b) else None
                         | None => None
                         end in
            match r with
            | String d (String e r') =>
                if N.eqb (code d) 34 && N.eqb (code e) 34
                then match block_end false r' with Some (a, b) => Some (GBlock a, b) | None => None end
                else plain
            | _ => plain
            end
          else None
      end
  end.

(** tokenizer.rs [update_position]: characters, not bytes *)
Fixpoint chars (s : string) : nat :=
  match s with
  | EmptyString => 0
  | String c r => (if tail_byte c then 0 else 1) + chars r
  end.
Fixpoint move_over (s : string) (p : pos) : pos :=
  match s with
  | EmptyString => p
  | String c r => move_over r (if N.eqb (code c) 10 then at_line p else if tail_byte c then p else at_col 1 p)
  end.
Definition after_token (t : gtoken) (p : pos) : pos :=
  match t with
  | GPunct q => at_col (chars (punct_text q)) p
  | GName s | GNum s => at_col (chars s) p
  | GString s => at_col (2 + chars s) p
  | GBlock s => at_col 3 (move_over s (at_col 3 p))
  end.

(** tokenizer.rs: [recursion_limit], which is what is left of 50 *)
Definition nest (left : nat) (t : gtoken) : option nat :=
  match t with
  | GPunct GOpen | GPunct GOpenBr | GPunct GOpenCu => match left with O => None | S n => Some n end
  | GPunct GClose | GPunct GCloseBr | GPunct GCloseCu => Some (S left)
  | _ => Some left
  end.

(** All tokens of a text that starts with one; [None] = an error (or out of fuel) *)
Fixpoint glex (fuel : nat) (ck : gql_checks) (left : nat) (s : string) (p : pos) : option (list ptok) :=
  match s with
  | EmptyString => Some []
  | _ =>
      match fuel with
      | O => None
      | S k =>
          match take_token ck s with
          | None => None
          | Some (t, r) =>
              match nest left t with
              | None => None
              | Some left' =>
                  let (s', p') := skip_blank false r (after_token t p) in
                  option_map (cons (p, t)) (glex k ck left' s' p')
              end
          end
      end
  end.
Definition gql_tokens (ck : gql_checks) (text : string) : option (list ptok) :=
  let (s, p) := skip_blank false text {| pos_line := 1; pos_col := 1 |} in
  glex (String.length s) ck 50 s p.

(** combine's [many] for items that are recognised by their first token *)
Fixpoint many {A} (fuel : nat) (starts : gtoken -> bool) (item : list ptok -> option (A * list ptok)) (ts : list ptok)
  : option (list A * list ptok) :=
  match ts with
  | [] => Some ([], [])
  | t :: _ =>
      if starts (snd t) then
        match fuel with
        | O => None
        | S k => match item ts with
                 | None => None
                 | Some (a, r) => match many k starts item r with Some (l, r') => Some (a :: l, r') | None => None end
                 end
        end
      else Some ([], ts)
  end.

Definition is_gname (t : gtoken) : bool := match t with GName _ => true | _ => false end.
(** common.rs [value], and [default_value] ([const]), as the tokens they consist of *)
Definition starts_value (const : bool) (t : gtoken) : bool :=
  match t with GPunct GOpenBr | GPunct GOpenCu => true | GPunct GDollar => negb const | GPunct _ => false | _ => true end.
Fixpoint gp_value (fuel : nat) (const : bool) (ts : list ptok) : option (list gtoken * list ptok) :=
  match fuel with
  | O => None
  | S k =>
      match ts with
      | (_, GPunct GDollar) :: (_, GName n) :: r => if const then None else Some ([GPunct GDollar; GName n], r)
      | (_, GPunct GOpenBr) :: r =>
          match many (List.length r) (starts_value const) (gp_value k const) r with
          | Some (vs, (_, GPunct GCloseBr) :: r') => Some (GPunct GOpenBr :: List.concat vs ++ [GPunct GCloseBr], r')
          | _ => None
          end
      | (_, GPunct GOpenCu) :: r =>
          match many (List.length r) is_gname
                     (fun ts => match ts with
                                | (_, GName f) :: (_, GPunct GColon) :: r =>
                                    match gp_value k const r with
                                    | Some (v, r') => Some (GName f :: GPunct GColon :: v, r')
                                    | None => None
                                    end
                                | _ => None
                                end) r with
          | Some (vs, (_, GPunct GCloseCu) :: r') => Some (GPunct GOpenCu :: List.concat vs ++ [GPunct GCloseCu], r')
          | _ => None
          end
      | (_, GPunct _) :: _ => None
      | (_, t) :: r => Some ([t], r)
      | [] => None
      end
  end.
Definition token_text (t : gtoken) : string :=
  match t with
  | GPunct q => punct_text q
  | GName s | GNum s => s
  | GString s => """" +++ s +++ """"
  | GBlock s => """""""" +++ s +++ """"""""
  end.
(** The syntax tree keeps values as text *)
Definition source_text (ts : list gtoken) : string := join " " (List.map token_text ts).

(** common.rs [parse_type] *)
Fixpoint gp_type (fuel : nat) (ts : list ptok) : option (vartype * list ptok) :=
  match fuel with
  | O => None
  | S k =>
      let non_null t r := match r with (_, GPunct GBang) :: r' => Some (VTNonNull t, r') | _ => Some (t, r) end in
      match ts with
      | (_, GName n) :: r => non_null (VTNamed n) r
      | (_, GPunct GOpenBr) :: r => match gp_type k r with
                                | Some (t, (_, GPunct GCloseBr) :: r') => non_null (VTList t) r'
                                | _ => None
                                end
      | _ => None
      end
  end.

(** common.rs [arguments], [directives] *)
Definition gp_arg (ts : list ptok) : option (string * string * list ptok) :=
  match ts with
  | (_, GName n) :: (_, GPunct GColon) :: r =>
      match gp_value (List.length r) false r with Some (v, r') => Some (n, source_text v, r') | None => None end
  | _ => None
  end.
Definition gp_args (ts : list ptok) : option (arguments * list ptok) :=
  match ts with
  | (_, GPunct GOpen) :: r =>
      match many (List.length r) is_gname gp_arg r with
      | Some ((_ :: _) as l, (_, GPunct GClose) :: r') => Some (l, r')
      | _ => None
      end
  | _ => Some ([], ts)
  end.
Definition gp_directive (ts : list ptok) : option (directive * list ptok) :=
  match ts with
  | (_, GPunct GAt) :: (_, GName n) :: r =>
      match gp_args r with Some (l, r') => Some ({| dir_name := n; dir_args := l |}, r') | None => None end
  | _ => None
  end.
Definition gp_dirs (ts : list ptok) : option (list directive * list ptok) :=
  many (List.length ts) (fun t => match t with GPunct GAt => true | _ => false end) gp_directive ts.

(** query/grammar.rs [selection_set], [selection], [field] *)
Definition starts_selection (t : gtoken) : bool := match t with GName _ | GPunct GDots => true | _ => false end.
Definition gp_braces (sel : list ptok -> option (selection * list ptok)) (ts : list ptok) : option (list selection * list ptok) :=
  match ts with
  | (_, GPunct GOpenCu) :: r =>
      match many (List.length r) starts_selection sel r with
      | Some ((_ :: _) as l, (_, GPunct GCloseCu) :: r') => Some (l, r')
      | _ => None
      end
  | _ => None
  end.
Fixpoint gp_selection (fuel : nat) (ts : list ptok) : option (selection * list ptok) :=
  match fuel with
  | O => None
  | S k =>
      let field p alias n r :=
        match gp_args r with
        | None => None
        | Some (args, r1) =>
            match gp_dirs r1 with
            | None => None
            | Some (ds, r2) =>
                match r2 with
                | (_, GPunct GOpenCu) :: _ => match gp_braces (gp_selection k) r2 with
                                          | Some (sub, r3) => Some (SField p alias n args ds sub, r3)
                                          | None => None
                                          end
                | _ => Some (SField p alias n args ds [], r2)
                end
            end
        end in
      let inline p cond r :=
        match gp_dirs r with
        | None => None
        | Some (ds, r1) => match gp_braces (gp_selection k) r1 with
                           | Some (sub, r2) => Some (SInline p cond ds sub, r2)
                           | None => None
                           end
        end in
      match ts with
      | (p, GName a) :: (_, GPunct GColon) :: (_, GName n) :: r => field p (Some a) n r
      | (p, GName a) :: (_, GPunct GColon) :: _ => None
      | (p, GName n) :: r => field p None n r
      | (_, GPunct GDots) :: (p, GName n) :: r =>
          if String.eqb n "on" then match r with (_, GName c) :: r' => inline p (Some c) r' | _ => None end
          else match gp_dirs r with Some (ds, r') => Some (SSpread p n ds, r') | None => None end
      | (_, GPunct GDots) :: (p, t) :: r => inline p None ((p, t) :: r)
      | _ => None
      end
  end.
Definition gp_set (ts : list ptok) : option (list selection * list ptok) := gp_braces (gp_selection (List.length ts)) ts.

(** query/grammar.rs [operation_common]: variables *)
Definition gp_var (ts : list ptok) : option (vardef * list ptok) :=
  match ts with
  | (p, GPunct GDollar) :: (_, GName n) :: (_, GPunct GColon) :: r =>
      match gp_type (List.length r) r with
      | None => None
      | Some (t, (_, GPunct GEquals) :: r1) =>
          match gp_value (List.length r1) true r1 with
          | Some (v, r2) => Some ({| vd_pos := p; vd_name := n; vd_type := t; vd_default := Some (source_text v) |}, r2)
          | None => None
          end
      | Some (t, r1) => Some ({| vd_pos := p; vd_name := n; vd_type := t; vd_default := None |}, r1)
      end
  | _ => None
  end.
Definition gp_vars (ts : list ptok) : option (list vardef * list ptok) :=
  match ts with
  | (_, GPunct GOpen) :: r =>
      match many (List.length r) (fun t => match t with GPunct GDollar => true | _ => false end) gp_var r with
      | Some ((_ :: _) as l, (_, GPunct GClose) :: r') => Some (l, r')
      | _ => None
      end
  | _ => Some ([], ts)
  end.
Definition gp_operation (k : opkind) (p : pos) (ts : list ptok) : option (definition * list ptok) :=
  let (name, r) := match ts with (_, GName n) :: r => (Some n, r) | _ => (None, ts) end in
  match gp_vars r with
  | None => None
  | Some (vars, r1) =>
      match gp_dirs r1 with
      | None => None
      | Some (ds, r2) => match gp_set r2 with
                         | Some (sels, r3) => Some (DOp (OpNamed k p name vars ds sels), r3)
                         | None => None
                         end
      end
  end.
(** query/grammar.rs [definition] *)
Definition gp_fragment (p : pos) (ts : list ptok) : option (definition * list ptok) :=
  match ts with
  | (_, GName n) :: (_, GName on) :: (_, GName c) :: r =>
      if String.eqb on "on" then
        match gp_dirs r with
        | None => None
        | Some (ds, r1) =>
            match gp_set r1 with
            | Some (sels, r2) => Some (DFrag {| fr_pos := p; fr_name := n; fr_cond := c; fr_dirs := ds; fr_sels := sels |}, r2)
            | None => None
            end
        end
      else None
  | _ => None
  end.
Definition gp_definition (ts : list ptok) : option (definition * list ptok) :=
  match ts with
  | (p, GPunct GOpenCu) :: _ => match gp_set ts with Some (sels, r) => Some (DOp (OpSelectionSet p sels), r) | None => None end
  | (p, GName w) :: r =>
      if String.eqb w "query" then gp_operation KQuery p r
      else if String.eqb w "mutation" then gp_operation KMutation p r
      else if String.eqb w "subscription" then gp_operation KSubscription p r
      else if String.eqb w "fragment" then gp_fragment p r
      else None
  | _ => None
  end.
Definition gp_document (ts : list ptok) : option document :=
  match many (List.length ts) (fun _ => true) gp_definition ts with
  | Some ((_ :: _) as l, []) => Some l
  | _ => None
  end.
(** query/grammar.rs [parse_query] *)
Definition parse_query (ck : gql_checks) (text : string) : option document :=
  match gql_tokens ck text with Some ts => gp_document ts | None => None end.
