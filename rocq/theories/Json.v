(** Model of the text level of serde_json 1.0.107 (crates.io; de.rs, read.rs), as used by [from_reader] for
    the schema file (src/graphql/schema/json.rs:47-52) and the configuration file (src/cli.rs:359-366).
    serde_json decodes while it reads; since every error ends the decoding, that is the same as reading the
    whole text first and decoding then, except for the text of the error.  Values that the decoder ignores
    are checked less: their strings need not be UTF-8 and may hold lone surrogates.  Hence strings are first
    kept as written, and a string (or an object with a key) that cannot be decoded becomes [JBad], which only
    an ignored place accepts. *)
From Verif Require Export Decode Args.
From Coq Require Export NArith.

(** ** Tokens *)
Inductive jtoken : Type :=
| KOpenObj | KCloseObj | KOpenArr | KCloseArr | KColon | KComma
| KNull | KTrue | KFalse | KNum (text : string) | KStr (body : string).

(** Characters by code *)
Definition code (c : ascii) : N := N_of_ascii c.
Definition is_digit (c : ascii) : bool := N.leb 48 (code c) && N.leb (code c) 57.
Definition hex_digit (c : ascii) : option N :=
  let n := code c in
  if N.leb 48 n && N.leb n 57 then Some (n - 48)%N
  else if N.leb 65 n && N.leb n 70 then Some (n - 55)%N
  else if N.leb 97 n && N.leb n 102 then Some (n - 87)%N
  else None.
Definition is_hex (c : ascii) : bool := match hex_digit c with Some _ => true | None => false end.
(** de.rs [parse_whitespace] *)
Definition is_space (c : ascii) : bool :=
  let n := code c in N.eqb n 32 || N.eqb n 10 || N.eqb n 9 || N.eqb n 13.
(** read.rs [parse_escape], [ignore_escape]: the characters after a backslash, other than u *)
Definition short_escape (c : ascii) : option ascii :=
  let n := code c in
  if N.eqb n 34 then Some c else if N.eqb n 92 then Some c else if N.eqb n 47 then Some c
  else if N.eqb n 98 then Some (ascii_of_nat 8) else if N.eqb n 102 then Some (ascii_of_nat 12)
  else if N.eqb n 110 then Some (ascii_of_nat 10) else if N.eqb n 114 then Some (ascii_of_nat 13)
  else if N.eqb n 116 then Some (ascii_of_nat 9) else None.

(** Where the reader is inside a number (de.rs [parse_integer], [parse_decimal], [parse_exponent] and their
    ignoring twins): after the sign, a leading zero, other digits, the point, digits after it, the e, its
    sign, its digits *)
Inductive numpart : Type := NSign | NZero | NInt | NPoint | NFrac | NExpo | NExpoSign | NExpoInt.
Definition num_step (p : numpart) (c : ascii) : option numpart :=
  let e := N.eqb (code c) 101 || N.eqb (code c) 69 in
  let point := N.eqb (code c) 46 in
  match p with
  | NSign => if N.eqb (code c) 48 then Some NZero else if is_digit c then Some NInt else None
  | NZero => if point then Some NPoint else if e then Some NExpo else None
  | NInt => if is_digit c then Some NInt else if point then Some NPoint else if e then Some NExpo else None
  | NPoint => if is_digit c then Some NFrac else None
  | NFrac => if is_digit c then Some NFrac else if e then Some NExpo else None
  | NExpo => if is_digit c then Some NExpoInt
             else if N.eqb (code c) 43 || N.eqb (code c) 45 then Some NExpoSign else None
  | NExpoSign => if is_digit c then Some NExpoInt else None
  | NExpoInt => if is_digit c then Some NExpoInt else None
  end.
Definition num_end (p : numpart) : bool :=
  match p with NZero | NInt | NFrac | NExpoInt => true | _ => false end.

(** States of the reader: between tokens, in a word (what is missing, and the token), in a number (text so
    far), in a string (text so far), after its backslash, with [n] hex digits missing *)
Inductive lexer : Type :=
| LBetween
| LWord (missing : string) (t : jtoken)
| LNum (p : numpart) (text : string)
| LStr (body : string)
| LEscape (body : string)
| LHex (n : nat) (body : string).

Definition lex_between (c : ascii) : option (list jtoken * lexer) :=
  let n := code c in
  if is_space c then Some ([], LBetween)
  else if N.eqb n 123 then Some ([KOpenObj], LBetween)
  else if N.eqb n 125 then Some ([KCloseObj], LBetween)
  else if N.eqb n 91 then Some ([KOpenArr], LBetween)
  else if N.eqb n 93 then Some ([KCloseArr], LBetween)
  else if N.eqb n 58 then Some ([KColon], LBetween)
  else if N.eqb n 44 then Some ([KComma], LBetween)
  else if N.eqb n 34 then Some ([], LStr "")
  else if N.eqb n 110 then Some ([], LWord "ull" KNull)
  else if N.eqb n 116 then Some ([], LWord "rue" KTrue)
  else if N.eqb n 102 then Some ([], LWord "alse" KFalse)
  else if N.eqb n 45 then Some ([], LNum NSign (String c ""))
  else if N.eqb n 48 then Some ([], LNum NZero (String c ""))
  else if is_digit c then Some ([], LNum NInt (String c ""))
  else None.

(** One character.  A number ends at the first character that does not continue it; a digit after a leading
    zero is an error. *)
Definition lex_step (st : lexer) (c : ascii) : option (list jtoken * lexer) :=
  match st with
  | LBetween => lex_between c
  | LWord (String x more) t =>
      if Ascii.eqb x c then Some (match more with EmptyString => ([t], LBetween) | _ => ([], LWord more t) end)
      else None
  | LWord EmptyString _ => None
  | LNum p text =>
      match num_step p c with
      | Some p' => Some ([], LNum p' (text +++ String c ""))
      | None =>
          if num_end p && negb (is_digit c) then
            match lex_between c with Some (ts, st') => Some (KNum text :: ts, st') | None => None end
          else None
      end
  | LStr body =>
      if N.eqb (code c) 34 then Some ([KStr body], LBetween)
      else if N.eqb (code c) 92 then Some ([], LEscape (body +++ String c ""))
      else if N.ltb (code c) 32 then None
      else Some ([], LStr (body +++ String c ""))
  | LEscape body =>
      if N.eqb (code c) 117 then Some ([], LHex 4 (body +++ String c ""))
      else match short_escape c with
           | Some _ => Some ([], LStr (body +++ String c ""))
           | None => None
           end
  | LHex n body =>
      if is_hex c then
        Some ([], match n with S (S k) => LHex (S k) (body +++ String c "") | _ => LStr (body +++ String c "") end)
      else None
  end.
Definition lex_end (st : lexer) : option (list jtoken) :=
  match st with
  | LBetween => Some []
  | LNum p text => if num_end p then Some [KNum text] else None
  | _ => None
  end.
Fixpoint jlex (st : lexer) (s : string) : option (list jtoken) :=
  match s with
  | EmptyString => lex_end st
  | String c s' =>
      match lex_step st c with
      | None => None
      | Some (ts, st') => match jlex st' s' with Some more => Some (ts ++ more) | None => None end
      end
  end.

(** ** Values, with strings as written *)
Inductive jtree : Type :=
| RNull | RBool (b : bool) | RNum (text : string) | RStr (body : string)
| RArr (l : list jtree) | RObj (l : list (string * jtree)).

(** Containers being read: an array, an object, an object after a key *)
Inductive frame : Type := FArr (l : list jtree) | FObj (l : list (string * jtree)) | FKey (l : list (string * jtree)) (k : string).
(** A value must follow; a value or the end of the array; a comma or the end; a key; a key or the end; a
    colon; nothing *)
Inductive pstate : Type :=
| PValue (st : list frame) | PFirst (st : list frame) | PAfter (st : list frame)
| PKey (st : list frame) | PFirstKey (st : list frame) | PColon (st : list frame) | PEnd (r : jtree).

Definition p_complete (v : jtree) (st : list frame) : option pstate :=
  match st with
  | [] => Some (PEnd v)
  | FArr l :: s => Some (PAfter (FArr (l ++ [v]) :: s))
  | FKey l k :: s => Some (PAfter (FObj (l ++ [(k, v)]) :: s))
  | FObj _ :: _ => None
  end.
Definition p_value (st : list frame) (t : jtoken) : option pstate :=
  match t with
  | KNull => p_complete RNull st
  | KTrue => p_complete (RBool true) st
  | KFalse => p_complete (RBool false) st
  | KNum x => p_complete (RNum x) st
  | KStr x => p_complete (RStr x) st
  | KOpenArr => Some (PFirst (FArr [] :: st))
  | KOpenObj => Some (PFirstKey (FObj [] :: st))
  | _ => None
  end.
(** de.rs [deserialize_any], SeqAccess, MapAccess, [ignore_value]: no comma before a closing bracket *)
Definition p_step (ps : pstate) (t : jtoken) : option pstate :=
  match ps, t with
  | PValue st, _ => p_value st t
  | PFirst (FArr l :: s), KCloseArr => p_complete (RArr l) s
  | PFirst st, _ => p_value st t
  | PAfter (FArr l :: s), KComma => Some (PValue (FArr l :: s))
  | PAfter (FArr l :: s), KCloseArr => p_complete (RArr l) s
  | PAfter (FObj l :: s), KComma => Some (PKey (FObj l :: s))
  | PAfter (FObj l :: s), KCloseObj => p_complete (RObj l) s
  | PFirstKey (FObj l :: s), KCloseObj => p_complete (RObj l) s
  | PFirstKey (FObj l :: s), KStr k => Some (PColon (FKey l k :: s))
  | PKey (FObj l :: s), KStr k => Some (PColon (FKey l k :: s))
  | PColon st, KColon => Some (PValue st)
  | _, _ => None
  end.
Fixpoint p_run (ps : pstate) (ts : list jtoken) : option jtree :=
  match ts with
  | [] => match ps with PEnd r => Some r | _ => None end
  | t :: ts' => match p_step ps t with Some ps' => p_run ps' ts' | None => None end
  end.
Definition parse_tree (text : string) : option jtree :=
  match jlex LBetween text with Some ts => p_run (PValue []) ts | None => None end.

(** ** Strings *)

(** read.rs [decode_hex_escape] *)
Definition hex4 (a b c d : ascii) : option N :=
  match hex_digit a, hex_digit b, hex_digit c, hex_digit d with
  | Some x, Some y, Some z, Some w => Some (((x * 16 + y) * 16 + z) * 16 + w)%N
  | _, _, _, _ => None
  end.
Definition byte (n : N) : string := String (ascii_of_N n) "".
(** char::encode_utf8 *)
Definition utf8 (n : N) : string :=
  (if n <? 128 then byte n
   else if n <? 2048 then byte (192 + n / 64) +++ byte (128 + n mod 64)
   else if n <? 65536 then byte (224 + n / 4096) +++ byte (128 + n / 64 mod 64) +++ byte (128 + n mod 64)
   else byte (240 + n / 262144) +++ byte (128 + n / 4096 mod 64) +++ byte (128 + n / 64 mod 64)
        +++ byte (128 + n mod 64))%N.
Definition high_surrogate (n : N) : bool := (55296 <=? n)%N && (n <=? 56319)%N.
Definition low_surrogate (n : N) : bool := (56320 <=? n)%N && (n <=? 57343)%N.

(** read.rs [parse_str_bytes], [parse_escape]: the bytes of a string that was written as [body] *)
Fixpoint unescape (body : string) : option string :=
  match body with
  | EmptyString => Some ""
  | String x r =>
      if N.eqb (code x) 92 then
        match r with
        | EmptyString => None
        | String y r1 =>
            if N.eqb (code y) 117 then
              match r1 with
              | String a (String b (String c (String d r2))) =>
                  match hex4 a b c d with
                  | None => None
                  | Some n =>
                      if low_surrogate n then None
                      else if high_surrogate n then
                        match r2 with
                        | String x' (String y' (String a' (String b' (String c' (String d' r3))))) =>
                            if N.eqb (code x') 92 && N.eqb (code y') 117 then
                              match hex4 a' b' c' d' with
                              | Some m => if low_surrogate m
                                          then option_map (String.append (utf8 ((n - 55296) * 1024 + (m - 56320) + 65536)%N)) (unescape r3)
                                          else None
                              | None => None
                              end
                            else None
                        | _ => None
                        end
                      else option_map (String.append (utf8 n)) (unescape r2)
                  end
              | _ => None
              end
            else match short_escape y with
                 | Some z => option_map (String z) (unescape r1)
                 | None => None
                 end
        end
      else option_map (String x) (unescape r)
  end.

(** core::str::from_utf8 *)
Definition tail_byte (c : ascii) : bool := (128 <=? code c)%N && (code c <=? 191)%N.
Definition in_range (lo hi : N) (c : ascii) : bool := (lo <=? code c)%N && (code c <=? hi)%N.
Fixpoint utf8_valid (s : string) : bool :=
  match s with
  | EmptyString => true
  | String a r =>
      let n := code a in
      if (n <? 128)%N then utf8_valid r
      else if in_range 194 223 a then
        match r with String b r' => tail_byte b && utf8_valid r' | _ => false end
      else if in_range 224 239 a then
        match r with
        | String b (String c r') =>
            in_range (if (n =? 224)%N then 160 else 128)%N (if (n =? 237)%N then 159 else 191)%N b && tail_byte c && utf8_valid r'
        | _ => false
        end
      else if in_range 240 244 a then
        match r with
        | String b (String c (String d r')) =>
            in_range (if (n =? 240)%N then 144 else 128)%N (if (n =? 244)%N then 143 else 191)%N b && tail_byte c
            && tail_byte d && utf8_valid r'
        | _ => false
        end
      else false
  end.
(** read.rs [parse_str] *)
Definition json_string (body : string) : option string :=
  match unescape body with Some s => if utf8_valid s then Some s else None | None => None end.

(** ** Values as the decoder sees them *)

(** de.rs [parse_any_number]: digits only that fit 64 bits are a usize *)
Definition json_number (text : string) : json :=
  match read_digits 0 text with Some n => JNat (N.to_nat n) | None => JNum text end.
Fixpoint cook (r : jtree) : json :=
  match r with
  | RNull => JNull
  | RBool b => JBool b
  | RNum t => json_number t
  | RStr b => match json_string b with Some s => JStr s | None => JBad end
  | RArr l => JArr (List.map cook l)
  | RObj l =>
      match (fix go (l : list (string * jtree)) : option (list (string * json)) :=
               match l with
               | [] => Some []
               | (k, v) :: l' => match json_string k, go l' with
                                 | Some k', Some m => Some ((k', cook v) :: m)
                                 | _, _ => None
                                 end
               end) l with
      | Some m => JObj m
      | None => JBad
      end
  end.
Definition read_json (text : string) : option json := option_map cook (parse_tree text).

(** de.rs [check_recursion]: at most 127 values within each other may be decoded; a field's type is the 8th
    (data, __schema, types, the type, fields, the field being around it) *)
Fixpoint type_height (t : jtype) : nat :=
  match t with JT _ _ None => 1 | JT _ _ (Some u) => S (type_height u) end.
Definition shallow (js : jschema) : bool :=
  forallb (fun t => forallb (fun f => type_height (jf_type f) <=? 120)
                            (opt_get (jt_fields t) [] ++ opt_get (jt_input_fields t) [])) js.

(** json.rs:47-52 [try_from_reader] and cli.rs:359-366, on the contents of the file; [e] = serde's error text *)
Definition schema_of_text (e text : string) : schema_read :=
  match read_json text with
  | None => SRJsonError e
  | Some j => match d_schema j with
              | Some js => if shallow js then SRDecoded js else SRJsonError e
              | None => SRJsonError e
              end
  end.
Definition config_of_text (e text : string) : config_read :=
  match read_json text with Some j => config_from e j | None => CRDecodeError e end.
