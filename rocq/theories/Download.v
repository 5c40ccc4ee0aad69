(** Model of pkg/npm/lib/download.js (the program qlc-download-schema), and of a server that answers its
    introspection query.  Not modelled: timing, interrupted transfers, errors while writing the file
    after it was opened, the text of error messages. *)
From Verif Require Export Decode Args.

(** A selection of a query: field name, whether it has the argument (includeDeprecated: true), sub-selections; no other
    arguments, fragments expanded *)
Inductive isel : Type := IS (name : string) (old : bool) (subs : list isel).
Definition leaf (n : string) : isel := IS n false [].

(** download.js:6-88: the template literal, line by line *)
Definition introspection_lines : list string :=
  ["  query IntrospectionQuery {";
   "    __schema {";
   "      queryType { name }";
   "      mutationType { name }";
   "      subscriptionType { name }";
   "      types {";
   "        ...FullType";
   "      }";
   "    }";
   "  }";
   "  fragment FullType on __Type {";
   "    kind";
   "    name";
   "    description";
   "    fields(includeDeprecated: true) {";
   "      name";
   "      description";
   "      args {";
   "        ...InputValue";
   "      }";
   "      type {";
   "        ...TypeRef";
   "      }";
   "    }";
   "    inputFields {";
   "      ...InputValue";
   "    }";
   "    interfaces {";
   "      ...TypeRef";
   "    }";
   "    enumValues(includeDeprecated: true) {";
   "      name";
   "      description";
   "    }";
   "    possibleTypes {";
   "      ...TypeRef";
   "    }";
   "  }";
   "  fragment InputValue on __InputValue {";
   "    name";
   "    description";
   "    type { ...TypeRef }";
   "    defaultValue";
   "  }";
   "  fragment TypeRef on __Type {";
   "    kind";
   "    name";
   "    ofType {";
   "      kind";
   "      name";
   "      ofType {";
   "        kind";
   "        name";
   "        ofType {";
   "          kind";
   "          name";
   "          ofType {";
   "            kind";
   "            name";
   "            ofType {";
   "              kind";
   "              name";
   "              ofType {";
   "                kind";
   "                name";
   "                ofType {";
   "                  kind";
   "                  name";
   "                }";
   "              }";
   "            }";
   "          }";
   "        }";
   "      }";
   "    }";
   "  }"].
Definition introspection_text : string := join nl ("" :: introspection_lines ++ [""]).

(** JSON.stringify of a string (ECMAScript 2023, 25.5.2.3 QuoteJSONString); the text is UTF-8, without lone surrogates *)
Definition hex_low (n : nat) : ascii := ascii_of_nat (if Nat.ltb n 10 then 48 + n else 87 + n).
Definition js_char (c : ascii) : string :=
  let n := nat_of_ascii c in
  let back := ascii_of_nat 92 in
  let short (x : ascii) := String back (String x "") in
  if Nat.eqb n 8 then short "b"%char else if Nat.eqb n 9 then short "t"%char else if Nat.eqb n 10 then short "n"%char
  else if Nat.eqb n 12 then short "f"%char else if Nat.eqb n 13 then short "r"%char
  else if Nat.eqb n 34 || Nat.eqb n 92 then short c
  else if Nat.ltb n 32 then
    String back (String "u" (String "0" (String "0" (String (hex_low (n / 16)) (String (hex_low (n mod 16)) "")))))
  else String c "".
Fixpoint js_body (s : string) : string := match s with EmptyString => "" | String c s => js_char c +++ js_body s end.
Definition js_quote (s : string) : string := """" +++ js_body s +++ """".
(** download.js:119: JSON.stringify({ query: introspectionQuery }) *)
Definition request_body : string := "{" +++ js_quote "query" +++ ":" +++ js_quote introspection_text +++ "}".

(** What the server's schema is: the types as a complete introspection would tell them to qlc, and what
    qlc does not look at *)
Record server := {
  sv_types : jschema;
  sv_query : string; sv_mutation : option string; sv_subscription : option string;
  sv_args : string -> string -> list jfield;             (* type, field *)
  sv_default : jfield -> option string;
  sv_interfaces : string -> option (list string);
  sv_value_doc : string -> string -> option string;       (* enum, value *)
  sv_reason : jfield -> option string;
  sv_value_old : string -> string -> bool;                (* enum, value: it is deprecated *)
  sv_hides : bool     (* deprecated arguments and input fields exist, and are hidden without includeDeprecated (after October 2021) *)
}.

(** Objects of the introspection schema, and values of their fields (GraphQL specification, October 2021,
    section 4.2).  The introspection of a type as a reference ([OType]) is complete as far as the
    query asks. *)
Inductive iobj : Type :=
| ORoot | OSchema | OFull (t : jtypedef) | OType (t : jtype) | OField (parent : string) (f : jfield)
| OInput (f : jfield) | OValue (parent value : string).
Inductive ival : Type := VNull | VStr (s : string) | VBool (b : bool) | VObj (o : iobj) | VList (l : list iobj).

Definition v_str (o : option string) : ival := match o with None => VNull | Some s => VStr s end.
Definition v_list {A} (f : A -> iobj) (o : option (list A)) : ival :=
  match o with None => VNull | Some l => VList (List.map f l) end.
Definition v_ref (kind name : string) : iobj := OType (JT kind (Some name) None).
Definition v_flag (o : option bool) : ival := VBool (match o with Some b => b | None => false end).
Definition is (a b : string) : bool := String.eqb a b.

Definition current (f : jfield) : bool := match jf_deprecated f with Some b => negb b | None => true end.
(** Section 4.2.2: without includeDeprecated, deprecated fields and values are left out *)
Definition v_fields (old : bool) (l : list jfield) : list jfield := if old then l else filter current l.
Definition v_inputs (sv : server) (old : bool) (l : list jfield) : list jfield := v_fields (old || negb (sv_hides sv)) l.
Definition v_values (sv : server) (p : string) (old : bool) (l : list string) : list string :=
  if old then l else filter (fun v => negb (sv_value_old sv p v)) l.
Definition resolve (sv : server) (o : iobj) (n : string) (old : bool) : ival :=
  match o with
  | ORoot => if is n "__schema" then VObj OSchema else VNull
  | OSchema =>
      if is n "types" then VList (List.map OFull (sv_types sv))
      else if is n "queryType" then VObj (v_ref "OBJECT" (sv_query sv))
      else if is n "mutationType" then match sv_mutation sv with None => VNull | Some m => VObj (v_ref "OBJECT" m) end
      else if is n "subscriptionType" then match sv_subscription sv with None => VNull | Some m => VObj (v_ref "OBJECT" m) end
      else VNull
  | OFull t =>
      if is n "kind" then VStr (jt_kind t)
      else if is n "name" then VStr (jt_name t)
      else if is n "description" then v_str (jt_description t)
      else if is n "fields" then v_list (OField (jt_name t)) (option_map (v_fields old) (jt_fields t))
      else if is n "inputFields" then v_list OInput (option_map (v_inputs sv old) (jt_input_fields t))
      else if is n "interfaces" then v_list (v_ref "INTERFACE") (sv_interfaces sv (jt_name t))
      else if is n "enumValues" then v_list (OValue (jt_name t)) (option_map (v_values sv (jt_name t) old) (jt_enum_values t))
      else if is n "possibleTypes" then v_list (v_ref "OBJECT") (jt_possible_types t)
      else VNull
  | OType (JT k m o) =>
      if is n "kind" then VStr k
      else if is n "name" then v_str m
      else if is n "ofType" then match o with None => VNull | Some t => VObj (OType t) end
      else VNull
  | OField p f =>
      if is n "name" then VStr (jf_name f)
      else if is n "description" then v_str (jf_description f)
      else if is n "args" then VList (List.map OInput (v_inputs sv old (sv_args sv p (jf_name f))))
      else if is n "type" then VObj (OType (jf_type f))
      else if is n "isDeprecated" then v_flag (jf_deprecated f)
      else if is n "deprecationReason" then v_str (sv_reason sv f)
      else VNull
  | OInput f =>
      if is n "name" then VStr (jf_name f)
      else if is n "description" then v_str (jf_description f)
      else if is n "type" then VObj (OType (jf_type f))
      else if is n "defaultValue" then v_str (sv_default sv f)
      else if is n "isDeprecated" then v_flag (jf_deprecated f)
      else VNull
  | OValue p v =>
      if is n "name" then VStr v
      else if is n "description" then v_str (sv_value_doc sv p v)
      else VNull
  end.

(** Execution: one entry per selection, in order (no key is selected twice in this query) *)
Definition complete (run : iobj -> json) (v : ival) : json :=
  match v with
  | VNull => JNull
  | VStr s => JStr s
  | VBool b => JBool b
  | VObj o => run o
  | VList l => JArr (List.map run l)
  end.
Fixpoint execute (sv : server) (x : isel) (o : iobj) : string * json :=
  match x with
  | IS n old subs => (n, complete (fun o' => JObj (List.map (fun y => execute sv y o') subs)) (resolve sv o n old))
  end.
Definition answer (sv : server) (q : list isel) : json :=
  JObj [("data", JObj (List.map (fun x => execute sv x ORoot) q))].

(** download.js:90-127: what surrounds the script; bodies are JSON values or any other text *)
Inductive dl_response : Type := DStatus (code : nat) (body : string) | DError.
Record dl_env := {
  dl_url_ok : string -> bool;                       (* new URL(...) does not throw *)
  dl_post : string -> string -> dl_response;        (* POST to a URL with a body *)
  dl_open_ok : string -> bool;                      (* createWriteStream can open, hence empty, the file *)
  dl_open_first : bool;                             (* the file is opened before an early process.exit *)
  dl_unlink_ok : string -> bool
}.
(** The files: [None] = no such file *)
Definition files : Type := string -> option string.
Definition put (f : files) (p : string) (c : option string) : files := fun q => if String.eqb q p then c else f q.

(** Exit code and files afterwards; the empty string is falsy *)
Definition present (o : option string) : option string := match o with Some EmptyString => None | _ => o end.
Definition download_schema (e : dl_env) (endpoint out : option string) (f : files) : nat * files :=
  match present endpoint with
  | None => (1, f)
  | Some url =>
      let path := match present out with Some p => p | None => "schema.json" end in
      let opened := if dl_open_ok e path then put f path (Some "") else f in
      let cleanup := (1, if dl_unlink_ok e path then put opened path None else opened) in
      if negb (dl_url_ok e url) then (1, if dl_open_first e then opened else f)
      else if negb (dl_open_ok e path) then (1, f)      (* unhandled "error" event of the stream *)
      else
        match dl_post e url request_body with
        | DStatus c body => if Nat.eqb c 200 then (0, put opened path (Some body)) else cleanup
        | DError => cleanup
        end
  end.
