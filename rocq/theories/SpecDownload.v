(** Specification side for downloaded schemas: what qlc-download-schema leaves out. *)
From Verif Require Export SpecGtext SpecJtext Download.

(** What is asked.  A type with [n] more levels of ofType; an input value; a type; the schema *)
Fixpoint type_ref (n : nat) : list isel :=
  [leaf "kind"; leaf "name"] ++ match n with O => [] | S n => [IS "ofType" false (type_ref n)] end.
Definition q_type_ref : list isel := type_ref 7.
Definition q_input_value : list isel :=
  [leaf "name"; leaf "description"; IS "type" false q_type_ref; leaf "defaultValue"].
Definition q_field : list isel := [leaf "name"; leaf "description"; IS "args" false q_input_value; IS "type" false q_type_ref].
Definition q_full_type : list isel :=
  [leaf "kind"; leaf "name"; leaf "description"; IS "fields" true q_field;
   IS "inputFields" false q_input_value; IS "interfaces" false q_type_ref;
   IS "enumValues" true [leaf "name"; leaf "description"]; IS "possibleTypes" false q_type_ref].
Definition introspection_query : list isel :=
  [IS "__schema" false [IS "queryType" false [leaf "name"]; IS "mutationType" false [leaf "name"];
                        IS "subscriptionType" false [leaf "name"]; IS "types" false q_full_type]].

(** A type reference without what is below the [n]-th level of ofType *)
Fixpoint cut (n : nat) (t : jtype) : jtype :=
  match t with
  | JT k m o => JT k m (match n with O => None | S n => option_map (cut n) o end)
  end.
Definition short_field (f : jfield) : jfield :=
  {| jf_name := jf_name f; jf_description := jf_description f; jf_type := cut 7 (jf_type f); jf_deprecated := None |}.
(** Input fields that the server shows *)
Definition shown (hides : bool) (l : list jfield) : list jfield :=
  if hides then filter (fun f => match jf_deprecated f with Some true => false | _ => true end) l else l.
Definition short_typedef (hides : bool) (t : jtypedef) : jtypedef :=
  {| jt_kind := jt_kind t; jt_name := jt_name t; jt_description := jt_description t;
     jt_possible_types := jt_possible_types t;
     jt_input_fields := option_map (fun l => List.map short_field (shown hides l)) (jt_input_fields t);
     jt_fields := option_map (List.map short_field) (jt_fields t); jt_enum_values := jt_enum_values t |}.


(** List and non-null wrappers of a type reference *)
Fixpoint wrappers (t : jtype) : nat := match t with JT _ _ None => 0 | JT _ _ (Some t) => S (wrappers t) end.
Fixpoint proper (t : jtype) : Prop :=
  match t with JT _ _ None => True | JT k _ (Some t) => (k = "NON_NULL" \/ k = "LIST") /\ proper t end.
(** The fields of a type that qlc looks at *)
Definition looked_at (t : jtypedef) (f : jfield) : Prop :=
  (exists l, jt_fields t = Some l /\ In f l) \/ (exists l, jt_input_fields t = Some l /\ In f l).

(** The introspection schema (GraphQL specification, October 2021, section 4.2.2): fields of its object types; the
    type of a field as far as selections go: [None] = a leaf *)
Definition introspection_fields : list (string * list (string * option string)) :=
  [("Query", [("__schema", Some "__Schema"); ("__type", Some "__Type")]);
   ("__Schema", [("description", None); ("types", Some "__Type"); ("queryType", Some "__Type"); ("mutationType", Some "__Type");
                 ("subscriptionType", Some "__Type"); ("directives", Some "__Directive")]);
   ("__Type", [("kind", None); ("name", None); ("description", None); ("fields", Some "__Field"); ("interfaces", Some "__Type");
               ("possibleTypes", Some "__Type"); ("enumValues", Some "__EnumValue"); ("inputFields", Some "__InputValue");
               ("ofType", Some "__Type"); ("specifiedByURL", None)]);
   ("__Field", [("name", None); ("description", None); ("args", Some "__InputValue"); ("type", Some "__Type");
                ("isDeprecated", None); ("deprecationReason", None)]);
   ("__InputValue", [("name", None); ("description", None); ("type", Some "__Type"); ("defaultValue", None)]);
   ("__EnumValue", [("name", None); ("description", None); ("isDeprecated", None); ("deprecationReason", None)]);
   ("__Directive", [("name", None); ("description", None); ("locations", None); ("args", Some "__InputValue"); ("isRepeatable", None)])].
Definition sel_name (x : isel) : string := match x with IS n _ _ => n end.
(** A selection that a server accepts on a type: known fields, sub-selections exactly where they belong, no name twice *)
Inductive accepted_on : string -> list isel -> Prop :=
| accepted_all ty xs fs : In (ty, fs) introspection_fields -> NoDup (List.map sel_name xs) ->
    Forall (accepted_one fs) xs -> accepted_on ty xs
with accepted_one : list (string * option string) -> isel -> Prop :=
| accepted_leaf fs n : In (n, None) fs -> accepted_one fs (IS n false [])
| accepted_sub fs n ty old y ys : In (n, Some ty) fs -> accepted_on ty (y :: ys) ->
    (old = true -> n = "fields" \/ n = "enumValues") -> accepted_one fs (IS n old (y :: ys)).

(** ** Requests as text *)
(** includeDeprecated is false by default *)
Inductive flag_args : arguments -> bool -> Prop :=
| fa_none : flag_args [] false
| fa_false : flag_args [("includeDeprecated", "false")] false
| fa_true : flag_args [("includeDeprecated", "true")] true.
(** What a selection set on a type of the introspection schema asks for, in a document with these definitions *)
Inductive asked (ds : document) : string -> list selection -> list isel -> Prop :=
| as_none ty : asked ds ty [] []
| as_leaf ty fs n p rest xs : In (ty, fs) introspection_fields -> In (n, None) fs -> asked ds ty rest xs ->
    asked ds ty (SField p None n [] [] [] :: rest) (IS n false [] :: xs)
| as_sub ty fs n ty' p args old x sub ys rest xs : In (ty, fs) introspection_fields -> In (n, Some ty') fs -> flag_args args old ->
    asked ds ty' (x :: sub) ys -> asked ds ty rest xs ->
    asked ds ty (SField p None n args [] (x :: sub) :: rest) (IS n old ys :: xs)
| as_spread ty f p ys rest xs : In (DFrag f) ds -> fr_cond f = ty -> asked ds ty (fr_sels f) ys -> asked ds ty rest xs ->
    asked ds ty (SSpread p (fr_name f) [] :: rest) (ys ++ xs)
| as_inline ty cond p sub ys rest xs : cond = None \/ cond = Some ty -> asked ds ty sub ys -> asked ds ty rest xs ->
    asked ds ty (SInline p cond [] sub :: rest) (ys ++ xs).
(** Fragments that a selection set uses, directly or not *)
Inductive spreads (ds : document) : list selection -> string -> Prop :=
| sr_here l p n d : In (SSpread p n d) l -> spreads ds l n
| sr_field l p al n args d sub m : In (SField p al n args d sub) l -> spreads ds sub m -> spreads ds l m
| sr_inline l p c d sub m : In (SInline p c d sub) l -> spreads ds sub m -> spreads ds l m
| sr_through l f m : spreads ds l (fr_name f) -> In (DFrag f) ds -> spreads ds (fr_sels f) m -> spreads ds l m.
Definition frag_names (ds : document) : list string :=
  flat_map (fun d => match d with DFrag f => [fr_name f] | DOp _ => [] end) ds.
Definition operations (ds : document) : list opdef := flat_map (fun d => match d with DOp o => [o] | DFrag _ => [] end) ds.
(** The query of a document with one operation *)
Inductive the_query (ds : document) : list selection -> Prop :=
| tq_short p l : operations ds = [OpSelectionSet p l] -> the_query ds l
| tq_named p n l : operations ds = [OpNamed KQuery p n [] [] l] -> the_query ds l.
(** The text is a valid document, of one operation, which asks for [q] about the schema: fragments have different names and
    are used *)
Definition text_asks (ck : gql_checks) (text : string) (q : list isel) : Prop :=
  exists ds l, text_says ck text ds /\ the_query ds l /\ NoDup (frag_names ds) /\
    (forall f, In (DFrag f) ds -> fr_dirs f = [] /\ spreads ds l (fr_name f)) /\
    asked ds "Query" l q /\ accepted_on "Query" q.
(** The body of a request: a JSON object with the text *)
Definition body_asks (ck : gql_checks) (body : string) (q : list isel) : Prop :=
  exists text, text_holds body (JObj [("query", JStr text)]) /\ text_asks ck text q.
(** The response of a server with this schema to a request, if the request asks about the schema; an answer may have entries
    beside its data *)
Definition responds (ck : gql_checks) (sv : server) (body : string) (r : dl_response) : Prop :=
  forall q, body_asks ck body q -> exists text data more, r = DStatus 200 text /\
    answer sv q = JObj [("data", data)] /\ ~ In "data" (List.map fst more) /\ text_holds text (JObj (("data", data) :: more)).

(** The whole answer of a server to the introspection query *)
Definition ans_text (o : option string) : json := match o with None => JNull | Some s => JStr s end.
Definition ans_list {A} (g : A -> json) (o : option (list A)) : json := match o with None => JNull | Some l => JArr (List.map g l) end.
Fixpoint ans_ref (n : nat) (t : jtype) : json :=
  match t with JT kind name inner =>
    JObj ([("kind", JStr kind); ("name", ans_text name)] ++
      match n with O => [] | S n => [("ofType", match inner with None => JNull | Some t => ans_ref n t end)] end)
  end.
Definition ans_named (kind name : string) : json := ans_ref 7 (JT kind (Some name) None).
Definition ans_input (sv : server) (f : jfield) : json :=
  JObj [("name", JStr (jf_name f)); ("description", ans_text (jf_description f)); ("type", ans_ref 7 (jf_type f)); ("defaultValue", ans_text (sv_default sv f))].
Definition ans_field (sv : server) (T : string) (f : jfield) : json :=
  JObj [("name", JStr (jf_name f)); ("description", ans_text (jf_description f));
        ("args", JArr (List.map (ans_input sv) (shown (sv_hides sv) (sv_args sv T (jf_name f))))); ("type", ans_ref 7 (jf_type f))].
Definition ans_type (sv : server) (t : jtypedef) : json :=
  JObj [("kind", JStr (jt_kind t)); ("name", JStr (jt_name t)); ("description", ans_text (jt_description t));
        ("fields", ans_list (ans_field sv (jt_name t)) (jt_fields t));
        ("inputFields", ans_list (ans_input sv) (option_map (shown (sv_hides sv)) (jt_input_fields t)));
        ("interfaces", ans_list (ans_named "INTERFACE") (sv_interfaces sv (jt_name t)));
        ("enumValues", ans_list (fun v => JObj [("name", JStr v); ("description", ans_text (sv_value_doc sv (jt_name t) v))]) (jt_enum_values t));
        ("possibleTypes", ans_list (ans_named "OBJECT") (jt_possible_types t))].
Definition ans_root (o : option string) : json := match o with None => JNull | Some n => JObj [("name", JStr n)] end.
Definition ans_schema (sv : server) : json :=
  JObj [("data", JObj [("__schema", JObj
    [("queryType", ans_root (Some (sv_query sv))); ("mutationType", ans_root (sv_mutation sv)); ("subscriptionType", ans_root (sv_subscription sv));
     ("types", JArr (List.map (ans_type sv) (sv_types sv)))])])].
