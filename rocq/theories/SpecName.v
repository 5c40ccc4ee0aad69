(** Names as GraphQL allows them, and the inputs for which generated text should be TypeScript. *)
From Verif Require Export SpecRead SpecKeys SpecDoc SpecVar SpecDiag SpecLoad Typescript.

(** GraphQL's Name: a letter or underscore, then letters, digits and underscores *)
Definition letter (a : ascii) : bool :=
  let n := nat_of_ascii a in ((65 <=? n) && (n <=? 90)) || ((97 <=? n) && (n <=? 122)) || (n =? 95).
Definition letter_or_digit (a : ascii) : bool := letter a || ((48 <=? nat_of_ascii a) && (nat_of_ascii a <=? 57)).
Fixpoint all_chars (f : ascii -> bool) (s : string) : bool :=
  match s with EmptyString => true | String c s' => f c && all_chars f s' end.
Definition gname (s : string) : Prop :=
  match s with EmptyString => False | String c s' => letter c = true /\ all_chars letter_or_digit s' = true end.

(** Words TypeScript does not let a module declare or import as a type *)
Definition reserved (n : string) : Prop := In n keywords \/ In n predefined.

(** Characters that may stand between double quotes *)
Fixpoint quotable (s : string) : bool :=
  match s with EmptyString => true | String c s' => negb (str_stop c) && quotable s' end.

(** How a custom scalar is written *)
Definition custom_written (c : cconfig) (n w : string) : Prop :=
  match cc_bottom c with
  | BottomAny => w = "any"
  | BottomReal => w = n
  | BottomPrefix p => w = p +++ n
  end.
Definition scalar_fine (c : cconfig) (n : string) : Prop := forall w, custom_written c n w -> ref_name w = true.

(** Schemas and configurations with usable names *)
Record nameable (c : cconfig) (s : schema) : Prop := {
  nm_types : forall n t, get_type s n = Some t -> gname n;
  nm_possible : forall P T, possible s P T -> gname T;
  nm_reserved : forall n t, get_type s n = Some t -> (forall x, st_def t <> TScalar x) -> ~ reserved n;
  nm_scalar_fields : forall P n f sc, field_of s P n f -> ft_def (sf_type f) = FDScalar (ScCustom sc) -> scalar_fine c sc;
  nm_scalars : forall n t x, get_type s n = Some t -> st_def t = TScalar x -> scalar_fine c n;
  nm_typename : forall P n f, field_of s P n f -> ft_def (sf_type f) = FDTypeName ->
    ft_mod (sf_type f) = MNone /\ ft_rest (sf_type f) = [];
  nm_docs : forall P n f d, field_of s P n f -> sf_doc f = Some d -> ~ occurs "*/" d;
  nm_node_from : quotable (cc_docnode_module c) = true;
  nm_globals_from : quotable (cc_globals_module c) = true }.

(** The same for what goes into the globals file: values, descriptions and fields *)
Record globals_nameable (c : cconfig) (s : schema) : Prop := {
  gn_values : forall n t vs v, get_type s n = Some t -> st_def t = TEnum vs -> In v vs -> gname v;
  gn_descr : forall n t vs d, get_type s n = Some t -> st_def t = TEnum vs -> st_doc t = Some d -> ~ occurs "*/" d;
  gn_fields : forall n t nm fs k f, get_type s n = Some t -> st_def t = TInputObject nm fs -> In (k, f) fs -> gname k;
  gn_docs : forall n t nm fs k f d, get_type s n = Some t -> st_def t = TInputObject nm fs -> In (k, f) fs ->
    sf_doc f = Some d -> ~ occurs "*/" d;
  gn_scalars : forall n t nm fs k f sc, get_type s n = Some t -> st_def t = TInputObject nm fs -> In (k, f) fs ->
    ft_def (sf_type f) = FDScalar (ScCustom sc) -> scalar_fine c sc }.

(** Introspection data with usable names: GraphQL's own rules, no type named like a TypeScript word,
    and no comment terminator in a description *)
Definition some_field (j : jtypedef) (f : jfield) : Prop :=
  exists fs, (jt_fields j = Some fs \/ jt_input_fields j = Some fs) /\ In f fs.
Record json_nameable (c : cconfig) (js : jschema) : Prop := {
  jn_types : forall j, In j js -> gname (jt_name j);
  jn_possible : forall j ps T, In j js -> jt_possible_types j = Some ps -> In T ps -> gname T;
  jn_fields : forall j f, In j js -> some_field j f -> gname (jf_name f);
  jn_values : forall j vs v, In j js -> jt_enum_values j = Some vs -> In v vs -> gname v;
  jn_reserved : forall j, In j js -> jt_kind j <> "SCALAR" -> ~ reserved (jt_name j);
  jn_scalars : forall j, In j js -> jt_kind j = "SCALAR" -> scalar_fine c (jt_name j);
  jn_refs : forall j f n, In j js -> some_field j f -> base_of (jf_type f) "SCALAR" n -> scalar_fine c n;
  jn_descr : forall j d, In j js -> jt_description j = Some d -> ~ occurs "*/" d;
  jn_docs : forall j f d, In j js -> some_field j f -> jf_description f = Some d -> ~ occurs "*/" d;
  jn_node_from : quotable (cc_docnode_module c) = true;
  jn_globals_from : quotable (cc_globals_module c) = true }.

(** The selections of a document *)
Definition doc_sels (d : definition) : list selection :=
  match d with
  | DOp (OpNamed _ _ _ _ _ sels) => sels
  | DOp (OpSelectionSet _ sels) => sels
  | DFrag f => fr_sels f
  end.
(** Documents with names as the parser produces them, and a name that can be declared *)
Record doc_named (frags : amap string fragdef) (d : definition) (name : string) : Prop := {
  dn_name : gname name;
  dn_free : ~ reserved name;
  dn_keys : forall k, selects frags (doc_sels d) k -> gname k;
  dn_vars : forall v, In v (doc_vars d) -> gname (vd_name v) }.
