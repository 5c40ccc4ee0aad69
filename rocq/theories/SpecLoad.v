(** Specification side for schema loading: what is malformed, and what a loaded schema must contain. *)
From Verif Require Export Schema.

(** The named type inside the wrappers of a type reference: kind and name *)
Inductive base_of : jtype -> string -> string -> Prop :=
| base_named k n o : k <> "NON_NULL" -> k <> "LIST" -> base_of (JT k (Some n) o) k n
| base_wrap w n j k b : w = "NON_NULL" \/ w = "LIST" -> base_of j k b -> base_of (JT w n (Some j)) k b.

(** The five scalars of GraphQL, and custom scalars *)
Inductive scalar_is : string -> scalar -> Prop :=
| si_boolean : scalar_is "Boolean" ScBoolean
| si_string : scalar_is "String" ScString
| si_float : scalar_is "Float" ScFloat
| si_int : scalar_is "Int" ScInt
| si_id : scalar_is "ID" ScId
| si_custom n : ~ In n ["Boolean"; "String"; "Float"; "Int"; "ID"] -> scalar_is n (ScCustom n).

Inductive def_of_kind (n : string) : string -> fdef -> Prop :=
| dk_object : def_of_kind n "OBJECT" FDObject
| dk_scalar s : scalar_is n s -> def_of_kind n "SCALAR" (FDScalar s)
| dk_interface : def_of_kind n "INTERFACE" FDInterface
| dk_enum : def_of_kind n "ENUM" FDEnum
| dk_input : def_of_kind n "INPUT_OBJECT" FDInputObject
| dk_union : def_of_kind n "UNION" FDUnion.

Definition known_kinds : list string := ["OBJECT"; "SCALAR"; "INTERFACE"; "ENUM"; "INPUT_OBJECT"; "UNION"].

(** Malformed type references *)
Inductive bad_ref : jtype -> schema_error -> Prop :=
| bad_nonnull n : bad_ref (JT "NON_NULL" n None) EMissingTypeOfForNonNull
| bad_list n : bad_ref (JT "LIST" n None) EMissingTypeOfForList
| bad_inner w n j e : w = "NON_NULL" \/ w = "LIST" -> bad_ref j e -> bad_ref (JT w n (Some j)) e
| bad_unnamed k o : k <> "NON_NULL" -> k <> "LIST" -> bad_ref (JT k None o) EMissingNameForField
| bad_kind k n o : k <> "NON_NULL" -> k <> "LIST" -> ~ In k known_kinds -> bad_ref (JT k (Some n) o) (EUnknownType n k).

(** The first bad element of a list, and what is wrong with it *)
Definition first_bad {A E} (bad : A -> E -> Prop) (l : list A) (e : E) : Prop :=
  exists pre x suf, l = pre ++ x :: suf /\ bad x e /\ forall y e', In y pre -> ~ bad y e'.
Definition none_bad {A E} (bad : A -> E -> Prop) (l : list A) : Prop := forall y e, In y l -> ~ bad y e.

Definition bad_field (j : jfield) (e : schema_error) : Prop := bad_ref (jf_type j) e.

(** Malformed types *)
Inductive bad_type (j : jtypedef) : schema_error -> Prop :=
| bt_kind : ~ In (jt_kind j) known_kinds -> bad_type j (EUnknownType (jt_name j) (jt_kind j))
| bt_nofields : jt_kind j = "OBJECT" \/ jt_kind j = "INTERFACE" -> jt_fields j = None ->
    bad_type j (EFieldsMissingForType (jt_name j))
| bt_noinputs : jt_kind j = "INPUT_OBJECT" -> jt_input_fields j = None -> bad_type j (EFieldsMissingForType (jt_name j))
| bt_novalues : jt_kind j = "ENUM" -> jt_enum_values j = None -> bad_type j (EEnumMissingValues (jt_name j))
| bt_nopossible_i : jt_kind j = "INTERFACE" -> jt_fields j <> None -> jt_possible_types j = None ->
    bad_type j (EInterfaceMissingTypes (jt_name j))
| bt_nopossible_u : jt_kind j = "UNION" -> jt_possible_types j = None -> bad_type j (EUnionMissingTypes (jt_name j))
| bt_field_o fs e : jt_kind j = "OBJECT" -> jt_fields j = Some fs -> first_bad bad_field fs e -> bad_type j e
| bt_field_i fs ps e : jt_kind j = "INTERFACE" -> jt_fields j = Some fs -> jt_possible_types j = Some ps ->
    first_bad bad_field fs e -> bad_type j e
| bt_field_n fs e : jt_kind j = "INPUT_OBJECT" -> jt_input_fields j = Some fs -> first_bad bad_field fs e -> bad_type j e.

(** [x] is the last element of [l] with that name *)
Definition last_named {A} (name : A -> string) (n : string) (l : list A) (x : A) : Prop :=
  exists pre suf, l = pre ++ x :: suf /\ name x = n /\ forall y, In y suf -> name y <> n.
Definition none_named {A} (name : A -> string) (n : string) (l : list A) : Prop := forall y, In y l -> name y <> n.

(** A loaded field agrees with its declaration (list and non-null wrappers: see C01) *)
Definition field_matches (j : jfield) (f : sfield) : Prop :=
  sf_name f = jf_name j /\ (sf_deprecated f = true <-> jf_deprecated j = Some true) /\
  sf_doc f = option_map (fun d => join nl (filter (fun l => negb (is_empty l)) (List.map trim (lines d)))) (jf_description j) /\
  exists k, base_of (jf_type j) k (ft_name (sf_type f)) /\ def_of_kind (ft_name (sf_type f)) k (ft_def (sf_type f)).

(** The selectable fields: each name with its last declaration; with [tn] also __typename *)
Definition lookup_matches (tn : bool) (fs : list jfield) (m : fields_lookup) : Prop :=
  (forall n j, last_named jf_name n fs j -> exists f, aget n m = Some f /\ field_matches j f) /\
  (forall n, none_named jf_name n fs -> aget n m = if tn && String.eqb n "__typename" then Some typename_field else None).

Inductive type_matches (j : jtypedef) : tdef -> Prop :=
| tm_object fs m : jt_kind j = "OBJECT" -> jt_fields j = Some fs -> lookup_matches true fs m -> type_matches j (TObject m)
| tm_enum vs : jt_kind j = "ENUM" -> jt_enum_values j = Some vs -> type_matches j (TEnum vs)
| tm_scalar : jt_kind j = "SCALAR" -> type_matches j (TScalar (jt_name j))
| tm_interface fs ps m : jt_kind j = "INTERFACE" -> jt_fields j = Some fs -> jt_possible_types j = Some ps ->
    lookup_matches true fs m -> type_matches j (TInterface (jt_name j) m ps)
| tm_input fs m : jt_kind j = "INPUT_OBJECT" -> jt_input_fields j = Some fs -> lookup_matches false fs m ->
    type_matches j (TInputObject (jt_name j) m)
| tm_union ps m : jt_kind j = "UNION" -> jt_possible_types j = Some ps -> lookup_matches true [] m ->
    type_matches j (TUnion (jt_name j) ps m).
