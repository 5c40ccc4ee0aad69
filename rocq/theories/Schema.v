(** Model of src/graphql/schema/json.rs, src/graphql/schema/field.rs and src/graphql/schema.rs.
    The JSON text layer (serde_json) is not modelled: the input is the decoded introspection data. *)
From Verif Require Export Base.

(** ** Decoded introspection JSON — src/graphql/schema/json.rs *)

(** json.rs:6-11 [FieldType] *)
Inductive jtype : Type :=
| JT (kind : string) (name : option string) (of_type : option jtype).

(** json.rs:14-21 [Field] *)
Record jfield := { jf_name : string; jf_description : option string;
                   jf_type : jtype; jf_deprecated : option bool }.

(** json.rs:29-40 [Type]; [ComplexObjectDescription] (24-26) is flattened to its name, which is what
    schema.rs:98-102 [flattened_complex_description] extracts. *)
Record jtypedef := { jt_kind : string; jt_name : string; jt_description : option string;
                     jt_possible_types : option (list string);
                     jt_input_fields : option (list jfield);
                     jt_fields : option (list jfield);
                     jt_enum_values : option (list string) }.

(** json.rs:43-45 [Schema] *)
Definition jschema := list jtypedef.

(** ** src/graphql/schema/field.rs *)

(** field.rs:5-12 [ScalarType] *)
Inductive scalar : Type :=
| ScCustom (name : string) | ScBoolean | ScString | ScFloat | ScInt | ScId.

(** field.rs:14-25 [From<&str> for ScalarType] *)
Definition scalar_of_name (name : string) : scalar :=
  if String.eqb name "Boolean" then ScBoolean
  else if String.eqb name "String" then ScString
  else if String.eqb name "Float" then ScFloat
  else if String.eqb name "Int" then ScInt
  else if String.eqb name "ID" then ScId
  else ScCustom name.

(** field.rs:28-36 [FieldTypeDefinition] *)
Inductive fdef : Type :=
| FDObject | FDInterface | FDUnion | FDEnum | FDScalar (s : scalar) | FDInputObject | FDTypeName.

(** field.rs:39-44 [FieldTypeDefinition::is_complex] *)
Definition fdef_is_complex (d : fdef) : bool :=
  match d with FDUnion | FDObject | FDInterface | FDInputObject => true | _ => false end.

(** field.rs:48-61 [FieldTypeModifier] *)
Inductive fmod : Type :=
| MNone | MNullable | MList | MNullableList | MListOfNullable | MNullableListOfNullable.

(** field.rs:77-80 [ModifierBuilder]; [higher_order_modifiers] in push order *)
Record mbuilder := { mb_concrete : fmod; mb_higher : list fmod }.

(** field.rs:83-88 [ModifierBuilder::new], 64-66 [FieldTypeModifier::new] *)
Definition mb_new : mbuilder := {| mb_concrete := MNullable; mb_higher := [] |}.

(** field.rs:91-101 [ModifierBuilder::actualize] *)
Definition mb_actualize (b : mbuilder) : mbuilder :=
  match mb_concrete b with
  | MNullable => {| mb_concrete := MNone; mb_higher := mb_higher b |}
  | MNullableListOfNullable => {| mb_concrete := MNullableList; mb_higher := mb_higher b |}
  | MListOfNullable => {| mb_concrete := MList; mb_higher := mb_higher b |}
  | old => {| mb_concrete := MNullable; mb_higher := mb_higher b ++ [old] |}
  end.

(** field.rs:104-127 [ModifierBuilder::listize] *)
Definition mb_listize (b : mbuilder) : mbuilder :=
  match mb_concrete b with
  | MNullable => {| mb_concrete := MNullableListOfNullable; mb_higher := mb_higher b |}
  | MNone => {| mb_concrete := MListOfNullable; mb_higher := mb_higher b |}
  | MList => {| mb_concrete := MListOfNullable; mb_higher := mb_higher b ++ [MList] |}
  | MListOfNullable =>
      {| mb_concrete := MNullableListOfNullable; mb_higher := mb_higher b ++ [MListOfNullable] |}
  | MNullableListOfNullable =>
      {| mb_concrete := MNullableListOfNullable;
         mb_higher := mb_higher b ++ [MNullableListOfNullable] |}
  | MNullableList as old => {| mb_concrete := MNullable; mb_higher := mb_higher b ++ [old] |}
  end.

(** field.rs:154-157 [FieldType], 70-74 [ConcreteFieldType], 131-134 [FieldTypeModifiers]:
    [ft_mod] is the "last"/concrete modifier, [ft_rest] the (reversed) higher-order ones *)
Record ftype := { ft_name : string; ft_mod : fmod; ft_def : fdef; ft_rest : list fmod }.

(** field.rs:238-243 [Field] *)
Record sfield := { sf_name : string; sf_doc : option string; sf_type : ftype; sf_deprecated : bool }.

(** schema.rs:17-27 [Error] (JsonParse belongs to the unmodelled JSON layer, see Cli.v) *)
Inductive schema_error : Type :=
| EMissingTypeOfForList | EMissingTypeOfForNonNull | EMissingNameForField
| EUnknownType (name kind : string)
| EFieldsMissingForType (name : string) | EEnumMissingValues (name : string)
| EInterfaceMissingTypes (name : string) | EUnionMissingTypes (name : string).

(** field.rs:205-218: kind string to definition *)
Definition fdef_of_kind (kind name : string) : res schema_error fdef :=
  if String.eqb kind "OBJECT" then Ok FDObject
  else if String.eqb kind "SCALAR" then Ok (FDScalar (scalar_of_name name))
  else if String.eqb kind "INTERFACE" then Ok FDInterface
  else if String.eqb kind "ENUM" then Ok FDEnum
  else if String.eqb kind "INPUT_OBJECT" then Ok FDInputObject
  else if String.eqb kind "UNION" then Ok FDUnion
  else Err (EUnknownType name kind).

(** field.rs:187-234 the loop of [TryFrom<json::FieldType> for FieldType] *)
Fixpoint ftype_of_json_from (b : mbuilder) (j : jtype) : res schema_error ftype :=
  match j with
  | JT kind name of_type =>
      if String.eqb kind "NON_NULL" then
        match of_type with
        | None => Err EMissingTypeOfForNonNull
        | Some t => ftype_of_json_from (mb_actualize b) t
        end
      else if String.eqb kind "LIST" then
        match of_type with
        | None => Err EMissingTypeOfForList
        | Some t => ftype_of_json_from (mb_listize b) t
        end
      else
        match name with
        | None => Err EMissingNameForField
        | Some n =>
            match fdef_of_kind kind n with
            | Err e => Err e
            | Ok d => Ok {| ft_name := n; ft_mod := mb_concrete b; ft_def := d;
                            ft_rest := rev (mb_higher b) |}
            end
        end
  end.
Definition ftype_of_json (j : jtype) : res schema_error ftype := ftype_of_json_from mb_new j.

(** field.rs:160-170 [FieldType::new_type_name], 246-253 [Field::new_type_name] *)
Definition typename_field : sfield :=
  {| sf_name := "__typename"; sf_doc := None;
     sf_type := {| ft_name := "__typename"; ft_mod := MNone; ft_def := FDTypeName; ft_rest := [] |};
     sf_deprecated := false |}.

(** field.rs:267-273: trimmed, non-empty lines joined by "\n" *)
Definition normalize_doc (docs : string) : string :=
  join nl (filter (fun l => negb (is_empty l)) (List.map trim (lines docs))).

(** field.rs:256-277 [TryFrom<json::Field> for Field] *)
Definition field_of_json (j : jfield) : res schema_error sfield :=
  match ftype_of_json (jf_type j) with
  | Err e => Err e
  | Ok t => Ok {| sf_name := jf_name j;
                  sf_doc := option_map normalize_doc (jf_description j);
                  sf_type := t;
                  sf_deprecated := match jf_deprecated j with Some b => b | None => false end |}
  end.

(** ** src/graphql/schema.rs *)

(** schema.rs:12 [FieldsLookup] *)
Definition fields_lookup := amap string sfield.

(** schema.rs:29-67 [TypeDefinition] and its component structs *)
Inductive tdef : Type :=
| TObject (fields : fields_lookup)
| TEnum (values : list string)
| TScalar (name : string)
| TInterface (name : string) (fields : fields_lookup) (possible : list string)
| TInputObject (name : string) (fields : fields_lookup)
| TUnion (name : string) (possible : list string) (fields : fields_lookup).

(** schema.rs:104-108 [Type] *)
Record stype := { st_doc : option string; st_def : tdef }.

(** schema.rs:181-183 [Schema] *)
Definition schema := amap string stype.

(** schema.rs:70-78 [TypeDefinition::get_fields_lookup] *)
Definition get_fields_lookup (d : tdef) : option fields_lookup :=
  match d with
  | TObject f => Some f
  | TInputObject _ f => Some f
  | TInterface _ f _ => Some f
  | TUnion _ _ f => Some f
  | _ => None
  end.

(** schema.rs:92-95: the insertion loop of [get_fields_for_complex] *)
Fixpoint insert_fields (fs : list jfield) (m : fields_lookup) : res schema_error fields_lookup :=
  match fs with
  | [] => Ok m
  | j :: fs' =>
      match field_of_json j with
      | Err e => Err e
      | Ok f => insert_fields fs' (aset (jf_name j) f m)
      end
  end.

(** schema.rs:81-96 [get_fields_for_complex] *)
Definition get_fields_for_complex (fs : list jfield) (add_typename : bool)
  : res schema_error fields_lookup :=
  insert_fields fs (if add_typename then [("__typename", typename_field)] else []).

(** schema.rs:110-179 [TryFrom<json::Type> for Type] *)
Definition type_of_json (j : jtypedef) : res schema_error stype :=
  let name := jt_name j in
  let kind := jt_kind j in
  let ret d := Ok {| st_doc := jt_description j; st_def := d |} in
  if String.eqb kind "OBJECT" then
    match jt_fields j with
    | None => Err (EFieldsMissingForType name)
    | Some fs => match get_fields_for_complex fs true with
                 | Err e => Err e
                 | Ok m => ret (TObject m)
                 end
    end
  else if String.eqb kind "ENUM" then
    match jt_enum_values j with
    | None => Err (EEnumMissingValues name)
    | Some vs => ret (TEnum vs)
    end
  else if String.eqb kind "SCALAR" then ret (TScalar name)
  else if String.eqb kind "INTERFACE" then
    match jt_fields j with
    | None => Err (EFieldsMissingForType name)
    | Some fs =>
        match jt_possible_types j with
        | None => Err (EInterfaceMissingTypes name)
        | Some ps => match get_fields_for_complex fs true with
                     | Err e => Err e
                     | Ok m => ret (TInterface name m ps)
                     end
        end
    end
  else if String.eqb kind "INPUT_OBJECT" then
    match jt_input_fields j with
    | None => Err (EFieldsMissingForType name)
    | Some fs => match get_fields_for_complex fs false with
                 | Err e => Err e
                 | Ok m => ret (TInputObject name m)
                 end
    end
  else if String.eqb kind "UNION" then
    match jt_possible_types j with
    | None => Err (EUnionMissingTypes name)
    | Some ps => ret (TUnion name ps [("__typename", typename_field)])
    end
  else Err (EUnknownType name kind).

(** schema.rs:186-193 [Schema::try_from_reader], after JSON decoding *)
Fixpoint load_types (js : jschema) (m : schema) : res schema_error schema :=
  match js with
  | [] => Ok m
  | j :: js' =>
      match type_of_json j with
      | Err e => Err e
      | Ok t => load_types js' (aset (jt_name j) t m)
      end
  end.
Definition load_schema (js : jschema) : res schema_error schema := load_types js [].

(** schema.rs:195-197 [Schema::get_type_for_name] *)
Definition get_type (s : schema) (name : string) : option stype := aget name s.
