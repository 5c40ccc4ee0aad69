(** Specification side for the wording of messages: the problems that can be reported, and what a reader
    is told about each.  Names stand between backquotes. *)
From Verif Require Export Main SpecImport.

(** Everything that can be reported, with the names (and foreign error texts) involved *)
Inductive problem : Type :=
| ExtraneousSpread (spread : string)
| DeprecatedField (field parent : string)
| PlainSelectionSet
| UnknownFragment (name : string)
| NoTypeCondition
| SelectionOnLeaf (type : string)
| SelectionMissing (type : string)
| UnknownField (field : string)
| UnknownVariableType (var : string)
| UnprocessableVariable (var : string)
| NestedListVariable (var : string)
| UnknownType (name : string)
| InputObjectSelected (field type : string)
| LeafTraversed (type : string)
| MixedTypes (complex terminal : string)
| NotGlobal (name : string)
| BadInputField (field type : string)
| NoPossibilities
| SchemaNoInnerType
| SchemaNoName
| SchemaUnknownKind (kind name : string)
| SchemaNoFields (name : string)
| SchemaNoValues (name : string)
| SchemaNoImplementations (name : string)
| SchemaNoMembers (name : string)
| SchemaNotJson (err : string)
| ConfigInvalid (path err : string)
| CannotRead (path err : string)
| CannotWrite (path err : string)
| NotGraphql (err : string)
| NoDefinition
| SeveralDefinitions
| NotAFragment (path : string).

(** Mistakes of the user are errors, code that works although it looks wrong is a warning, and what
    should have been impossible is a program error (as is a broken configuration) *)
Definition severity (p : problem) : level :=
  match p with
  | ExtraneousSpread _ | DeprecatedField _ _ => CompileWarning
  | UnprocessableVariable _ | UnknownType _ | InputObjectSelected _ _ | LeafTraversed _ | MixedTypes _ _
  | NotGlobal _ | BadInputField _ _ | NoPossibilities | ConfigInvalid _ _ => ProgramError
  | _ => CompileError
  end.

(** A sentence: words, then names each followed by further words *)
Definition sentence : Type := string * list (string * string).
Definition tick : string := "`".
Fixpoint weave (words : string) (rest : list (string * string)) : string :=
  match rest with
  | [] => words
  | (name, more) :: rest => words +++ tick +++ name +++ tick +++ weave more rest
  end.
Definition said (x : sentence) : string := weave (fst x) (snd x).

Definition headline (p : problem) : sentence :=
  match p with
  | ExtraneousSpread t => ("fragment over narrowing with type ", [(t, "")])
  | DeprecatedField f t => ("use of deprecated field ", [(f, " on type "); (t, "")])
  | PlainSelectionSet => ("unsupported selection set as operation", [])
  | UnknownFragment n => ("unknown spread fragment name ", [(n, "")])
  | NoTypeCondition => ("fragment missing type condition on inline fragment", [])
  | SelectionOnLeaf t => ("unexpected selection on field of type ", [(t, "")])
  | SelectionMissing t => ("expected selection on field of type ", [(t, "")])
  | UnknownField f => ("unknown field ", [(f, "")])
  | UnknownVariableType v => ("unknown type for variable ", [(v, "")])
  | UnprocessableVariable v => ("failed to process variable ", [(v, "")])
  | NestedListVariable v => ("unsupported list of lists type for variable ", [(v, "")])
  | UnknownType t => ("failed lookup of type ", [(t, "")])
  | InputObjectSelected f t => ("unexpectedly traversing field ", [(f, " with input object type "); (t, "")])
  | LeafTraversed t => ("unexpectedly traversing a terminal of type ", [(t, "")])
  | MixedTypes a b => ("unexpectedly attempting merge of complex type ", [(a, " and terminal type "); (b, ".")])
  | NotGlobal n => ("unexpected global type of ", [(n, ", which is not an enum nor input object")])
  | BadInputField f t => ("unexpected field ", [(f, " of type "); (t, ": must be enum, another input object, or scalar")])
  | NoPossibilities => ("could not determine possiblities for complex type", [])
  | SchemaNoInnerType => ("malformed schema: missing type of information on field", [])
  | SchemaNoName => ("malformed schema: missing name on field", [])
  | SchemaUnknownKind k n => ("malformed schema: unknown type defintion ", [(k, " on field "); (n, "")])
  | SchemaNoFields n => ("malformed schema: complex type ", [(n, " is missing fields")])
  | SchemaNoValues n => ("malformed schema: enum ", [(n, " is missing variants")])
  | SchemaNoImplementations n => ("malformed schema: interface ", [(n, " has no implementations")])
  | SchemaNoMembers n => ("malformed schema: union ", [(n, " has no implementations")])
  | SchemaNotJson err => ("malformed schema: JSON parse error: " +++ err, [])
  | ConfigInvalid path err => ("error in config file ", [(path, ": " +++ err)])
  | CannotRead path err => ("could not read ", [(path, ": " +++ err)])
  | CannotWrite path err => ("could not write ", [(path, ": " +++ err)])
  | NotGraphql err => (err, [])
  | NoDefinition => ("missing defintion in the document", [])
  | SeveralDefinitions => ("multi definition files unsupported", [])
  | NotAFragment path => ("cannot import non-fragment GraphQL document ", [(path, "")])
  end.
Definition told (p : problem) : string := said (headline p).

(** The message tells the problem *)
Definition tells (m : message) (p : problem) : Prop := ms_level m = severity p /\ ms_text m = told p.

(** The strings a problem mentions, and those of them that are names *)
Definition names (p : problem) : list string := List.map fst (snd (headline p)).
Definition details (p : problem) : list string :=
  names p ++ match p with
             | SchemaNotJson err | ConfigInvalid _ err | CannotRead _ err | CannotWrite _ err => [err]
             | _ => []
             end.
(** No backquote in them; and the text is ours (not that of the GraphQL parser) *)
Definition clean (s : string) : Prop := ~ has_char "`"%char s.
Definition ours (p : problem) : Prop := forall err, p <> NotGraphql err.

(** Reading a text: the cut_ticks between backquotes, and every other one of them *)
Fixpoint cut_ticks (s : string) : list string :=
  match s with
  | EmptyString => [""]
  | String a r =>
      if Ascii.eqb a "`" then "" :: cut_ticks r
      else match cut_ticks r with [] => [String a ""] | h :: t => String a h :: t end
  end.
Fixpoint quoted (l : list string) : list string :=
  match l with _ :: n :: r => n :: quoted r | _ => [] end.

(** Which problem each diagnostic of the compiler stands for *)
Definition warning_problem (w : warning) : problem :=
  match w with
  | WOverFragmentNarrowing _ _ spread => ExtraneousSpread spread
  | WDeprecatedFieldUse _ field parent => DeprecatedField field parent
  end.
Definition var_problem (e : var_error) : problem :=
  match e with
  | VUnknownCustomType v _ => UnknownVariableType v
  | VUnprocessable v _ => UnprocessableVariable v
  | VListOfList v _ => NestedListVariable v
  end.
Definition ir_problem (e : ir_error) : problem :=
  match e with
  | ESelectionSetAsOperationUnsupported _ => PlainSelectionSet
  | EUnknownFragment n _ _ => UnknownFragment n
  | EMissingTypeConditionOnInlineFragment _ => NoTypeCondition
  | ESelectionSetOnWrongType t _ => SelectionOnLeaf t
  | EMissingSelectionSetOnType t _ => SelectionMissing t
  | EUnknownField _ f _ _ => UnknownField f
  | EVariable v => var_problem v
  | EMissingType t => UnknownType t
  | EInputObjectOnSelection f t => InputObjectSelected f t
  | EUnexpectedComplexTraversal t => LeafTraversed t
  | EMixedTerminalAndComplexFields terminal complex => MixedTypes complex terminal
  end.
Definition ts_problem (e : ts_error) : problem :=
  match e with
  | TMissingType t => UnknownType t
  | TNotGlobalType n => NotGlobal n
  | TInvalidFieldDef type field => BadInputField field type
  | TExpectedAtLeastOnePossibility => NoPossibilities
  end.
Definition schema_problem (e : schema_error) : problem :=
  match e with
  | EMissingTypeOfForNonNull | EMissingTypeOfForList => SchemaNoInnerType
  | EMissingNameForField => SchemaNoName
  | EUnknownType n k => SchemaUnknownKind k n
  | EFieldsMissingForType n => SchemaNoFields n
  | EEnumMissingValues n => SchemaNoValues n
  | EInterfaceMissingTypes n => SchemaNoImplementations n
  | EUnionMissingTypes n => SchemaNoMembers n
  end.

(** The advice below the source line.  [similar] are the names in scope close to the one written. *)
Definition listed (l : list string) : string :=
  match l with [] => tick +++ tick | _ => join ", " (List.map (fun n => tick +++ n +++ tick) l) end.
Definition suggestion (similar : list string) (otherwise : string) : string :=
  match similar with [] => otherwise | _ => " Did you mean one of the following: " +++ listed similar +++ "?" end.
Definition warning_advice (w : warning) : option string :=
  match w with
  | WOverFragmentNarrowing _ possible spread =>
      Some ("The parent types of this spread are limited to " +++ listed possible +++ ", making spreading "
            +++ tick +++ spread +++ tick +++ " extraneous.")
  | WDeprecatedFieldUse _ _ _ => None
  end.
Definition advice (close : string -> string -> bool) (e : ir_error) : option string :=
  match e with
  | ESelectionSetAsOperationUnsupported _ => Some "QLC does not support a plain selection set as an operation."
  | EUnknownFragment n _ possible =>
      Some ("This fragment name doesn't appear to be in scope." +++ suggestion (filter (close n) possible) " Did you forget to import it?")
  | EMissingTypeConditionOnInlineFragment _ => Some "Fragments must specify a type they can be spread on."
  | ESelectionSetOnWrongType _ _ => Some "This field is not a complex type with selections. Did you accidentally place the curlies on this field?"
  | EMissingSelectionSetOnType _ _ =>
      Some "This is a complex type, and it is improper GraphQL to not have at least one sub field selection."
  | EUnknownField parent f _ possible =>
      Some ("Check the fields of " +++ tick +++ parent +++ tick +++ "." +++ suggestion (filter (close f) possible) "")
  | EVariable (VUnprocessable _ _) =>
      Some "This is most likely a bug in QLC or some unsupported variable type. Please report a bug!"
  | EVariable (VListOfList _ _) => Some "QLC does not support lists of lists as variable types"
  | _ => None
  end.
(** Advice for a document that cannot be used *)
Definition document_advice (p : problem) : option string :=
  match p with
  | SeveralDefinitions => Some ("QLC does not support documents with more than one fragment, query or mutation per file. " +++
      "Move this definition to a seperate file and import it instead.")
  | _ => None
  end.
Definition advice_of (m : message) : option string :=
  match ms_source m with Some (_, Some l) => lo_help l | _ => None end.

(** A write that failed with this error *)
Definition write_fails (o : write_outcome) (err : string) : Prop :=
  o = WFailOpen err \/ exists part, o = WFailMid err part.

(** What must have gone wrong, for the problems of files: the file named is the one concerned *)
Definition file_cause (e : env) (f : fs) (path : string) (p : problem) : Prop :=
  match p with
  | CannotRead q err => f (env_locate e q) = Err err
  | CannotWrite q err => q = with_extension path "graphql.d.ts" /\ write_fails (env_write e q) err
  | NotGraphql err => exists contents, f (env_locate e path) = Ok contents /\ env_parse e contents = Err err
  | NoDefinition => exists contents, f (env_locate e path) = Ok contents /\ env_parse e contents = Ok []
  | SeveralDefinitions => exists contents d1 d2 ds,
      f (env_locate e path) = Ok contents /\ env_parse e contents = Ok (d1 :: d2 :: ds)
  | NotAFragment q => q = path /\ exists target op, f (env_locate e target) = Ok op /\ holds_operation e op
  | ConfigInvalid _ _ | SchemaNotJson _ | SchemaNoInnerType | SchemaNoName | SchemaUnknownKind _ _ | SchemaNoFields _
  | SchemaNoValues _ | SchemaNoImplementations _ | SchemaNoMembers _ => False
  | _ => True
  end.

(** A directory that cannot be listed: as a whole, or one of its entries *)
Definition unlistable (ls : listing) (dir err : string) : Prop :=
  ls dir = Err err \/
  exists es x, ls dir = Ok es /\ In x es /\ (x = Err err \/ exists d, x = Ok d /\ de_kind d = Err err).

(** The same for a whole run *)
Definition run_cause (fuel : nat) (wo : world) (p : problem) : Prop :=
  match p with
  | ConfigInvalid q err => wo_config wo q = CRDecodeError err
  | SchemaNotJson err => exists q, wo_schema wo q = SRJsonError err
  | CannotRead q err =>
      wo_config wo q = CRNotFound err \/ wo_config wo q = CRIoError err \/ wo_schema wo q = SRIoError err \/
      unlistable (wo_listing wo) q err \/
      exists c s path g g' r, compile_file fuel (wo_env wo) g c s path = Done (g', r) /\
        g (env_locate (wo_env wo) q) = Err err
  | CannotWrite q err => write_fails (env_write (wo_env wo) q) err
  | NotGraphql err => exists contents, env_parse (wo_env wo) contents = Err err
  | NoDefinition => exists contents, env_parse (wo_env wo) contents = Ok []
  | SeveralDefinitions => exists contents d1 d2 ds, env_parse (wo_env wo) contents = Ok (d1 :: d2 :: ds)
  | NotAFragment q => exists contents, holds_operation (wo_env wo) contents
  | SchemaNoInnerType | SchemaNoName | SchemaUnknownKind _ _ | SchemaNoFields _ | SchemaNoValues _
  | SchemaNoImplementations _ | SchemaNoMembers _ => exists q j e, wo_schema wo q = SRDecoded j /\ load_schema j = Err e
  | _ => True
  end.
