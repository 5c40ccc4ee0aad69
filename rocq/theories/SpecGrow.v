(** Specification side for additions to a schema: new types, and new fields of objects and interfaces. The order of input fields and
    of enum values may change too.
    Uses only the data types of the schema, no function of the compiler. *)
From Verif Require Export SpecSel SpecGlobal.

(** Fields are kept, as they are *)
Definition fields_kept (fs fs' : fields_lookup) : Prop := forall n f, aget n fs = Some f -> aget n fs' = Some f.
(** The same object types *)
Definition same_members (ps ps' : list string) : Prop := forall T, In T ps <-> In T ps'.

Inductive def_grown : tdef -> tdef -> Prop :=
| grown_object fs fs' : fields_kept fs fs' -> def_grown (TObject fs) (TObject fs')
| grown_interface n n' fs fs' ps ps' : fields_kept fs fs' -> same_members ps ps' -> def_grown (TInterface n fs ps) (TInterface n' fs' ps')
| grown_union n n' fs fs' ps ps' : fields_kept fs fs' -> same_members ps ps' -> def_grown (TUnion n ps fs) (TUnion n' ps' fs')
| grown_enum vs vs' : Permutation vs vs' -> def_grown (TEnum vs) (TEnum vs')
| grown_scalar n n' : def_grown (TScalar n) (TScalar n')
| grown_input n fs fs' : Permutation fs fs' -> def_grown (TInputObject n fs) (TInputObject n fs').
(** The documentation of other types than enums is not used *)
Definition type_grown (t t' : stype) : Prop :=
  def_grown (st_def t) (st_def t') /\ ((exists vs, st_def t = TEnum vs) -> st_doc t = st_doc t').
(** Every type of [s] is in [s'], possibly with more fields *)
Definition grown (s s' : schema) : Prop :=
  forall n t, get_type s n = Some t -> exists t', get_type s' n = Some t' /\ type_grown t t'.

(** The same of introspection results *)
Definition declared_same (fs fs' : list jfield) : Prop :=
  (forall n f, last_named jf_name n fs f -> last_named jf_name n fs' f) /\
  (none_named jf_name "__typename" fs -> none_named jf_name "__typename" fs').
(** The same fields, in any order *)
Definition declared_alike (fs fs' : list jfield) : Prop := forall n f, last_named jf_name n fs f <-> last_named jf_name n fs' f.
Definition opt_related {A} (R : A -> A -> Prop) (x y : option A) : Prop :=
  match x, y with Some a, Some b => R a b | None, None => True | _, _ => False end.
Record def_added (j j' : jtypedef) : Prop := {
  da_kind : jt_kind j' = jt_kind j;
  da_fields : jt_kind j = "OBJECT" \/ jt_kind j = "INTERFACE" -> opt_related declared_same (jt_fields j) (jt_fields j');
  da_possible : jt_kind j = "INTERFACE" \/ jt_kind j = "UNION" -> opt_related same_members (jt_possible_types j) (jt_possible_types j');
  da_input : jt_kind j = "INPUT_OBJECT" -> opt_related declared_alike (jt_input_fields j) (jt_input_fields j');
  da_enum : jt_kind j = "ENUM" -> opt_related (@Permutation string) (jt_enum_values j) (jt_enum_values j') /\ jt_description j' = jt_description j }.
Definition added (js js' : jschema) : Prop :=
  forall n j, last_named jt_name n js j -> exists j', last_named jt_name n js' j' /\ def_added j j'.
