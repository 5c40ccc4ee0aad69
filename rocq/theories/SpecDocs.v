(** Specification side for changes of the documentation of a schema.
    Uses only the data types of the introspection result, no function of the compiler. *)
From Verif Require Export Schema.

(** A field and a type without what documents them: the descriptions, and the marks of deprecated fields *)
Definition bare_jfield (f : jfield) : jfield :=
  {| jf_name := jf_name f; jf_description := None; jf_type := jf_type f; jf_deprecated := None |}.
Definition bare_jtype (j : jtypedef) : jtypedef :=
  {| jt_kind := jt_kind j; jt_name := jt_name j; jt_description := None; jt_possible_types := jt_possible_types j;
     jt_input_fields := option_map (List.map bare_jfield) (jt_input_fields j); jt_fields := option_map (List.map bare_jfield) (jt_fields j);
     jt_enum_values := jt_enum_values j |}.
(** Two introspection results that differ in nothing else *)
Definition redescribed (js js' : jschema) : Prop := List.map bare_jtype js = List.map bare_jtype js'.
