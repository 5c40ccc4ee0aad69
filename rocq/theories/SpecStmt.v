(** The statements of the globals file, in terms of the introspection data. *)
From Verif Require Export SpecName SpecGlobal SpecGql InputFacts.

(** Property [m] for field [j] of an input object: for type references with at most one list level it is
    optional exactly when null is allowed and its type has exactly the values of the reference *)
Definition member_for (c : cconfig) (j : jfield) (m : member) : Prop :=
  m_comment m = "" /\ m_readonly m = false /\ m_name m = jf_name j /\
  forall kind g, In kind ["SCALAR"; "ENUM"; "INPUT_OBJECT"] -> jf_type j = json_of kind g -> valid_gtype g = true -> list_levels g <= 1 ->
    m_optional m = nullable g /\
    (forall env, ~ env (input_base (cc_bottom c) kind (gbase g)) VNull ->
      forall v, denote env (m_type m) v <-> gvalues (fun _ => env (input_base (cc_bottom c) kind (gbase g))) g v) /\
    forall env v, denote env (m_type m) v <-> wide_values (env (input_base (cc_bottom c) kind (gbase g))) g v.

(** Statement for a type of the introspection data: an enum whose members are the values, or a type
    with one property per field name *)
Inductive stmt_for (c : cconfig) (n : string) (j : jtypedef) : item -> Prop :=
| st_enum vs ws : jt_kind j = "ENUM" -> jt_enum_values j = Some vs -> Permutation vs ws -> sorted_by (fun v => v) ws ->
    stmt_for c n j (ItEnum n (List.map (fun v => (v, v)) ws))
| st_input fs ms : jt_kind j = "INPUT_OBJECT" -> jt_input_fields j = Some fs ->
    NoDup (List.map m_name ms) -> sorted_by m_name ms ->
    (forall f, In f fs -> exists m, In m ms /\ m_name m = jf_name f) ->
    (forall m, In m ms -> exists f, last_named jf_name (m_name m) fs f /\ member_for c f m) ->
    stmt_for c n j (ItType (DObj n ms)).
