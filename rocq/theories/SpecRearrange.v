(** Specification side for the order of things in an introspection result. Uses only the data types of the decoded file. *)
From Verif Require Export SpecGrow.

(** The same declaration, its members in any order *)
Record type_rearranged (j j' : jtypedef) : Prop := {
  tr_kind : jt_kind j' = jt_kind j;
  tr_name : jt_name j' = jt_name j;
  tr_description : jt_description j' = jt_description j;
  tr_possible : opt_related (@Permutation string) (jt_possible_types j) (jt_possible_types j');
  tr_input : opt_related (@Permutation jfield) (jt_input_fields j) (jt_input_fields j');
  tr_fields : opt_related (@Permutation jfield) (jt_fields j) (jt_fields j');
  tr_enum : opt_related (@Permutation string) (jt_enum_values j) (jt_enum_values j') }.
(** The same types in any order *)
Definition rearranged (js js' : jschema) : Prop := exists ks, Permutation js ks /\ Forall2 type_rearranged ks js'.

(** No name is declared twice *)
Record declared_once (js : jschema) : Prop := {
  do_types : NoDup (List.map jt_name js);
  do_fields : forall j fs, In j js -> jt_fields j = Some fs -> NoDup (List.map jf_name fs);
  do_inputs : forall j fs, In j js -> jt_input_fields j = Some fs -> NoDup (List.map jf_name fs) }.
