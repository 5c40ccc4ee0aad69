(** Specification side: variables and a schema that require less of a request than others. *)
From Verif Require Export SpecInput SpecPromise.

(** The input types are still there, with at least their fields, each of a type that is at most as strict, and at
    least their values; fields that are new to an input object may be left out *)
Record requires_less (js0 js : jschema) : Prop := {
  rl_kinds : forall n j0, last_named jt_name n js0 j0 -> In (jt_kind j0) taken_kinds ->
    exists j, last_named jt_name n js j /\ jt_kind j = jt_kind j0;
  rl_values : forall n j0 j vs0, last_named jt_name n js0 j0 -> jt_kind j0 = "ENUM" -> jt_enum_values j0 = Some vs0 ->
    last_named jt_name n js j -> exists vs, jt_enum_values j = Some vs /\ incl vs0 vs;
  rl_fields : forall T k kind g, takes js0 T k kind g ->
    exists kind' g', takes js T k kind' g' /\ stricter g g' /\ gbase g = gbase g';
  rl_new : forall T k kind g j0, last_named jt_name T js0 j0 -> jt_kind j0 = "INPUT_OBJECT" ->
    takes js T k kind g -> nullable g = false -> exists kind' g', takes js0 T k kind' g'
}.
(** The variables are still there, each of a type that is at most as strict; new ones may be left out *)
Definition asks_less (vars0 vars : list vardef) : Prop :=
  incl (List.map vd_name vars0) (List.map vd_name vars) /\
  forall d, In d vars ->
    (exists d0, In d0 vars0 /\ vd_name d0 = vd_name d /\ stricter (vgtype d0) (vgtype d) /\ gbase (vgtype d0) = gbase (vgtype d)) \/
    ~ In (vd_name d) (List.map vd_name vars0) /\ nullable (vgtype d) = true.
(** The object [v] has all variables that one of two operations requires, and only variables of both *)
Definition meets (vars0 vars : list vardef) (v : value) : Prop := exists kvs, v = VObj kvs /\
  (forall d, In d vars0 \/ In d vars -> nullable (vgtype d) = false -> aget (vd_name d) kvs <> None) /\
  (forall k x, aget k kvs = Some x -> In k (List.map vd_name vars0) /\ In k (List.map vd_name vars)).
