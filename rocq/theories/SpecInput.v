(** Specification side: the variables a GraphQL server takes with a request (GraphQL spec 3.10, 3.11, 3.12 and 6.1.2:
    input coercion of enums, input objects, lists and variables), and the values a generated module allows under a
    type name when no property may be there that is not declared.  Independent of the model. *)
From Verif Require Export SpecLink.

(** ** What the introspection result says about input types, for every server *)
Definition taken_kinds : list string := ["SCALAR"; "ENUM"; "INPUT_OBJECT"].
(** Field [k] of the input object [T] has type [g], whose named type is of the kind [kind] *)
Definition takes (js : jschema) (T k kind : string) (g : gtype) : Prop :=
  exists j fs f, last_named jt_name T js j /\ jt_kind j = "INPUT_OBJECT" /\ jt_input_fields j = Some fs /\
    last_named jf_name k fs f /\ jf_type f = json_of kind g.
Record inputs_proper (js : jschema) : Prop := {
  ip_refs : forall T j fs k f, last_named jt_name T js j -> jt_kind j = "INPUT_OBJECT" -> jt_input_fields j = Some fs ->
    last_named jf_name k fs f -> exists kind g, jf_type f = json_of kind g /\ In kind taken_kinds /\ valid_gtype g = true;
  ip_kinds : forall T k kind g, takes js T k kind g -> exists j, last_named jt_name (gbase g) js j /\ jt_kind j = kind;
  ip_builtin : forall j, In j js -> In (jt_name j) builtin_scalars -> jt_kind j = "SCALAR" }.
(** No input object has a field with a list of lists (these are translated wrongly, C26) *)
Definition flat_inputs (js : jschema) : Prop := forall T k kind g, takes js T k kind g -> list_levels g <= 1.

(** ** Values taken by a server *)
Section Input.
  Variable js : jschema.
  (** the values of scalars *)
  Variable scalar_in : scalar -> value -> Prop.
  (** [lenient]: one item may stand for a list of one, and what has a default may be left out.  Otherwise
      everything is spelled out. *)
  Variable lenient : bool.
  (** fields of input objects with a default value *)
  Variable has_default : string -> string -> Prop.

  (** Values of a type reference; [inner b] are the non-null values of the named type [b] *)
  Fixpoint ginput (inner : string -> value -> Prop) (g : gtype) (v : value) : Prop :=
    match g with
    | GNamed b => v = VNull \/ inner b v
    | GNonNull g => ginput inner g v /\ v <> VNull
    | GList g => v = VNull \/ (exists l, v = VList l /\ Forall (ginput inner g) l) \/
                 lenient = true /\ (forall l, v <> VList l) /\ ginput inner g v
    end.
  Definition scalar_known (b : string) : Prop := In b builtin_scalars \/ scalar_named js b.
  (** Non-null values of the type [b], up to depth [n] *)
  Fixpoint input_value (n : nat) (b : string) (v : value) : Prop :=
    match n with
    | O => False
    | S n =>
        scalar_known b /\ (exists sc, scalar_is b sc /\ scalar_in sc v) \/
        (exists j vs w, last_named jt_name b js j /\ jt_kind j = "ENUM" /\ jt_enum_values j = Some vs /\ In w vs /\ v = VStr w) \/
        (exists j kvs, last_named jt_name b js j /\ jt_kind j = "INPUT_OBJECT" /\ v = VObj kvs /\
           (forall k x, aget k kvs = Some x -> exists kind g, takes js b k kind g /\ ginput (input_value n) g x) /\
           (forall k kind g, takes js b k kind g -> nullable g = false -> aget k kvs = None -> lenient = true /\ has_default b k))
    end.
  (** The variables [v] of a request to an operation with the variable definitions [vars] *)
  Definition request (vars : list vardef) (v : value) : Prop :=
    exists n kvs, v = VObj kvs /\
      (forall k x, aget k kvs = Some x -> In k (List.map vd_name vars)) /\
      forall d, In d vars ->
        match aget (vd_name d) kvs with
        | Some x => ginput (input_value n) (vgtype d) x
        | None => nullable (vgtype d) = true \/ lenient = true /\ vd_default d <> None
        end.
End Input.

(** Requests as above, all spelled out, when scalars may have null among their values *)
Section Wide.
  Variable js : jschema.
  Variable scalar_in : scalar -> value -> Prop.
  Fixpoint wide_value (n : nat) (b : string) (v : value) : Prop :=
    match n with
    | O => False
    | S n =>
        scalar_known js b /\ (exists sc, scalar_is b sc /\ scalar_in sc v) \/
        (exists j vs w, last_named jt_name b js j /\ jt_kind j = "ENUM" /\ jt_enum_values j = Some vs /\ In w vs /\ v = VStr w) \/
        (exists j kvs, last_named jt_name b js j /\ jt_kind j = "INPUT_OBJECT" /\ v = VObj kvs /\
           (forall k x, aget k kvs = Some x -> exists kind g, takes js b k kind g /\ wide_values (wide_value n (gbase g)) g x) /\
           (forall k kind g, takes js b k kind g -> nullable g = false -> aget k kvs <> None))
    end.
  Definition wide_request (vars : list vardef) (v : value) : Prop :=
    exists n kvs, v = VObj kvs /\
      (forall k x, aget k kvs = Some x -> In k (List.map vd_name vars)) /\
      forall d, In d vars ->
        match aget (vd_name d) kvs with
        | Some x => wide_values (wide_value n (gbase (vgtype d))) (vgtype d) x
        | None => nullable (vgtype d) = true
        end.
End Wide.

(** ** Values allowed by a module, without undeclared properties *)
Definition decl_only (env : string -> value -> Prop) (d : decl) (v : value) : Prop :=
  decl_values env d v /\
  match d with
  | DObj _ ms => forall kvs k x, v = VObj kvs -> aget k kvs = Some x -> In k (List.map m_name ms)
  | DAlias _ _ => True
  end.
Fixpoint allows (D : list decl) (base : string -> value -> Prop) (n : nat) (name : string) (v : value) : Prop :=
  match n with
  | O => False
  | S n => (forall d, In d D -> decl_name d = name -> decl_only (allows D base n) d v) /\
           ((exists d, In d D /\ decl_name d = name) \/ base name v)
  end.
Definition global_allows (G : list item) (amb : string -> value -> Prop) (n : nat) (x : string) (v : value) : Prop :=
  module_declares G x /\ allows (module_types G) (enum_or G amb) n x v.
(** As [module_accepts] *)
Definition module_allows (gm : string) (G M : list item) (amb : string -> value -> Prop) (n : nat) (x : string) (v : value) : Prop :=
  allows (module_types M)
    (fun y w => imports_from M gm y /\ global_allows G amb n y w \/ (forall m, ~ imports_from M m y) /\ amb y w) n x v.

(** The surroundings give the scalars of a schema at least, and at most, the values a server takes *)
Definition loose (c : cconfig) (js : jschema) (scalar_in : scalar -> value -> Prop) (amb : string -> value -> Prop) : Prop :=
  forall b sc x v, scalar_known js b -> scalar_is b sc -> scalar_written c sc x -> scalar_in sc v -> amb x v.
Definition tight (c : cconfig) (js : jschema) (scalar_in : scalar -> value -> Prop) (amb : string -> value -> Prop) : Prop :=
  forall b sc x v, scalar_known js b -> scalar_is b sc -> scalar_written c sc x -> amb x v -> scalar_in sc v /\ v <> VNull.
(** The surroundings as they are *)
Definition surrounding (c : cconfig) (amb : string -> value -> Prop) (sc : scalar) (v : value) : Prop :=
  exists x, scalar_written c sc x /\ amb x v.
(** Type names a request needs *)
Definition input_typename (c : cconfig) (js : jschema) (x : string) : Prop :=
  In x ["boolean"; "string"; "number"] \/ (exists n, scalar_named js n /\ custom_written c n x) \/
  exists j, last_named jt_name x js j /\ (jt_kind j = "ENUM" \/ jt_kind j = "INPUT_OBJECT").
