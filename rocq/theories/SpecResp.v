(** Specification side: the responses a GraphQL server can give to an operation (GraphQL spec 6.3 and
    6.4: field collection, value completion), starting from the introspection result, and the values
    a generated module accepts under a type name. *)
From Verif Require Export SpecSel SpecGql SpecLoad SpecDecl.

(** ** What the introspection result declares *)
Definition declared (js : jschema) (P n kind : string) (g : gtype) : Prop :=
  exists j fs f, last_named jt_name P js j /\ (jt_kind j = "OBJECT" \/ jt_kind j = "INTERFACE") /\
    jt_fields j = Some fs /\ last_named jf_name n fs f /\ jf_type f = json_of kind g.

(** Kinds of types that fields can have *)
Definition output_kinds : list string := ["OBJECT"; "SCALAR"; "INTERFACE"; "ENUM"; "UNION"].

(** Fields of an object type can have more special types than those of its interfaces *)
Inductive covariant (s : schema) : gtype -> gtype -> Prop :=
| cov_same n : covariant s (GNamed n) (GNamed n)
| cov_named a b : composite s a -> composite s b -> (forall T, possible s a T -> possible s b T) ->
    covariant s (GNamed a) (GNamed b)
| cov_list a b : covariant s a b -> covariant s (GList a) (GList b)
| cov_nonnull a b : covariant s a b -> covariant s (GNonNull a) (GNonNull b)
| cov_drop a b : covariant s a b -> covariant s (GNonNull a) b.

(** What every introspection result of a server satisfies: proper type references to types of the
    stated kind, reserved names not used, interfaces implemented *)
Record introspection (js : jschema) (s : schema) : Prop := {
  in_loaded : load_schema js = Ok s;
  in_refs : forall P j fs n f, last_named jt_name P js j -> (jt_kind j = "OBJECT" \/ jt_kind j = "INTERFACE") ->
    jt_fields j = Some fs -> last_named jf_name n fs f ->
    exists kind g, jf_type f = json_of kind g /\ In kind output_kinds /\ valid_gtype g = true;
  in_kinds : forall P n kind g, declared js P n kind g -> exists j, last_named jt_name (gbase g) js j /\ jt_kind j = kind;
  in_reserved : (forall j fs f, In j js -> jt_fields j = Some fs -> In f fs -> jf_name f <> "__typename") /\
    forall j, In j js -> jt_name j <> "__typename";
  in_implements : forall P T n kind kind' g g', declared js P n kind g -> possible s P T ->
    declared js T n kind' g' -> covariant s g' g
}.

(** No field has a nullable list of non-null lists in its type (these are translated wrongly, C01) *)
Definition plain_wrappers (js : jschema) : Prop :=
  forall P n kind g, declared js P n kind g -> nullable_list_of_nonnull_lists false g = false.

(** ** Responses *)
Section Responses.
  Variable js : jschema.
  Variable s : schema.
  Variable frags : amap string fragdef.
  (** which directive lists let a selection through, under the variables of the request *)
  Variable active : list directive -> Prop.
  (** the values of custom scalars *)
  Variable custom : string -> value -> Prop.

  (** Executing [M] for an object of type [T] collects, under key [k], field [n] with these
      sub-selections *)
  Inductive collects (T : string) : selset -> string -> string -> list selection -> Prop :=
  | col_field (M : selset) p al n a d sub : M (SField p al n a d sub) -> active d -> collects T M (response_key al n) n sub
  | col_inline (M : selset) p c d sub k n ss : M (SInline p c d sub) -> active d ->
      match c with Some c => possible s c T | None => True end ->
      collects T (fun x => In x sub) k n ss -> collects T M k n ss
  | col_spread (M : selset) p name d fd k n ss : M (SSpread p name d) -> active d -> aget name frags = Some fd ->
      possible s (fr_cond fd) T -> collects T (fun x => In x (fr_sels fd)) k n ss -> collects T M k n ss.

  Definition scalar_value (sc : scalar) (v : value) : Prop :=
    match sc with
    | ScBoolean => exists b, v = VBool b
    | ScString | ScId => exists x, v = VStr x
    | ScInt | ScFloat => exists r, v = VNum r
    | ScCustom n => custom n v
    end.
  (** Values of enums and scalars *)
  Definition leaf_value (b : string) (v : value) : Prop :=
    exists j, last_named jt_name b js j /\
      (jt_kind j = "ENUM" /\ (exists vs e, jt_enum_values j = Some vs /\ In e vs /\ v = VStr e) \/
       jt_kind j = "SCALAR" /\ exists sc, scalar_is b sc /\ scalar_value sc v).

  (** [object_response n T M v]: [v], of depth at most [n], is a response for an object of type [T] on
      which [M] is selected: exactly the collected keys, each with a value of the field's type *)
  Fixpoint object_response (n : nat) (T : string) (M : selset) (v : value) : Prop :=
    match n with
    | O => False
    | S n =>
        exists kvs, v = VObj kvs /\
          (forall k, In k (List.map fst kvs) <-> exists fld ss, collects T M k fld ss) /\
          forall k x, In (k, x) kvs -> exists fld ss, collects T M k fld ss /\
            (fld = "__typename" /\ x = VStr T \/
             exists kind g, declared js T fld kind g /\
               gvalues (fun b y => leaf_value b y \/
                  exists T', possible s b T' /\
                    object_response n T' (fun z => exists fld' ss', collects T M k fld' ss' /\ In z ss') y) g x)
    end.
  (** Responses to the selections [l] at the root type [P] *)
  Definition response (P : string) (l : list selection) (v : value) : Prop :=
    exists n T, possible s P T /\ object_response n T (fun x => In x l) v.
End Responses.

(** ** Acceptance: the meaning of the type names of a module, up to a depth.  [base] gives the meaning
    of the names that are not declared in it.  (All declarations of a name count.) *)
Fixpoint accepts (D : list decl) (base : string -> value -> Prop) (n : nat) (name : string) (v : value) : Prop :=
  match n with
  | O => False
  | S n => (forall d, In d D -> decl_name d = name -> decl_values (accepts D base n) d v) /\
           ((exists d, In d D /\ decl_name d = name) \/ base name v)
  end.

(** The names from elsewhere mean what they should: TypeScript's own, the enums, the custom scalars *)
Record base_ok (c : cconfig) (js : jschema) (custom : string -> value -> Prop) (base : string -> value -> Prop) : Prop := {
  bo_boolean : forall b, base "boolean" (VBool b);
  bo_string : forall x, base "string" (VStr x);
  bo_number : forall r, base "number" (VNum r);
  bo_enum : forall b j vs e, last_named jt_name b js j -> jt_kind j = "ENUM" -> jt_enum_values j = Some vs -> In e vs ->
    base b (VStr e);
  bo_custom : forall n x v, scalar_written c (ScCustom n) x -> custom n v -> base x v
}.
