(** Specification side: what the type names of a generated module mean, given the globals module it
    imports from, and which values GraphQL takes for variables.  Independent of the model. *)
From Verif Require Export SpecRead SpecResp SpecVar SpecName.

(** ** Two modules together *)
Definition module_types (is : list item) : list decl := flat_map (fun i => match i with ItType d => [d] | _ => [] end) is.
(** [is] imports [x] from the module called [m] *)
Definition imports_from (is : list item) (m x : string) : Prop := exists ns, In (ItImport ns m) is /\ In x ns.
(** [is] declares [x] *)
Definition module_declares (is : list item) (x : string) : Prop :=
  (exists d, In (ItType d) is /\ decl_name d = x) \/ exists vs, In (ItEnum x vs) is.
(** The enums of a module, and for other names what they mean in the surroundings *)
Definition enum_or (is : list item) (amb : string -> value -> Prop) (x : string) (v : value) : Prop :=
  (exists vs, In (ItEnum x vs) is) /\ (forall vs, In (ItEnum x vs) is -> exists k w, In (k, w) vs /\ v = VStr w) \/
  (forall vs, ~ In (ItEnum x vs) is) /\ amb x v.
(** Values of a name of the globals module [G] *)
Definition global_accepts (G : list item) (amb : string -> value -> Prop) (n : nat) (x : string) (v : value) : Prop :=
  module_declares G x /\ accepts (module_types G) (enum_or G amb) n x v.
(** Values of a name of the module [M], which imports from the module called [gm] with the statements [G];
    [amb] is the meaning of names that neither declares: those of TypeScript and of custom scalars *)
Definition module_accepts (gm : string) (G M : list item) (amb : string -> value -> Prop) (n : nat) (x : string) (v : value) : Prop :=
  accepts (module_types M)
    (fun y w => imports_from M gm y /\ global_accepts G amb n y w \/ (forall m, ~ imports_from M m y) /\ amb y w) n x v.

(** ** The surroundings *)
Definition scalar_named (js : jschema) (n : string) : Prop := exists j, last_named jt_name n js j /\ jt_kind j = "SCALAR".
(** The types of TypeScript and the aliases of custom scalars accept what they should *)
Record surroundings (c : cconfig) (js : jschema) (custom amb : string -> value -> Prop) : Prop := {
  su_boolean : forall b, amb "boolean" (VBool b);
  su_string : forall x, amb "string" (VStr x);
  su_number : forall r, amb "number" (VNum r);
  su_scalars : forall n v, custom n v -> scalar_named js n;
  su_custom : forall n x v, custom_written c n x -> custom n v -> amb x v }.
(** No other type of the schema is called like the alias of a custom scalar, and no type of the node module *)
Definition node_names : list string := ["QueryDocumentNode"; "SubscriptionDocumentNode"; "MutationDocumentNode"; "FragmentDocumentNode"].
Definition aliases_apart (c : cconfig) (js : jschema) : Prop :=
  forall n x, scalar_named js n -> custom_written c n x ->
    ~ In x node_names /\ forall j, last_named jt_name x js j -> jt_kind j = "SCALAR".
