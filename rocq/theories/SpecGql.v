(** Specification side: GraphQL type references and the values they allow (GraphQL spec, sections
    3.11 List, 3.12 Non-Null and 6.4.3 value completion). *)
From Verif Require Export SpecTs Schema.

Inductive gtype : Type :=
| GNamed (n : string)
| GList (g : gtype)
| GNonNull (g : gtype).

Fixpoint gbase (g : gtype) : string :=
  match g with GNamed n => n | GList g => gbase g | GNonNull g => gbase g end.

(** GraphQL forbids a non-null of a non-null *)
Fixpoint valid_gtype (g : gtype) : bool :=
  match g with
  | GNamed _ => true
  | GList g => valid_gtype g
  | GNonNull (GNonNull _) => false
  | GNonNull g => valid_gtype g
  end.

(** Response values of a type reference; [inner n] are the non-null values of the named type [n] *)
Fixpoint gvalues (inner : string -> value -> Prop) (g : gtype) (v : value) : Prop :=
  match g with
  | GNamed n => v = VNull \/ inner n v
  | GList g => v = VNull \/ exists l, v = VList l /\ Forall (gvalues inner g) l
  | GNonNull g => gvalues inner g v /\ v <> VNull
  end.

(** As [gvalues], but [inner] may have null among its values (as the type [any] of TypeScript); then null is
    a value of a non-null reference, too *)
Fixpoint snug_values (inner : value -> Prop) (g : gtype) (v : value) : Prop :=
  match g with
  | GNamed _ => inner v
  | GNonNull g => snug_values inner g v
  | GList g => exists l, v = VList l /\
      Forall (fun w => match g with GNonNull _ => snug_values inner g w | _ => w = VNull \/ snug_values inner g w end) l
  end.
Definition wide_values (inner : value -> Prop) (g : gtype) (v : value) : Prop :=
  match g with GNonNull _ => snug_values inner g v | _ => v = VNull \/ snug_values inner g v end.

(** Introspection's encoding of a type reference, [kind] being the kind of the named type *)
Fixpoint json_of (kind : string) (g : gtype) : jtype :=
  match g with
  | GNamed n => JT kind (Some n) None
  | GList g => JT "LIST" None (Some (json_of kind g))
  | GNonNull g => JT "NON_NULL" None (Some (json_of kind g))
  end.
Definition named_kinds : list string := ["OBJECT"; "SCALAR"; "INTERFACE"; "ENUM"; "INPUT_OBJECT"; "UNION"].

(** Somewhere in [g] a list that may be null has elements that are non-null lists, as in [[[T]!]].
    [nn] says whether [g] itself stands directly under a non-null. *)
Fixpoint nullable_list_of_nonnull_lists (nn : bool) (g : gtype) : bool :=
  match g with
  | GNamed _ => false
  | GNonNull g => nullable_list_of_nonnull_lists true g
  | GList g' =>
      (negb nn && match g' with GNonNull (GList _) => true | _ => false end)
      || nullable_list_of_nonnull_lists false g'
  end.
