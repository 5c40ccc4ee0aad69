(** Specification of operation variables. *)
From Verif Require Export SpecGql SpecFile Ast.
From Verif Require Export SpecGlobal.

(** The type reference of a variable *)
Fixpoint var_gtype (t : vartype) : gtype :=
  match t with
  | VTNamed n => GNamed n
  | VTList t => GList (var_gtype t)
  | VTNonNull t => GNonNull (var_gtype t)
  end.
Definition vgtype (d : vardef) : gtype := var_gtype (vd_type d).

Definition builtin_scalars : list string := ["String"; "ID"; "Int"; "Float"; "Boolean"].
Definition is_builtin (n : string) : bool := existsb (String.eqb n) builtin_scalars.

(** Variables qlc supports: at most one list level, and a type that exists *)
Definition known_type (s : schema) (n : string) : Prop := is_builtin n = true \/ get_type s n <> None.
Definition good_var (s : schema) (d : vardef) : Prop :=
  list_levels (vgtype d) <= 1 /\ known_type s (gbase (vgtype d)).
