(** The part of graphql_parser 0.4's query AST that qlc's code inspects (graphql_parser::query,
    used in src/graphql.rs:3 and src/graphql/ir.rs:6).  The parser appears as a
    function parameter in Graphql.v; Gql.v is a model of it. *)
From Verif Require Export Base.

(** graphql_parser::Pos; lines and columns are 1-based *)
Record pos := { pos_line : nat; pos_col : nat }.

(** graphql_parser::query::Type *)
Inductive vartype : Type :=
| VTNamed (name : string)
| VTList (t : vartype)
| VTNonNull (t : vartype).

(** graphql_parser::query::VariableDefinition; the default value is kept as opaque text *)
Record vardef := { vd_pos : pos; vd_name : string; vd_type : vartype; vd_default : option string }.

(** arguments and directives are kept as opaque text *)
Definition arguments := list (string * string).
Record directive := { dir_name : string; dir_args : arguments }.

(** graphql_parser::query::Selection / Field / FragmentSpread / InlineFragment *)
Inductive selection : Type :=
| SField (p : pos) (alias : option string) (name : string) (args : arguments)
         (dirs : list directive) (sub : list selection)
| SSpread (p : pos) (fragment_name : string) (dirs : list directive)
| SInline (p : pos) (cond : option string) (dirs : list directive) (sub : list selection).

(** graphql_parser::query::OperationDefinition: [OpSelectionSet] carries span.0 *)
Inductive opkind := KQuery | KMutation | KSubscription.
Inductive opdef : Type :=
| OpSelectionSet (p : pos) (sels : list selection)
| OpNamed (k : opkind) (p : pos) (name : option string) (vars : list vardef)
          (dirs : list directive) (sels : list selection).

(** graphql_parser::query::FragmentDefinition *)
Record fragdef := { fr_pos : pos; fr_name : string; fr_cond : string;
                    fr_dirs : list directive; fr_sels : list selection }.

(** graphql_parser::query::Definition, Document *)
Inductive definition : Type :=
| DOp (o : opdef)
| DFrag (f : fragdef).
Definition document := list definition.
