(** Specification side for clients of a generated module: what the helper types of the package make of its default export. *)
From Verif Require Export SpecLink Nodes.

(** The module of the package with the node types and the helpers *)
Definition nodes_module : string := "@notarize/qlc-cli/typed-documentnode".
(** The type of the default export: a node type with its arguments *)
Inductive default_export (M : list item) : string -> list string -> Prop :=
| default_const x name args : In (ItDefault x) M -> In (ItConst x name args) M -> default_export M name args.
(** The node types of the package *)
Inductive node_type : string -> list string -> obj_type string -> Prop :=
| nt_query D V : node_type "QueryDocumentNode" [D; V] (node string NQuery {| fn_var := Some V; fn_data := D |})
| nt_mutation D V : node_type "MutationDocumentNode" [D; V] (node string NMutation {| fn_var := Some V; fn_data := D |})
| nt_subscription D V : node_type "SubscriptionDocumentNode" [D; V] (node string NSubscription {| fn_var := Some V; fn_data := D |})
| nt_fragment D : node_type "FragmentDocumentNode" [D] (node string NFragment {| fn_var := None; fn_data := D |}).
(** import Doc from the module; import type { helper } from the package; helper<typeof Doc> is the type [x] *)
Inductive client (helper : string) (M : list item) (x : string) : Prop :=
| client_helper name args t f : In (helper, 1) node_exports -> In nodes_module package_paths ->
    default_export M name args -> imports_from M nodes_module name -> In (name, List.length args) node_exports ->
    node_type name args t -> In (helper, f) [("DataOf", data_of); ("VariablesOf", variables_of)] ->
    f string "BasicObject" "never" t = x -> client helper M x.
