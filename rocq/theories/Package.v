(** Model of the npm package as generated modules see it: pkg/npm/package.json and
    pkg/npm/lib/typed-documentnode.d.ts.  Only names and the number of type parameters are modelled. *)
From Verif Require Export Base.

(** package.json:2 and 9-12 [exports]: import paths of the package *)
Definition package_name : string := "@notarize/qlc-cli".
Definition package_paths : list string := [package_name; package_name +++ "/typed-documentnode"].

(** typed-documentnode.d.ts:6-36 and 45-71: exported types and their number of type parameters *)
Definition node_exports : list (string * nat) :=
  [("QueryDocumentNode", 2); ("SubscriptionDocumentNode", 2); ("MutationDocumentNode", 2); ("FragmentDocumentNode", 1);
   ("DataOf", 1); ("VariablesOf", 1)].
